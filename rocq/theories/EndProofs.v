(** The loop of check ends: every further round removes values from the domains. *)
From Verif Require Import Base Util VarState VarStateProofs Terms TermsSpec Solver OrderSpec OrderProofs1 OrderProofs2 Orders Sum PropProofs ConSpec
  Distinct DistinctProofs2 Disjoint Nonlin Objective Search SearchSpec SearchFrame SearchGrow SearchInv SearchInv3 SearchInv4 SearchInv5 SearchMain
  CheckSpec CheckFrame CheckGrow CheckSays CheckProofs EndSpec.
Open Scope Z_scope.

(** ** The number of values *)
Lemma spread_le f g n : (forall x, (x < n)%nat -> (f x <= g x)%nat) -> (spread f n <= spread g n)%nat.
Proof. induction n as [|n IH]; intros H; cbn [spread]; [lia|]. pose proof (H n). specialize (IH (fun x L => H x (Nat.lt_lt_succ_r _ _ L))). lia. Qed.
Lemma spread_lt f g n y : (forall x, (x < n)%nat -> (f x <= g x)%nat) -> (y < n)%nat -> (f y < g y)%nat -> (spread f n < spread g n)%nat.
Proof.
  induction n as [|n IH]; intros H Y L; [lia|]. cbn [spread]. pose proof (H n). assert (Q : forall x, (x < n)%nat -> (f x <= g x)%nat) by (intros; apply H; lia).
  destruct (Nat.eq_dec y n) as [->|N]; [pose proof (spread_le f g n Q); lia|]. specialize (IH Q). lia.
Qed.

Section End.
Context (srt : (ival -> Z) -> list ival -> list ival) (O : oracle) (cfg : config) (chk : bool).
Notation tg := (tg O).

Lemma room_tg s s' : tg s s' -> (room s' <= room s)%nat.
Proof. intros T. unfold room. rewrite (tg_nv _ _ _ T). apply spread_le. intros x _. pose proof (tg_tight _ _ _ T x). lia. Qed.
Lemma room_vst s s' : (forall x, vbounds (vst s' x) = vbounds (vst s x)) -> nvars s' = nvars s -> room s' = room s.
Proof.
  intros V N. unfold room. rewrite N. generalize (nvars s). induction n as [|n IH]; cbn [spread]; [reflexivity|]. pose proof (V n) as Q. injection Q as -> -> _ _. now rewrite IH.
Qed.

(** ** Facts *)
(** Facts about values between the bounds of the lowest level. *)
Definition proper (s : state) (f : fact) : Prop := minb (vst s (f_var f)) <= f_val f < maxb (vst s (f_var f)).
Definition propers (s : state) : Prop := Forall (proper s) (fmap s).
Lemma vbounds_minb v v' : vbounds v' = vbounds v -> minb v' = minb v /\ maxb v' = maxb v.
Proof. unfold vbounds, minb, maxb. intros E. injection E as -> -> -> ->. auto. Qed.
Lemma proper_vb s s' f : (forall x, vbounds (vst s' x) = vbounds (vst s x)) -> proper s f -> proper s' f.
Proof. intros V. unfold proper. destruct (vbounds_minb _ _ (V (f_var f))) as [-> ->]. auto. Qed.
Definition more (s s' : state) : Prop := (forall x, vbounds (vst s' x) = vbounds (vst s x)) /\ nvars s' = nvars s /\ (propers s -> propers s').
Lemma more_trans s s1 s2 : more s s1 -> more s1 s2 -> more s s2.
Proof. intros (A & B & C) (D & E & F). split; [intros x; now rewrite D|]. split; [congruence|auto]. Qed.
Lemma more_fixed s s' : vst s' = vst s -> nvars s' = nvars s -> fmap s' = fmap s -> more s s'.
Proof. intros A B C. split; [intros x; now rewrite A|]. split; [exact B|]. unfold propers. rewrite C. apply Forall_impl. intros f. apply proper_vb. intros x. now rewrite A. Qed.
Lemma more_same s s' : same s s' -> more s s'.
Proof.
  intros H. pose proof (proj2 H) as V. split; [exact V|]. split; [apply (same_get nvars) with (2 := H); easy|]. unfold propers.
  rewrite (same_get fmap (fun _ => eq_refl) s s' H). apply Forall_impl. intros f. now apply proper_vb.
Qed.
Lemma more_upd x v t s : more s (snd (update_literal O cfg x v t s)).
Proof.
  unfold update_literal. assert (SG := more_same _ _ (get_literal_same cfg x v s)).
  destruct t; [| |exact SG]; (destruct (0 <? dlevel O s)%nat; [exact SG|]); clear SG;
  (destruct (v <? minb _) eqn:B1; [apply (more_fixed s s); reflexivity|]);
  (destruct (maxb _ <=? v) eqn:B2; [apply (more_fixed s s); reflexivity|]);
  (destruct (vfind _ v); [apply (more_fixed s s); reflexivity|]);
  match goal with |- context [update_litmap ?x ?l ?v ?st] => pose proof (same_litmap x l v st) as HV; destruct (update_litmap x l v st) as [[p n] s1] end;
  cbn [snd] in HV |- *; (eapply same_trans in HV; [|apply same_lits]); apply more_same in HV as (V & N & P);
  (split; [exact V|]); (split; [exact N|]); intros Q; unfold propers; cbn [push_fact set_fmap fmap]; apply Forall_app; split;
  try (apply P in Q; revert Q; apply Forall_impl; intros f; now apply proper_vb); constructor; [|constructor| |constructor];
  unfold proper; cbn [f_var f_val push_fact set_fmap vst]; destruct (vbounds_minb _ _ (V x)) as [-> ->]; lia.
Qed.
Lemma more_talk s s' : talk O cfg s s' -> more s s'.
Proof.
  induction 1 as [s|s x v s' T IH|s x v t s' T IH|s t c s' T IH|s f i s' T IH]; [now apply more_fixed|..]; apply (more_trans _ _ _ IH).
  - apply more_same, get_literal_same.
  - apply more_upd.
  - now apply more_fixed.
  - now apply more_fixed.
Qed.
Lemma fixed6_more s s' : fixed6 s s' -> more s s'.
Proof. intros (A & _ & _ & _ & F & R). injection R as _ R _. now apply more_fixed. Qed.
Lemma more_todo cs : forall ret s o s', run_todo srt O cfg chk cs ret s = (o, s') -> more s s'.
Proof.
  induction cs as [|c cs IH]; intros ret s o s' E; cbn [run_todo] in E.
  { injection E as _ <-. now apply more_fixed. }
  assert (A : more s (clear_todo s c)) by apply fixed6_more, fixed6_clear.
  apply (more_trans _ _ _ A). clear A. set (s1 := clear_todo s c) in *. destruct ret; cbn [negb] in E; [|now apply IH in E].
  destruct (css s1 c) as [k|] eqn:K; [|injection E as _ <-; now apply more_fixed]. destruct (is_false _ _ _).
  - apply IH in E. apply more_trans with (2 := E). apply more_talk, (mark_inactive_own O cfg c k s1 K).
  - destruct (prop_con srt O cfg chk c s1) as [o1 s2] eqn:P. assert (B : more s1 s2) by (apply more_talk, (prop_con_frame O cfg srt chk c k s1 o1 s2 K P)).
    destruct o1 as [b|e|]; [|now injection E as _ <-..]. apply IH in E. now apply more_trans with s2.
Qed.

(** ** Rounds *)
Lemma apply_fact_room f s s' : apply_fact O cfg f s = (true, s') -> (f_var f < nvars s)%nat -> lb (vst s (f_var f)) <= f_val f < ub (vst s (f_var f)) ->
  lb (vst s (f_var f)) <= ub (vst s (f_var f)) -> (room s' < room s)%nat.
Proof.
  intros E X B LU. pose proof (apply_fact_tg O cfg f s true s' E) as (T & _). unfold room. rewrite (tg_nv _ _ _ T). apply spread_lt with (f_var f); [|exact X|].
  - intros x _. pose proof (tg_tight _ _ _ T x). lia.
  - unfold apply_fact in E. destruct (if _ =? _ then _ else _) as [ok1 s1] eqn:E1. destruct ok1; [|discriminate].
    assert (V : lb (vst s' (f_var f)) = lb (vst s1 (f_var f)) /\ ub (vst s' (f_var f)) = ub (vst s1 (f_var f))).
    { pose proof (litmap_vst (f_var f) 0 (f_val f) s1) as LV. assert (Q : s' = erase_lit (f_var f) (f_val f) (snd (update_litmap (f_var f) 0 (f_val f) s1))) by congruence.
      rewrite Q. unfold erase_lit, set_vs. cbn [vst set_vst]. rewrite LV. unfold upd. now rewrite Nat.eqb_refl. }
    destruct V as [-> ->]. destruct (_ =? _).
    + destruct (update_upper_tg _ _ _ _ _ _ _ _ _ E1) as (T1 & _ & U). destruct (U eq_refl) as (_ & U1). pose proof (tg_tight _ _ _ T1 (f_var f)). lia.
    + destruct (update_lower_tg _ _ _ _ _ _ _ _ _ E1) as (T1 & _ & U). destruct (U eq_refl) as (_ & U1). pose proof (tg_tight _ _ _ T1 (f_var f)). lia.
Qed.
Lemma apply_facts_room fs : forall s s', apply_facts O cfg fs s = (true, s') -> (room s' <= room s)%nat.
Proof. intros s s' E. apply (apply_facts_tg O cfg) in E as (s1 & T & _ & C). destruct (C eq_refl) as (-> & _). apply (room_tg s s1 T). Qed.
Lemma domain_room s s' : propers s -> fmap s <> [] -> update_domain O cfg TRUE_LIT s = (true, s') ->
  (forall x, minb (vst s x) = lb (vst s x) /\ maxb (vst s x) = ub (vst s x)) -> (forall x, (x < nvars s)%nat -> lb (vst s x) <= ub (vst s x)) ->
  (forall x, (nvars s <= x)%nat -> ub (vst s x) <= lb (vst s x)) -> (room s' < room s)%nat.
Proof.
  intros P N E M LU UN. unfold update_domain in E. rewrite Z.eqb_refl in E. cbn [negb andb] in E. rewrite Z.eqb_refl in E.
  unfold propers in P. destruct (fmap s) as [|f fs]; [easy|]. inversion_clear P as [|? ? P1 _]. unfold proper in P1. destruct (M (f_var f)) as [M1 M2]. rewrite M1, M2 in P1.
  assert (X : (f_var f < nvars s)%nat). { destruct (le_lt_dec (nvars s) (f_var f)) as [Q|Q]; [|exact Q]. specialize (UN _ Q). lia. }
  cbn [apply_facts] in E. destruct (apply_fact O cfg f s) as [[] s1] eqn:E1; [|discriminate].
  apply apply_facts_room in E. apply apply_fact_room in E1; auto. lia.
Qed.

(** States at the lowest level. *)
Record ground (s : state) : Prop := {
  gr_inv : sinv [] s;
  gr_level : cur_level s = 0%nat;
  gr_unused : forall x, (nvars s <= x)%nat -> ub (vst s x) <= lb (vst s x) }.
Lemma ground_base s : ground s -> (forall x, minb (vst s x) = lb (vst s x) /\ maxb (vst s x) = ub (vst s x)) /\ (forall x, (x < nvars s)%nat -> lb (vst s x) <= ub (vst s x)).
Proof.
  intros [[[B _] _] L _]. split; [|exact (b_bnd _ B)]. intros x. unfold minb, maxb.
  split; [destruct (lbs (vst s x)) as [|p r] eqn:E|destruct (ubs (vst s x)) as [|p r] eqn:E]; auto; exfalso;
    pose proof (b_stk _ B x p) as Q; rewrite E, L in Q; [specialize (Q (or_introl (or_introl eq_refl)))|specialize (Q (or_intror (or_introl eq_refl)))]; lia.
Qed.
Lemma ground_tg s s' : ground s -> tg s s' -> sinv [] s' -> ground s'.
Proof.
  intros [A B C] T S. constructor; [exact S|unfold cur_level; now rewrite (tg_lvls _ _ _ T)|]. intros x L. rewrite (tg_nv _ _ _ T) in L. specialize (C x L). pose proof (tg_tight _ _ _ T x). lia.
Qed.
(** One round after the integration of facts. *)
Lemma round_ground s o s' : ground s -> fmap s = [] -> run_todo srt O cfg chk (tod (integrate s)) true (integrate s) = (Ok o, s') ->
  ground (set_tod [] s') /\ propers (set_tod [] s') /\ room (set_tod [] s') = room s.
Proof.
  intros H F R. destruct (integrate_sinv [] s (gr_inv _ H)) as [H2 ST]. assert (M1 := fixed6_integrate s). assert (T1 := tg_fixed6 O _ _ M1). set (s2 := integrate s) in *.
  destruct (run_todo_inv srt O cfg chk [] (tod s2) true s2 (Ok o) s' (proj1 H2) ST (tod_ok_run _ _ (proj2 H2)) R) as (A1 & A2 & A3 & A4).
  assert (H4 : sinv [] (set_tod [] s')) by (apply set_tod_sinv; eauto using tod_run_nil).
  destruct (tg_todo srt O cfg chk _ _ _ _ _ R) as (T2 & _). assert (M2 := more_todo _ _ _ _ _ R).
  assert (T : tg s (set_tod [] s')) by (apply tg_trans with s2; [exact T1|apply tg_trans with s'; [exact T2|now apply tg_fixed6]]).
  destruct (more_trans _ _ _ (fixed6_more _ _ M1) (more_trans _ _ (set_tod [] s') M2 (more_fixed _ _ eq_refl eq_refl eq_refl))) as (V & N & P).
  split; [now apply ground_tg with s|]. split; [apply P; unfold propers; rewrite F; constructor|now apply room_vst].
Qed.
Lemma loop_ground n : forall s, ground s -> propers s -> fmap s <> [] -> (room s <= n)%nat -> check_loop srt O cfg chk n s <> None.
Proof.
  induction n as [|n IH]; intros s H P N L.
  - exfalso. destruct (ground_base s H) as (M & LU). unfold propers in P. destruct (fmap s) as [|f fs]; [easy|]. inversion_clear P as [|? ? P1 _]. unfold proper in P1.
    destruct (M (f_var f)) as [M1 M2]. rewrite M1, M2 in P1.
    assert (X : (f_var f < nvars s)%nat). { destruct (le_lt_dec (nvars s) (f_var f)) as [Q|Q]; [|exact Q]. pose proof (gr_unused _ H _ Q). lia. }
    assert (Q : (spread (fun _ => 0%nat) (nvars s) < room s)%nat). { apply spread_lt with (f_var f); [intros; lia|exact X|lia]. }
    lia.
  - cbn [check_loop]. destruct (is_nil (fmap s)) eqn:E0; [now destruct (fmap s)|]. clear E0.
    destruct (update_domain O cfg TRUE_LIT s) as [ok s1] eqn:E1. destruct ok; cbn [negb]; [|discriminate].
    destruct (ground_base s H) as (M & LU). assert (Q := domain_room s s1 P N E1 M LU (gr_unused _ H)).
    destruct (update_domain_tg O cfg TRUE_LIT s true s1 E1) as (T & _ & _ & F & _). specialize (F eq_refl eq_refl).
    assert (H1 : ground s1). { apply ground_tg with s; auto. pose proof (update_domain_sinv O cfg [] TRUE_LIT s (gr_inv _ H)) as X. now rewrite E1 in X. }
    destruct (run_todo srt O cfg chk (tod (integrate s1)) true (integrate s1)) as [o s3] eqn:R. destruct o as [b|e|]; [|discriminate..].
    destruct (round_ground s1 b s3 H1 F R) as (H3 & P3 & R3). destruct (negb b || is_nil (fmap (set_tod [] s3))) eqn:E4; [discriminate|].
    apply IH; auto; [|lia]. intros Z0. rewrite Z0 in E4. now destruct b.
Qed.
(** The loop ends: at the lowest level, ... *)
Lemma loop_ends n s : ground s -> (room s <= n)%nat -> check_loop srt O cfg chk (S n) s <> None.
Proof.
  intros H L. cbn [check_loop].
  assert (A : forall s1, fmap s1 = [] -> tg s s1 -> sinv [] s1 ->
    match run_todo srt O cfg chk (tod (integrate s1)) true (integrate s1) with
    | (Ok ret, s2) => if negb ret || is_nil (fmap (set_tod [] s2)) then Some (Ok ret, set_tod [] s2) else check_loop srt O cfg chk n (set_tod [] s2)
    | (o, s2) => Some (o, s2)
    end <> None).
  { intros s1 F T S1. assert (H1 := ground_tg s s1 H T S1). assert (Q := room_tg s s1 T). destruct (run_todo _ _ _ _ _ _ _) as [o s3] eqn:R. destruct o as [b|e|]; [|discriminate..].
    destruct (round_ground s1 b s3 H1 F R) as (H3 & P3 & R3). destruct (negb b || is_nil (fmap (set_tod [] s3))) eqn:E4; [discriminate|].
    apply loop_ground; auto; [|lia]. intros Z0. rewrite Z0 in E4. now destruct b. }
  destruct (is_nil (fmap s)) eqn:E0.
  - cbn [negb]. assert (F : fmap s = []) by now destruct (fmap s). specialize (A s F (tg_refl O s) (gr_inv _ H)).
    destruct (run_todo _ _ _ _ _ _ _) as [[b|e|] s3]; auto.
  - destruct (update_domain O cfg TRUE_LIT s) as [ok s1] eqn:E1. destruct ok; cbn [negb]; [|discriminate].
    destruct (update_domain_tg O cfg TRUE_LIT s true s1 E1) as (T & _ & _ & F & _). specialize (F eq_refl eq_refl).
    pose proof (update_domain_sinv O cfg [] TRUE_LIT s (gr_inv _ H)) as X. rewrite E1 in X. specialize (A s1 F T X).
    destruct (run_todo _ _ _ _ _ _ _) as [[b|e|] s3]; auto.
Qed.
(** ... and above it, where there are no facts, after one round. *)
Lemma loop_above n s : calm O -> (0 < dlevel O s)%nat -> fmap s = [] -> check_loop srt O cfg chk (S n) s <> None.
Proof.
  intros C L F. cbn [check_loop]. rewrite F. cbn [is_nil negb]. assert (T1 := tg_fixed6 O _ _ (fixed6_integrate s)).
  destruct (run_todo srt O cfg chk (tod (integrate s)) true (integrate s)) as [o s3] eqn:R. destruct o as [b|e|]; [|discriminate..].
  destruct (tg_todo srt O cfg chk _ _ _ _ _ R) as (T2 & _). assert (T : tg s s3) by now apply tg_trans with (integrate s).
  assert (F3 := tg_fmap _ _ _ T C L F). change (fmap (set_tod [] s3)) with (fmap s3). rewrite F3. cbn [is_nil]. rewrite orb_true_r. discriminate.
Qed.
Lemma check_ends n G s : calm O -> sinv G s -> (forall x, (nvars s <= x)%nat -> ub (vst s x) <= lb (vst s x)) ->
  (cur_level s <= dlevel O s)%nat -> ((cur_level s < dlevel O s)%nat -> fmap s = []) -> (fmap s = [] \/ cur_level s = 0%nat) -> (room s <= n)%nat ->
  solver_check srt O cfg chk (S n) s <> None.
Proof.
  intros C I UN LE FE FC L. unfold solver_check. destruct (_ && _); [discriminate|]. destruct (Nat.eq_dec (dlevel O s) 0) as [D|D].
  - apply loop_ends; auto. assert (C0 : cur_level s = 0%nat) by lia. assert (G = []) by (now apply (core_cur G s (proj1 I))). subst G. now constructor.
  - apply loop_above; auto; [lia|]. destruct (Nat.eq_dec (cur_level s) 0); [apply FE; lia|]. destruct FC; [auto|lia].
Qed.
End End.

Section Ends.
Context (srt : (ival -> Z) -> list ival -> list ival) (O : oracle) (cfg : config) (chk sol : bool).
Lemma search_check_ends W K s n : calm O -> search srt O cfg chk sol W K s -> in_order O s -> (room s < n)%nat -> solver_check srt O cfg chk n s <> None.
Proof.
  intros C S IO L. destruct (search_hist srt O cfg chk sol C W K s S) as (G & H). destruct n as [|n]; [lia|]. destruct IO as [I1 I2].
  apply check_ends with G; auto; [apply H|intros x X; now apply (h_unused _ _ _ _ H s (or_introl eq_refl))|intros Q; now apply I2|apply H|lia].
Qed.
Lemma prop_check_ends W K s n m bound : calm O -> search srt O cfg chk sol W K s -> in_order O s -> (room s < n)%nat -> prop_check srt O cfg chk sol n m bound s <> None.
Proof.
  intros C S IO L. destruct (search_hist srt O cfg chk sol C W K s S) as (G & H). destruct n as [|n]; [lia|]. unfold prop_check.
  set (q := match m with Some (c, m) => check_minimize c m bound (dlevel O s) s | None => Ok s end). destruct q as [s1|e|] eqn:Q; [|discriminate..].
  assert (A1 : fixed6 s s1 /\ sinv G s1).
  { unfold q in Q. destruct m as [[c m]|].
    - split; [eapply tg_minimize; eauto|]. eapply minimize_sinv; [apply H|exact Q].
    - injection Q as <-. split; [now repeat split|apply H]. }
  destruct A1 as [(AV & _ & _ & AL & AF & AR) S1]. injection AR as AR1 AR2 _. destruct IO as [I1 I2].
  assert (X : solver_check srt O cfg chk (Datatypes.S n) s1 <> None).
  { apply check_ends with G; auto.
    - intros x. rewrite AR2, AV. now apply (h_unused _ _ _ _ H s (or_introl eq_refl)).
    - unfold dlevel in *. now rewrite AL, (cur_lvls _ _ AR1).
    - unfold dlevel in *. rewrite AL, (cur_lvls _ _ AR1), AF. intros D. now apply I2.
    - rewrite AF, (cur_lvls _ _ AR1). apply H.
    - replace (room s1) with (room s); [lia|]. unfold room. now rewrite AV, AR2. }
  destruct (solver_check srt O cfg chk (Datatypes.S n) s1) as [[o2 s2]|]; [|easy]. destruct o2 as [[]| |]; try discriminate.
  destruct (_ && _); [|discriminate]. destruct (solver_check_full O cfg sol s2). discriminate.
Qed.
(** The number of rounds allowed has no influence on the result. *)
Lemma loop_fuel n : forall k s r, check_loop srt O cfg chk n s = Some r -> (n <= k)%nat -> check_loop srt O cfg chk k s = Some r.
Proof.
  induction n as [|n IH]; intros k s r E L; [discriminate|]. destruct k as [|k]; [lia|]. cbn [check_loop] in E |- *.
  destruct (if is_nil (fmap s) then _ else _) as [ok s1]. destruct (negb ok); [exact E|]. destruct (run_todo _ _ _ _ _ _ _) as [[b| |] s2]; auto.
  destruct (negb b || is_nil _); [exact E|]. apply IH; [exact E|lia].
Qed.
Lemma check_fuel n k s r : solver_check srt O cfg chk n s = Some r -> (n <= k)%nat -> solver_check srt O cfg chk k s = Some r.
Proof. unfold solver_check. destruct (_ && _); [auto|]. apply loop_fuel. Qed.
Lemma prop_check_fuel n k m bound s r : prop_check srt O cfg chk sol n m bound s = Some r -> (n <= k)%nat -> prop_check srt O cfg chk sol k m bound s = Some r.
Proof.
  unfold prop_check. intros E L. destruct (match m with Some (c, m0) => _ | None => Ok s end) as [s1|e|]; auto.
  destruct (solver_check srt O cfg chk n s1) as [q|] eqn:C; [|discriminate]. now rewrite (check_fuel n k s1 q C L).
Qed.
Lemma search_check_result W K s m bound : calm O -> search srt O cfg chk sol W K s -> in_order O s ->
  exists r, forall n, (room s < n)%nat -> prop_check srt O cfg chk sol n m bound s = Some r.
Proof.
  intros C S IO. pose proof (prop_check_ends W K s (Datatypes.S (room s)) m bound C S IO (le_n _)) as E.
  destruct (prop_check srt O cfg chk sol (Datatypes.S (room s)) m bound s) as [r|] eqn:Q; [|easy]. exists r. intros n L. now apply prop_check_fuel with (1 := Q).
Qed.
End Ends.
