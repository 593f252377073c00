(** Passing changed bounds to constraints keeps the invariants. *)
From Verif Require Import Base Util VarState Terms TermsSpec Solver OrderSpec OrderProofs2 Orders Sum PropProofs ConSpec
  Distinct Disjoint Objective Search SearchSpec SearchFrame SearchInv.
From Coq Require Import Permutation.
Open Scope Z_scope.

(** ** Sums *)

Definition pos_part (d : Z) (l : list Z) : Z := zsum (map (fun i => Z.max 0 (i * d)) l).
Definition neg_part (d : Z) (l : list Z) : Z := zsum (map (fun i => Z.min 0 (i * d)) l).
Lemma zsum_perm a b : Permutation a b -> zsum a = zsum b.
Proof. unfold zsum. induction 1; cbn [fold_right]; lia. Qed.
Lemma pos_perm d a b : Permutation a b -> pos_part d a = pos_part d b.
Proof. intros P. apply zsum_perm. now apply Permutation_map. Qed.
Lemma neg_perm d a b : Permutation a b -> neg_part d a = neg_part d b.
Proof. intros P. apply zsum_perm. now apply Permutation_map. Qed.

(** The watches of a linear constraint. *)
Definition coefs (x : var) (es : list (Z * var)) : list Z := wvals x (map (fun e => (snd e, fst e)) es).
Lemma coefs_cons x co y es : coefs x ((co, y) :: es) = if Nat.eqb y x then co :: coefs x es else coefs x es.
Proof. unfold coefs, wvals. cbn [map filter fst snd]. now destruct (Nat.eqb y x). Qed.
Lemma sum_watches d es : sum_es d = Some es -> cs_watches d = map (fun e => (snd e, fst e)) es.
Proof. destruct d; cbn; intros E; try discriminate; now injection E as <-. Qed.

(** A bound moves by [d]: upwards for lower bounds, downwards for upper bounds. *)
Lemma low_lower L U L' x d es : 0 <= d -> L' x = L x + d -> (forall y, y <> x -> L' y = L y) ->
  low L' U es = low L U es + pos_part d (coefs x es) /\ low U L' es = low U L es + neg_part d (coefs x es).
Proof.
  intros D A B. induction es as [|(co, y) es [IH1 IH2]]; [now cbn|].
  assert (E : forall L U, low L U ((co, y) :: es) = co * (if 0 <? co then L y else U y) + low L U es) by reflexivity.
  rewrite coefs_cons, !E, IH1, IH2. destruct (Nat.eqb_spec y x) as [->|N].
  - change (pos_part d (co :: coefs x es)) with (Z.max 0 (co * d) + pos_part d (coefs x es)).
    change (neg_part d (co :: coefs x es)) with (Z.min 0 (co * d) + neg_part d (coefs x es)).
    rewrite A. destruct (Z.ltb_spec 0 co); split; nia.
  - rewrite (B y N). split; lia.
Qed.
Lemma low_upper L U U' x d es : d <= 0 -> U' x = U x + d -> (forall y, y <> x -> U' y = U y) ->
  low L U' es = low L U es + pos_part d (coefs x es) /\ low U' L es = low U L es + neg_part d (coefs x es).
Proof.
  intros D A B. induction es as [|(co, y) es [IH1 IH2]]; [now cbn|].
  assert (E : forall L U, low L U ((co, y) :: es) = co * (if 0 <? co then L y else U y) + low L U es) by reflexivity.
  rewrite coefs_cons, !E, IH1, IH2. destruct (Nat.eqb_spec y x) as [->|N].
  - change (pos_part d (co :: coefs x es)) with (Z.max 0 (co * d) + pos_part d (coefs x es)).
    change (neg_part d (co :: coefs x es)) with (Z.min 0 (co * d) + neg_part d (coefs x es)).
    rewrite A. destruct (Z.ltb_spec 0 co); split; nia.
  - rewrite (B y N). split; lia.
Qed.

(** ** Updating the watches of a variable *)

Record shift (a b : Z) (k k' : cst) : Prop := {
  sh_def : c_def k' = c_def k;
  sh_ina : c_inact k' = c_inact k;
  sh_sum : sum_es (c_def k) <> None -> c_lo k' = c_lo k + a /\ c_hi k' = c_hi k + b }.
Lemma shift_refl k : shift 0 0 k k.
Proof. constructor; auto. intros _. lia. Qed.
Lemma shift_trans a b a' b' k k1 k2 : shift a b k k1 -> shift a' b' k1 k2 -> shift (a + a') (b + b') k k2.
Proof.
  intros [D I M] [D' I' M']. constructor; try congruence. intros H. destruct (M H). rewrite D in M'. destruct (M' H). lia.
Qed.
Lemma shift_eq a b a' b' k k' : shift a b k k' -> a = a' -> b = b' -> shift a' b' k k'.
Proof. now intros H -> ->. Qed.
Lemma shift_zero k k' : shift 0 0 k k' -> cview k' = cview k.
Proof.
  intros [D I M]. unfold cview, sumv. rewrite D, I. destruct (sum_es (c_def k)) as [es|]; auto.
  destruct M as [-> ->]; [discriminate|]. now rewrite !Z.add_0_r.
Qed.
Lemma cs_update_shift i d k b k' : cs_update i d k = (b, k') -> shift (Z.max 0 (i * d)) (Z.min 0 (i * d)) k k' /\ c_todo k' = c_todo k.
Proof.
  unfold cs_update. intros E. split; [constructor|].
  1-3: destruct (c_def k) eqn:D; unfold sum_update, dist_update in E.
  all: try (destruct (i * d <? 0); injection E as <- <-; cbn; now rewrite ?D).
  all: try (destruct (0 <? i); injection E as <- <-; cbn; rewrite ?D; easy).
  all: try (injection E as <- <-; rewrite ?D; easy).
  - intros _. destruct (Z.ltb_spec (i * d) 0); injection E as <- <-; cbn; lia.
  - intros _. destruct (Z.ltb_spec (i * d) 0); injection E as <- <-; cbn; lia.
  - destruct (c_def k) eqn:D; unfold sum_update, dist_update in E;
    repeat match type of E with context [if ?b then _ else _] => destruct b end; injection E as <- <-; reflexivity.
Qed.
Lemma cs_undo_shift i d k : shift (- Z.max 0 (i * d)) (- Z.min 0 (i * d)) k (cs_undo i d k) /\ c_todo (cs_undo i d k) = c_todo k.
Proof.
  unfold cs_undo. split; [constructor|].
  1-3: destruct (c_def k) eqn:D; unfold sum_undo, dist_undo, disj_undo.
  all: try (destruct (0 <? i * d); cbn; now rewrite ?D).
  all: try (cbn; rewrite ?D; easy).
  - intros _. destruct (Z.ltb_spec 0 (i * d)); cbn; lia.
  - intros _. destruct (Z.ltb_spec 0 (i * d)); cbn; lia.
  - destruct (c_def k); unfold sum_undo; try destruct (0 <? i * d); reflexivity.
Qed.

(** Only constraint states, the queue and the removed watches change. *)
Definition wframe (s s' : state) : Prop := s' = set_css (css s') (set_tod (tod s') (set_remw (remw s') s)).
Lemma wframe_refl s : wframe s s.
Proof. now destruct s. Qed.
Lemma wframe_trans s s1 s2 : wframe s s1 -> wframe s1 s2 -> wframe s s2.
Proof. unfold wframe. intros A B. rewrite B, A. reflexivity. Qed.
Lemma wframe_mark c s : wframe s (mark_todo c s).
Proof. unfold mark_todo. destruct (css s c) as [k|]; [|apply wframe_refl]. destruct (negb _); [|apply wframe_refl]. now destruct s, (c_todo k). Qed.
Lemma wframe_get {A} (f : state -> A) : (forall s, f s = f (set_css (fun _ => None) (set_tod [] (set_remw [] s)))) -> forall s s', wframe s s' -> f s' = f s.
Proof. intros F s s' H. rewrite (F s'), (F s), H. reflexivity. Qed.

(** Constraint states changed by [a c] and [b c]. *)
Definition shifted (a b : cid -> Z) (s s' : state) : Prop := forall c,
  match css s c, css s' c with None, None => True | Some k, Some k' => shift (a c) (b c) k k' | _, _ => False end.
Lemma shifted_refl s : shifted (fun _ => 0) (fun _ => 0) s s.
Proof. intros c. destruct (css s c); auto using shift_refl. Qed.
Lemma shifted_trans a b a' b' s s1 s2 : shifted a b s s1 -> shifted a' b' s1 s2 -> shifted (fun c => a c + a' c) (fun c => b c + b' c) s s2.
Proof.
  intros A B c. specialize (A c). specialize (B c). destruct (css s c), (css s1 c), (css s2 c); try easy. eapply shift_trans; eauto.
Qed.
Lemma shifted_ext a b a' b' s s' : shifted a b s s' -> (forall c, a c = a' c) -> (forall c, b c = b' c) -> shifted a' b' s s'.
Proof. intros A B C c. specialize (A c). now rewrite B, C in A. Qed.
Lemma shifted_mark c s : shifted (fun _ => 0) (fun _ => 0) s (mark_todo c s).
Proof.
  intros d. unfold mark_todo. destruct (css s c) as [k|] eqn:K; [|destruct (css s d); auto using shift_refl].
  destruct (negb _); [|destruct (css s d); auto using shift_refl].
  assert (H : css (if c_todo k then set_cs c (set_todo true k) s else set_tod (tod s ++ [c]) (set_cs c (set_todo true k) s)) d =
              css (set_cs c (set_todo true k) s) d) by now destruct (c_todo k).
  rewrite H. destruct (Nat.eq_dec d c) as [->|N].
  - rewrite set_cs_same, K. constructor; auto. intros _. cbn. lia.
  - rewrite set_cs_other by auto. destruct (css s d); auto using shift_refl.
Qed.
Lemma shifted_set c k k' a b s : css s c = Some k -> shift a b k k' ->
  shifted (fun d => if Nat.eqb c d then a else 0) (fun d => if Nat.eqb c d then b else 0) s (set_cs c k' s).
Proof.
  intros K H d. destruct (Nat.eqb_spec c d) as [<-|N].
  - now rewrite set_cs_same, K.
  - rewrite set_cs_other by auto. destruct (css s d); auto using shift_refl.
Qed.

Definition rem_at (n : nat) (s : state) (c : cid) : bool := match css s c with Some k => removable_at n k | None => false end.
Lemma rem_at_shifted n a b s s' c : shifted a b s s' -> rem_at n s' c = rem_at n s c.
Proof. intros A. specialize (A c). unfold rem_at. destruct (css s c), (css s' c); try easy. apply removable_eq, A. Qed.

Lemma ents_cons c i d ws : ents c ((i, d) :: ws) = if Nat.eqb d c then i :: ents c ws else ents c ws.
Proof. unfold ents. cbn [filter snd]. now destruct (Nat.eqb d c). Qed.

Lemma update_watches_spec n x d ws : forall s ws' s', update_watches n x d ws s = (ws', s') -> (forall i c, In (i, c) ws -> exists k, css s c = Some k) ->
  ws' = filter (fun p => negb (rem_at n s (snd p))) ws /\
  remw s' = remw s ++ map (fun p => (x, fst p, snd p)) (filter (fun p => rem_at n s (snd p)) ws) /\
  wframe s s' /\
  shifted (fun c => if rem_at n s c then 0 else pos_part d (ents c ws)) (fun c => if rem_at n s c then 0 else neg_part d (ents c ws)) s s' /\
  (tod_ok (tod s) s -> tod_ok (tod s') s').
Proof.
  induction ws as [|(i, c) ws IH]; intros s ws' s' E H; cbn [update_watches] in E.
  - injection E as <- <-. cbn. rewrite app_nil_r. split; [|split; [|split; [|split]]]; auto using wframe_refl.
    apply shifted_ext with (1 := shifted_refl s); intros c; now destruct (rem_at n s c).
  - destruct (H i c (or_introl eq_refl)) as (k & K). rewrite K in E.
    assert (RA : rem_at n s c = removable_at n k) by (unfold rem_at; now rewrite K).
    cbn [filter snd fst]. rewrite RA. destruct (removable_at n k) eqn:R; cbn [negb].
    + apply IH in E as (A1 & A2 & A3 & A4 & A5).
      2: { intros j e I. apply (H j e). now right. }
      assert (RE : forall e, rem_at n (set_remw (remw s ++ [(x, i, c)]) s) e = rem_at n s e) by reflexivity.
      split; [exact A1|]. split; [rewrite A2; cbn [remw set_remw]; rewrite <- app_assoc; reflexivity|].
      split; [apply wframe_trans with (set_remw (remw s ++ [(x, i, c)]) s); auto; now destruct s|]. split.
      * apply (shifted_ext _ _ _ _ _ _ A4); intros e; rewrite RE, ents_cons; destruct (Nat.eqb_spec c e) as [<-|N]; auto; now rewrite RA.
      * intros T. apply A5. destruct T. now constructor.
    + destruct (cs_update i d k) as [b k1] eqn:U. apply cs_update_shift in U as [SH TD].
      set (s1 := set_cs c k1 s) in *. set (s2 := if b then mark_todo c s1 else s1) in *.
      destruct (update_watches n x d ws s2) as [ws2 s3] eqn:E2. injection E as <- <-.
      assert (F1 : wframe s s1) by now destruct s.
      assert (F2 : wframe s s2). { unfold s2. destruct b; auto. apply wframe_trans with s1; auto using wframe_mark. }
      assert (S2 : shifted (fun e => if Nat.eqb c e then Z.max 0 (i * d) else 0) (fun e => if Nat.eqb c e then Z.min 0 (i * d) else 0) s s2).
      { assert (S1 := shifted_set c k k1 _ _ s K SH). fold s1 in S1. unfold s2. destruct b; auto.
        eapply shifted_ext; [eapply shifted_trans; [exact S1|apply shifted_mark]|..]; intros e; cbn beta; lia. }
      assert (R2 : remw s2 = remw s). { unfold s2. destruct b; auto. unfold mark_todo. destruct (css s1 c) as [k2|]; auto. destruct (negb _); auto. now destruct (c_todo k2). }
      apply IH in E2 as (A1 & A2 & A3 & A4 & A5).
      2: { intros j e I. destruct (H j e (or_intror I)) as (ke & KE). specialize (S2 e). rewrite KE in S2. destruct (css s2 e) as [k2|]; [eauto|easy]. }
      assert (RE : forall e, rem_at n s2 e = rem_at n s e) by (intros e; eapply rem_at_shifted; eauto).
      split; [|split; [|split; [|split]]].
      * f_equal. rewrite A1. apply filter_ext. intros p. now rewrite RE.
      * rewrite A2, R2. f_equal. f_equal. apply filter_ext. intros p. now rewrite RE.
      * eapply wframe_trans; eauto.
      * eapply shifted_ext; [eapply shifted_trans; [exact S2|exact A4]|..]; intros e; cbn beta; rewrite RE, ents_cons; destruct (Nat.eqb_spec c e) as [<-|N]; auto; rewrite RA; reflexivity.
      * intros T. apply A5. assert (T1 : tod_ok (tod s1) s1).
        { apply tod_ok_css with s; auto. intros e. destruct (Nat.eq_dec e c) as [->|N].
          - unfold s1. rewrite set_cs_same, K. cbn. now rewrite TD, (sh_ina _ _ _ _ SH).
          - unfold s1. now rewrite set_cs_other. }
        unfold s2. destruct b; auto. now apply mark_todo_tod.
Qed.

Lemma ents_filter_rem c (f : cid -> bool) ws : ents c (filter (fun p => f (snd p)) ws) = if f c then ents c ws else [].
Proof.
  induction ws as [|(i, e) ws IH]; [now destruct (f c)|]. cbn [filter snd]. rewrite ents_cons.
  destruct (f e) eqn:F; rewrite ?ents_cons, IH; destruct (Nat.eqb_spec e c) as [->|N]; rewrite ?F; auto.
Qed.
Lemma rems_map c x y ws : rems c y (map (fun p => (x, fst p, snd p)) ws) = if Nat.eqb x y then ents c ws else [].
Proof.
  induction ws as [|(i, e) ws IH]; [cbn; now destruct (Nat.eqb x y)|]. cbn [map fst snd]. rewrite ents_cons.
  unfold rems in *. cbn [filter fst snd]. destruct (Nat.eqb x y); cbn [andb]; [|exact IH].
  destruct (Nat.eqb e c); cbn [map fst snd]; now rewrite IH.
Qed.

(** ** Integrating a changed bound *)

(** What passing the change [d] of a bound of [x] to the constraints does. *)
Record passed (x : var) (d : Z) (s s' : state) : Prop := {
  pa_frame : s' = set_wat (wat s') (set_css (css s') (set_tod (tod s') (set_remw (remw s') s)));
  pa_other : forall y, y <> x -> wat s' y = wat s y;
  pa_wat : wat s' x = filter (fun p => negb (rem_at (cur_level s) s (snd p))) (wat s x);
  pa_rem : remw s' = remw s ++ map (fun p => (x, fst p, snd p)) (filter (fun p => rem_at (cur_level s) s (snd p)) (wat s x));
  pa_css : shifted (fun c => if rem_at (cur_level s) s c then 0 else pos_part d (ents c (wat s x)))
                   (fun c => if rem_at (cur_level s) s c then 0 else neg_part d (ents c (wat s x))) s s';
  pa_tod : tod_ok (tod s) s -> tod_ok (tod s') s' }.
Lemma update_constraints_passed x d s : (forall i c, In (i, c) (wat s x) -> exists k, css s c = Some k) -> passed x d s (update_constraints x d s).
Proof.
  intros H. unfold update_constraints. destruct (update_watches _ _ _ _ _) as [ws s1] eqn:E.
  apply update_watches_spec in E as (A1 & A2 & A3 & A4 & A5); auto.
  constructor.
  - cbn [wat css tod remw set_wat]. unfold wframe in A3. rewrite <- A3. reflexivity.
  - intros y N. cbn [wat set_wat]. rewrite upd_other by auto. now rewrite (wframe_get wat (fun _ => eq_refl) _ _ A3).
  - cbn [wat set_wat]. rewrite upd_same. exact A1.
  - exact A2.
  - exact A4.
  - intros T; destruct (A5 T); now constructor.
Qed.

Lemma shifted_some a b s s' c k' : shifted a b s s' -> css s' c = Some k' -> exists k, css s c = Some k /\ shift (a c) (b c) k k'.
Proof. intros A E. specialize (A c). rewrite E in A. destruct (css s c) as [k|]; [eauto|easy]. Qed.
Lemma shifted_some' a b s s' c k : shifted a b s s' -> css s c = Some k -> exists k', css s' c = Some k' /\ shift (a c) (b c) k k'.
Proof. intros A E. specialize (A c). rewrite E in A. destruct (css s' c) as [k'|]; [eauto|easy]. Qed.
Lemma rem_at_some n s c k : css s c = Some k -> rem_at n s c = removable_at n k.
Proof. intros E. unfold rem_at. now rewrite E. Qed.

(** The watches left of constraints that are not removable are all watches. *)
Lemma all_watches s c k x : bcore s -> css s c = Some k -> removable_at (cur_level s) k = false ->
  Permutation (ents c (wat s x)) (wvals x (cs_watches (c_def k))).
Proof.
  intros B K R. rewrite <- (b_watch s B c k x K).
  replace (rems c x (remw s)) with (@nil Z); [now rewrite app_nil_r|]. symmetry. apply in_nil. intros i H. apply rems_in in H.
  apply (b_rem s B) in H as (k' & K' & L). apply removable_true in L. congruence.
Qed.

(** [s'] results from passing a change and forgetting it; [li'] and [ui'] are its bounds. *)
Lemma passed_core G x d s s' s2 : core G s -> passed x d s s' ->
  s2 = set_udiff (udiff s2) (set_ldiff (ldiff s2) s') ->
  (forall y, y <> x -> ldiff s2 y = ldiff s y /\ udiff s2 y = udiff s y) ->
  (ldiff s2 x = 0 /\ udiff s2 x = udiff s x /\ d = ldiff s x) \/ (udiff s2 x = 0 /\ ldiff s2 x = ldiff s x /\ d = udiff s x) ->
  core G s2.
Proof.
  intros CO P E2 OT CH. assert (B := core_b _ _ CO).
  assert (C : cur_level s2 = cur_level s) by (rewrite E2, (pa_frame _ _ _ _ P); reflexivity).
  assert (EV : vst s2 = vst s) by (rewrite E2, (pa_frame _ _ _ _ P); reflexivity).
  assert (EC : css s2 = css s') by (rewrite E2; reflexivity).
  assert (EW : wat s2 = wat s') by (rewrite E2; reflexivity).
  assert (ER : remw s2 = remw s') by (rewrite E2; reflexivity).
  assert (EI : ina s2 = ina s) by (rewrite E2, (pa_frame _ _ _ _ P); reflexivity).
  assert (EL : l2c s2 = l2c s) by (rewrite E2, (pa_frame _ _ _ _ P); reflexivity).
  assert (EN : nvars s2 = nvars s) by (rewrite E2, (pa_frame _ _ _ _ P); reflexivity).
  assert (EV2 : lvls s2 = lvls s) by (rewrite E2, (pa_frame _ _ _ _ P); reflexivity).
  assert (EO : ulo s2 = ulo s) by (rewrite E2, (pa_frame _ _ _ _ P); reflexivity).
  assert (EU : uup s2 = uup s) by (rewrite E2, (pa_frame _ _ _ _ P); reflexivity).
  assert (EIL : inl s2 = inl s) by (rewrite E2, (pa_frame _ _ _ _ P); reflexivity).
  assert (EIU : inu s2 = inu s) by (rewrite E2, (pa_frame _ _ _ _ P); reflexivity).
  clear E2. pose proof (pa_css _ _ _ _ P) as SH.
  assert (Y : forall y, y <> x -> li s2 y = li s y /\ ui s2 y = ui s y).
  { intros y N. unfold li, ui. destruct (OT y N) as [-> ->]. now rewrite EV. }
  assert (DF : forall y, (0 <= ldiff s2 y <= ldiff s y) /\ (udiff s y <= udiff s2 y <= 0)).
  { intros y. destruct (b_diff s B y). destruct (Nat.eq_dec y x) as [->|N]; [|destruct (OT y N); lia]. lia. }
  assert (WI : forall y i c, In (i, c) (wat s2 y) -> In (i, c) (wat s y)).
  { intros y i c. rewrite EW. destruct (Nat.eq_dec y x) as [->|N]; [|now rewrite (pa_other _ _ _ _ P)].
    rewrite (pa_wat _ _ _ _ P). intros H. now apply filter_In in H as [H _]. }
  assert (BC : bcore s2).
  { constructor.
    - intros y. rewrite EV, EN. apply (b_bnd s B).
    - intros y. specialize (DF y). lia.
    - intros y. rewrite EIL, EIU. specialize (DF y). destruct (b_in s B y) as [X1 X2]. split; intros; [apply X1|apply X2]; lia.
    - intros y p. rewrite EV, C. apply (b_stk s B).
    - intros c k. rewrite EC, C. intros K. destruct (shifted_some _ _ _ _ _ _ SH K) as (k' & K' & Q). rewrite (sh_ina _ _ _ _ Q). now apply (b_max s B c).
    - intros y i c H. apply WI, (b_wref s B) in H as (k & K). rewrite EC. destruct (shifted_some' _ _ _ _ _ _ SH K) as (k' & K' & Q). eauto.
    - intros y i c. rewrite ER, EC, C, (pa_rem _ _ _ _ P). rewrite in_app_iff. intros [H|H].
      + apply (b_rem s B) in H as (k & K & L). destruct (shifted_some' _ _ _ _ _ _ SH K) as (k' & K' & Q). exists k'. now rewrite (sh_ina _ _ _ _ Q).
      + apply in_map_iff in H as ((j, e) & J & H). injection J as _ _ <-. apply filter_In in H as [_ H]. cbn [snd] in H.
        unfold rem_at in H. destruct (css s e) as [k|] eqn:K; [|discriminate]. apply removable_true in H.
        destruct (shifted_some' _ _ _ _ _ _ SH K) as (k' & K' & Q). exists k'. now rewrite (sh_ina _ _ _ _ Q).
    - rewrite EL. apply (b_l2cd s B).
    - intros l c. rewrite EL, EC, (b_l2c s B). split; intros (k & K & ->).
      + destruct (shifted_some' _ _ _ _ _ _ SH K) as (k' & K' & Q). exists k'. now rewrite (sh_def _ _ _ _ Q).
      + destruct (shifted_some _ _ _ _ _ _ SH K) as (k' & K' & Q). exists k'. now rewrite (sh_def _ _ _ _ Q).
    - intros c k. rewrite EC, EN. intros K. destruct (shifted_some _ _ _ _ _ _ SH K) as (k' & K' & Q). rewrite (sh_def _ _ _ _ Q). now apply (b_vars s B c).
    - intros c k y. rewrite EC, EW, ER. intros K. destruct (shifted_some _ _ _ _ _ _ SH K) as (k' & K' & Q). rewrite (sh_def _ _ _ _ Q).
      rewrite <- (b_watch s B c k' y K'), (pa_rem _ _ _ _ P), rems_app, rems_map.
      destruct (Nat.eqb_spec x y) as [<-|N].
      + rewrite (pa_wat _ _ _ _ P), (ents_filter_rem c (fun c => negb (rem_at (cur_level s) s c))), (ents_filter_rem c (fun c => rem_at (cur_level s) s c)).
        destruct (rem_at (cur_level s) s c); cbn [negb app]; [apply Permutation_app_comm|now rewrite app_nil_r].
      + rewrite (pa_other _ _ _ _ P), app_nil_r by auto. reflexivity.
    - intros c k es. rewrite EC, C. intros K E R. destruct (shifted_some _ _ _ _ _ _ SH K) as (k' & K' & Q).
      rewrite (removable_eq _ k' k (sh_ina _ _ _ _ Q)) in R. rewrite (rem_at_some _ _ _ _ K'), R in Q. rewrite (sh_def _ _ _ _ Q) in E.
      destruct (b_sum s B c k' es K' E R) as [S1 S2]. destruct (sh_sum _ _ _ _ Q) as [-> ->]; [congruence|].
      pose proof (all_watches s c k' x B K' R) as PW. rewrite (sum_watches _ _ E) in PW.
      rewrite (pos_perm d _ _ PW), (neg_perm d _ _ PW), S1, S2. fold (coefs x es).
      destruct (b_diff s B x) as [D1 D2].
      destruct CH as [(H1 & H2 & ->)|(H1 & H2 & ->)].
      + destruct (low_lower (li s) (ui s) (li s2) x (ldiff s x) es D1) as [W1 W2].
        * unfold li. rewrite EV, H1. lia.
        * apply Y.
        * assert (UE : forall y, ui s2 y = ui s y). { intros y. destruct (Nat.eq_dec y x) as [->|N]; [|now apply Y]. unfold ui. now rewrite EV, H2. }
          rewrite (low_ext (li s2) (ui s) (li s2) (ui s2) es), (low_ext (ui s) (li s2) (ui s2) (li s2) es) by auto. split; symmetry; auto.
      + destruct (low_upper (li s) (ui s) (ui s2) x (udiff s x) es D2) as [W1 W2].
        * unfold ui. rewrite EV, H1. lia.
        * apply Y.
        * assert (LE : forall y, li s2 y = li s y). { intros y. destruct (Nat.eq_dec y x) as [->|N]; [|now apply Y]. unfold li. now rewrite EV, H2. }
          rewrite (low_ext (li s) (ui s2) (li s2) (ui s2) es), (low_ext (ui s2) (li s) (ui s2) (li s2) es) by auto. split; symmetry; auto. }
  destruct G as [|s0 G]; [destruct CO as [_ CO]; split; auto; now rewrite EV2|].
  destruct CO as [_ (ST & OP & CO)]. split; [auto|]. split; [auto|]. split; [|auto].
  destruct OP as [o_lvl0 o_nv0 o_l2c0 o_lows0 o_ups0 o_mono0 o_inas0 o_rems0 o_wat0]. constructor.
  - now rewrite EV2, C.
  - now rewrite EN.
  - now rewrite EL.
  - destruct o_lows0 as (seg & A1 & A2 & A3). exists seg. rewrite EO. split; [|split]; auto. intros y. destruct (A3 y) as [X1 X2]. rewrite EV, C. split; auto.
    intros N. destruct (X2 N) as (X3 & X4 & X5). split; [|split]; auto. specialize (DF y). lia.
  - destruct o_ups0 as (seg & A1 & A2 & A3). exists seg. rewrite EU. split; [|split]; auto. intros y. destruct (A3 y) as [X1 X2]. rewrite EV, C. split; auto.
    intros N. destruct (X2 N) as (X3 & X4 & X5). split; [|split]; auto. specialize (DF y). lia.
  - intros y. specialize (DF y). specialize (o_mono0 y). unfold li, ui in *. rewrite EV. lia.
  - destruct o_inas0 as (seg & A1 & A2). exists seg. rewrite EI. split; auto. intros c. specialize (A2 c). rewrite EC, C.
    specialize (SH c). destruct (css s c) as [k|] eqn:K, (css s' c) as [k'|], (css s0 c) as [k0|] eqn:K0; try easy.
    destruct A2 as (X1 & X2 & X3 & X4). rewrite (sh_def _ _ _ _ SH), (sh_ina _ _ _ _ SH). split; [auto|]. split; [auto|]. split; [auto|].
    intros N0. rewrite <- (X4 N0).
    assert (R : removable_at (cur_level s) k = true).
    { assert (M := b_max s0 (core_b _ _ CO) c k0 K0). destruct (in_dec Nat.eq_dec c seg) as [I|I].
      - destruct (X2 I). lia.
      - rewrite removable_true, (X3 I). lia. }
    rewrite (rem_at_some _ _ _ _ K), R in SH. apply shift_zero in SH. now apply cview_eq in SH.
  - destruct o_rems0 as (seg & A). rewrite ER, (pa_rem _ _ _ _ P), A. eexists. now rewrite <- app_assoc.
  - intros c k0 y i K0 N0 H. pose proof (WI _ _ _ H) as HW. destruct (Nat.eq_dec y x) as [->|N].
    + exfalso. rewrite EW, (pa_wat _ _ _ _ P) in H. apply filter_In in H as [H R]. cbn [snd] in R.
      destruct (b_wref s B _ _ _ H) as (k & K). rewrite (rem_at_some _ _ _ _ K) in R. apply negb_true_iff, removable_false in R.
      destruct o_inas0 as (seg & A1 & A2). specialize (A2 c). rewrite K, K0 in A2. destruct A2 as (X1 & X2 & X3 & X4).
      assert (M := b_max s0 (core_b _ _ CO) c k0 K0). destruct (in_dec Nat.eq_dec c seg) as [I|I].
      * destruct (X2 I). lia.
      * rewrite (X3 I) in R. lia.
    + destruct (Y y N) as [-> ->]. eauto.
Qed.
