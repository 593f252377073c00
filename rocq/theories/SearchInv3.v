(** Integration of bounds, the queue, changed bounds and new levels keep the invariants. *)
From Verif Require Import Base Util VarState Terms TermsSpec Solver OrderSpec OrderProofs1 OrderProofs2 Orders Sum PropProofs ConSpec
  Distinct DistinctProofs2 Disjoint Objective Search SearchSpec SearchFrame SearchInv SearchInv2.
From Coq Require Import Permutation.
Open Scope Z_scope.

(** ** Integration *)
Lemma integrate_lower_sinv G s x : sinv G s -> sinv G (integrate_lower s x) /\ inl (integrate_lower s x) = inl s /\ inu (integrate_lower s x) = inu s /\
  (forall y, udiff (integrate_lower s x) y = udiff s y /\ ldiff (integrate_lower s x) y = if Nat.eqb y x then 0 else ldiff s y).
Proof.
  intros [A B]. unfold integrate_lower. set (s' := update_constraints x (ldiff s x) s).
  assert (P : passed x (ldiff s x) s s') by (apply update_constraints_passed; intros i c; apply (b_wref s (core_b _ _ A))).
  assert (EL : ldiff s' = ldiff s) by (rewrite (pa_frame _ _ _ _ P); reflexivity).
  assert (EU : udiff s' = udiff s) by (rewrite (pa_frame _ _ _ _ P); reflexivity).
  split; [split|split; [|split]].
  - apply (passed_core G x (ldiff s x) s s'); auto.
    + intros y N. cbn [ldiff udiff set_ldiff]. rewrite upd_other, EL, EU by auto. auto.
    + left. cbn [ldiff udiff set_ldiff]. now rewrite upd_same, EU.
  - cbn [tod set_ldiff]. destruct (pa_tod _ _ _ _ P B). now constructor.
  - cbn [inl set_ldiff]. rewrite (pa_frame _ _ _ _ P). reflexivity.
  - cbn [inu set_ldiff]. rewrite (pa_frame _ _ _ _ P). reflexivity.
  - intros y. cbn [ldiff udiff set_ldiff]. rewrite EU, EL. now split.
Qed.
Lemma integrate_upper_sinv G s x : sinv G s -> sinv G (integrate_upper s x) /\ inl (integrate_upper s x) = inl s /\ inu (integrate_upper s x) = inu s /\
  (forall y, ldiff (integrate_upper s x) y = ldiff s y /\ udiff (integrate_upper s x) y = if Nat.eqb y x then 0 else udiff s y).
Proof.
  intros [A B]. unfold integrate_upper. set (s' := update_constraints x (udiff s x) s).
  assert (P : passed x (udiff s x) s s') by (apply update_constraints_passed; intros i c; apply (b_wref s (core_b _ _ A))).
  assert (EL : ldiff s' = ldiff s) by (rewrite (pa_frame _ _ _ _ P); reflexivity).
  assert (EU : udiff s' = udiff s) by (rewrite (pa_frame _ _ _ _ P); reflexivity).
  split; [split|split; [|split]].
  - apply (passed_core G x (udiff s x) s s'); auto.
    + intros y N. cbn [ldiff udiff set_udiff]. rewrite upd_other, EL, EU by auto. auto.
    + right. cbn [ldiff udiff set_udiff]. now rewrite upd_same, EL.
  - cbn [tod set_udiff]. destruct (pa_tod _ _ _ _ P B). now constructor.
  - cbn [inl set_udiff]. rewrite (pa_frame _ _ _ _ P). reflexivity.
  - cbn [inu set_udiff]. rewrite (pa_frame _ _ _ _ P). reflexivity.
  - intros y. cbn [ldiff udiff set_udiff]. rewrite EU, EL. now split.
Qed.
Lemma integrate_lowers G xs : forall s, sinv G s -> sinv G (fold_left integrate_lower xs s) /\ inl (fold_left integrate_lower xs s) = inl s /\
  inu (fold_left integrate_lower xs s) = inu s /\
  (forall y, udiff (fold_left integrate_lower xs s) y = udiff s y /\ (In y xs -> ldiff (fold_left integrate_lower xs s) y = 0) /\ (ldiff s y = 0 -> ldiff (fold_left integrate_lower xs s) y = 0)).
Proof.
  induction xs as [|x xs IH]; intros s H; cbn [fold_left]; [split; [auto|split; [auto|split; [auto|intros y; split; [auto|split; [easy|auto]]]]]|].
  destruct (integrate_lower_sinv G s x H) as (A & B & C & D). destruct (IH _ A) as (A' & B' & C' & D').
  split; [auto|]. split; [congruence|]. split; [congruence|]. intros y. destruct (D y) as [D1 D2], (D' y) as (D3 & D4 & D5). split; [congruence|].
  destruct (Nat.eqb_spec y x) as [->|N].
  - split; intros _; now apply D5.
  - split; [intros [I|I]; [congruence|auto]|intros E; apply D5; congruence].
Qed.
Lemma integrate_uppers G xs : forall s, sinv G s -> sinv G (fold_left integrate_upper xs s) /\ inl (fold_left integrate_upper xs s) = inl s /\
  inu (fold_left integrate_upper xs s) = inu s /\
  (forall y, ldiff (fold_left integrate_upper xs s) y = ldiff s y /\ (In y xs -> udiff (fold_left integrate_upper xs s) y = 0) /\ (udiff s y = 0 -> udiff (fold_left integrate_upper xs s) y = 0)).
Proof.
  induction xs as [|x xs IH]; intros s H; cbn [fold_left]; [split; [auto|split; [auto|split; [auto|intros y; split; [auto|split; [easy|auto]]]]]|].
  destruct (integrate_upper_sinv G s x H) as (A & B & C & D). destruct (IH _ A) as (A' & B' & C' & D').
  split; [auto|]. split; [congruence|]. split; [congruence|]. intros y. destruct (D y) as [D1 D2], (D' y) as (D3 & D4 & D5). split; [congruence|].
  destruct (Nat.eqb_spec y x) as [->|N].
  - split; intros _; now apply D5.
  - split; [intros [I|I]; [congruence|auto]|intros E; apply D5; congruence].
Qed.

(** Clearing the lists of changed variables. *)
Lemma sinv_set_in G s l u : sinv G s -> (forall x, ldiff s x <> 0 -> In x l) -> (forall x, udiff s x <> 0 -> In x u) -> sinv G (set_inl l (set_inu u s)).
Proof.
  intros [A B] HL HU. split; [|destruct B; now constructor].
  assert (BC : bcore (set_inl l (set_inu u s))).
  { destruct (core_b _ _ A). constructor; auto. }
  destruct G as [|s0 G]; destruct A as [_ A]; split; auto. destruct A as (A1 & A2 & A3). split; [|split]; auto. destruct A2. now constructor.
Qed.
Lemma integrate_sinv G s : sinv G s -> sinv G (integrate s) /\ settled (integrate s).
Proof.
  intros H. unfold integrate.
  destruct (integrate_uppers G (inu s) s H) as (A1 & A2 & A3 & A4). set (s1 := fold_left integrate_upper (inu s) s) in *.
  assert (U1 : forall y, udiff s1 y = 0).
  { intros y. destruct (A4 y) as (_ & X & X'). destruct (Z.eq_dec (udiff s y) 0); auto. apply X. now apply (b_in s (core_b _ _ (proj1 H))). }
  assert (S2 : sinv G (set_inu [] s1)).
  { replace (set_inu [] s1) with (set_inl (inl s1) (set_inu [] s1)) by now destruct s1. apply sinv_set_in; auto.
    - intros x N. apply (b_in s1 (core_b _ _ (proj1 A1))); auto.
    - intros x N. now rewrite U1 in N. }
  destruct (integrate_lowers G (inl (set_inu [] s1)) _ S2) as (B1 & B2 & B3 & B4). set (s2 := fold_left integrate_lower _ _) in *.
  assert (L2 : forall y, ldiff s2 y = 0).
  { intros y. destruct (B4 y) as (_ & X & X'). destruct (Z.eq_dec (ldiff s1 y) 0); auto. apply X. apply (b_in _ (core_b _ _ (proj1 S2))). auto. }
  assert (U2 : forall y, udiff s2 y = 0). { intros y. destruct (B4 y) as [-> _]. apply U1. }
  assert (I2 : inu s2 = []) by (rewrite B3; reflexivity).
  split.
  - replace (set_inl [] s2) with (set_inl [] (set_inu (inu s2) s2)) by now destruct s2. apply sinv_set_in; auto; intros x N.
    + now rewrite L2 in N.
    + now rewrite U2 in N.
  - split; [reflexivity|]. split; [exact I2|]. intros x. split; [apply L2|apply U2].
Qed.

(** ** Inactive constraints *)

(** A constraint state changed in the data that does not matter, possibly becoming inactive on the current level. *)
Lemma own_core G c k k' s s' : core G s -> css s c = Some k -> same3 s s' -> (forall d, d <> c -> css s' d = css s d) -> css s' c = Some k' -> kept k k' ->
  (c_inact k' = c_inact k /\ ina s' = ina s) \/ (marked_inactive k = false /\ c_inact k' = S (cur_level s) /\ ina s' = ina s ++ [c]) -> core G s'.
Proof.
  intros CO K S3 OT K' (KD & KT & KL & KH) CH.
  assert (SV : sumv k' = sumv k) by (unfold sumv; now rewrite KD, KL, KH).
  destruct CH as [[CI EI]|(NI & CI & EI)].
  { apply core_veq with s; auto. apply veq_trans with (set_cs c k' s).
    - apply set_cs_veq with k; auto. unfold cview. now rewrite KD, CI, SV.
    - assert (V : veq (set_css (css s') s) s') by (apply same3_veq; auto). destruct V. constructor; auto. intros d. destruct (Nat.eq_dec d c) as [->|N].
      + now rewrite set_cs_same, K'.
      + now rewrite set_cs_other, OT. }
  assert (V : veq (set_css (css s') (set_ina (ina s') s)) s') by (apply same3_veq; auto).
  apply core_veq with (1 := V). clear V. set (s1 := set_css (css s') (set_ina (ina s') s)).
  assert (I0 : c_inact k = 0%nat) by (unfold marked_inactive in NI; apply Nat.ltb_ge in NI; lia).
  assert (B := core_b _ _ CO).
  assert (F : forall d kd, css s1 d = Some kd -> (d = c /\ kd = k') \/ (d <> c /\ css s d = Some kd)).
  { intros d kd. change (css s1 d) with (css s' d). destruct (Nat.eq_dec d c) as [->|N]; [left; split; congruence|right; split; auto; now rewrite <- OT]. }
  assert (F1 : css s1 c = Some k') by exact K'.
  assert (F2 : forall d, d <> c -> css s1 d = css s d) by exact OT.
  assert (BC : bcore s1).
  { constructor.
    - apply (b_bnd s B).
    - apply (b_diff s B).
    - apply (b_in s B).
    - apply (b_stk s B).
    - intros d kd KD'. change (cur_level s1) with (cur_level s). apply F in KD' as [[-> ->]|[N KD']]; [lia|now apply (b_max s B d)].
    - intros x i d H. destruct (Nat.eq_dec d c) as [->|N]; [eauto|]. rewrite F2 by auto. now apply (b_wref s B x i).
    - intros x i d H. change (cur_level s1) with (cur_level s). apply (b_rem s B) in H as (kd & KD' & L).
      destruct (Nat.eq_dec d c) as [->|N]; [exfalso; assert (kd = k) by congruence; subst; lia|]. exists kd. now rewrite F2.
    - apply (b_l2cd s B).
    - intros l d. change (l2c s1) with (l2c s). rewrite (b_l2c s B). destruct (Nat.eq_dec d c) as [->|N]; [|now rewrite F2].
      rewrite F1, K. split; intros (k1 & E & ->); injection E as <-; eexists; split; eauto; now rewrite KD.
    - intros d kd H. apply F in H as [[-> ->]|[N H]]; [rewrite KD; now apply (b_vars s B c)|now apply (b_vars s B d)].
    - intros d kd x H. apply F in H as [[-> ->]|[N H]]; [rewrite KD; now apply (b_watch s B c)|now apply (b_watch s B d)].
    - intros d kd es H E R. apply F in H as [[-> ->]|[N H]]; [|now apply (b_sum s B d)].
      rewrite KL, KH. apply (b_sum s B c); auto; [congruence|]. apply removable_false. auto. }
  destruct G as [|s0 G]; [destruct CO as [_ CO]; now split|]. destruct CO as [_ (ST & OP & CO)]. split; [auto|]. split; [auto|]. split; [|auto].
  destruct OP as [o1 o2 o3 o4 o5 o6 o7 o8 o9]. constructor; auto.
  destruct o7 as (seg & A1 & A2). exists (seg ++ [c]). split; [change (ina s1) with (ina s'); rewrite EI, A1; symmetry; apply app_assoc|].
  change (cur_level s1) with (cur_level s). intros d. specialize (A2 d). destruct (Nat.eq_dec d c) as [->|N].
  - rewrite F1. rewrite K in A2. destruct (css s0 c) as [k0|] eqn:K0; [|easy]. destruct A2 as (X1 & X2 & X3 & X4).
    assert (NI' : ~ In c seg) by (intros I; destruct (X2 I); lia).
    split; [congruence|]. split; [split; auto; rewrite <- (X3 NI'); auto|]. split; [rewrite in_app_iff; cbn; intuition|]. rewrite SV. auto.
  - rewrite F2 by auto. assert (I : In d (seg ++ [c]) <-> In d seg) by (rewrite in_app_iff; cbn; intuition congruence).
    destruct (css s0 d), (css s d); auto. now rewrite I.
Qed.
Lemma mark_inactive_own O cfg c k s : css s c = Some k -> cframe O cfg c k s (mark_inactive c s).
Proof.
  intros K. unfold mark_inactive. rewrite K. destruct (c_removable (c_def k)) eqn:R, (marked_inactive k) eqn:M; cbn [andb negb].
  2: { constructor.
       - now split.
       - now apply (wgrow_eq s s); auto using wgrow_refl.
       - apply talk_data, talk_refl.
       - intros d N. rewrite set_cs_other by auto. reflexivity.
       - exists (set_inact (S (cur_level s)) k). split; [apply set_cs_same|]. split; [now repeat split|]. right. auto. }
  all: constructor; auto using same3_refl, wgrow_refl, talk_refl; exists k; split; auto; split; auto; now repeat split.
Qed.
Lemma cframe_core O cfg G c k s s' : core G s -> css s c = Some k -> cframe O cfg c k s s' -> core G s'.
Proof.
  intros CO K [S3 _ _ OT (k' & K' & KP & CH)]. apply (own_core G c k k' s s'); auto. intuition.
Qed.
(** The rest of the queue while it is processed: a constraint can become inactive on the current level. *)
Record tod_run (t : list cid) (s : state) : Prop := {
  r_in : forall c k, css s c = Some k -> c_todo k = true -> In c t;
  r_ref : forall c, In c t -> exists k, css s c = Some k /\ removable_at (cur_level s) k = false;
  r_act : forall c k, css s c = Some k -> c_todo k = true -> c_inact k = 0%nat }.
Lemma tod_ok_run t s : tod_ok t s -> tod_run t s.
Proof.
  intros [A B C]. constructor; auto. intros c I. destruct (B c I) as (k & K & Z0). exists k. split; auto. apply removable_false. auto.
Qed.
Lemma tod_run_nil s : tod_run [] s -> tod_ok [] s.
Proof. intros [A B C]. constructor; auto. intros c []. Qed.
Lemma cframe_tod O cfg t c k s s' : css s c = Some k -> c_todo k = false -> cframe O cfg c k s s' -> tod_run t s -> tod_run t s'.
Proof.
  intros K T0 [S3 _ _ OT (k' & K' & (KD & KT & _) & CH)] [A B C]. assert (CL : cur_level s' = cur_level s) by now apply same3_cur. constructor; auto.
  - intros d kd. destruct (Nat.eq_dec d c) as [->|N]; [|rewrite OT by auto; apply A]. rewrite K'. intros E; injection E as <-. congruence.
  - intros d I. rewrite CL. destruct (B d I) as (kd & KD' & R). destruct (Nat.eq_dec d c) as [->|N]; [|rewrite OT by auto; eauto].
    exists k'. split; auto. replace kd with k in * by congruence. apply removable_false in R. apply removable_false. intuition lia.
  - intros d kd. destruct (Nat.eq_dec d c) as [->|N]; [|rewrite OT by auto; apply C]. rewrite K'. intros E; injection E as <-. congruence.
Qed.
Lemma clear_todo_core G c s : core G s -> core G (clear_todo s c).
Proof.
  intros A. unfold clear_todo. destruct (css s c) as [k|] eqn:K; auto. apply core_veq with s; auto. now apply set_cs_veq with k.
Qed.
Lemma clear_todo_tod c t s : tod_run (c :: t) s ->
  tod_run t (clear_todo s c) /\ exists k, css (clear_todo s c) c = Some k /\ c_todo k = false /\ removable_at (cur_level s) k = false.
Proof.
  intros [A B C]. destruct (B c (or_introl eq_refl)) as (k & K & R). unfold clear_todo. rewrite K. split.
  - constructor; auto.
    + intros d kd. destruct (Nat.eq_dec d c) as [->|N].
      * rewrite set_cs_same. intros E; now injection E as <-.
      * rewrite set_cs_other by auto. intros E X. destruct (A d kd E X); [congruence|auto].
    + intros d I. change (cur_level (set_cs c (set_todo false k) s)) with (cur_level s). destruct (Nat.eq_dec d c) as [->|N].
      * rewrite set_cs_same. exists (set_todo false k). auto.
      * rewrite set_cs_other by auto. apply B. now right.
    + intros d kd. destruct (Nat.eq_dec d c) as [->|N].
      * rewrite set_cs_same. intros E; now injection E as <-.
      * rewrite set_cs_other by auto. apply C.
  - exists (set_todo false k). split; [apply set_cs_same|]. split; auto.
Qed.

(** ** Propagation of the constraints in the queue *)
(** The sums of a constraint that is propagated are those of the bounds. *)
Lemma settled_li s : settled s -> forall x, li s x = lb (vst s x) /\ ui s x = ub (vst s x).
Proof. intros (_ & _ & H) x. destruct (H x) as [A B]. unfold li, ui. rewrite A, B. lia. Qed.
Lemma low_sum_lo s es : low (fun x => lb (vst s x)) (fun x => ub (vst s x)) es = sum_lo s es.
Proof. reflexivity. Qed.
Lemma low_sum_hi s es : low (fun x => ub (vst s x)) (fun x => lb (vst s x)) es = sum_hi s es.
Proof. reflexivity. Qed.
Lemma settled_sums s c k es : bcore s -> settled s -> css s c = Some k -> sum_es (c_def k) = Some es -> removable_at (cur_level s) k = false ->
  c_lo k = sum_lo s es /\ c_hi k = sum_hi s es.
Proof.
  intros B ST K E R. destruct (b_sum s B c k es K E R) as [-> ->]. rewrite <- low_sum_lo, <- low_sum_hi.
  split; apply low_ext; intros x; now destruct (settled_li s ST x).
Qed.
Lemma sum_lo_hi s es : Forall (fun x => lb (vst s x) <= ub (vst s x)) (map snd es) -> sum_lo s es <= sum_hi s es.
Proof.
  unfold sum_lo, sum_hi, zsum. induction es as [|(co, x) es IH]; cbn [map fold_right]; [lia|]. intros H. inversion_clear H as [|? ? H1 H2].
  apply IH in H2. unfold lo_of, hi_of. cbn [fst snd] in *. cbv beta in H1. destruct (Z.ltb_spec 0 co) as [P|P]; [pose proof (Z.mul_le_mono_nonneg_l _ _ co ltac:(lia) H1)|pose proof (Z.mul_le_mono_nonpos_l _ _ co ltac:(lia) H1)]; apply Z.add_le_mono; auto.
Qed.

Section Steps.
Context (srt : (ival -> Z) -> list ival -> list ival) (O : oracle) (cfg : config) (chk : bool).

(** The state check of linear constraints (check_state_) makes no difference. *)
Lemma prop_con_chk c k s : bcore s -> settled s -> css s c = Some k -> removable_at (cur_level s) k = false -> prop_con srt O cfg true c s = prop_con srt O cfg false c s.
Proof.
  intros B ST K I. unfold prop_con. rewrite K. destruct (sum_es (c_def k)) as [es|] eqn:SE; [|destruct (c_def k); try reflexivity; discriminate SE].
  assert (E : prop_sum O cfg true c s = prop_sum O cfg false c s); [|destruct (c_def k); auto].
  unfold prop_sum. rewrite K, SE.
  destruct (settled_sums s c k es B ST K SE I) as [L H].
  assert (LH : sum_lo s es <= sum_hi s es).
  { apply sum_lo_hi. assert (V := b_vars s B c k K). assert (EV : cvars (c_def k) = map snd es) by (destruct (c_def k); try discriminate SE; injection SE as <-; reflexivity).
    rewrite EV in V. apply Forall_impl with (2 := V). intros x X. now apply (b_bnd s B). }
  assert (Q : negb ((c_lo k =? sum_lo s es) && (c_hi k =? sum_hi s es) && (sum_lo s es <=? sum_hi s es)) = false).
  { rewrite L, H, !Z.eqb_refl. apply Z.leb_le in LH. now rewrite LH. }
  rewrite Q. reflexivity.
Qed.

Lemma settled_same3 s s' : same3 s s' -> settled s -> settled s'.
Proof.
  intros A (B & C & D). split; [|split].
  - now rewrite (same3_get inl (fun _ => eq_refl) _ _ A).
  - now rewrite (same3_get inu (fun _ => eq_refl) _ _ A).
  - intros x. rewrite (same3_get ldiff (fun _ => eq_refl) _ _ A), (same3_get udiff (fun _ => eq_refl) _ _ A). apply D.
Qed.
Lemma clear_todo_same3 c s : same3 s (clear_todo s c).
Proof. unfold clear_todo. destruct (css s c); [now split|apply same3_refl]. Qed.

Lemma run_todo_inv G cs : forall ret s o s', core G s -> settled s -> tod_run cs s -> run_todo srt O cfg chk cs ret s = (o, s') ->
  core G s' /\ settled s' /\ same3 s s' /\ (forall b, o = Ok b -> tod_run [] s').
Proof.
  induction cs as [|c cs IH]; intros ret s o s' C ST T E; cbn [run_todo] in E.
  - injection E as <- <-. auto using same3_refl.
  - destruct (clear_todo_tod c cs s T) as (T1 & k & K & KT & KI).
    assert (C1 := clear_todo_core G c s C). assert (S1 := clear_todo_same3 c s). assert (ST1 := settled_same3 _ _ S1 ST).
    set (s1 := clear_todo s c) in *.
    assert (TR : forall s2, core G s2 /\ settled s2 /\ same3 s1 s2 /\ (forall b, o = Ok b -> tod_run [] s2) -> core G s2 /\ settled s2 /\ same3 s s2 /\ (forall b, o = Ok b -> tod_run [] s2)).
    { intros s2 (X1 & X2 & X3 & X4). split; [|split; [|split]]; auto. now apply same3_trans with s1. }
    destruct ret; cbn [negb] in E; [|apply TR; eapply IH; eauto].
    rewrite K in E. destruct (is_false _ _ _).
    + assert (F := mark_inactive_own O cfg c k s1 K). assert (F1 := cf_same _ _ _ _ _ _ F).
      apply IH in E as (X1 & X2 & X3 & X4).
      * apply TR. split; [|split; [|split]]; auto. now apply same3_trans with (mark_inactive c s1).
      * now apply (cframe_core O cfg G c k s1).
      * now apply settled_same3 with s1.
      * now apply (cframe_tod O cfg cs c k s1).
    + destruct (prop_con srt O cfg chk c s1) as [o1 s2] eqn:P. assert (F := prop_con_frame O cfg srt chk c k s1 o1 s2 K P).
      assert (C2 : core G s2) by now apply (cframe_core O cfg G c k s1).
      assert (ST2 : settled s2) by (apply settled_same3 with s1; [apply F|auto]).
      assert (T2 : tod_run cs s2) by now apply (cframe_tod O cfg cs c k s1).
      destruct o1 as [b|e|].
      * apply IH in E as (X1 & X2 & X3 & X4); auto. apply TR. split; [|split; [|split]]; auto. apply same3_trans with s2; auto. apply F.
      * injection E as <- <-. apply TR. split; [|split; [|split]]; auto; [apply F|discriminate].
      * injection E as <- <-. apply TR. split; [|split; [|split]]; auto; [apply F|discriminate].
Qed.
End Steps.

Lemma run_todo_chk srt O cfg G cs : forall ret s, core G s -> settled s -> tod_run cs s -> run_todo srt O cfg true cs ret s = run_todo srt O cfg false cs ret s.
Proof.
  induction cs as [|c cs IH]; intros ret s C ST T; cbn [run_todo]; [reflexivity|].
  destruct (clear_todo_tod c cs s T) as (T1 & k & K & KT & KI).
  assert (C1 := clear_todo_core G c s C). assert (ST1 := settled_same3 _ _ (clear_todo_same3 c s) ST).
  rewrite <- (same3_cur _ _ (clear_todo_same3 c s)) in KI.
  set (s1 := clear_todo s c) in *. destruct ret; cbn [negb]; [|now apply IH].
  rewrite K. destruct (is_false _ _ _).
  - apply IH.
    + apply (cframe_core O cfg G c k s1); auto. now apply mark_inactive_own.
    + apply settled_same3 with s1; auto. now apply (mark_inactive_own O cfg c k s1).
    + apply (cframe_tod O cfg cs c k s1); auto. now apply mark_inactive_own.
  - rewrite (prop_con_chk srt O cfg c k s1) by eauto using core_b. destruct (prop_con srt O cfg false c s1) as [o1 s2] eqn:P.
    assert (F := prop_con_frame O cfg srt false c k s1 o1 s2 K P). destruct o1 as [b|e|]; auto. apply IH.
    + now apply (cframe_core O cfg G c k s1).
    + apply settled_same3 with s1; [apply F|auto].
    + now apply (cframe_tod O cfg cs c k s1).
Qed.
