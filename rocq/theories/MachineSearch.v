(** In the machine types the search computes the same: passing on bounds, backtracking and the check. *)
From Verif Require Import Base Util UtilProofs VarState Terms TermsSpec Solver OrderSpec OrderProofs1 OrderProofs2 Orders Sum PropProofs ConSpec
  Distinct DistinctProofs2 Disjoint Objective Search SearchSpec SearchFrame SearchGrow SearchInv SearchInv2 SearchInv3 SearchInv4 SearchInv5 SearchUndo SearchSetup SearchMain
  CheckFrame CheckSays CheckGrow CheckProofs SumMachine MachineSpec SumMachineProofs MachineInv.
From Coq Require Import Permutation.
Open Scope Z_scope.

(** ** Ranges *)

(** All bounds are in the range of values, and constraints have room. *)
Record snug (s : state) : Prop := {
  sn_known : forall x, MIN_VAL <= li s x /\ ui s x <= MAX_VAL;
  sn_bnd : forall x, lb (vst s x) <= MAX_VAL /\ MIN_VAL <= ub (vst s x);
  sn_room : forall c k, css s c = Some k -> roomy (c_def k) }.
Lemma snug_moved s s' : bcore s -> snug s -> moved s s' -> snug s'.
Proof.
  intros B [K R Q] (M1 & M2 & M3). constructor.
  - intros x. specialize (K x). specialize (M1 x). lia.
  - intros x. specialize (R x). specialize (K x). specialize (M3 x). pose proof (b_diff s B x). unfold li, ui in *. lia.
  - intros c k E. specialize (M2 c). rewrite E in M2. destruct (css s c) as [k0|] eqn:E0; [|discriminate]. cbn in M2. injection M2 as ->. now apply (Q c).
Qed.
Lemma snug_range s x : bcore s -> snug s -> (MIN_VAL <= li s x <= MAX_VAL /\ MIN_VAL <= ui s x <= MAX_VAL) /\ MIN_VAL <= lb (vst s x) <= MAX_VAL /\ MIN_VAL <= ub (vst s x) <= MAX_VAL.
Proof. intros B [K R Q]. specialize (K x). specialize (R x). pose proof (b_diff s B x). unfold li, ui in *. lia. Qed.
Definition in64 (z : Z) : Prop := - 2^63 <= z <= 2^63 - 1.
Lemma low_fits L U es : (forall x, MIN_VAL <= L x <= MAX_VAL) -> (forall x, MIN_VAL <= U x <= MAX_VAL) -> - weight es <= low L U es <= weight es.
Proof.
  intros A B. induction es as [|(co, x) es IH]; [now cbn|].
  change (low L U ((co, x) :: es)) with (co * (if 0 <? co then L x else U x) + low L U es). cbn [weight].
  assert (V : Z.abs (if 0 <? co then L x else U x) <= MAX_VAL) by (specialize (A x); specialize (B x); destruct (0 <? co); unfold MIN_VAL in *; lia).
  set (v := if 0 <? co then L x else U x) in *. assert (P : Z.abs (co * v) <= Z.abs co * MAX_VAL) by (rewrite Z.abs_mul; apply Z.mul_le_mono_nonneg_l; lia). lia.
Qed.
Lemma roomy_facts d es : roomy d -> sum_es d = Some es -> weight es <= 2^63 - 1 /\ forall co x, In (co, x) es -> Z.abs co <= MAX_VAL.
Proof.
  intros R E. assert (X : exists rhs, room es rhs) by (destruct d; try discriminate; injection E as <-; [eauto|destruct R; eauto]). destruct X as (rhs & X). split.
  - now apply room_abs in X.
  - intros co x I. destruct (proj1 X co x I). unfold MIN_VAL in *. lia.
Qed.
Lemma low_in64 L U d es : roomy d -> sum_es d = Some es -> (forall x, MIN_VAL <= L x <= MAX_VAL) -> (forall x, MIN_VAL <= U x <= MAX_VAL) -> in64 (low L U es).
Proof. intros R E A B. destruct (roomy_facts d es R E) as (W & _). pose proof (low_fits L U es A B). unfold in64. lia. Qed.
Lemma coefs_in i x es : In i (coefs x es) -> In (i, x) es.
Proof.
  induction es as [|(co, y) es IH]; [easy|]. rewrite coefs_cons. destruct (Nat.eqb_spec y x) as [->|N]; cbn [In]; intros H; [|auto]. destruct H as [->|H]; auto.
Qed.
Lemma prod_fits i d : Z.abs i <= MAX_VAL -> Z.abs d <= 2 * MAX_VAL -> in64 (i * d).
Proof.
  intros A B. assert (P : Z.abs (i * d) <= MAX_VAL * (2 * MAX_VAL)) by (rewrite Z.abs_mul; apply Z.mul_le_mono_nonneg; lia).
  unfold in64, MAX_VAL in *. lia.
Qed.
Lemma pos_cons d i l : pos_part d (i :: l) = Z.max 0 (i * d) + pos_part d l.
Proof. reflexivity. Qed.
Lemma neg_cons d i l : neg_part d (i :: l) = Z.min 0 (i * d) + neg_part d l.
Proof. reflexivity. Qed.
Lemma pos_nonneg d l : 0 <= pos_part d l.
Proof. induction l as [|i l IH]; [now cbn|]. rewrite pos_cons. lia. Qed.
Lemma neg_nonpos d l : neg_part d l <= 0.
Proof. induction l as [|i l IH]; [now cbn|]. rewrite neg_cons. lia. Qed.

(** ** Passing on changed bounds *)
Lemma mcs_update_ok i d k : (sum_es (c_def k) <> None -> Z.abs i <= MAX_VAL /\ Z.abs d <= 2 * MAX_VAL /\ in64 (c_lo k + Z.max 0 (i * d)) /\ in64 (c_hi k + Z.min 0 (i * d))) ->
  mcs_update i d k = Ok (cs_update i d k).
Proof.
  intros H. unfold mcs_update, cs_update. destruct (c_def k); auto;
  (destruct H as (A & B & C & D); [discriminate|]; pose proof (prod_fits i d A B) as P; unfold msum_update, sum_update, imul, iadd, in64 in *;
   rewrite (ok64 (i * d)) by lia; cbn [bind]; destruct (Z.ltb_spec (i * d) 0); rewrite ok64 by lia; reflexivity).
Qed.
Definition fit (d : Z) (is : list Z) (k : cst) : Prop := Z.abs d <= 2 * MAX_VAL /\ (forall i, In i is -> Z.abs i <= MAX_VAL) /\
  in64 (c_lo k) /\ in64 (c_hi k) /\ in64 (c_lo k + pos_part d is) /\ in64 (c_hi k + neg_part d is).
Lemma mupdate_watches_ok n x d ws : forall s,
  (forall c k, css s c = Some k -> removable_at n k = false -> sum_es (c_def k) <> None -> ents c ws <> [] -> fit d (ents c ws) k) ->
  mupdate_watches n x d ws s = Ok (update_watches n x d ws s).
Proof.
  induction ws as [|(i, c) ws IH]; intros s H; cbn [mupdate_watches update_watches]; [reflexivity|].
  assert (HT : forall c0 k, css s c0 = Some k -> removable_at n k = false -> sum_es (c_def k) <> None -> c0 <> c -> ents c0 ws <> [] -> fit d (ents c0 ws) k).
  { intros e ke KE R S N EN. specialize (H e ke KE R S). rewrite ents_cons in H. destruct (Nat.eqb_spec c e); [congruence|]. auto. }
  destruct (css s c) as [k|] eqn:K.
  - destruct (removable_at n k) eqn:R.
    + apply IH. cbn [css set_remw]. intros e ke KE RE S EN. destruct (Nat.eq_dec e c) as [->|N]; [congruence|]. now apply HT.
    + rewrite mcs_update_ok.
      2: { intros S. specialize (H c k K R S). rewrite ents_cons, Nat.eqb_refl in H. destruct H as (H1 & H2 & H3 & H4 & H5 & H6); [easy|].
           rewrite pos_cons in H5. rewrite neg_cons in H6. pose proof (pos_nonneg d (ents c ws)). pose proof (neg_nonpos d (ents c ws)). unfold in64 in *.
           split; [apply H2; now left|]. lia. }
      destruct (cs_update i d k) as [b k1] eqn:U. apply cs_update_shift in U as [SH TD]. cbn [bind].
      set (s1 := set_cs c k1 s) in *. set (s2 := if b then mark_todo c s1 else s1) in *.
      assert (S2 : shifted (fun e => if Nat.eqb c e then Z.max 0 (i * d) else 0) (fun e => if Nat.eqb c e then Z.min 0 (i * d) else 0) s s2).
      { assert (S1 := shifted_set c k k1 _ _ s K SH). fold s1 in S1. unfold s2. destruct b; auto.
        eapply shifted_ext; [eapply shifted_trans; [exact S1|apply shifted_mark]|..]; intros e; cbn beta; lia. }
      rewrite IH; [cbn [bind]; now destruct (update_watches n x d ws s2)|].
      intros e k2 KE RE SE EN. destruct (shifted_some _ _ _ _ _ _ S2 KE) as (ke & KE0 & [D1 D2 D3]). rewrite D1 in SE. destruct (D3 SE) as [D4 D5].
      rewrite (removable_eq _ ke k2 D2) in RE. destruct (Nat.eqb_spec c e) as [<-|N].
      * assert (ke = k) as -> by congruence. specialize (H c k K R SE). rewrite ents_cons, Nat.eqb_refl in H. destruct H as (H1 & H2 & H3 & H4 & H5 & H6); [easy|].
        rewrite pos_cons in H5. rewrite neg_cons in H6. pose proof (pos_nonneg d (ents c ws)). pose proof (neg_nonpos d (ents c ws)). unfold fit, in64 in *. rewrite D4, D5.
        split; [exact H1|]. split; [intros j J; apply H2; now right|]. lia.
      * destruct (HT e ke KE0 RE SE (fun Q => N (eq_sym Q)) EN) as (H1 & H2 & H3). unfold fit. rewrite D4, D5, !Z.add_0_r. auto.
  - rewrite IH; [cbn [bind]; now destruct (update_watches n x d ws s)|]. intros e ke KE RE S EN. destruct (Nat.eq_dec e c) as [->|N]; [congruence|]. now apply HT.
Qed.
Lemma pass_ok s x d : bcore s -> snug s -> (d = ldiff s x \/ d = udiff s x) -> mupdate_constraints x d s = Ok (update_constraints x d s).
Proof.
  intros B SN D. unfold mupdate_constraints, update_constraints. rewrite mupdate_watches_ok; [cbn [bind]; now destruct (update_watches _ _ _ _ _)|].
  intros c k K R S EN. destruct (sum_es (c_def k)) as [es|] eqn:ES; [|easy]. assert (RM := sn_room s SN c k K). destruct (roomy_facts _ _ RM ES) as (_ & CO).
  pose proof (all_watches s c k x B K R) as PW. rewrite (sum_watches _ _ ES) in PW. fold (coefs x es) in PW.
  destruct (b_sum s B c k es K ES R) as [L1 L2]. destruct (b_diff s B x) as [Dl Du].
  assert (IL : forall y, MIN_VAL <= li s y <= MAX_VAL) by (intros y; now apply snug_range). assert (IU : forall y, MIN_VAL <= ui s y <= MAX_VAL) by (intros y; now apply snug_range).
  destruct (snug_range s x B SN) as (_ & X1 & X2).
  assert (ID : Z.abs d <= 2 * MAX_VAL). { specialize (IL x). specialize (IU x). unfold li, ui, MIN_VAL in *. destruct D as [-> | ->]; lia. }
  unfold fit. rewrite (pos_perm d _ _ PW), (neg_perm d _ _ PW), L1, L2.
  split; [exact ID|]. split; [intros i I; apply (Permutation_in _ PW), coefs_in in I; now apply CO in I|].
  split; [now apply low_in64 with (c_def k)|]. split; [now apply low_in64 with (c_def k)|].
  destruct D as [-> | ->].
  - set (L' := fun y => if Nat.eqb y x then lb (vst s x) else li s y).
    assert (IL' : forall y, MIN_VAL <= L' y <= MAX_VAL) by (intros y; unfold L'; destruct (Nat.eqb y x); auto).
    destruct (low_lower (li s) (ui s) L' x (ldiff s x) es Dl) as [<- <-].
    + unfold L', li. rewrite Nat.eqb_refl. lia.
    + intros y N. unfold L'. destruct (Nat.eqb_spec y x); [easy|auto].
    + split; now apply low_in64 with (c_def k).
  - set (U' := fun y => if Nat.eqb y x then ub (vst s x) else ui s y).
    assert (IU' : forall y, MIN_VAL <= U' y <= MAX_VAL) by (intros y; unfold U'; destruct (Nat.eqb y x); auto).
    destruct (low_upper (li s) (ui s) U' x (udiff s x) es Du) as [<- <-].
    + unfold U', ui. rewrite Nat.eqb_refl. lia.
    + intros y N. unfold U'. destruct (Nat.eqb_spec y x); [easy|auto].
    + split; now apply low_in64 with (c_def k).
Qed.
Lemma mintegrate_ok G s : sinv G s -> snug s -> mintegrate s = Ok (integrate s).
Proof.
  intros S SN. unfold mintegrate, integrate.
  assert (U : forall xs s, sinv G s -> snug s -> mintegrate_upper xs s = Ok (fold_left integrate_upper xs s) /\ sinv G (fold_left integrate_upper xs s) /\ snug (fold_left integrate_upper xs s)).
  { induction xs as [|x xs IH]; intros t T N; cbn [mintegrate_upper fold_left]; [auto|]. assert (B := core_b _ _ (proj1 T)). rewrite pass_ok by auto. cbn [bind].
    change (set_udiff _ _) with (integrate_upper t x). destruct (integrate_upper_sinv G t x T) as (A & _). apply IH; auto. apply snug_moved with t; auto. now apply moved_integrate_upper. }
  assert (L : forall xs s, sinv G s -> snug s -> mintegrate_lower xs s = Ok (fold_left integrate_lower xs s)).
  { induction xs as [|x xs IH]; intros t T N; cbn [mintegrate_lower fold_left]; [auto|]. assert (B := core_b _ _ (proj1 T)). rewrite pass_ok by auto. cbn [bind].
    change (set_ldiff _ _) with (integrate_lower t x). destruct (integrate_lower_sinv G t x T) as (A & _). apply IH; auto. apply snug_moved with t; auto. now apply moved_integrate_lower. }
  destruct (U (inu s) s S SN) as (-> & A & N1). cbn [bind]. set (s1 := fold_left integrate_upper (inu s) s) in *.
  destruct (integrate_uppers G (inu s) s S) as (_ & A2 & A3 & A4). fold s1 in A2, A3, A4.
  assert (S2 : sinv G (set_inl (inl s1) (set_inu [] s1))).
  { apply sinv_set_in; auto; intros x N; [now apply (b_in s1 (core_b _ _ (proj1 A)))|]. exfalso. apply N.
    destruct (A4 x) as (_ & C1 & C2). destruct (Z.eq_dec (udiff s x) 0) as [Z0|Z0]; [auto|]. apply C1. now apply (b_in s (core_b _ _ (proj1 S))). }
  assert (ES : set_inl (inl s1) (set_inu [] s1) = set_inu [] s1) by now destruct s1. rewrite ES in S2. set (s2 := set_inu [] s1) in *.
  rewrite L; auto. apply snug_moved with s1; auto; [apply (core_b _ _ (proj1 A))|now apply moved_fields].
Qed.

(** ** Backtracking *)
Lemma mcs_undo_ok i d k : (sum_es (c_def k) <> None -> Z.abs i <= MAX_VAL /\ Z.abs d <= 2 * MAX_VAL /\ in64 (c_lo k - Z.max 0 (i * d)) /\ in64 (c_hi k - Z.min 0 (i * d))) ->
  mcs_undo i d k = Ok (cs_undo i d k).
Proof.
  intros H. unfold mcs_undo, cs_undo. destruct (c_def k); auto;
  (destruct H as (A & B & C & D); [discriminate|]; pose proof (prod_fits i d A B) as P; unfold msum_undo, sum_undo, imul, isub, in64 in *;
   rewrite (ok64 (i * d)) by lia; cbn [bind]; destruct (Z.ltb_spec 0 (i * d)); rewrite ok64 by lia; reflexivity).
Qed.
Definition fit_back (d : Z) (is : list Z) (k : cst) : Prop := Z.abs d <= 2 * MAX_VAL /\ (forall i, In i is -> Z.abs i <= MAX_VAL) /\
  in64 (c_lo k) /\ in64 (c_hi k) /\ in64 (c_lo k - pos_part d is) /\ in64 (c_hi k - neg_part d is).
Lemma mundo_watches_ok d ws : forall s,
  (forall c k, css s c = Some k -> sum_es (c_def k) <> None -> ents c ws <> [] -> fit_back d (ents c ws) k) ->
  mundo_watches d ws s = Ok (fold_left (undo_watch d) ws s).
Proof.
  induction ws as [|(i, c) ws IH]; intros s H; cbn [mundo_watches fold_left]; [reflexivity|].
  assert (HT : forall c0 k, css s c0 = Some k -> sum_es (c_def k) <> None -> c0 <> c -> ents c0 ws <> [] -> fit_back d (ents c0 ws) k).
  { intros e ke KE S N EN. specialize (H e ke KE S). rewrite ents_cons in H. destruct (Nat.eqb_spec c e); [congruence|]. auto. }
  unfold undo_watch at 2. cbn [fst snd]. destruct (css s c) as [k|] eqn:K.
  - rewrite mcs_undo_ok.
    2: { intros S. specialize (H c k K S). rewrite ents_cons, Nat.eqb_refl in H. destruct H as (H1 & H2 & H3 & H4 & H5 & H6); [easy|].
         rewrite pos_cons in H5. rewrite neg_cons in H6. pose proof (pos_nonneg d (ents c ws)). pose proof (neg_nonpos d (ents c ws)). unfold in64 in *.
         split; [apply H2; now left|]. lia. }
    cbn [bind]. apply IH. destruct (cs_undo_shift i d k) as [[D1 D2 D3] _]. set (k' := cs_undo i d k) in *.
    intros e ke KE S EN. destruct (Nat.eq_dec e c) as [->|N]; [|rewrite set_cs_other in KE by auto; now apply HT].
    rewrite set_cs_same in KE. injection KE as <-. rewrite D1 in S. destruct (D3 S) as [D4 D5]. specialize (H c k K S). rewrite ents_cons, Nat.eqb_refl in H. destruct H as (H1 & H2 & H3 & H4 & H5 & H6); [easy|].
    rewrite pos_cons in H5. rewrite neg_cons in H6. pose proof (pos_nonneg d (ents c ws)). pose proof (neg_nonpos d (ents c ws)). unfold fit_back, in64 in *. rewrite D4, D5.
    split; [exact H1|]. split; [intros j J; apply H2; now right|]. lia.
  - apply IH. intros e ke KE S EN. destruct (Nat.eq_dec e c) as [->|N]; [congruence|]. now apply HT.
Qed.

Section Undo.
Context (s0 s : state) (B : bcore s) (OP : opened s0 s) (SN : snug s) (B0 : bcore s0) (SN0 : snug s0)
  (RM : forall c k, css s c = Some k -> removable_at (cur_level s) k = true -> exists k0, css s0 c = Some k0 /\ c_inact k0 <> 0%nat).

(** The sums of constraints before and after a variable is undone. *)
Lemma back_fits x d s1 t1 L U L' U' : css t1 = css s1 -> undone s L U s1 -> undone s L' U' (fold_left (undo_watch d) (wat s x) t1) ->
  (d <> 0 -> forall c k, css s c = Some k -> removable_at (cur_level s) k = true -> ents c (wat s x) = []) -> d <> 0 -> Z.abs d <= 2 * MAX_VAL ->
  (forall y, MIN_VAL <= L y <= MAX_VAL) -> (forall y, MIN_VAL <= U y <= MAX_VAL) -> (forall y, MIN_VAL <= L' y <= MAX_VAL) -> (forall y, MIN_VAL <= U' y <= MAX_VAL) ->
  mundo_watches d (wat s x) t1 = Ok (fold_left (undo_watch d) (wat s x) t1).
Proof using B SN RM.
  intros C H H2 R NZ D IL IU IL' IU'. apply mundo_watches_ok. intros c k1 K1 S EN. destruct (undo_watches_spec d (wat s x) t1) as (_ & SH & _).
  set (t2 := fold_left _ _ t1) in *. specialize (H c). specialize (H2 c). destruct (shifted_some' _ _ _ _ _ _ SH K1) as (k2 & K2 & [D1 D2 D3]). rewrite <- C, K1 in H. rewrite K2 in H2.
  destruct (css s c) as [k|] eqn:K; [|easy]. destruct H as (E1 & _ & _ & E2), H2 as (F1 & _ & _ & F2). destruct (D3 S) as [D4 D5]. rewrite E1 in S.
  destruct (sum_es (c_def k)) as [es|] eqn:ES; [|easy]. specialize (E2 es eq_refl). specialize (F2 es eq_refl). destruct (removable_at (cur_level s) k) eqn:RE.
  - exfalso. now apply EN, (R NZ c k).
  - assert (RO := sn_room s SN c k K). destruct (roomy_facts _ _ RO ES) as (_ & CO). destruct E2 as [E2 E3], F2 as [F2 F3].
    pose proof (all_watches s c k x B K RE) as PW. rewrite (sum_watches _ _ ES) in PW. fold (coefs x es) in PW.
    split; [exact D|]. split; [intros i I; apply (Permutation_in _ PW), coefs_in in I; now apply CO in I|].
    assert (Q1 : c_lo k1 - pos_part d (ents c (wat s x)) = c_lo k2) by lia. assert (Q2 : c_hi k1 - neg_part d (ents c (wat s x)) = c_hi k2) by lia.
    rewrite Q1, Q2, E2, E3, F2, F3. repeat (split; [now apply low_in64 with (c_def k)|]). now apply low_in64 with (c_def k).
Qed.
Lemma set_lowers seg s1 : (forall y, ldiff s0 y = 0 /\ udiff s0 y = 0) -> lowers s0 s seg s1 -> forall y, MIN_VAL <= li s1 y <= MAX_VAL /\ MIN_VAL <= ui s1 y <= MAX_VAL.
Proof using B SN B0 SN0 RM OP.
  intros SE [F D L R _] y. destruct (snug_range s y B SN) as ((A1 & A2) & A3 & A4). destruct (snug_range s0 y B0 SN0) as (_ & A5 & A6).
  assert (UD : udiff s1 = udiff s) by (rewrite F; reflexivity). unfold li, ui in *. rewrite UD. destruct (R y) as (-> & _). split; [|exact A2].
  destruct (in_dec Nat.eq_dec y seg) as [I|I]; [destruct (L y I) as (-> & _ & ->); exact A1|]. destruct (D y I) as (-> & _ & ->). lia.
Qed.
Lemma mundo_lower_ok x seg s1 : (forall y, ldiff s0 y = 0 /\ udiff s0 y = 0) -> NoDup (x :: seg) -> lbs (vst s x) = (cur_level s, lb (vst s0 x)) :: lbs (vst s0 x) ->
  lowers s0 s (x :: seg) s1 -> mundo_lower1 x s1 = undo_lower1 x s1.
Proof using B OP SN B0 SN0 RM.
  intros SE ND ST H. destruct (undo_lower_step s0 s x seg B OP ND ST RM s1 H) as (s2 & E2 & H2).
  destruct (lo_left _ _ _ _ H x (or_introl eq_refl)) as (X1 & X2 & X3). pose proof (lo_frame _ _ _ _ H) as F1.
  assert (W : wat s1 x = wat s x) by (rewrite F1; reflexivity).
  unfold mundo_lower1, undo_lower1 in *. rewrite X2, ST, X1, X3 in *. destruct (snug_range s x B SN) as ((A1 & A2) & A3 & A4). destruct (snug_range s0 x B0 SN0) as (_ & A5 & A6).
  unfold isub. unfold li, MIN_VAL, MAX_VAL in A1, A3, A5. rewrite (ok32 (lb (vst s x) - lb (vst s0 x))) by lia. cbn [bind]. rewrite ok32 by lia. cbn [bind].
  set (d := lb (vst s x) - lb (vst s0 x) - ldiff s x) in *. destruct (Z.eqb_spec d 0) as [Z0|NZ]; [reflexivity|]. rewrite W in *. set (t1 := set_vs x _ s1) in *.
  injection E2 as E2. rewrite (back_fits x d s1 t1 (li s1) (ui s1) (li s2) (ui s2)); [reflexivity|reflexivity|apply H| | |exact NZ|unfold d, MAX_VAL; lia|..].
  - apply undone_ext with (li s2) (ui s2) s2; auto; [|apply H2]. rewrite <- E2. reflexivity.
  - intros _ c k K R. apply in_nil. intros i I. apply ents_in in I. destruct (RM c k K R) as (k0 & K0 & N0).
    destruct (o_wat _ _ OP c k0 x i K0 N0 I) as [A _]. unfold li in A. lia.
  - intros y. now apply (set_lowers (x :: seg) s1).
  - intros y. now apply (set_lowers (x :: seg) s1).
  - intros y. now apply (set_lowers seg s2).
  - intros y. now apply (set_lowers seg s2).
Qed.
Lemma mundo_lowers seg : (forall y, ldiff s0 y = 0 /\ udiff s0 y = 0) -> NoDup seg -> (forall x, In x seg -> lbs (vst s x) = (cur_level s, lb (vst s0 x)) :: lbs (vst s0 x)) ->
  forall s1, lowers s0 s seg s1 -> undo_each mundo_lower1 seg s1 = undo_each undo_lower1 seg s1.
Proof using B OP SN B0 SN0 RM.
  intros SE ND ST. induction seg as [|x seg IH]; intros s1 H; cbn [undo_each]; [reflexivity|].
  rewrite (mundo_lower_ok x seg) by (auto; apply ST; now left).
  destruct (undo_lower_step s0 s x seg B OP ND (ST x (or_introl eq_refl)) RM s1 H) as (s2 & -> & H2). cbn [bind]. inversion_clear ND. apply IH; auto. intros y Y. apply ST. now right.
Qed.
Context (t : state) (WT : wat t = wat s) (DT : forall y, ldiff t y = 0).
Lemma set_uppers seg s1 : (forall y, ldiff s0 y = 0 /\ udiff s0 y = 0) -> uppers s0 s t seg s1 -> forall y, MIN_VAL <= li s1 y <= MAX_VAL /\ MIN_VAL <= ui s1 y <= MAX_VAL.
Proof using B SN B0 SN0 DT RM OP WT.
  intros SE [F D L R _] y. destruct (snug_range s y B SN) as ((A1 & A2) & A3 & A4). destruct (snug_range s0 y B0 SN0) as (_ & A5 & A6).
  assert (LD : ldiff s1 = ldiff t) by (rewrite F; reflexivity). unfold li, ui in *. rewrite LD, DT. destruct (R y) as (-> & _). split; [lia|].
  destruct (in_dec Nat.eq_dec y seg) as [I|I]; [destruct (L y I) as (-> & _ & ->); exact A2|]. destruct (D y I) as (-> & _ & ->). lia.
Qed.
Lemma mundo_upper_ok x seg s1 : (forall y, ldiff s0 y = 0 /\ udiff s0 y = 0) -> NoDup (x :: seg) -> ubs (vst s x) = (cur_level s, ub (vst s0 x)) :: ubs (vst s0 x) ->
  uppers s0 s t (x :: seg) s1 -> mundo_upper1 x s1 = undo_upper1 x s1.
Proof using B OP SN B0 SN0 RM WT DT.
  intros SE ND ST H. destruct (undo_upper_step s0 s t x seg B OP ND WT ST RM s1 H) as (s2 & E2 & H2).
  destruct (up_left _ _ _ _ _ H x (or_introl eq_refl)) as (X1 & X2 & X3). pose proof (up_frame _ _ _ _ _ H) as F1.
  assert (W : wat s1 x = wat s x) by (rewrite F1; cbn; now rewrite WT).
  unfold mundo_upper1, undo_upper1 in *. rewrite X2, ST, X1, X3 in *. destruct (snug_range s x B SN) as ((A1 & A2) & A3 & A4). destruct (snug_range s0 x B0 SN0) as (_ & A5 & A6).
  unfold isub. unfold ui, MIN_VAL, MAX_VAL in A2, A4, A6. rewrite (ok32 (ub (vst s x) - ub (vst s0 x))) by lia. cbn [bind]. rewrite ok32 by lia. cbn [bind].
  set (d := ub (vst s x) - ub (vst s0 x) - udiff s x) in *. destruct (Z.eqb_spec d 0) as [Z0|NZ]; [reflexivity|]. rewrite W in *. set (t1 := set_vs x _ s1) in *.
  injection E2 as E2. rewrite (back_fits x d s1 t1 (li s1) (ui s1) (li s2) (ui s2)); [reflexivity|reflexivity|apply H| | |exact NZ|unfold d, MAX_VAL; lia|..].
  - apply undone_ext with (li s2) (ui s2) s2; auto; [|apply H2]. rewrite <- E2. reflexivity.
  - intros _ c k K R. apply in_nil. intros i I. apply ents_in in I. destruct (RM c k K R) as (k0 & K0 & N0).
    destruct (o_wat _ _ OP c k0 x i K0 N0 I) as [_ A]. unfold ui in A. lia.
  - intros y. now apply (set_uppers (x :: seg) s1).
  - intros y. now apply (set_uppers (x :: seg) s1).
  - intros y. now apply (set_uppers seg s2).
  - intros y. now apply (set_uppers seg s2).
Qed.
Lemma mundo_uppers seg : (forall y, ldiff s0 y = 0 /\ udiff s0 y = 0) -> NoDup seg -> (forall x, In x seg -> ubs (vst s x) = (cur_level s, ub (vst s0 x)) :: ubs (vst s0 x)) ->
  forall s1, uppers s0 s t seg s1 -> undo_each mundo_upper1 seg s1 = undo_each undo_upper1 seg s1.
Proof using B OP SN B0 SN0 RM WT DT.
  intros SE ND ST. induction seg as [|x seg IH]; intros s1 H; cbn [undo_each]; [reflexivity|].
  rewrite (mundo_upper_ok x seg) by (auto; apply ST; now left).
  destruct (undo_upper_step s0 s t x seg B OP ND WT (ST x (or_introl eq_refl)) RM s1 H) as (s2 & -> & H2). cbn [bind]. inversion_clear ND. apply IH; auto. intros y Y. apply ST. now right.
Qed.
End Undo.

Theorem msolver_undo_ok G s : core G s -> (forall s0, In s0 (s :: G) -> snug s0) -> msolver_undo s = solver_undo s.
Proof.
  destruct G as [|s0 G]; intros [B C] SN; [unfold msolver_undo, solver_undo; now rewrite C|].
  destruct C as (SE & OP & C0). assert (B0 := core_b _ _ C0). destruct SE as (SE1 & SE2 & SE3).
  assert (N0 : snug s0) by (apply SN; cbn; auto). assert (N : snug s) by (apply SN; cbn; auto). clear SN.
  destruct (o_lvl _ _ OP) as (LV & LN & LT). destruct (o_lows _ _ OP) as (segl & UL & NDL & PL). destruct (o_ups _ _ OP) as (segu & UU & NDU & PU).
  destruct (o_inas _ _ OP) as (segi & UI & PI).
  assert (RM : forall c k, css s c = Some k -> removable_at (cur_level s) k = true -> exists k0, css s0 c = Some k0 /\ c_inact k0 <> 0%nat).
  { intros c k K R. specialize (PI c). rewrite K in PI. destruct (css s0 c) as [k0|]; [|easy]. exists k0. split; auto.
    destruct PI as (_ & A1 & A2 & _). apply removable_true in R. destruct (in_dec Nat.eq_dec c segi) as [I|I]; [destruct (A1 I); lia|rewrite <- (A2 I); lia]. }
  unfold msolver_undo, solver_undo. rewrite LV. destruct (lvls s0) as [|l0 ls0] eqn:LS0; [easy|].
  unfold mlevel_undo, level_undo. cbn [o_lo o_up o_ina o_rem new_level]. rewrite UL, skipn_seg.
  assert (H0 : lowers s0 s segl s).
  { constructor; auto.
    - now destruct s.
    - intros x NX. now apply PL in NX.
    - intros c. destruct (css s c) as [k|] eqn:K; auto. repeat split; auto. intros es ES. destruct (removable_at _ _) eqn:R; auto. now apply (b_sum s B c). }
  rewrite (mundo_lowers s0 s B OP N B0 N0 RM segl SE3 NDL (fun x => proj1 (PL x)) s H0).
  destruct (undo_lowers s0 s segl B OP NDL (fun x => proj1 (PL x)) RM s H0) as (s1 & -> & H1).
  cbn [bind]. destruct H1 as [F1 D1 _ R1 C1]. set (s2 := set_inl [] _).
  assert (U2 : uup s2 = uup s) by (unfold s2; rewrite F1; reflexivity). rewrite U2, UU, skipn_seg.
  assert (W2 : wat s2 = wat s) by (unfold s2; rewrite F1; reflexivity).
  assert (H2 : uppers s0 s s2 segu s2).
  { assert (V2 : vst s2 = vst s1) by reflexivity. assert (X2 : udiff s2 = udiff s) by (unfold s2; rewrite F1; reflexivity). constructor.
    - now destruct s2.
    - intros x NX. rewrite V2, X2. apply PU in NX. destruct (R1 x) as (-> & -> & _). tauto.
    - intros x NX. rewrite V2, X2. destruct (R1 x) as (-> & -> & _). auto.
    - intros x. rewrite V2. destruct (D1 x (fun f => f)) as (-> & -> & _). destruct (R1 x) as (_ & _ & ->). auto.
    - apply undone_ext with (li s1) (ui s1) s1; auto. }
  assert (DT : forall y, ldiff s2 y = 0) by (intros y; apply (D1 y (fun f => f))).
  rewrite (mundo_uppers s0 s B OP N B0 N0 RM s2 W2 DT segu SE3 NDU (fun x => proj1 (PU x)) s2 H2). reflexivity.
Qed.

(** ** The check *)
Lemma core_small G : forall s x, core G s -> (forall s0, In s0 (s :: G) -> MIN_VAL <= lb (vst s0 x) /\ ub (vst s0 x) <= MAX_VAL) -> MIN_VAL <= minb (vst s x) /\ maxb (vst s x) <= MAX_VAL.
Proof.
  induction G as [|s0 G IH]; intros s x [B C] R.
  - assert (L : cur_level s = 0%nat) by (unfold cur_level; now rewrite C). unfold minb, maxb.
    assert (E : lbs (vst s x) = [] /\ ubs (vst s x) = []).
    { split; [destruct (lbs (vst s x)) as [|p r] eqn:E|destruct (ubs (vst s x)) as [|p r] eqn:E]; auto; exfalso.
      - pose proof (b_stk _ B x p) as Q. rewrite E, L in Q. specialize (Q (or_introl (or_introl eq_refl))). lia.
      - pose proof (b_stk _ B x p) as Q. rewrite E, L in Q. specialize (Q (or_intror (or_introl eq_refl))). lia. }
    destruct E as [-> ->]. apply (R s). now left.
  - destruct C as (_ & OP & C). assert (J := IH s0 x C (fun t T => R t (or_intror T))). assert (R0 := R s0 (or_intror (or_introl eq_refl))).
    destruct (o_lows _ _ OP) as (sg & _ & _ & Q1). destruct (o_ups _ _ OP) as (sg' & _ & _ & Q2). specialize (Q1 x). specialize (Q2 x). split.
    + destruct (in_dec Nat.eq_dec x sg) as [I|I].
      * destruct Q1 as [Q1 _]. specialize (Q1 I). destruct J as [J _]. unfold minb in *. rewrite Q1. destruct (lbs (vst s0 x)) as [|p r]; [cbn [last snd]; lia|]. rewrite last_cons by easy. lia.
      * destruct Q1 as [_ Q1]. destruct (Q1 I) as (E1 & E2 & _). destruct J as [J _]. unfold minb in *. rewrite E1. destruct (lbs (vst s0 x)) as [|p r]; lia.
    + destruct (in_dec Nat.eq_dec x sg') as [I|I].
      * destruct Q2 as [Q2 _]. specialize (Q2 I). destruct J as [_ J]. unfold maxb in *. rewrite Q2. destruct (ubs (vst s0 x)) as [|p r]; [cbn [last snd]; lia|]. rewrite last_cons by easy. lia.
      * destruct Q2 as [_ Q2]. destruct (Q2 I) as (E1 & E2 & _). destruct J as [_ J]. unfold maxb in *. rewrite E1. destruct (ubs (vst s0 x)) as [|p r]; lia.
Qed.
Lemma core_rng G s c k es co x : core G s -> (forall s0, In s0 (s :: G) -> snug s0) -> css s c = Some k -> sum_es (c_def k) = Some es -> In (co, x) es -> rng s x.
Proof.
  intros C SN K E I. destruct (core_range G s C x) as [R1 R2]. assert (B := core_b _ _ C).
  assert (V : (x < nvars s)%nat).
  { assert (V := b_vars s B c k K). assert (EV : cvars (c_def k) = map snd es) by (destruct (c_def k); try discriminate E; injection E as <-; reflexivity).
    rewrite EV, Forall_forall in V. apply V. change x with (snd (co, x)). now apply in_map. }
  assert (M : MIN_VAL <= minb (vst s x) /\ maxb (vst s x) <= MAX_VAL).
  { apply core_small with G; auto. clear - C SN. revert s C SN. induction G as [|s1 G IH]; intros s C SN s0 [<-|I].
    - assert (Q := snug_range s x (core_b _ _ C) (SN s (or_introl eq_refl))). lia.
    - destruct I.
    - assert (Q := snug_range s x (core_b _ _ C) (SN s (or_introl eq_refl))). lia.
    - destruct C as (_ & _ & _ & C). apply (IH s1 C); auto. intros t T. apply SN. now right. }
  pose proof (b_bnd s B x V). unfold rng. lia.
Qed.

Section Calls.
Context (srt : (ival -> Z) -> list ival -> list ival) (O : oracle) (cfg : config) (chk sol : bool).
Notation tg := (tg O).

Lemma mprop_con_ok G c s k : core G s -> settled s -> (forall s0, In s0 (s :: G) -> snug s0) -> tab s -> css s c = Some k -> removable_at (cur_level s) k = false ->
  mprop_con O cfg srt chk c s = prop_con srt O cfg chk c s.
Proof.
  intros C ST SN T K R. unfold mprop_con. destruct (css s c) as [k'|] eqn:E; [injection K as ->|discriminate].
  assert (X : sum_es (c_def k) <> None -> mprop_sum O cfg chk c s = prop_sum O cfg chk c s).
  { intros _. apply mprop_sum_ok with k; auto; [apply (sn_room s (SN s (or_introl eq_refl)) c k E)|]. intros es ES. split.
    - intros co x I. now apply (core_rng G s c k es co x).
    - now apply (settled_sums s c k es (core_b _ _ C) ST E ES R). }
  unfold prop_con. rewrite E. destruct (c_def k); auto; apply X; discriminate.
Qed.
Lemma mrun_todo_ok G cs : forall ret s, core G s -> settled s -> tod_run cs s -> (forall s0, In s0 (s :: G) -> snug s0) -> tab s ->
  mrun_todo O cfg srt chk cs ret s = run_todo srt O cfg chk cs ret s.
Proof.
  induction cs as [|c cs IH]; intros ret s C ST T SN TB; cbn [mrun_todo run_todo]; [reflexivity|].
  destruct (clear_todo_tod c cs s T) as (T1 & k & K & KT & KI).
  assert (C1 := clear_todo_core G c s C). assert (S1 := clear_todo_same3 c s). assert (ST1 := settled_same3 _ _ S1 ST).
  rewrite <- (same3_cur _ _ S1) in KI.
  assert (N1 : forall s0, In s0 (clear_todo s c :: G) -> snug s0).
  { intros s0 [<-|I]; [|apply SN; now right]. apply snug_moved with s; [apply (core_b _ _ C)|apply SN; now left|apply moved_clear_todo]. }
  assert (TB1 : tab (clear_todo s c)) by (apply (tg_tab O s); auto; apply tg_fixed6, fixed6_clear).
  set (s1 := clear_todo s c) in *. destruct ret; cbn [negb]; [|now apply IH].
  rewrite K. assert (SNM : forall s2, core G s2 -> cframe O cfg c k s1 s2 -> forall s0, In s0 (s2 :: G) -> snug s0).
  { intros s2 _ F s0 [<-|I]; [|apply N1; now right]. apply snug_moved with s1; [apply (core_b _ _ C1)|apply N1; now left|now apply (cframe_moved O cfg c k)]. }
  destruct (is_false _ _ _).
  + assert (F := mark_inactive_own O cfg c k s1 K). assert (C2 : core G (mark_inactive c s1)) by now apply (cframe_core O cfg G c k s1). apply IH; auto.
    * apply settled_same3 with s1; [apply F|auto].
    * now apply (cframe_tod O cfg cs c k s1).
    * now apply (SNM _ C2).
    * apply (tg_tab O s1); auto. apply talk_tg with cfg. apply F.
  + rewrite (mprop_con_ok G c s1 k C1 ST1 N1 TB1 K KI). destruct (prop_con srt O cfg chk c s1) as [o1 s2] eqn:P. assert (F := prop_con_frame O cfg srt chk c k s1 o1 s2 K P).
    assert (C2 : core G s2) by now apply (cframe_core O cfg G c k s1).
    assert (ST2 : settled s2) by (apply settled_same3 with s1; [apply F|auto]).
    assert (T2 : tod_run cs s2) by now apply (cframe_tod O cfg cs c k s1).
    destruct o1 as [b|e|]; auto. apply IH; auto; [now apply (SNM _ C2)|]. apply (tg_tab O s1); auto. apply talk_tg with cfg. apply F.
Qed.
Lemma mcheck_loop_ok G n : forall s, sinv G s -> (forall s0, In s0 (s :: G) -> snug s0) -> tab s -> mcheck_loop O cfg srt chk n s = check_loop srt O cfg chk n s.
Proof.
  induction n as [|n IH]; intros s H SN TB; cbn [mcheck_loop check_loop]; [reflexivity|].
  assert (NX : forall s1, moved s s1 -> forall s0, In s0 (s1 :: G) -> snug s0).
  { intros s1 M s0 [<-|I]; [|apply SN; now right]. apply snug_moved with s; auto; [apply (core_b _ _ (proj1 H))|apply SN; now left]. }
  assert (H1 : sinv G (snd (if is_nil (fmap s) then (true, s) else update_domain O cfg TRUE_LIT s))).
  { destruct (is_nil _); auto. now apply update_domain_sinv. }
  assert (D1 : moved s (snd (if is_nil (fmap s) then (true, s) else update_domain O cfg TRUE_LIT s))).
  { destruct (is_nil _); [apply moved_refl|]. apply moved_update_domain. }
  assert (TB1 : tab (snd (if is_nil (fmap s) then (true, s) else update_domain O cfg TRUE_LIT s))).
  { destruct (is_nil _); auto. apply (tg_tab O s); auto. destruct (update_domain O cfg TRUE_LIT s) as [ok s1] eqn:E. now apply update_domain_tg in E. }
  destruct (if is_nil (fmap s) then _ else _) as [ok s1]. cbn [snd] in H1, D1, TB1. destruct ok; cbn [negb]; [|reflexivity].
  destruct (integrate_sinv G s1 H1) as [H2 ST]. assert (N1 := NX s1 D1). rewrite (mintegrate_ok G s1 H1 (N1 s1 (or_introl eq_refl))).
  assert (D2 := moved_trans _ _ _ D1 (moved_integrate G s1 H1)). assert (N2 := NX _ D2).
  assert (TB2 : tab (integrate s1)) by (apply (tg_tab O s1); auto; apply tg_fixed6, fixed6_integrate). set (s2 := integrate s1) in *.
  rewrite (mrun_todo_ok G (tod s2) true s2 (proj1 H2) ST (tod_ok_run _ _ (proj2 H2)) N2 TB2).
  destruct (run_todo srt O cfg chk (tod s2) true s2) as [o1 s3] eqn:R.
  destruct (run_todo_inv srt O cfg chk G (tod s2) true s2 o1 s3 (proj1 H2) ST (tod_ok_run _ _ (proj2 H2)) R) as (A1 & A2 & A3 & A4).
  assert (D3 := moved_trans _ _ _ D2 (moved_run_todo srt O cfg chk G (tod s2) true s2 o1 s3 (proj1 H2) ST (tod_ok_run _ _ (proj2 H2)) R)).
  destruct o1 as [b|e|]; auto.
  assert (H4 : sinv G (set_tod [] s3)) by (apply set_tod_sinv; eauto using tod_run_nil).
  assert (TB3 : tab s3) by (apply (tg_tab O s2); auto; now apply tg_todo in R).
  destruct (negb b || is_nil (fmap (set_tod [] s3))); [reflexivity|]. apply IH; auto; [|now apply tab_ext with s3].
  apply NX. apply moved_trans with s3; [exact D3|now apply moved_fields].
Qed.
Lemma msolver_check_ok G n s : sinv G s -> (forall s0, In s0 (s :: G) -> snug s0) -> tab s -> msolver_check O cfg srt chk n s = solver_check srt O cfg chk n s.
Proof. intros H SN TB. unfold msolver_check, solver_check. destruct (_ && _); [reflexivity|]. now apply mcheck_loop_ok with G. Qed.
Lemma mcheck_all_ok G ps s : core G s -> (forall s0, In s0 (s :: G) -> snug s0) -> mcheck_all O ps s = check_all O ps s.
Proof.
  intros C SN. induction ps as [|(l, c) ps IH]; cbn [mcheck_all check_all]; [reflexivity|]. rewrite IH. destruct (is_true _ _ _); [|reflexivity].
  replace (mcheck_full_con c s) with (check_full_con c s); [reflexivity|]. unfold mcheck_full_con, check_full_con. destruct (css s c) as [k|] eqn:K; [|reflexivity].
  assert (X : check_full_sum c s = mcheck_full_sum c s).
  { symmetry. apply mcheck_full_sum_ok with k; auto; [apply (sn_room s (SN s (or_introl eq_refl)) c k K)|]. intros es ES co x I. now apply (core_rng G s c k es co x). }
  destruct (c_def k); auto.
Qed.
Lemma msolver_check_full_ok G s : sinv G s -> (forall s0, In s0 (s :: G) -> snug s0) -> msolver_check_full O cfg sol s = solver_check_full O cfg sol s.
Proof.
  intros H SN. unfold msolver_check_full, solver_check_full.
  assert (X : sinv G (snd (if split_all cfg then split_every cfg (seq 0 (nvars s)) false s else split_first cfg (seq (slast s) (nvars s - slast s) ++ seq 0 (slast s)) s)) /\
    moved s (snd (if split_all cfg then split_every cfg (seq 0 (nvars s)) false s else split_first cfg (seq (slast s) (nvars s - slast s) ++ seq 0 (slast s)) s))).
  { destruct (split_all cfg); [|split; [now apply split_first_sinv|apply moved_split_first]]. pose proof (split_every_only cfg (seq 0 (nvars s)) false s) as Q.
    split; [now apply sinv_only with s|now apply moved_only]. }
  destruct (if split_all cfg then _ else _) as [b s1]. cbn [snd] in X. destruct X as [X1 X2]. destruct b; [reflexivity|]. destruct sol; [|reflexivity].
  rewrite (mcheck_all_ok G); [reflexivity|apply X1|]. intros s0 [<-|I]; [|apply SN; now right]. apply snug_moved with s; auto; [apply (core_b _ _ (proj1 H))|apply SN; now left].
Qed.
Theorem mprop_check_ok G n m bound s : sinv G s -> (forall s0, In s0 (s :: G) -> snug s0) -> tab s ->
  mprop_check O cfg srt chk sol n m bound s = prop_check srt O cfg chk sol n m bound s.
Proof.
  intros H SN TB. unfold mprop_check, prop_check.
  destruct (match m with Some (c, m0) => _ | None => Ok s end) as [s1|e|] eqn:M; [|reflexivity..].
  assert (H1 : sinv G s1). { destruct m as [[c m]|]; [now apply (minimize_sinv G) in M|now injection M as <-]. }
  assert (D1 : moved s s1). { destruct m as [[c m]|]; [now apply moved_minimize in M|injection M as <-; apply moved_refl]. }
  assert (T1 : tab s1). { destruct m as [[c m]|]; [|now injection M as <-]. apply tg_minimize in M. apply (tg_tab O s); auto. now apply tg_fixed6. }
  assert (NX : forall s1, moved s s1 -> forall s0, In s0 (s1 :: G) -> snug s0).
  { intros t Mt s0 [<-|I]; [|apply SN; now right]. apply snug_moved with s; auto; [apply (core_b _ _ (proj1 H))|apply SN; now left]. }
  rewrite (msolver_check_ok G n s1 H1 (NX s1 D1) T1).
  destruct (solver_check srt O cfg chk n s1) as [[o2 s2]|] eqn:C; [|reflexivity].
  assert (D2 := moved_trans _ _ _ D1 (moved_solver_check srt O cfg chk G n s1 o2 s2 H1 C)). destruct (solver_check_sinv srt O cfg chk G n s1 o2 s2 H1 C) as (_ & H2).
  destruct o2 as [[|]|e|]; try reflexivity. destruct (_ && _); [|reflexivity]. f_equal. apply (msolver_check_full_ok G); eauto.
Qed.
End Calls.
