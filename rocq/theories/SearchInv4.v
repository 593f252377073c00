(** Changed bounds, new levels and the callbacks without undo keep the invariants. *)
From Verif Require Import Base Util VarState Terms TermsSpec Solver OrderSpec OrderProofs1 OrderProofs2 Orders Sum PropProofs ConSpec
  Distinct DistinctProofs2 Disjoint Objective Search SearchSpec SearchFrame SearchInv SearchInv2 SearchInv3.
From Coq Require Import Permutation.
Open Scope Z_scope.

(** ** Changed bounds *)
Definition opens (n : nat) (st : list (nat * Z)) : bool := (0 <? n)%nat && negb (pushed n st).
Lemma level_lower_eq x value s : let v := vst s x in let s' := level_update_lower x value s in
  vst s' = upd (vst s) x (mkvs (value + 1) (ub v) (if opens (cur_level s) (lbs v) then (cur_level s, lb v) :: lbs v else lbs v) (ubs v) (lits v)) /\
  ulo s' = (if opens (cur_level s) (lbs v) then ulo s ++ [x] else ulo s) /\
  inl s' = (if ldiff s x =? 0 then inl s ++ [x] else inl s) /\
  ldiff s' = upd (ldiff s) x (ldiff s x + (value + 1 - lb v)) /\
  s' = set_vst (vst s') (set_ulo (ulo s') (set_inl (inl s') (set_ldiff (ldiff s') s))).
Proof.
  cbv zeta. unfold level_update_lower. fold (opens (cur_level s) (lbs (vst s x))). destruct (opens _ _); cbn [ldiff set_ulo set_vs set_vst]; destruct (ldiff s x =? 0) eqn:E; repeat split; try reflexivity.
Qed.
Lemma level_upper_eq x value s : let v := vst s x in let s' := level_update_upper x value s in
  vst s' = upd (vst s) x (mkvs (lb v) value (lbs v) (if opens (cur_level s) (ubs v) then (cur_level s, ub v) :: ubs v else ubs v) (lits v)) /\
  uup s' = (if opens (cur_level s) (ubs v) then uup s ++ [x] else uup s) /\
  inu s' = (if udiff s x =? 0 then inu s ++ [x] else inu s) /\
  udiff s' = upd (udiff s) x (udiff s x + (value - ub v)) /\
  s' = set_vst (vst s') (set_uup (uup s') (set_inu (inu s') (set_udiff (udiff s') s))).
Proof.
  cbv zeta. unfold level_update_upper. fold (opens (cur_level s) (ubs (vst s x))). destruct (opens _ _); cbn [udiff set_uup set_vs set_vst]; destruct (udiff s x =? 0) eqn:E; repeat split; try reflexivity.
Qed.

Lemma core_cur G s : core G s -> (cur_level s = 0%nat <-> G = []).
Proof.
  destruct G as [|s0 G]; intros [_ A].
  - unfold cur_level. rewrite A. easy.
  - destruct A as (_ & [(_ & _ & L) _ _ _ _ _ _ _ _] & _). split; [lia|discriminate].
Qed.

Lemma level_lower_core G x value s : core G s -> lb (vst s x) < value + 1 -> value + 1 <= ub (vst s x) -> core G (level_update_lower x value s).
Proof.
  intros CO LT LE. destruct (level_lower_eq x value s) as (EV & EO & EI & ED & ES). set (s' := level_update_lower x value s) in *.
  assert (B := core_b _ _ CO). set (v := vst s x) in *. set (p := opens (cur_level s) (lbs v)) in *.
  assert (C : cur_level s' = cur_level s) by (rewrite ES; reflexivity).
  assert (E1 : nvars s' = nvars s) by (rewrite ES; reflexivity).
  assert (E2 : udiff s' = udiff s) by (rewrite ES; reflexivity).
  assert (E3 : inu s' = inu s) by (rewrite ES; reflexivity).
  assert (E4 : css s' = css s) by (rewrite ES; reflexivity).
  assert (E5 : wat s' = wat s) by (rewrite ES; reflexivity).
  assert (E6 : remw s' = remw s) by (rewrite ES; reflexivity).
  assert (E7 : ina s' = ina s) by (rewrite ES; reflexivity).
  assert (E8 : l2c s' = l2c s) by (rewrite ES; reflexivity).
  assert (E9 : lvls s' = lvls s) by (rewrite ES; reflexivity).
  assert (E10 : uup s' = uup s) by (rewrite ES; reflexivity).
  clear ES.
  assert (VX : vst s' x = mkvs (value + 1) (ub v) (if p then (cur_level s, lb v) :: lbs v else lbs v) (ubs v) (lits v)) by (rewrite EV; apply upd_same).
  assert (VY : forall y, y <> x -> vst s' y = vst s y) by (intros y N; rewrite EV; now apply upd_other).
  assert (LI : forall y, li s' y = li s y).
  { intros y. unfold li. rewrite ED. destruct (Nat.eq_dec y x) as [->|N]; [rewrite upd_same, VX; cbn [lb]; fold v; lia|rewrite upd_other, VY; auto]. }
  assert (UB : forall y, ub (vst s' y) = ub (vst s y) /\ ubs (vst s' y) = ubs (vst s y)).
  { intros y. destruct (Nat.eq_dec y x) as [->|N]; [now rewrite VX|now rewrite VY]. }
  assert (UI : forall y, ui s' y = ui s y). { intros y. unfold ui. destruct (UB y) as [-> _]. now rewrite E2. }
  destruct (b_diff s B x) as [DX _].
  assert (BC : bcore s').
  { constructor; rewrite ?E4, ?E5, ?E6, ?E7, ?E8, ?C; try apply B.
    - intros y. rewrite E1. intros H. destruct (UB y) as [-> _]. destruct (Nat.eq_dec y x) as [->|N]; [rewrite VX; exact LE|]. rewrite VY by auto. now apply (b_bnd s B).
    - intros y. rewrite E2, ED. destruct (b_diff s B y). split; auto. destruct (Nat.eq_dec y x) as [->|N]; [rewrite upd_same; fold v; lia|now rewrite upd_other].
    - intros y. rewrite E2, E3. split; [|apply (b_in s B)]. rewrite ED, EI. destruct (Nat.eq_dec y x) as [->|N].
      + intros _. destruct (Z.eqb_spec (ldiff s x) 0); [apply in_app_iff; cbn; auto|now apply (b_in s B)].
      + rewrite upd_other by auto. intros H. apply (b_in s B) in H. destruct (_ =? 0); [apply in_app_iff; auto|auto].
    - intros y q. destruct (UB y) as [_ ->]. intros [H|H]; [|apply (b_stk s B y); auto]. destruct (Nat.eq_dec y x) as [->|N]; [|rewrite VY in H by auto; apply (b_stk s B y); auto].
      rewrite VX in H. cbn [lbs] in H. unfold p, opens in H. destruct (0 <? cur_level s)%nat eqn:P0; cbn [andb] in H; [|apply (b_stk s B x); auto].
      destruct (negb _); [|apply (b_stk s B x); auto]. destruct H as [<-|H]; [|apply (b_stk s B x); auto]. apply Nat.ltb_lt in P0. cbn. lia.
    - intros c k. rewrite E1. apply (b_vars s B).
    - intros c k es K E R. destruct (b_sum s B c k es K E R) as [-> ->]. split; apply low_ext; auto. }
  destruct G as [|s0 G]; [destruct CO as [_ CO]; split; auto; now rewrite E9|].
  assert (N0 : cur_level s <> 0%nat) by (intros H; apply (core_cur _ _ CO) in H; discriminate).
  destruct CO as [_ (ST & OP & CO)]. split; [auto|]. split; [auto|]. split; [|auto].
  destruct OP as [o1 o2 o3 o4 o5 o6 o7 o8 o9]. constructor; rewrite ?E4, ?E5, ?E6, ?E7, ?E8, ?E9, ?E10, ?C, ?E1, ?E2; auto.
  - destruct o4 as (seg & A1 & A2 & A3).
    assert (PS : p = true <-> ~ In x seg).
    { unfold p, opens. assert (X : (0 <? cur_level s)%nat = true) by (apply Nat.ltb_lt; lia). rewrite X. cbn [andb].
      destruct (A3 x) as [A4 A5]. destruct (in_dec Nat.eq_dec x seg) as [I|I].
      - unfold v. rewrite (A4 I). cbn [pushed]. rewrite Nat.eqb_refl. easy.
      - unfold v. destruct (A5 I) as (-> & _ & _). split; auto. intros _. destruct (lbs (vst s0 x)) as [|(m, o) r] eqn:LS; cbn [pushed]; auto.
        assert (M := b_stk s0 (core_b _ _ CO) x (m, o)). rewrite LS in M. cbn [fst] in M. specialize (M (or_introl (or_introl eq_refl))).
        destruct (Nat.eqb_spec m (cur_level s)); auto. lia. }
    rewrite EO. destruct p.
    + exists (seg ++ [x]). assert (NI : ~ In x seg) by now apply PS. split; [now rewrite A1, app_assoc|]. split.
      { apply (Permutation_NoDup (Permutation_cons_append seg x)). now constructor. }
      intros y. rewrite in_app_iff. cbn [In]. destruct (Nat.eq_dec y x) as [->|N].
      * split; [intros _|intuition]. rewrite VX. cbn [lbs]. destruct (A3 x) as [_ A5]. destruct (A5 NI) as (X1 & X2 & _). unfold v. now rewrite X1, X2.
      * rewrite VY, ED, upd_other by auto. destruct (A3 y). split; [intros [I|[I|[]]]; [auto|congruence]|intuition].
    + exists seg. assert (I : In x seg) by (destruct (in_dec Nat.eq_dec x seg) as [I|I]; auto; apply PS in I; discriminate).
      split; [auto|]. split; [auto|]. intros y. destruct (Nat.eq_dec y x) as [->|N].
      * split; [intros _|intuition]. rewrite VX. cbn [lbs]. now apply A3.
      * rewrite VY, ED, upd_other by auto. apply A3.
  - destruct o5 as (seg & A1 & A2 & A3). exists seg. split; [auto|]. split; [auto|]. intros y. destruct (UB y) as [-> ->]. apply A3.
  - intros y. rewrite LI, UI. auto.
  - intros c k0 y i K N I. rewrite LI, UI. eauto.
Qed.
Lemma level_upper_core G x value s : core G s -> value < ub (vst s x) -> lb (vst s x) <= value -> core G (level_update_upper x value s).
Proof.
  intros CO LT LE. destruct (level_upper_eq x value s) as (EV & EO & EI & ED & ES). set (s' := level_update_upper x value s) in *.
  assert (B := core_b _ _ CO). set (v := vst s x) in *. set (p := opens (cur_level s) (ubs v)) in *.
  assert (C : cur_level s' = cur_level s) by (rewrite ES; reflexivity).
  assert (E1 : nvars s' = nvars s) by (rewrite ES; reflexivity).
  assert (E2 : ldiff s' = ldiff s) by (rewrite ES; reflexivity).
  assert (E3 : inl s' = inl s) by (rewrite ES; reflexivity).
  assert (E4 : css s' = css s) by (rewrite ES; reflexivity).
  assert (E5 : wat s' = wat s) by (rewrite ES; reflexivity).
  assert (E6 : remw s' = remw s) by (rewrite ES; reflexivity).
  assert (E7 : ina s' = ina s) by (rewrite ES; reflexivity).
  assert (E8 : l2c s' = l2c s) by (rewrite ES; reflexivity).
  assert (E9 : lvls s' = lvls s) by (rewrite ES; reflexivity).
  assert (E10 : ulo s' = ulo s) by (rewrite ES; reflexivity).
  clear ES.
  assert (VX : vst s' x = mkvs (lb v) value (lbs v) (if p then (cur_level s, ub v) :: ubs v else ubs v) (lits v)) by (rewrite EV; apply upd_same).
  assert (VY : forall y, y <> x -> vst s' y = vst s y) by (intros y N; rewrite EV; now apply upd_other).
  assert (UI : forall y, ui s' y = ui s y).
  { intros y. unfold ui. rewrite ED. destruct (Nat.eq_dec y x) as [->|N]; [rewrite upd_same, VX; cbn [ub]; fold v; lia|rewrite upd_other, VY; auto]. }
  assert (LB : forall y, lb (vst s' y) = lb (vst s y) /\ lbs (vst s' y) = lbs (vst s y)).
  { intros y. destruct (Nat.eq_dec y x) as [->|N]; [now rewrite VX|now rewrite VY]. }
  assert (LI : forall y, li s' y = li s y). { intros y. unfold li. destruct (LB y) as [-> _]. now rewrite E2. }
  destruct (b_diff s B x) as [_ DX].
  assert (BC : bcore s').
  { constructor; rewrite ?E4, ?E5, ?E6, ?E7, ?E8, ?C; try apply B.
    - intros y. rewrite E1. intros H. destruct (LB y) as [-> _]. destruct (Nat.eq_dec y x) as [->|N]; [rewrite VX; exact LE|]. rewrite VY by auto. now apply (b_bnd s B).
    - intros y. rewrite E2, ED. destruct (b_diff s B y). split; auto. destruct (Nat.eq_dec y x) as [->|N]; [rewrite upd_same; fold v; lia|now rewrite upd_other].
    - intros y. rewrite E2, E3. split; [apply (b_in s B)|]. rewrite ED, EI. destruct (Nat.eq_dec y x) as [->|N].
      + intros _. destruct (Z.eqb_spec (udiff s x) 0); [apply in_app_iff; cbn; auto|now apply (b_in s B)].
      + rewrite upd_other by auto. intros H. apply (b_in s B) in H. destruct (_ =? 0); [apply in_app_iff; auto|auto].
    - intros y q. destruct (LB y) as [_ ->]. intros [H|H]; [apply (b_stk s B y); auto|]. destruct (Nat.eq_dec y x) as [->|N]; [|rewrite VY in H by auto; apply (b_stk s B y); auto].
      rewrite VX in H. cbn [ubs] in H. unfold p, opens in H. destruct (0 <? cur_level s)%nat eqn:P0; cbn [andb] in H; [|apply (b_stk s B x); auto].
      destruct (negb _); [|apply (b_stk s B x); auto]. destruct H as [<-|H]; [|apply (b_stk s B x); auto]. apply Nat.ltb_lt in P0. cbn. lia.
    - intros c k. rewrite E1. apply (b_vars s B).
    - intros c k es K E R. destruct (b_sum s B c k es K E R) as [-> ->]. split; apply low_ext; auto. }
  destruct G as [|s0 G]; [destruct CO as [_ CO]; split; auto; now rewrite E9|].
  assert (N0 : cur_level s <> 0%nat) by (intros H; apply (core_cur _ _ CO) in H; discriminate).
  destruct CO as [_ (ST & OP & CO)]. split; [auto|]. split; [auto|]. split; [|auto].
  destruct OP as [o1 o2 o3 o4 o5 o6 o7 o8 o9]. constructor; rewrite ?E4, ?E5, ?E6, ?E7, ?E8, ?E9, ?E10, ?C, ?E1, ?E2; auto.
  - destruct o4 as (seg & A1 & A2 & A3). exists seg. split; [auto|]. split; [auto|]. intros y. destruct (LB y) as [-> ->]. apply A3.
  - destruct o5 as (seg & A1 & A2 & A3).
    assert (PS : p = true <-> ~ In x seg).
    { unfold p, opens. assert (X : (0 <? cur_level s)%nat = true) by (apply Nat.ltb_lt; lia). rewrite X. cbn [andb].
      destruct (A3 x) as [A4 A5]. destruct (in_dec Nat.eq_dec x seg) as [I|I].
      - unfold v. rewrite (A4 I). cbn [pushed]. rewrite Nat.eqb_refl. easy.
      - unfold v. destruct (A5 I) as (-> & _ & _). split; auto. intros _. destruct (ubs (vst s0 x)) as [|(m, o) r] eqn:LS; cbn [pushed]; auto.
        assert (M := b_stk s0 (core_b _ _ CO) x (m, o)). rewrite LS in M. cbn [fst] in M. specialize (M (or_intror (or_introl eq_refl))).
        destruct (Nat.eqb_spec m (cur_level s)); auto. lia. }
    rewrite EO. destruct p.
    + exists (seg ++ [x]). assert (NI : ~ In x seg) by now apply PS. split; [now rewrite A1, app_assoc|]. split.
      { apply (Permutation_NoDup (Permutation_cons_append seg x)). now constructor. }
      intros y. rewrite in_app_iff. cbn [In]. destruct (Nat.eq_dec y x) as [->|N].
      * split; [intros _|intuition]. rewrite VX. cbn [ubs]. destruct (A3 x) as [_ A5]. destruct (A5 NI) as (X1 & X2 & _). unfold v. now rewrite X1, X2.
      * rewrite VY, ED, upd_other by auto. destruct (A3 y). split; [intros [I|[I|[]]]; [auto|congruence]|intuition].
    + exists seg. assert (I : In x seg) by (destruct (in_dec Nat.eq_dec x seg) as [I|I]; auto; apply PS in I; discriminate).
      split; [auto|]. split; [auto|]. intros y. destruct (Nat.eq_dec y x) as [->|N].
      * split; [intros _|intuition]. rewrite VX. cbn [ubs]. now apply A3.
      * rewrite VY, ED, upd_other by auto. apply A3.
  - intros y. rewrite LI, UI. auto.
  - intros c k0 y i K N I. rewrite LI, UI. eauto.
Qed.
Lemma level_lower_sinv G x value s : sinv G s -> lb (vst s x) < value + 1 -> value + 1 <= ub (vst s x) -> sinv G (level_update_lower x value s).
Proof.
  intros [A B] L1 L2. split; [now apply level_lower_core|]. destruct (level_lower_eq x value s) as (_ & _ & _ & _ & ->). destruct B. now constructor.
Qed.
Lemma level_upper_sinv G x value s : sinv G s -> value < ub (vst s x) -> lb (vst s x) <= value -> sinv G (level_update_upper x value s).
Proof.
  intros [A B] L1 L2. split; [now apply level_upper_core|]. destruct (level_upper_eq x value s) as (_ & _ & _ & _ & ->). destruct B. now constructor.
Qed.

(** ** New levels *)
Lemma push_sinv G n s : sinv G s -> (cur_level s < n)%nat -> settled s -> sinv (s :: G) (push_level n s).
Proof.
  intros [A B] L ST. unfold push_level. apply Nat.ltb_lt in L as L'. rewrite L'. clear L'. split; [|destruct B; now constructor].
  set (s' := set_lvls (new_level n s :: lvls s) s). assert (C : cur_level s' = n) by reflexivity.
  assert (BB := core_b _ _ A). split; [|split; [auto|split; [|auto]]].
  - constructor; try apply BB.
    + intros x p H. apply (b_stk s BB) in H. rewrite C. lia.
    + intros c k K. apply (b_max s BB) in K. rewrite C. lia.
    + intros x i c H. apply (b_rem s BB) in H as (k & K & H). exists k. rewrite C. split; auto. lia.
    + intros c k es K E R. rewrite C in R. apply (b_sum s BB c k es K E). apply removable_false. apply removable_false in R. lia.
  - constructor; try reflexivity.
    + rewrite C. split; [reflexivity|]. split; auto. destruct G; destruct A as [_ A]; [rewrite A; discriminate|]. destruct A as (_ & [(-> & _) _ _ _ _ _ _ _ _] & _). discriminate.
    + exists []. rewrite app_nil_r. split; [reflexivity|]. split; [constructor|]. intros x. split; [easy|]. intros _. split; [reflexivity|]. split; [reflexivity|]. apply ST.
    + exists []. rewrite app_nil_r. split; [reflexivity|]. split; [constructor|]. intros x. split; [easy|]. intros _. split; [reflexivity|]. split; [reflexivity|]. apply ST.
    + intros x. destruct (settled_li s ST x) as [X1 X2]. unfold li, ui in *. cbn [vst ldiff udiff s' set_lvls]. lia.
    + exists []. rewrite app_nil_r. split; [reflexivity|]. intros c. change (css s' c) with (css s c). destruct (css s c); auto. split; [auto|]. split; [easy|]. auto.
    + exists []. now rewrite app_nil_r.
    + intros c k0 x i _ _ _. exact (settled_li s ST x).
Qed.
