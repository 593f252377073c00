(** Histories keep the invariants; consequences for undo, sums and copies. *)
From Verif Require Import Base Util IntervalSet VarState Terms TermsSpec Solver OrderSpec OrderProofs1 OrderProofs2 Orders Sum PropProofs ConSpec
  Distinct DistinctProofs2 Disjoint Objective Search SearchSpec SearchFrame SearchGrow SearchInv SearchInv2 SearchInv3 SearchInv4 SearchInv5 SearchUndo SearchSetup.
From Coq Require Import Permutation.
Open Scope Z_scope.

Section Main.
Context (srt : (ival -> Z) -> list ival -> list ival) (chk sol : bool).
Notation callback O cfg := (callback srt O cfg chk sol).
Notation above O cfg := (above srt O cfg chk sol).
Notation reachable := (reachable srt chk sol).

Lemma veq_settled s s' : veq s s' -> settled s -> settled s'.
Proof.
  intros V (A & B & C). split; [now rewrite (v_inl _ _ V)|]. split; [now rewrite (v_inu _ _ V)|]. intros x. now rewrite (v_ldiff _ _ V), (v_udiff _ _ V).
Qed.
Lemma undo_sinv s0 G s s' : sinv (s0 :: G) s -> solver_undo s = Ok s' -> veq s0 s' /\ tod s' = [] /\ sinv G s' /\ settled s' /\ ukept s s'.
Proof.
  intros [C T] E. destruct (undo_restores s0 G s C T) as (s1 & E1 & V & T1 & TO & UK). replace s1 with s' in * by congruence.
  destruct C as [_ (ST & _ & C)]. split; [exact V|]. split; [exact T1|]. split; [split; [now apply core_veq with s0|now rewrite T1]|].
  split; [now apply veq_settled with s0|exact UK].
Qed.

Lemma callback_sinv O cfg G s s' : sinv G s -> callback O cfg s s' ->
  sinv G s' \/ (settled s /\ (cur_level s < dlevel O s)%nat /\ sinv (s :: G) s') \/
  (exists s0 G0, G = s0 :: G0 /\ solver_undo s = Ok s').
Proof.
  intros H C. assert (Z0 : cur_level s = 0%nat -> G = []) by (intros E; now apply (core_cur G s) in E; [|apply H]).
  destruct C as [n s|ls s ST|fuel m bound s s' E|s s' E|s s' L E|mn mx s L ST M|c d s L ST V|c s s' L P E|rm s L|s L|s L|fuel b s s' L ST E|fuel other b s s' L E].
  - left. apply sinv_only with (2 := H). apply only_emit.
  - destruct (propagate_sinv O cfg G ls s H ST) as [[L X]|[L X]]; auto.
  - left. now apply (prop_check_sinv srt O cfg chk sol G fuel m bound s (Ok tt) s' H E).
  - destruct G as [|s0 G].
    + exfalso. destruct H as [[_ L] _]. unfold solver_undo in E. rewrite L in E. discriminate.
    + right. right. eauto.
  - left. now apply sinv_only with (2 := H).
  - left. rewrite (Z0 L) in *. now apply add_variable_sinv.
  - left. rewrite (Z0 L) in *. now apply add_constraint_sinv.
  - left. rewrite (Z0 L) in *. now apply (remove_constraint_sinv c s).
  - left. rewrite (Z0 L) in *. now apply remove_constraints_sinv.
  - left. now apply only_sinv_tmin.
  - left. now apply update_sinv.
  - left. rewrite (Z0 L) in *. apply (proj2 (simplify_sinv srt O cfg chk fuel s (Ok b) s' H ST E) b eq_refl).
  - left. apply (proj2 (update_bounds_sinv srt O cfg chk G fuel other s (Ok b) s' H E) b eq_refl).
Qed.
Lemma reachable_sinv O cfg s : reachable O cfg s -> exists G, sinv G s.
Proof.
  induction 1 as [O cfg|O cfg s s' _ (G & IH) C|O cfg O' cfg' m s s' _ (Gm & IHm) _ (G & IH) E].
  - exists []. apply init_sinv.
  - destruct (callback_sinv O cfg G s s' IH C) as [X|[(_ & _ & X)|(s0 & G0 & -> & X)]]; eauto.
    apply (undo_sinv s0 G0 s s' IH) in X as (_ & _ & X & _). eauto.
  - exists []. assert (LM : lvls m = [mkl 0 0 0 0 0] -> Gm = []). { intros L. apply (core_cur Gm m (proj1 IHm)). unfold cur_level. now rewrite L. }
    unfold copy_state in E. destruct (lvls m) as [|lm [|? ?]] eqn:LV; try discriminate. destruct (lvls s) as [|l [|? ?]] eqn:LS; try discriminate.
    assert (GM : Gm = []). { destruct Gm as [|s0 Gm]; auto. destruct IHm as [[_ (_ & [(X & Y & _) _ _ _ _ _ _ _ _] & _)] _]. rewrite LV in X. destruct (lvls s0); [easy|discriminate]. }
    assert (GS : G = []). { destruct G as [|s0 G]; auto. destruct IH as [[_ (_ & [(X & Y & _) _ _ _ _ _ _ _ _] & _)] _]. rewrite LS in X. destruct (lvls s0); [easy|discriminate]. }
    subst. apply (copy_sinv m s s' IHm IH). unfold copy_state. now rewrite LV, LS.
Qed.
Lemma above_sinv O cfg n G s t : (cur_level s = n)%nat -> forall s1, (exists H, sinv (H ++ s :: G) s1) -> above O cfg n s1 t -> exists H, sinv (H ++ s :: G) t.
Proof.
  intros N s1 (H0 & S1) A. induction A as [|t t' A (H & IH) C L]; [eauto|].
  destruct (callback_sinv O cfg _ t t' IH C) as [X|[(_ & _ & X)|(s0 & G0 & E & X)]]; [eauto|exists (t :: H); exact X|].
  rewrite E in IH. destruct (undo_sinv s0 G0 t t' IH X) as (V & _ & X' & _).
  destruct H as [|h H]; cbn in E; injection E as -> <-.
  - rewrite (veq_cur _ _ V) in L. lia.
  - exists H. exact X'.
Qed.

Lemma ents_all_perm (a b : list (Z * cid)) : (forall c, Permutation (ents c a) (ents c b)) -> Permutation a b.
Proof.
  revert b. induction a as [|(i, c) a IH]; intros b H.
  - destruct b as [|(i, c) b]; auto. specialize (H c). rewrite ents_cons, Nat.eqb_refl in H. now apply Permutation_nil in H.
  - assert (I : In (i, c) b). { apply ents_in. apply Permutation_in with (1 := H c). rewrite ents_cons, Nat.eqb_refl. now left. }
    apply in_split in I as (b1 & b2 & ->). apply Permutation_cons_app. apply IH. intros e. specialize (H e).
    rewrite ents_cons, ents_app, ents_cons in H. rewrite ents_app. destruct (Nat.eqb c e); auto. now apply Permutation_cons_app_inv in H.
Qed.

(** *** Undo *)
Lemma undo_back O cfg s ls t s' : reachable O cfg s -> settled s -> (cur_level s < dlevel O s)%nat ->
  above O cfg (cur_level s) (snd (solver_propagate O cfg ls s)) t -> solver_undo t = Ok s' -> (cur_level s' <= cur_level s)%nat ->
  veq s s' /\ tod s' = [] /\ settled s' /\ (forall x, Permutation (wat s' x) (wat s x)) /\ ukept t s'.
Proof.
  intros R ST L A E C. destruct (reachable_sinv O cfg s R) as (G & S0).
  destruct (propagate_sinv O cfg G ls s S0 (fun _ => ST)) as [[_ X]|[L' _]]; [|lia].
  destruct (above_sinv O cfg (cur_level s) G s t eq_refl _ (ex_intro _ [] X) A) as (H & ST1).
  destruct H as [|h H]; cbn in ST1.
  - destruct (undo_sinv s G t s' ST1 E) as (V & T & _ & SE & UK). split; [exact V|]. split; [exact T|]. split; [exact SE|]. split; [|exact UK].
    intros x. apply ents_all_perm. intros c. apply (v_wat _ _ V).
  - exfalso. destruct (undo_sinv h (H ++ s :: G) t s' ST1 E) as (V & T & [X' _] & SE).
    assert (F : forall K u, core (K ++ s :: G) u -> (cur_level s < cur_level u)%nat).
    { induction K as [|k K IH]; intros u [_ (_ & [(_ & _ & Q) _ _ _ _ _ _ _ _] & CO)]; [exact Q|]. apply IH in CO. lia. }
    apply F in X'. lia.
Qed.
Lemma undo_restored O cfg s ls t s' : reachable O cfg s -> settled s -> (cur_level s < dlevel O s)%nat ->
  above O cfg (cur_level s) (snd (solver_propagate O cfg ls s)) t -> solver_undo t = Ok s' -> (cur_level s' <= cur_level s)%nat ->
  restored s s'.
Proof.
  intros R ST L A E C. destruct (undo_back O cfg s ls t s' R ST L A E C) as (V & T & SE & W & _).
  assert (B : forall x, lb (vst s' x) = lb (vst s x) /\ ub (vst s' x) = ub (vst s x) /\ lbs (vst s' x) = lbs (vst s x) /\ ubs (vst s' x) = ubs (vst s x)).
  { intros x. pose proof (v_vb _ _ V x) as X. now injection X. }
  constructor.
  - apply V.
  - intros x. destruct (B x) as (? & ? & _). auto.
  - intros x. destruct (B x) as (_ & _ & ?). auto.
  - destruct V. auto.
  - auto.
  - split; [apply V|]. intros c. pose proof (v_css _ _ V c) as X. destruct (css s c) as [k|], (css s' c) as [k'|]; try discriminate; auto.
    cbn in X. injection X as X1 X2 X3. split; [auto|]. split; [auto|]. unfold sumv in X3. rewrite X1 in X3. destruct (sum_es (c_def k)); [|easy]. intros _. now injection X3.
  - auto.
Qed.
Lemma undo_defined O cfg s : reachable O cfg s -> cur_level s <> 0%nat -> exists s', solver_undo s = Ok s'.
Proof.
  intros R N. destruct (reachable_sinv O cfg s R) as (G & [C T]). destruct G as [|s0 G]; [exfalso; apply N; now apply (core_cur [] s)|].
  destruct (undo_restores s0 G s C T) as (s' & E & _). eauto.
Qed.

(** *** Sums *)
Lemma reachable_sums O cfg s c k es : reachable O cfg s -> settled s -> css s c = Some k -> sum_es (c_def k) = Some es ->
  c_inact k = 0%nat -> c_lo k = sum_lo s es /\ c_hi k = sum_hi s es.
Proof.
  intros R ST K E I. destruct (reachable_sinv O cfg s R) as (G & [C _]). apply (settled_sums s c k es (core_b _ _ C) ST K E). apply removable_false. auto.
Qed.
Lemma check_loop_chk O cfg G n : forall s, sinv G s -> check_loop srt O cfg true n s = check_loop srt O cfg false n s.
Proof.
  induction n as [|n IH]; intros s H; cbn [check_loop]; [reflexivity|].
  assert (H1 : sinv G (snd (if is_nil (fmap s) then (true, s) else update_domain O cfg TRUE_LIT s))).
  { destruct (is_nil _); auto. now apply update_domain_sinv. }
  destruct (if is_nil (fmap s) then _ else _) as [ok s1]. cbn [snd] in H1. destruct ok; cbn [negb]; [|reflexivity].
  destruct (integrate_sinv G s1 H1) as [H2 ST]. set (s2 := integrate s1) in *.
  rewrite (run_todo_chk srt O cfg G (tod s2) true s2 (proj1 H2) ST (tod_ok_run _ _ (proj2 H2))).
  destruct (run_todo srt O cfg false (tod s2) true s2) as [o1 s3] eqn:E.
  destruct (run_todo_inv srt O cfg false G (tod s2) true s2 o1 s3 (proj1 H2) ST (tod_ok_run _ _ (proj2 H2)) E) as (A1 & A2 & A3 & A4).
  destruct o1 as [b|e|]; auto. destruct (_ || _); auto. apply IH. apply set_tod_sinv; eauto using tod_run_nil.
Qed.
Lemma reachable_chk O cfg s n : reachable O cfg s -> solver_check srt O cfg true n s = solver_check srt O cfg false n s.
Proof.
  intros R. destruct (reachable_sinv O cfg s R) as (G & H). unfold solver_check. destruct (_ && _); auto. now apply (check_loop_chk O cfg G).
Qed.
Lemma check_settles O cfg s n s' : reachable O cfg s -> dlevel O s = cur_level s -> solver_check srt O cfg chk n s = Some (Ok true, s') -> settled s'.
Proof.
  intros R D E. destruct (reachable_sinv O cfg s R) as (G & H). unfold solver_check in E. rewrite D, Nat.eqb_refl in E. cbn [negb andb] in E.
  now apply (proj2 (proj2 (check_loop_sinv srt O cfg chk G n s (Ok true) s' H E) true eq_refl)).
Qed.

(** *** Copies *)
Lemma copy_equal O cfg O' cfg' m s s' : reachable O' cfg' m -> reachable O cfg s -> copy_state m s = Ok s' ->
  s' = mkst (nvars m) (vst m) (lmap m) (fmap m) (lvls m) (ulo m) (uup m) (ldiff m) (udiff m) (inl m) (inu m) (wat m) (remw m) (ina m) (tod m) (l2c m) (css m)
        (mbound m) (mlevel m) (slast m) (toff m) (maxstat s) (tmin s) (log s) (nxt s).
Proof.
  intros RM R E. destruct (reachable_sinv O' cfg' m RM) as (Gm & [CM _]). destruct (reachable_sinv O cfg s R) as (G & [C _]).
  unfold copy_state in E. rewrite (copy_l2c_eq m (core_b _ _ CM)) in E.
  assert (X : forall G u l, core G u -> lvls u = [l] -> l = mkl 0 0 0 0 0).
  { intros G1 u l CO L. destruct G1 as [|s0 G1]; [destruct CO as [_ CO]; congruence|]. destruct CO as [_ (_ & [(Y & N & _) _ _ _ _ _ _ _ _] & _)].
    rewrite L in Y. destruct (lvls s0); [easy|discriminate]. }
  destruct (lvls m) as [|lm [|? ?]] eqn:LM; try discriminate. destruct (lvls s) as [|l [|? ?]] eqn:L; try discriminate.
  rewrite (X Gm m lm CM LM), (X G s l C L) in *. cbn in E. now injection E as <-.
Qed.
Lemma copy_defined O cfg O' cfg' m s : reachable O' cfg' m -> reachable O cfg s -> cur_level m = 0%nat -> cur_level s = 0%nat ->
  exists s', copy_state m s = Ok s'.
Proof.
  intros RM R LM L. destruct (reachable_sinv O' cfg' m RM) as (Gm & [CM _]). destruct (reachable_sinv O cfg s R) as (G & [C _]).
  pose proof CM as XM. apply (core_cur Gm m CM) in LM. apply (core_cur G s C) in L. subst. destruct CM as [_ E1], C as [_ E2].
  unfold copy_state. rewrite E1, E2. eauto.
Qed.
End Main.
