(** All states of solvers: distinct constraints know the bounds of their elements. *)
From Verif Require Import Base Util IntervalSet VarState Terms TermsSpec Solver OrderSpec OrderProofs1 OrderProofs2 Orders Sum PropProofs ConSpec
  Distinct DistinctProofs DistinctProofs2 Disjoint Objective Search SearchSpec SearchFrame SearchGrow SearchInv SearchInv2 SearchInv3 SearchInv4 SearchInv5 SearchUndo SearchSetup SearchMain FreshInv FreshCalls.
From Coq Require Import Permutation.
Open Scope Z_scope.

(** ** Setup *)

Lemma live_zero c s k : cur_level s = 0%nat -> css s c = Some k -> live c s.
Proof. intros L K. exists k. split; auto. rewrite L. apply removable_false. lia. Qed.
Lemma dinv_zero s s' : cur_level s = 0%nat -> cur_level s' = 0%nat -> dinv [] s ->
  (forall c k' l es, css s' c = Some k' -> c_def k' = CDistinct l es -> exists k, css s c = Some k /\ c_def k = c_def k' /\
    c_asg k' = c_asg k /\ c_dirty k' = c_dirty k /\ c_tlo k' = c_tlo k /\ c_tup k' = c_tup k /\
    (forall x, In x (cvars (c_def k)) -> li s' x = li s x /\ ui s' x = ui s x)) -> dinv [] s'.
Proof.
  intros L L' D H. apply (dinv_step [] s s' D). intros c k' l es K' E. destruct (H c k' l es K' E) as (k & K & A1 & A2 & A3 & A4 & A5 & A6).
  exists k. rewrite A3, A4, A5. repeat split; auto; try (now intros; eauto using live_zero, incl_refl); try apply incl_refl.
  - assert (In (snd p) (cvars (c_def k))). { rewrite A1, E. cbn. apply in_concat. exists (map snd (snd e)). split; [|now apply in_map]. apply in_map_iff. exists e. split; auto. now apply nth_error_In in H0. }
    now apply A6.
  - assert (In (snd p) (cvars (c_def k))). { rewrite A1, E. cbn. apply in_concat. exists (map snd (snd e)). split; [|now apply in_map]. apply in_map_iff. exists e. split; auto. now apply nth_error_In in H0. }
    now apply A6.
Qed.

Lemma dinv_variable mn mx s : sinv [] s -> settled s -> cur_level s = 0%nat -> dinv [] s -> dinv [] (snd (add_variable mn mx s)).
Proof.
  intros [[B _] _] (_ & _ & ST) L D. apply (dinv_zero s); auto. intros c k l es K E. exists k. change (css s c = Some k) in K. repeat split; auto; intros.
  - assert (V := b_vars s B c k K). rewrite Forall_forall in V. apply V in H. unfold li, add_variable. cbn [snd vst ldiff set_udiff set_ldiff set_wat]. unfold set_vs. cbn [vst set_vst]. now rewrite !upd_other by lia.
  - assert (V := b_vars s B c k K). rewrite Forall_forall in V. apply V in H. unfold ui, add_variable. cbn [snd vst udiff set_udiff set_ldiff set_wat]. unfold set_vs. cbn [vst set_vst]. now rewrite !upd_other by lia.
Qed.
Lemma dinv_constraint c d s : settled s -> cur_level s = 0%nat -> dinv [] s -> dinv [] (add_constraint c d s).
Proof.
  intros ST L D. unfold add_constraint. destruct (css s c) as [k|] eqn:K; auto. apply dinv_mark_todo. set (s1 := set_l2c _ _).
  destruct (add_watches_spec c (cs_watches d) s1) as [F _]. set (s' := fold_left _ _ _) in *.
  assert (CS : css s' = upd (css s) c (Some (cs_init s d))) by (rewrite F; reflexivity). assert (CL : cur_level s' = 0%nat) by (rewrite F; exact L).
  assert (LI : forall x, li s' x = li s x /\ ui s' x = ui s x) by (rewrite F; auto).
  intros e k l es KE E. rewrite CS in KE. destruct (Nat.eq_dec e c) as [->|N].
  - rewrite upd_same in KE. injection KE as <-. destruct (cs_init_def s d) as (I1 & _). rewrite I1 in E. subst d. cbn. constructor; cbn.
    + apply map_length.
    + constructor.
    + intros i e a NE NA _. split; auto. intros _. left. rewrite nth_error_map, NE in NA. injection NA as <-. rewrite (einit_same s); [|intros p _; apply LI]. symmetry. now apply einit_settled.
  - rewrite upd_other in KE by auto. destruct (D e k l es KE E) as [A1 A2 A3]. constructor; auto. intros i f a NE NA ND. specialize (A3 i f a NE NA ND). apply claims_top with s; auto.
    + assert (KE' : css s' e = Some k) by (rewrite CS, upd_other; auto). split; intros _; eapply live_zero; eauto.
    + intros _ p _. apply LI.
Qed.
Lemma dinv_remove c s s' : sinv [] s -> cur_level s = 0%nat -> dinv [] s -> remove_constraint c s = Ok s' -> dinv [] s'.
Proof.
  intros [[B LV] _] L D. unfold remove_constraint. destruct (css s c) as [k|] eqn:K; [|discriminate].
  assert (R0 : remw s = []) by (now apply no_removed in LV).
  destruct (remove_watches_spec c (cs_watches (c_def k)) s) as (F & _).
  { intros x. pose proof (b_watch s B c k x K) as P. now rewrite R0, app_nil_r in P. }
  set (s1 := fold_left _ _ _) in *. set (s2 := set_l2c _ s1). set (s3 := if marked_inactive k then _ else s2). set (s4 := if c_todo k then _ else s3). intros E. injection E as <-.
  assert (F3 : s3 = set_ina (ina s3) (set_l2c (l2c s2) (set_wat (wat s1) s))). { unfold s3, s2. rewrite F. destruct (marked_inactive k); reflexivity. }
  assert (F4 : s4 = set_tod (tod s4) s3) by (unfold s4; destruct (c_todo k); [reflexivity|now destruct s3]).
  set (s' := set_css _ s4). assert (CS : css s' = upd (css s) c None) by (unfold s'; rewrite F4, F3; reflexivity).
  apply (dinv_zero s s' L); auto; [unfold s'; rewrite F4, F3; exact L|].
  intros e k' l es K' E'. rewrite CS in K'. destruct (Nat.eq_dec e c) as [->|N]; [now rewrite upd_same in K'|rewrite upd_other in K' by auto].
  exists k'. repeat split; auto; unfold s'; rewrite F4, F3; reflexivity.
Qed.
Lemma dinv_detach rm s : cur_level s = 0%nat -> dinv [] s -> dinv [] (remove_constraints rm s).
Proof.
  intros L D. unfold remove_constraints.
  set (s1 := set_wat _ s). assert (A2 := activate_dkept (ina s1) s1). destruct (activate_spec (ina s1) s1) as [F2 _]. set (s2 := fold_left activate (ina s1) s1) in *.
  set (s3 := set_ina _ s2). assert (A4 := clear_dkept (tod s3) s3). destruct (clear_spec (tod s3) s3) as [F4 _]. set (s4 := fold_left clear_todo (tod s3) s3) in *.
  set (s5 := set_tod _ s4). set (s6 := set_l2c _ s5). set (s' := set_css _ s6).
  assert (F3 : s3 = set_ina (ina s3) (set_css (css s2) s1)) by (unfold s3; rewrite F2; reflexivity).
  assert (FF : s' = set_css (css s') (set_l2c (l2c s6) (set_tod (tod s5) (set_ina (ina s3) s1)))). { unfold s', s6, s5. rewrite F4, F3. reflexivity. }
  apply (dinv_zero s s' L); auto; [rewrite FF; exact L|].
  intros c k' l es K' E. assert (CS : css s' c = if removed rm c then None else css s4 c) by reflexivity. rewrite CS in K'. destruct (removed rm c); [discriminate|].
  specialize (A4 c). specialize (A2 c). rewrite K' in A4. change (css s3 c) with (css s2 c) in A4. destruct (css s2 c) as [k2|]; [|easy]. change (css s1 c) with (css s c) in A2. destruct (css s c) as [k|]; [|easy].
  destruct A2 as (P1 & P2 & P3 & P4 & P5), A4 as (Q1 & Q2 & Q3 & Q4 & Q5). exists k. rewrite Q2, Q3, Q4, Q5. repeat split; auto; try congruence; rewrite FF; reflexivity.
Qed.
Lemma dinv_update G s : dinv G s -> dinv G (solver_update s).
Proof.
  intros H. unfold solver_update. apply (dinv_only G (set_mlevel 0 (set_mbound None s))).
  - generalize (set_mlevel 0 (set_mbound None s)), (zseq 1 (Z.to_nat (nxt s - 1))). clear. intros s ks. revert s.
    induction ks as [|k ks IH]; intros s; cbn [fold_left]; [apply only_refl|]. eapply only_trans; [apply remove_entry_only|apply IH].
  - now apply (dinv_fields G s).
Qed.

(** ** Histories *)

Section Main.
Context (srt : (ival -> Z) -> list ival -> list ival) (chk sol : bool).
Notation callback O cfg := (callback srt O cfg chk sol).
Notation reachable := (reachable srt chk sol).

Lemma callback_dinv O cfg G s s' : sinv G s -> dinv G s -> callback O cfg s s' -> exists G', sinv G' s' /\ dinv G' s'.
Proof.
  intros H D C. assert (Z0 : cur_level s = 0%nat -> G = []) by (intros E; now apply (core_cur G s) in E; [|apply H]).
  destruct C as [n s|ls s ST|fuel m bound s s' E|s s' E|s s' L E|mn mx s L ST M|c d s L ST V|c s s' L P E|rm s L|s L|s L|fuel b s s' L ST E|fuel other b s s' L E].
  - exists G. split; [apply sinv_only with (2 := H); apply only_emit|]. apply dinv_only with (2 := D). apply only_emit.
  - destruct (dinv_propagate O cfg G ls s H D ST) as (G' & A & B & _). eauto.
  - exists G. split; [now apply (prop_check_sinv srt O cfg chk sol G fuel m bound s (Ok tt) s' H E)|now apply (dinv_prop_check srt O cfg chk sol G fuel m bound s (Ok tt) s')].
  - destruct G as [|s0 G].
    + exfalso. destruct H as [[_ L] _]. unfold solver_undo in E. rewrite L in E. discriminate.
    + exists G. split; [now apply (undo_sinv s0 G s s')|now apply (dinv_undo s0 G s s')].
  - exists G. split; [now apply sinv_only with (2 := H)|now apply dinv_only with (2 := D)].
  - exists []. rewrite (Z0 L) in *. split; [now apply add_variable_sinv|now apply dinv_variable].
  - exists []. rewrite (Z0 L) in *. split; [now apply add_constraint_sinv|now apply dinv_constraint].
  - exists []. rewrite (Z0 L) in *. split; [now apply (remove_constraint_sinv c s)|now apply (dinv_remove c s)].
  - exists []. rewrite (Z0 L) in *. split; [now apply remove_constraints_sinv|now apply dinv_detach].
  - exists G. split; [now apply only_sinv_tmin|now apply (dinv_fields G s)].
  - exists G. split; [now apply update_sinv|now apply dinv_update].
  - exists []. rewrite (Z0 L) in *. split; [apply (proj2 (simplify_sinv srt O cfg chk fuel s (Ok b) s' H ST E) b eq_refl)|now apply (dinv_simplify srt O cfg chk fuel s (Ok b) s')].
  - exists G. split; [apply (proj2 (update_bounds_sinv srt O cfg chk G fuel other s (Ok b) s' H E) b eq_refl)|now apply (dinv_update_bounds srt O cfg chk G fuel other s (Ok b) s')].
Qed.
Lemma reachable_dinv O cfg s : reachable O cfg s -> exists G, sinv G s /\ dinv G s.
Proof.
  induction 1 as [O cfg|O cfg s s' _ (G & IH & ID) C|O cfg O' cfg' m s s' RM (Gm & IHm & IDm) R (G & IH & ID) E].
  - exists []. split; [apply init_sinv|]. intros c k l es K. discriminate.
  - now apply (callback_dinv O cfg G s s').
  - assert (RS : reachable O cfg s') by now apply re_copy with (1 := RM) (2 := R). destruct (reachable_sinv srt chk sol O cfg s' RS) as (G' & SI).
    pose proof (copy_equal srt chk sol O cfg O' cfg' m s s' RM R E) as EQ. exists G'. split; [exact SI|].
    unfold copy_state in E. destruct (lvls m) as [|lm [|? ?]] eqn:LM; try discriminate.
    assert (GM : Gm = []). { destruct Gm as [|s0 Gm]; auto. destruct IHm as [[_ (_ & [(X & Y & _) _ _ _ _ _ _ _ _] & _)] _]. rewrite LM in X. destruct (lvls s0); [easy|discriminate]. }
    assert (LS : lvls s' = [lm]) by (rewrite EQ; reflexivity). clear E.
    assert (GS : G' = []). { destruct G' as [|s0 G']; auto. destruct SI as [[_ (_ & [(X & Y & _) _ _ _ _ _ _ _ _] & _)] _]. rewrite LS in X. destruct (lvls s0); [easy|discriminate]. }
    subst Gm G'. apply (dinv_fields [] m); auto; rewrite EQ; auto. unfold cur_level. cbn [lvls]. now rewrite LM.
Qed.
Lemma reachable_fresh O cfg s c k l es : reachable O cfg s -> settled s -> css s c = Some k -> c_def k = CDistinct l es -> c_inact k = 0%nat ->
  length (c_asg k) = length es /\ Forall (fun i => (i < length es)%nat) (c_tlo k ++ c_tup k) /\
  (forall i e a, nth_error es i = Some e -> nth_error (c_asg k) i = Some a -> ~ In i (c_dirty k) -> a = dist_init s e).
Proof.
  intros R ST K E I. destruct (reachable_dinv O cfg s R) as (G & _ & D). destruct (D c k l es K E) as [A1 A2 A3]. split; auto. split; auto.
  intros i e a NE NA ND. specialize (A3 i e a NE NA ND). rewrite <- (einit_settled s e ST).
  assert (LV : live c s) by (exists k; split; auto; apply removable_false; auto). destruct G; destruct A3 as [A3 _]; destruct (A3 LV); tauto.
Qed.
End Main.
