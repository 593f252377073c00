(** During callbacks the communication with clasp only grows and new order literals are watched. *)
From Verif Require Import Base Util VarState Terms TermsSpec Solver OrderSpec OrderProofs1 OrderProofs2 Orders Sum PropProofs ConSpec
  Distinct DistinctProofs2 Disjoint Objective Search SearchSpec SearchFrame.
Open Scope Z_scope.

Lemma wgrow_same s s' : vst s' = vst s -> log s' = log s -> wgrow s s'.
Proof. intros A B. apply (wgrow_eq s s); auto using wgrow_refl. Qed.
Lemma wgrow_emit e s : within e -> wgrow s (emit e s).
Proof. intros W. split; [exists [e]; split; [reflexivity|now repeat constructor]|]. auto. Qed.
(** Changing a variable without adding order literals. *)
Lemma wgrow_vs s s' : log s' = log s -> (forall x w l, In (w, l) (lits (vst s' x)) -> In (w, l) (lits (vst s x)) \/ Z.abs l = 1) -> wgrow s s'.
Proof. intros A B. split; [exists []; split; [exact A|constructor]|]. intros x w l H. apply B in H. tauto. Qed.
Lemma wgrow_litmap x l v s : wgrow s (snd (update_litmap x l v s)).
Proof. apply wgrow_same; [apply litmap_vst|apply litmap_log]. Qed.
Lemma wgrow_store x v l s : Z.abs l = 1 -> wgrow s (store_lit x v l s).
Proof. intros A. apply wgrow_vs; [reflexivity|]. intros y w k H. apply store_in in H as [H|H]; auto. injection H as -> ->. auto. Qed.
Lemma in_m_erase m v w (l : Z) : In (w, l) (m_erase m v) -> In (w, l) m.
Proof. induction m as [|(u, k) m IH]; cbn [m_erase]; [easy|]. destruct (u =? v); cbn [In]; tauto. Qed.
Lemma wgrow_erase x v s : wgrow s (erase_lit x v s).
Proof.
  apply wgrow_vs; [reflexivity|]. intros y w k. unfold erase_lit, set_vs. cbn [vst set_vst]. unfold upd. destruct (Nat.eqb_spec y x) as [->|]; [|auto].
  cbn [lits set_lits]. intros H. left. now apply in_m_erase in H.
Qed.

Section Grow.
Context (srt : (ival -> Z) -> list ival -> list ival) (O : oracle) (cfg : config) (chk sol : bool).

Lemma wgrow_fix l t s : Z.abs t = 1 -> wgrow s (fix_literal l t s).
Proof.
  intros T. unfold fix_literal. destruct (valid_entry s l) as [e|]; [|apply wgrow_refl].
  eapply wgrow_trans; [apply wgrow_store; exact T|]. eapply wgrow_trans; [apply wgrow_litmap|]. now apply wgrow_same.
Qed.
Lemma wgrow_propvars sgn ls : forall r s, wgrow s (snd (propagate_variables O cfg sgn r ls s)).
Proof.
  induction ls as [|l ls IH]; intros r s; cbn [propagate_variables]; [apply wgrow_refl|].
  destruct (is_true _ _ _); [apply wgrow_refl|]. unfold add_clause. destruct (o_answer _ _).
  - eapply wgrow_trans; [|apply IH]. now apply wgrow_emit.
  - now apply wgrow_emit.
Qed.
Lemma wgrow_lower x v s : wgrow s (level_update_lower x v s).
Proof.
  apply wgrow_vs; unfold level_update_lower; cbv zeta.
  - destruct (_ && _); match goal with |- context [if ?b then _ else _] => destruct b end; reflexivity.
  - intros y w l. destruct (_ && _); match goal with |- context [if ?b then _ else _] => destruct b end;
      cbn [vst set_ldiff set_inl set_ulo set_vst set_vs]; unfold upd; (destruct (Nat.eqb_spec y x) as [->|]; auto).
Qed.
Lemma wgrow_upper x v s : wgrow s (level_update_upper x v s).
Proof.
  apply wgrow_vs; unfold level_update_upper; cbv zeta.
  - destruct (_ && _); match goal with |- context [if ?b then _ else _] => destruct b end; reflexivity.
  - intros y w l. destruct (_ && _); match goal with |- context [if ?b then _ else _] => destruct b end;
      cbn [vst set_udiff set_inu set_uup set_vst set_vs]; unfold upd; (destruct (Nat.eqb_spec y x) as [->|]; auto).
Qed.
Lemma wgrow_conflict c s : wgrow s (let '(ok, s1) := add_clause O Learnt c s in if ok then snd (cc_propagate O s1) else s1).
Proof.
  unfold add_clause, cc_propagate. destruct (o_answer _ _); cbn [snd]; [eapply wgrow_trans|]; now apply wgrow_emit.
Qed.
Lemma wgrow_update_upper x l v n s : wgrow s (snd (update_upper O cfg x l v n s)).
Proof.
  unfold update_upper. destruct (v <? _).
  - pose proof (get_literal_wgrow cfg x (lb (vst s x) - 1) s) as A. destruct (get_literal _ _ _ _) as [g s1]. cbn [snd] in A.
    pose proof (wgrow_conflict [g; - l] s1) as B. destruct (add_clause _ _ _ _) as [ok s2]. cbn [snd]. now apply wgrow_trans with s1.
  - set (s1 := if v <? _ then _ else _). assert (A : wgrow s s1) by (unfold s1; destruct (_ <? _); [apply wgrow_upper|apply wgrow_refl]).
    destruct (is_true _ _ _); [exact A|]. eapply wgrow_trans; [exact A|apply wgrow_propvars].
Qed.
Lemma wgrow_update_lower x l v n s : wgrow s (snd (update_lower O cfg x l v n s)).
Proof.
  unfold update_lower. destruct (_ <? v + 1).
  - pose proof (get_literal_wgrow cfg x (ub (vst s x)) s) as A. destruct (get_literal _ _ _ _) as [g s1]. cbn [snd] in A.
    pose proof (wgrow_conflict [- g; - l] s1) as B. destruct (add_clause _ _ _ _) as [ok s2]. cbn [snd]. now apply wgrow_trans with s1.
  - set (s1 := if _ <? v + 1 then _ else _). assert (A : wgrow s s1) by (unfold s1; destruct (_ <? _); [apply wgrow_lower|apply wgrow_refl]).
    destruct (is_true _ _ _); [exact A|]. eapply wgrow_trans; [exact A|apply wgrow_propvars].
Qed.
Lemma wgrow_fact f s : wgrow s (snd (apply_fact O cfg f s)).
Proof.
  unfold apply_fact. set (r := if _ =? _ then _ else _).
  assert (A : wgrow s (snd r)) by (unfold r; destruct (_ =? _); [apply wgrow_update_upper|apply wgrow_update_lower]).
  destruct r as [ok s1]. cbn [snd] in A. destruct ok; [|exact A]. cbn [snd].
  eapply wgrow_trans; [exact A|]. eapply wgrow_trans; [apply wgrow_litmap|apply wgrow_erase].
Qed.
Lemma wgrow_facts fs : forall s, wgrow s (snd (apply_facts O cfg fs s)).
Proof.
  induction fs as [|f fs IH]; intros s; cbn [apply_facts]; [now apply wgrow_same|].
  pose proof (wgrow_fact f s) as A. destruct (apply_fact O cfg f s) as [ok s1]. destruct ok; [eapply wgrow_trans; [exact A|apply IH]|exact A].
Qed.
Lemma wgrow_domain l s : wgrow s (snd (update_domain O cfg l s)).
Proof.
  unfold update_domain. destruct (if negb (l =? TRUE_LIT) && _ && _ then _ else _) as [l1 s1] eqn:E.
  assert (A : wgrow s s1).
  { destruct (_ && _ && _); injection E as _ <-; [|apply wgrow_refl]. eapply wgrow_trans; now apply wgrow_fix. }
  clear E. destruct (l1 =? TRUE_LIT); [eapply wgrow_trans; [exact A|apply wgrow_facts]|].
  set (r := match valid_entry s1 l1 with Some e => _ | None => _ end).
  assert (B : wgrow s1 (snd r)) by (unfold r; destruct (valid_entry s1 l1); [apply wgrow_update_upper|apply wgrow_refl]).
  destruct r as [ok s2]. cbn [snd] in B. assert (C := wgrow_trans _ _ _ A B). destruct ok; [|exact C].
  destruct (valid_entry s2 (- l1)); [|exact C]. eapply wgrow_trans; [exact C|apply wgrow_update_lower].
Qed.
Lemma mark_todo_same c s : vst (mark_todo c s) = vst s /\ log (mark_todo c s) = log s /\ nxt (mark_todo c s) = nxt s.
Proof. unfold mark_todo. destruct (css s c) as [k|]; auto. destruct (negb _); auto. now destruct (c_todo k). Qed.
Lemma wgrow_mark c s : wgrow s (mark_todo c s).
Proof. apply wgrow_same; apply mark_todo_same. Qed.
Lemma wgrow_lit l s : wgrow s (snd (propagate_lit O cfg l s)).
Proof.
  unfold propagate_lit. eapply wgrow_trans; [|apply wgrow_domain]. generalize (l2c s). intros ps. revert s.
  induction ps as [|p ps IH]; intros s; cbn [fold_left]; [apply wgrow_refl|]. eapply wgrow_trans; [|apply IH]. destruct (_ =? _); [apply wgrow_mark|apply wgrow_refl].
Qed.
Lemma wgrow_lits ls : forall s, wgrow s (snd (propagate_lits O cfg ls s)).
Proof.
  induction ls as [|l ls IH]; intros s; cbn [propagate_lits]; [apply wgrow_refl|].
  pose proof (wgrow_lit l s) as A. destruct (propagate_lit O cfg l s) as [ok s1]. destruct ok; [eapply wgrow_trans; [exact A|apply IH]|exact A].
Qed.
Lemma wgrow_propagate ls s : wgrow s (snd (solver_propagate O cfg ls s)).
Proof.
  unfold solver_propagate. eapply wgrow_trans; [|apply wgrow_lits]. apply wgrow_same; unfold push_level; now destruct (_ <? _)%nat.
Qed.
Lemma update_watches_same n x d ws : forall s, vst (snd (update_watches n x d ws s)) = vst s /\ log (snd (update_watches n x d ws s)) = log s /\ nxt (snd (update_watches n x d ws s)) = nxt s.
Proof.
  induction ws as [|(i, c) ws IH]; intros s; cbn [update_watches]; auto. destruct (css s c) as [k|].
  - destruct (removable_at n k).
    + destruct (IH (set_remw (remw s ++ [(x, i, c)]) s)) as (A & B & C). auto.
    + destruct (cs_update i d k) as [b k1]. set (s2 := if b then _ else _).
      assert (A : vst s2 = vst s /\ log s2 = log s /\ nxt s2 = nxt s). { unfold s2. destruct b; auto. apply (mark_todo_same c (set_cs c k1 s)). }
      destruct (IH s2) as (B & C & D). destruct (update_watches n x d ws s2) as [w s3]. cbn [snd] in *. destruct A as (A1 & A2 & A3). repeat split; congruence.
  - destruct (IH s) as (B & C & D). destruct (update_watches n x d ws s) as [w s3]. cbn [snd] in *. auto.
Qed.
Lemma integrate_same s : vst (integrate s) = vst s /\ log (integrate s) = log s /\ nxt (integrate s) = nxt s.
Proof.
  assert (F : forall x d s, vst (update_constraints x d s) = vst s /\ log (update_constraints x d s) = log s /\ nxt (update_constraints x d s) = nxt s).
  { intros x d t. unfold update_constraints. pose proof (update_watches_same (cur_level t) x d (wat t x) t) as H. destruct (update_watches _ _ _ _ _) as [w t1]. exact H. }
  assert (U : forall xs s, vst (fold_left integrate_upper xs s) = vst s /\ log (fold_left integrate_upper xs s) = log s /\ nxt (fold_left integrate_upper xs s) = nxt s).
  { induction xs as [|x xs IH]; intros t; cbn [fold_left]; auto. destruct (IH (integrate_upper t x)) as (A & B & C).
    destruct (F x (udiff t x) t) as (D & E & G). unfold integrate_upper in *. cbn [vst log nxt set_udiff] in *. repeat split; congruence. }
  assert (L : forall xs s, vst (fold_left integrate_lower xs s) = vst s /\ log (fold_left integrate_lower xs s) = log s /\ nxt (fold_left integrate_lower xs s) = nxt s).
  { induction xs as [|x xs IH]; intros t; cbn [fold_left]; auto. destruct (IH (integrate_lower t x)) as (A & B & C).
    destruct (F x (ldiff t x) t) as (D & E & G). unfold integrate_lower in *. cbn [vst log nxt set_ldiff] in *. repeat split; congruence. }
  unfold integrate. destruct (U (inu s) s) as (A & B & C). set (s1 := fold_left integrate_upper (inu s) s) in *.
  destruct (L (inl (set_inu [] s1)) (set_inu [] s1)) as (D & E & G). set (s2 := fold_left integrate_lower _ _) in *.
  cbn [vst log nxt set_inl set_inu] in *. repeat split; congruence.
Qed.
Lemma clear_todo_logs c s : vst (clear_todo s c) = vst s /\ log (clear_todo s c) = log s /\ nxt (clear_todo s c) = nxt s.
Proof. unfold clear_todo. now destruct (css s c). Qed.
Lemma wgrow_todo cs : forall ret s, wgrow s (snd (run_todo srt O cfg chk cs ret s)).
Proof.
  induction cs as [|c cs IH]; intros ret s; cbn [run_todo]; [apply wgrow_refl|].
  assert (A : wgrow s (clear_todo s c)) by (apply wgrow_same; apply clear_todo_logs).
  set (s1 := clear_todo s c) in *. destruct ret; cbn [negb]; [|eapply wgrow_trans; [exact A|apply IH]].
  destruct (css s1 c) as [k|] eqn:K; [|exact A]. destruct (is_false _ _ _).
  - eapply wgrow_trans; [exact A|]. eapply wgrow_trans; [|apply IH]. apply wgrow_same; unfold mark_inactive; rewrite K; now destruct (_ && _).
  - destruct (prop_con srt O cfg chk c s1) as [o s2] eqn:P. assert (F := cf_grow _ _ _ _ _ _ (prop_con_frame O cfg srt chk c k s1 o s2 K P)).
    destruct o; cbn [snd]; eapply wgrow_trans; try exact A; auto. eapply wgrow_trans; [exact F|apply IH].
Qed.
Lemma wgrow_loop n : forall s o s', check_loop srt O cfg chk n s = Some (o, s') -> wgrow s s'.
Proof.
  induction n as [|n IH]; intros s o s' E; cbn [check_loop] in E; [discriminate|].
  assert (A : wgrow s (snd (if is_nil (fmap s) then (true, s) else update_domain O cfg TRUE_LIT s))).
  { destruct (is_nil _); [apply wgrow_refl|apply wgrow_domain]. }
  destruct (if is_nil (fmap s) then _ else _) as [ok s1]. cbn [snd] in A. destruct ok; cbn [negb] in E; [|now injection E as _ <-].
  assert (B : wgrow s (integrate s1)) by (eapply wgrow_trans; [exact A|apply wgrow_same; apply integrate_same]).
  set (s2 := integrate s1) in *. pose proof (wgrow_todo (tod s2) true s2) as C. destruct (run_todo srt O cfg chk (tod s2) true s2) as [o1 s3].
  cbn [snd] in C. assert (D := wgrow_trans _ _ _ B C). destruct o1 as [b|e|]; [|now injection E as _ <-..].
  assert (F : wgrow s (set_tod [] s3)) by (eapply wgrow_trans; [exact D|now apply wgrow_same]).
  destruct (_ || _); [now injection E as _ <-|]. apply IH in E. now apply wgrow_trans with (set_tod [] s3).
Qed.
Lemma wgrow_check n s o s' : solver_check srt O cfg chk n s = Some (o, s') -> wgrow s s'.
Proof. unfold solver_check. destruct (_ && _); [intros E; injection E as _ <-; apply wgrow_refl|apply wgrow_loop]. Qed.
End Grow.
