(** The callbacks without undo keep the invariants. *)
From Verif Require Import Base Util VarState Terms TermsSpec Solver OrderSpec OrderProofs1 OrderProofs2 Orders Sum PropProofs ConSpec
  Distinct DistinctProofs2 Disjoint Objective Search SearchSpec SearchFrame SearchGrow SearchInv SearchInv2 SearchInv3 SearchInv4.
From Coq Require Import Permutation.
Open Scope Z_scope.

Section Calls.
Context (srt : (ival -> Z) -> list ival -> list ival) (O : oracle) (cfg : config) (chk sol : bool).

Lemma only_refl s : literals_only s s.
Proof. split; [apply same3_refl|auto]. Qed.
Lemma only_trans s s1 s2 : literals_only s s1 -> literals_only s1 s2 -> literals_only s s2.
Proof. intros (A & B & C) (D & E & F). split; [now apply same3_trans with s1|split; congruence]. Qed.
Lemma only_emit e s : literals_only s (emit e s).
Proof. now repeat split. Qed.
Lemma only_get x v s : literals_only s (snd (get_literal cfg x v s)).
Proof.
  pose proof (get_literal_same cfg x v s) as H. split; [now apply same_same3|]. split; [apply (same_get css)|apply (same_get ina)]; easy.
Qed.
Lemma only_upd x v t s : literals_only s (snd (update_literal O cfg x v t s)).
Proof. assert (C : comm O cfg (fun _ => True) s (snd (update_literal O cfg x v t s))) by (apply comm_upd; [exact Logic.I|constructor]). exact (comm_frame O cfg _ _ _ C). Qed.
Lemma only_same s s' : same s s' -> literals_only s s'.
Proof. intros H. split; [now apply same_same3|]. split; [apply (same_get css)|apply (same_get ina)]; easy. Qed.
Lemma only_litmap x l v s : literals_only s (snd (update_litmap x l v s)).
Proof. apply only_same, same_litmap. Qed.
Lemma only_store x v l s : literals_only s (store_lit x v l s).
Proof. apply only_same, same_lits. Qed.
Lemma only_erase x v s : literals_only s (erase_lit x v s).
Proof. apply only_same, same_lits. Qed.
Lemma only_fix l t s : literals_only s (fix_literal l t s).
Proof.
  unfold fix_literal. destruct (valid_entry s l) as [e|]; [|apply only_refl].
  apply only_trans with (store_lit (e_var e) (e_val e) t s); [apply only_store|].
  set (s1 := store_lit _ _ _ _). apply only_trans with (snd (update_litmap (e_var e) t (e_val e) s1)); [apply only_litmap|].
  now repeat split.
Qed.
Lemma only_propvars sgn ls : forall r s, literals_only s (snd (propagate_variables O cfg sgn r ls s)).
Proof.
  induction ls as [|l ls IH]; intros r s; cbn [propagate_variables]; [apply only_refl|].
  destruct (is_true _ _ _); [apply only_refl|]. unfold add_clause. destruct (o_answer _ _).
  - eapply only_trans; [apply only_emit|apply IH].
  - apply only_emit.
Qed.

Lemma update_upper_sinv G x l v n s : sinv G s -> sinv G (snd (update_upper O cfg x l v n s)).
Proof.
  intros H. unfold update_upper. destruct (Z.ltb_spec v (lb (vst s x))).
  - pose proof (only_get x (lb (vst s x) - 1) s) as A. destruct (get_literal _ _ _ _) as [g s1]. cbn [snd] in A.
    apply (sinv_only G s1); [|now apply (sinv_only G s)]. unfold add_clause, cc_propagate. destruct (o_answer _ _); cbn [snd]; auto using only_emit.
    eapply only_trans; apply only_emit.
  - assert (H1 : sinv G (if v <? ub (vst s x) then level_update_upper x v s else s)).
    { destruct (Z.ltb_spec v (ub (vst s x))); auto. apply level_upper_sinv; auto. }
    set (s1 := if v <? ub (vst s x) then _ else _) in *. destruct (is_true _ _ _); [exact H1|]. apply sinv_only with (2 := H1). apply only_propvars.
Qed.
Lemma update_lower_sinv G x l v n s : sinv G s -> sinv G (snd (update_lower O cfg x l v n s)).
Proof.
  intros H. unfold update_lower. destruct (Z.ltb_spec (ub (vst s x)) (v + 1)).
  - pose proof (only_get x (ub (vst s x)) s) as A. destruct (get_literal _ _ _ _) as [g s1]. cbn [snd] in A.
    apply (sinv_only G s1); [|now apply (sinv_only G s)]. unfold add_clause, cc_propagate. destruct (o_answer _ _); cbn [snd]; auto using only_emit.
    eapply only_trans; apply only_emit.
  - assert (H1 : sinv G (if lb (vst s x) <? v + 1 then level_update_lower x v s else s)).
    { destruct (Z.ltb_spec (lb (vst s x)) (v + 1)); auto. apply level_lower_sinv; auto. }
    set (s1 := if lb (vst s x) <? v + 1 then _ else _) in *. destruct (is_true _ _ _); [exact H1|]. apply sinv_only with (2 := H1). apply only_propvars.
Qed.
Lemma apply_fact_sinv G f s : sinv G s -> sinv G (snd (apply_fact O cfg f s)).
Proof.
  intros H. unfold apply_fact.
  assert (H1 : sinv G (snd (if f_lit f =? TRUE_LIT then update_upper O cfg (f_var f) TRUE_LIT (f_val f) (f_prec f) s else update_lower O cfg (f_var f) TRUE_LIT (f_val f) (f_prec f) s))).
  { destruct (_ =? _); [now apply update_upper_sinv|now apply update_lower_sinv]. }
  destruct (if f_lit f =? TRUE_LIT then _ else _) as [ok s1]. cbn [snd] in H1. destruct ok; [|exact H1]. cbn [snd].
  apply sinv_only with (2 := H1). eapply only_trans; [apply only_litmap|apply only_erase].
Qed.
Lemma apply_facts_sinv G fs : forall s, sinv G s -> sinv G (snd (apply_facts O cfg fs s)).
Proof.
  induction fs as [|f fs IH]; intros s H; cbn [apply_facts].
  - cbn [snd]. apply sinv_only with (2 := H). now repeat split.
  - pose proof (apply_fact_sinv G f s H) as A. destruct (apply_fact O cfg f s) as [ok s1]. cbn [snd] in A. destruct ok; [now apply IH|exact A].
Qed.
Lemma update_domain_sinv G l s : sinv G s -> sinv G (snd (update_domain O cfg l s)).
Proof.
  intros H. unfold update_domain.
  destruct (if negb (l =? TRUE_LIT) && _ && _ then _ else _) as [l1 s1] eqn:E.
  assert (H1 : sinv G s1).
  { destruct (_ && _ && _); injection E as _ <-; auto. apply sinv_only with (2 := H). eapply only_trans; apply only_fix. }
  clear E H. destruct (l1 =? TRUE_LIT); [now apply apply_facts_sinv|].
  assert (H2 : sinv G (snd (match valid_entry s1 l1 with Some e => update_upper O cfg (e_var e) l1 (e_val e) (e_succ e) s1 | None => (true, s1) end))).
  { destruct (valid_entry s1 l1); auto. now apply update_upper_sinv. }
  destruct (match valid_entry s1 l1 with Some e => _ | None => _ end) as [ok s2]. cbn [snd] in H2. destruct ok; [|exact H2].
  destruct (valid_entry s2 (- l1)); auto. now apply update_lower_sinv.
Qed.
Lemma propagate_lit_sinv G l s : sinv G s -> sinv G (snd (propagate_lit O cfg l s)).
Proof.
  intros H. unfold propagate_lit. apply update_domain_sinv. revert H. generalize (l2c s). intros ps. revert s.
  induction ps as [|p ps IH]; intros s H; cbn [fold_left]; auto. apply IH. destruct (_ =? _); auto. now apply mark_todo_sinv.
Qed.
Lemma propagate_lits_sinv G ls : forall s, sinv G s -> sinv G (snd (propagate_lits O cfg ls s)).
Proof.
  induction ls as [|l ls IH]; intros s H; cbn [propagate_lits]; auto.
  pose proof (propagate_lit_sinv G l s H) as A. destruct (propagate_lit O cfg l s) as [ok s1]. destruct ok; auto.
Qed.
Lemma propagate_sinv G ls s : sinv G s -> ((cur_level s < dlevel O s)%nat -> settled s) ->
  ((cur_level s < dlevel O s)%nat /\ sinv (s :: G) (snd (solver_propagate O cfg ls s))) \/ ((dlevel O s <= cur_level s)%nat /\ sinv G (snd (solver_propagate O cfg ls s))).
Proof.
  intros H ST. unfold solver_propagate. destruct (le_lt_dec (dlevel O s) (cur_level s)) as [L|L].
  - right. split; auto. apply propagate_lits_sinv. unfold push_level. apply Nat.ltb_ge in L. now rewrite L.
  - left. split; auto. apply propagate_lits_sinv. apply push_sinv; auto.
Qed.

(** ** Check *)
Lemma set_tod_sinv G s : core G s -> tod_ok [] s -> sinv G (set_tod [] s).
Proof.
  intros A B. split; [|destruct B; now constructor]. apply core_veq with s; auto. now constructor.
Qed.
(** A check that does not raise an error: *)
Lemma check_loop_sinv G n : forall s o s', sinv G s -> check_loop srt O cfg chk n s = Some (o, s') -> core G s' /\ (forall b, o = Ok b -> sinv G s' /\ (b = true -> settled s')).
Proof.
  induction n as [|n IH]; intros s o s' H E; cbn [check_loop] in E; [discriminate|].
  assert (H1 : sinv G (snd (if is_nil (fmap s) then (true, s) else update_domain O cfg TRUE_LIT s))).
  { destruct (is_nil _); auto. now apply update_domain_sinv. }
  destruct (if is_nil (fmap s) then _ else _) as [ok s1]. cbn [snd] in H1. destruct ok; cbn [negb] in E.
  - destruct (integrate_sinv G s1 H1) as [H2 ST]. set (s2 := integrate s1) in *.
    destruct (run_todo srt O cfg chk (tod s2) true s2) as [o1 s3] eqn:R.
    destruct (run_todo_inv srt O cfg chk G (tod s2) true s2 o1 s3 (proj1 H2) ST (tod_ok_run _ _ (proj2 H2)) R) as (A1 & A2 & A3 & A4).
    destruct o1 as [b|e|].
    + assert (H4 : sinv G (set_tod [] s3)) by (apply set_tod_sinv; eauto using tod_run_nil).
      destruct (negb b || is_nil (fmap (set_tod [] s3))).
      * injection E as <- <-. split; [apply H4|]. intros b' _. split; [exact H4|]. intros _. exact A2.
      * now apply IH in E.
    + injection E as <- <-. split; [exact A1|discriminate].
    + injection E as <- <-. split; [exact A1|discriminate].
  - injection E as <- <-. split; [apply H1|]. intros b X. injection X as <-. split; [exact H1|discriminate].
Qed.
Lemma solver_check_sinv G n s o s' : sinv G s -> solver_check srt O cfg chk n s = Some (o, s') -> core G s' /\ (forall b, o = Ok b -> sinv G s').
Proof.
  intros H E. unfold solver_check in E. destruct (_ && _).
  - injection E as <- <-. split; [apply H|auto].
  - destruct (check_loop_sinv G n s o s' H E) as [A B]. split; auto. intros b X. now apply (B b).
Qed.

Lemma veq_sinv G s s' : veq s s' -> css s' = css s -> tod s' = tod s -> sinv G s -> sinv G s'.
Proof.
  intros V A B [C D]. split; [now apply core_veq with s|]. rewrite B. apply tod_ok_css with s; auto. now rewrite A.
Qed.
Lemma split_only x s : literals_only s (snd (split cfg x s)).
Proof. unfold split. destruct (is_assigned _); [apply only_refl|]. cbn [snd]. apply only_get. Qed.
Lemma split_every_only xs : forall r s, literals_only s (snd (split_every cfg xs r s)).
Proof.
  induction xs as [|x xs IH]; intros r s; cbn [split_every]; [apply only_refl|].
  pose proof (split_only x s) as A. destruct (split cfg x s) as [b s1]. eapply only_trans; [exact A|apply IH].
Qed.
Lemma slast_sinv G x s : sinv G s -> sinv G (set_slast x s).
Proof. apply veq_sinv; auto. now constructor. Qed.
Lemma split_first_sinv G xs : forall s, sinv G s -> sinv G (snd (split_first cfg xs s)).
Proof.
  induction xs as [|x xs IH]; intros s H; cbn [split_first]; auto.
  pose proof (split_only x s) as A. destruct (split cfg x s) as [b s1]. cbn [snd] in A. apply (sinv_only G) in A; auto.
  destruct b; [cbn [snd]; now apply slast_sinv|now apply IH].
Qed.
Lemma check_full_sinv G s o s' : sinv G s -> solver_check_full O cfg sol s = (o, s') -> sinv G s'.
Proof.
  intros H E. unfold solver_check_full in E.
  assert (H1 : sinv G (snd (if split_all cfg then split_every cfg (seq 0 (nvars s)) false s else split_first cfg (seq (slast s) (nvars s - slast s) ++ seq 0 (slast s)) s))).
  { destruct (split_all cfg); [apply sinv_only with (2 := H); apply split_every_only|now apply split_first_sinv]. }
  destruct (if split_all cfg then _ else _) as [b s1]. cbn [snd] in H1. destruct b; [now injection E as _ <-|].
  destruct sol; now injection E as _ <-.
Qed.
Lemma minimize_sinv G c m b l s s' : sinv G s -> check_minimize c m b l s = Ok s' -> sinv G s'.
Proof.
  intros H E. unfold check_minimize in E. destruct (b =? no_bound); [now injection E as <-|].
  destruct (iadd int64 b (fst m)) as [b1|e|]; cbn [bind] in E; try discriminate. injection E as <-.
  unfold update_minimize. destruct (match mbound s with Some _ => _ | None => _ end); [|destruct (_ <? _)%nat; [|exact H]]; apply mark_todo_sinv; apply (veq_sinv G s); auto; now constructor.
Qed.
Lemma prop_check_sinv G n m bound s o s' : sinv G s -> prop_check srt O cfg chk sol n m bound s = Some (o, s') -> core G s' /\ (o = Ok tt -> sinv G s').
Proof.
  intros H E. unfold prop_check in E.
  destruct (match m with Some (c, m0) => _ | None => Ok s end) as [s1|e|] eqn:M; [|injection E as <- <-; split; [apply H|discriminate]..].
  assert (H1 : sinv G s1). { destruct m as [[c m]|]; [now apply (minimize_sinv G) in M|now injection M as <-]. }
  destruct (solver_check srt O cfg chk n s1) as [[o2 s2]|] eqn:C; [|discriminate].
  destruct (solver_check_sinv G n s1 o2 s2 H1 C) as [A B].
  destruct o2 as [[|]|e|].
  - assert (H2 : sinv G s2) by now apply (B true). destruct (_ && _); [|injection E as <- <-; split; [exact A|auto]].
    destruct (solver_check_full O cfg sol s2) as [o3 s3] eqn:F. injection E as <- <-. apply (check_full_sinv G) in F; auto. split; [apply F|auto].
  - injection E as <- <-. split; [exact A|]. intros _. now apply (B false).
  - injection E as <- <-. split; [exact A|discriminate].
  - injection E as <- <-. split; [exact A|discriminate].
Qed.

(** ** Simplification and bounds of other solvers *)
Lemma only_sinv_toff G n s : sinv G s -> sinv G (set_toff n s).
Proof. apply veq_sinv; auto. now constructor. Qed.
Lemma only_sinv_tmin G n s : sinv G s -> sinv G (set_tmin n s).
Proof. apply veq_sinv; auto. now constructor. Qed.
End Calls.

Section Top.
Context (srt : (ival -> Z) -> list ival -> list ival) (O : oracle) (cfg : config) (chk : bool).
Lemma take_bounds_only other xs : forall s, literals_only s (snd (take_bounds O cfg other xs s)).
Proof.
  induction xs as [|x xs IH]; intros s; cbn [take_bounds]; [apply only_refl|].
  set (r1 := if ub (vst other x) <? ub (vst s x) then _ else _).
  assert (A : literals_only s (snd r1)).
  { unfold r1. destruct (_ <? _); [|apply only_refl]. pose proof (only_upd O cfg x (ub (vst other x)) TTrue s) as A.
    destruct (update_literal _ _ _ _ _ _) as [l s1]. eapply only_trans; [exact A|apply only_emit]. }
  destruct r1 as [ok s1]. cbn [snd] in A. destruct ok; cbn [negb]; [|exact A].
  set (r2 := if lb (vst s1 x) <? lb (vst other x) then _ else _).
  assert (B : literals_only s1 (snd r2)).
  { unfold r2. destruct (_ <? _); [|apply only_refl]. pose proof (only_upd O cfg x (lb (vst other x) - 1) TFalse s1) as B.
    destruct (update_literal _ _ _ _ _ _) as [l s2]. eapply only_trans; [exact B|apply only_emit]. }
  destruct r2 as [ok s2]. cbn [snd] in B. destruct ok; [eapply only_trans; [exact A|]; eapply only_trans; [exact B|apply IH]|].
  cbn [snd]. now apply only_trans with s1.
Qed.
Lemma update_bounds_sinv G n other s o s' : sinv G s -> update_bounds srt O cfg chk n other s = Some (o, s') -> core G s' /\ (forall b, o = Ok b -> sinv G s').
Proof.
  intros H E. unfold update_bounds in E. pose proof (take_bounds_only other (seq 0 (nvars other)) s) as A.
  destruct (take_bounds _ _ _ _ _) as [ok s1]. cbn [snd] in A. apply (sinv_only G) in A; auto.
  destruct ok; [now apply (solver_check_sinv srt O cfg chk G n s1 o s')|]. injection E as <- <-. split; [apply A|auto].
Qed.
Lemma stays_dlevel s : stays_top O s -> dlevel O s = 0%nat.
Proof. intros H. apply (H []). constructor. Qed.
Lemma stays_grow s s' : wgrow s s' -> stays_top O s -> stays_top O s'.
Proof.
  intros [(es & E & F) _] H fs FS. rewrite E, app_assoc. apply H. apply Forall_app. auto.
Qed.
(** On the bottom level, while clasp stays there. *)
Lemma simplify_sinv n : forall s o s', sinv [] s -> stays_top O s -> solver_simplify srt O cfg chk n s = Some (o, s') -> core [] s' /\ (forall b, o = Ok b -> sinv [] s').
Proof.
  induction n as [|n IH]; intros s o s' H D E; cbn [solver_simplify] in E; [discriminate|]. unfold cc_propagate in E.
  set (s1 := emit EProp s) in *. assert (S1 : stays_top O s1) by (apply stays_grow with (2 := D); now apply wgrow_emit).
  assert (D1 := stays_dlevel _ S1). assert (H1 : sinv [] s1) by (apply sinv_only with (2 := H); apply only_emit).
  destruct (o_answer O (log s1)); cbn [negb] in E; [|injection E as <- <-; split; [apply H1|auto]].
  destruct (_ && _); [injection E as <- <-; split; [apply H1|auto]|].
  destruct (propagate_sinv O cfg [] (skipn (toff s1) (o_trail O (log s1))) s1 H1) as [[L _]|[_ H2]].
  - intros L. rewrite D1 in L. lia.
  - rewrite D1 in L. lia.
  - assert (S2 := stays_grow _ _ (wgrow_propagate O cfg (skipn (toff s1) (o_trail O (log s1))) s1) S1).
    destruct (solver_propagate O cfg (skipn (toff s1) (o_trail O (log s1))) s1) as [ok s2]. cbn [snd] in H2, S2.
    destruct ok; cbn [negb] in E; [|injection E as <- <-; split; [apply H2|auto]].
    set (s3 := set_toff _ s2) in *. assert (H3 : sinv [] s3) by now apply only_sinv_toff.
    destruct (solver_check srt O cfg chk (S n) s3) as [[o4 s4]|] eqn:C; [|discriminate].
    destruct (solver_check_sinv srt O cfg chk [] (S n) s3 o4 s4 H3 C) as [A B].
    destruct o4 as [[|]|e|].
    + apply IH in E; [exact E|now apply (B true)|]. apply stays_grow with s3; [now apply wgrow_check in C|exact S2].
    + injection E as <- <-. split; [exact A|]. intros b _. now apply (B false).
    + injection E as <- <-. split; [exact A|discriminate].
    + injection E as <- <-. split; [exact A|discriminate].
Qed.
End Top.
