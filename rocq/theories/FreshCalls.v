(** The callbacks of clasp keep what distinct constraints know about the bounds of their elements. *)
From Verif Require Import Base Util VarState Terms TermsSpec Solver OrderSpec OrderProofs1 OrderProofs2 Orders Sum PropProofs ConSpec
  Distinct DistinctProofs2 Disjoint Objective Search SearchSpec SearchFrame SearchGrow SearchInv SearchInv2 SearchInv3 SearchInv4 SearchInv5 SearchUndo SearchSetup SearchMain FreshInv.
From Coq Require Import Permutation.
Open Scope Z_scope.

Section Calls.
Context (srt : (ival -> Z) -> list ival -> list ival) (O : oracle) (cfg : config) (chk sol : bool).

Lemma dinv_update_upper G x l v n s : dinv G s -> dinv G (snd (update_upper O cfg x l v n s)).
Proof.
  intros H. unfold update_upper. destruct (Z.ltb_spec v (lb (vst s x))).
  - pose proof (only_get cfg x (lb (vst s x) - 1) s) as A. destruct (get_literal _ _ _ _) as [g s1]. cbn [snd] in A.
    apply (dinv_only G s1); [|now apply (dinv_only G s)]. unfold add_clause, cc_propagate. destruct (o_answer _ _); cbn [snd]; auto using only_emit.
    eapply only_trans; apply only_emit.
  - assert (H1 : dinv G (if v <? ub (vst s x) then level_update_upper x v s else s)).
    { destruct (Z.ltb_spec v (ub (vst s x))); auto. now apply dinv_level_upper. }
    set (s1 := if v <? ub (vst s x) then _ else _) in *. destruct (is_true _ _ _); [exact H1|]. apply dinv_only with (2 := H1). apply only_propvars.
Qed.
Lemma dinv_update_lower G x l v n s : dinv G s -> dinv G (snd (update_lower O cfg x l v n s)).
Proof.
  intros H. unfold update_lower. destruct (Z.ltb_spec (ub (vst s x)) (v + 1)).
  - pose proof (only_get cfg x (ub (vst s x)) s) as A. destruct (get_literal _ _ _ _) as [g s1]. cbn [snd] in A.
    apply (dinv_only G s1); [|now apply (dinv_only G s)]. unfold add_clause, cc_propagate. destruct (o_answer _ _); cbn [snd]; auto using only_emit.
    eapply only_trans; apply only_emit.
  - assert (H1 : dinv G (if lb (vst s x) <? v + 1 then level_update_lower x v s else s)).
    { destruct (Z.ltb_spec (lb (vst s x)) (v + 1)); auto. now apply dinv_level_lower. }
    set (s1 := if lb (vst s x) <? v + 1 then _ else _) in *. destruct (is_true _ _ _); [exact H1|]. apply dinv_only with (2 := H1). apply only_propvars.
Qed.
Lemma dinv_apply_fact G f s : dinv G s -> dinv G (snd (apply_fact O cfg f s)).
Proof.
  intros H. unfold apply_fact.
  assert (H1 : dinv G (snd (if f_lit f =? TRUE_LIT then update_upper O cfg (f_var f) TRUE_LIT (f_val f) (f_prec f) s else update_lower O cfg (f_var f) TRUE_LIT (f_val f) (f_prec f) s))).
  { destruct (_ =? _); [now apply dinv_update_upper|now apply dinv_update_lower]. }
  destruct (if f_lit f =? TRUE_LIT then _ else _) as [ok s1]. cbn [snd] in H1. destruct ok; [|exact H1]. cbn [snd].
  apply dinv_only with (2 := H1). eapply only_trans; [apply only_litmap|apply only_erase].
Qed.
Lemma dinv_apply_facts G fs : forall s, dinv G s -> dinv G (snd (apply_facts O cfg fs s)).
Proof.
  induction fs as [|f fs IH]; intros s H; cbn [apply_facts].
  - cbn [snd]. apply dinv_only with (2 := H). now repeat split.
  - pose proof (dinv_apply_fact G f s H) as A. destruct (apply_fact O cfg f s) as [ok s1]. cbn [snd] in A. destruct ok; [now apply IH|exact A].
Qed.
Lemma dinv_update_domain G l s : dinv G s -> dinv G (snd (update_domain O cfg l s)).
Proof.
  intros H. unfold update_domain.
  destruct (if negb (l =? TRUE_LIT) && _ && _ then _ else _) as [l1 s1] eqn:E.
  assert (H1 : dinv G s1).
  { destruct (_ && _ && _); injection E as _ <-; auto. apply dinv_only with (2 := H). eapply only_trans; apply only_fix. }
  clear E H. destruct (l1 =? TRUE_LIT); [now apply dinv_apply_facts|].
  assert (H2 : dinv G (snd (match valid_entry s1 l1 with Some e => update_upper O cfg (e_var e) l1 (e_val e) (e_succ e) s1 | None => (true, s1) end))).
  { destruct (valid_entry s1 l1); auto. now apply dinv_update_upper. }
  destruct (match valid_entry s1 l1 with Some e => _ | None => _ end) as [ok s2]. cbn [snd] in H2. destruct ok; [|exact H2].
  destruct (valid_entry s2 (- l1)); auto. now apply dinv_update_lower.
Qed.
Lemma dinv_propagate_lits G ls : forall s, dinv G s -> dinv G (snd (propagate_lits O cfg ls s)).
Proof.
  assert (P : forall l s, dinv G s -> dinv G (snd (propagate_lit O cfg l s))).
  { intros l s H. unfold propagate_lit. apply dinv_update_domain. revert H. generalize (l2c s). intros ps. revert s.
    induction ps as [|p ps IH]; intros s H; cbn [fold_left]; auto. apply IH. destruct (_ =? _); auto. now apply dinv_mark_todo. }
  induction ls as [|l ls IH]; intros s H; cbn [propagate_lits]; auto.
  specialize (P l s H). destruct (propagate_lit O cfg l s) as [ok s1]. destruct ok; auto.
Qed.
Lemma dinv_propagate G ls s : sinv G s -> dinv G s -> ((cur_level s < dlevel O s)%nat -> settled s) -> exists G',
  sinv G' (snd (solver_propagate O cfg ls s)) /\ dinv G' (snd (solver_propagate O cfg ls s)) /\ G' = (if (cur_level s <? dlevel O s)%nat then s :: G else G).
Proof.
  intros S H ST. destruct (propagate_sinv O cfg G ls s S ST) as [[L X]|[L X]].
  - exists (s :: G). assert (LB := proj2 (Nat.ltb_lt _ _) L). rewrite LB. split; [exact X|]. split; auto. unfold solver_propagate. apply dinv_propagate_lits. now apply dinv_push.
  - exists G. assert (LB := proj2 (Nat.ltb_ge _ _) L). rewrite LB. split; [exact X|]. split; auto. unfold solver_propagate. apply dinv_propagate_lits. unfold push_level. now rewrite LB.
Qed.

(** ** Check *)
Lemma dinv_check_loop G n : forall s o s', sinv G s -> dinv G s -> check_loop srt O cfg chk n s = Some (o, s') -> dinv G s'.
Proof.
  induction n as [|n IH]; intros s o s' H D E; cbn [check_loop] in E; [discriminate|].
  assert (H1 : sinv G (snd (if is_nil (fmap s) then (true, s) else update_domain O cfg TRUE_LIT s))).
  { destruct (is_nil _); auto. now apply update_domain_sinv. }
  assert (D1 : dinv G (snd (if is_nil (fmap s) then (true, s) else update_domain O cfg TRUE_LIT s))).
  { destruct (is_nil _); auto. now apply dinv_update_domain. }
  destruct (if is_nil (fmap s) then _ else _) as [ok s1]. cbn [snd] in H1, D1. destruct ok; cbn [negb] in E.
  - destruct (integrate_sinv G s1 H1) as [H2 ST]. assert (D2 := dinv_integrate G s1 H1 D1). set (s2 := integrate s1) in *.
    destruct (run_todo srt O cfg chk (tod s2) true s2) as [o1 s3] eqn:R.
    destruct (run_todo_inv srt O cfg chk G (tod s2) true s2 o1 s3 (proj1 H2) ST (tod_ok_run _ _ (proj2 H2)) R) as (A1 & A2 & A3 & A4).
    assert (D3 := dinv_run_todo srt O cfg chk G (tod s2) true s2 o1 s3 (proj1 H2) ST (tod_ok_run _ _ (proj2 H2)) D2 R).
    destruct o1 as [b|e|].
    + assert (H4 : sinv G (set_tod [] s3)) by (apply set_tod_sinv; eauto using tod_run_nil).
      assert (D4 : dinv G (set_tod [] s3)) by now apply (dinv_fields G s3).
      destruct (negb b || is_nil (fmap (set_tod [] s3))); [now injection E as <- <-|now apply IH in E].
    + now injection E as <- <-.
    + now injection E as <- <-.
  - now injection E as <- <-.
Qed.
Lemma dinv_solver_check G n s o s' : sinv G s -> dinv G s -> solver_check srt O cfg chk n s = Some (o, s') -> dinv G s'.
Proof.
  intros H D E. unfold solver_check in E. destruct (_ && _); [now injection E as <- <-|]. now apply (dinv_check_loop G n s o).
Qed.
Lemma dinv_split_first G xs : forall s, dinv G s -> dinv G (snd (split_first cfg xs s)).
Proof.
  induction xs as [|x xs IH]; intros s H; cbn [split_first]; auto.
  pose proof (split_only cfg x s) as A. destruct (split cfg x s) as [b s1]. cbn [snd] in A. apply (dinv_only G) in A; auto.
  destruct b; [cbn [snd]; now apply (dinv_fields G s1)|now apply IH].
Qed.
Lemma dinv_check_full G s o s' : dinv G s -> solver_check_full O cfg sol s = (o, s') -> dinv G s'.
Proof.
  intros H E. unfold solver_check_full in E.
  assert (H1 : dinv G (snd (if split_all cfg then split_every cfg (seq 0 (nvars s)) false s else split_first cfg (seq (slast s) (nvars s - slast s) ++ seq 0 (slast s)) s))).
  { destruct (split_all cfg); [apply dinv_only with (2 := H); apply split_every_only|now apply dinv_split_first]. }
  destruct (if split_all cfg then _ else _) as [b s1]. cbn [snd] in H1. destruct b; [now injection E as _ <-|].
  destruct sol; now injection E as _ <-.
Qed.
Lemma dinv_minimize G c m b l s s' : dinv G s -> check_minimize c m b l s = Ok s' -> dinv G s'.
Proof.
  intros H E. unfold check_minimize in E. destruct (b =? no_bound); [now injection E as <-|].
  destruct (iadd int64 b (fst m)) as [b1|e|]; cbn [bind] in E; try discriminate. injection E as <-.
  unfold update_minimize. destruct (match mbound s with Some _ => _ | None => _ end); [|destruct (_ <? _)%nat; [|exact H]]; apply dinv_mark_todo; now apply (dinv_fields G s).
Qed.
Lemma dinv_prop_check G n m bound s o s' : sinv G s -> dinv G s -> prop_check srt O cfg chk sol n m bound s = Some (o, s') -> dinv G s'.
Proof.
  intros H D E. unfold prop_check in E.
  destruct (match m with Some (c, m0) => _ | None => Ok s end) as [s1|e|] eqn:M; [|now injection E as <- <-..].
  assert (H1 : sinv G s1). { destruct m as [[c m]|]; [now apply (minimize_sinv G) in M|now injection M as <-]. }
  assert (D1 : dinv G s1). { destruct m as [[c m]|]; [now apply (dinv_minimize G) in M|now injection M as <-]. }
  destruct (solver_check srt O cfg chk n s1) as [[o2 s2]|] eqn:C; [|discriminate].
  assert (D2 := dinv_solver_check G n s1 o2 s2 H1 D1 C).
  destruct o2 as [[|]|e|]; [|now injection E as <- <-..].
  destruct (_ && _); [|now injection E as <- <-].
  destruct (solver_check_full O cfg sol s2) as [o3 s3] eqn:F. injection E as <- <-. now apply (dinv_check_full G) in F.
Qed.
Lemma dinv_update_bounds G n other s o s' : sinv G s -> dinv G s -> update_bounds srt O cfg chk n other s = Some (o, s') -> dinv G s'.
Proof.
  intros H D E. unfold update_bounds in E. pose proof (take_bounds_only O cfg other (seq 0 (nvars other)) s) as A.
  destruct (take_bounds _ _ _ _ _) as [ok s1]. cbn [snd] in A. assert (D1 := dinv_only G _ _ A D). apply (sinv_only G) in A; auto.
  destruct ok; [now apply (dinv_solver_check G n s1 o s')|]. now injection E as <- <-.
Qed.
Lemma dinv_simplify n : forall s o s', sinv [] s -> dinv [] s -> stays_top O s -> solver_simplify srt O cfg chk n s = Some (o, s') -> dinv [] s'.
Proof.
  induction n as [|n IH]; intros s o s' H DI D E; cbn [solver_simplify] in E; [discriminate|]. unfold cc_propagate in E.
  set (s1 := emit EProp s) in *. assert (S1 : stays_top O s1) by (apply (stays_grow O) with (2 := D); now apply wgrow_emit).
  assert (D1 := stays_dlevel O _ S1). assert (H1 : sinv [] s1) by (apply sinv_only with (2 := H); apply only_emit).
  assert (DI1 : dinv [] s1) by (apply dinv_only with (2 := DI); apply only_emit).
  destruct (o_answer O (log s1)); cbn [negb] in E; [|now injection E as <- <-].
  destruct (_ && _); [now injection E as <- <-|].
  destruct (dinv_propagate [] (skipn (toff s1) (o_trail O (log s1))) s1 H1 DI1) as (G' & H2 & DI2 & EG).
  - intros L. rewrite D1 in L. lia.
  - rewrite D1 in EG. replace (cur_level s1 <? 0)%nat with false in EG by (symmetry; apply Nat.ltb_ge; lia). subst G'.
    assert (S2 := stays_grow O _ _ (wgrow_propagate O cfg (skipn (toff s1) (o_trail O (log s1))) s1) S1).
    destruct (solver_propagate O cfg (skipn (toff s1) (o_trail O (log s1))) s1) as [ok s2]. cbn [snd] in H2, DI2, S2.
    destruct ok; cbn [negb] in E; [|now injection E as <- <-].
    set (s3 := set_toff _ s2) in *. assert (H3 : sinv [] s3) by now apply only_sinv_toff. assert (DI3 : dinv [] s3) by now apply (dinv_fields [] s2).
    destruct (solver_check srt O cfg chk (S n) s3) as [[o4 s4]|] eqn:C; [|discriminate].
    destruct (solver_check_sinv srt O cfg chk [] (S n) s3 o4 s4 H3 C) as [A B]. assert (DI4 := dinv_solver_check [] (S n) s3 o4 s4 H3 DI3 C).
    destruct o4 as [[|]|e|]; [|now injection E as <- <-..].
    apply IH in E; auto; [now apply (B true)|]. apply (stays_grow O) with s3; [now apply wgrow_check in C|exact S2].
Qed.
End Calls.

(** ** Undo *)

Lemma undo_watches_marked d c ws : forall s,
  match css s c, css (fold_left (undo_watch d) ws s) c with
  | Some k, Some k' => c_def k' = c_def k /\ (is_dist (c_def k) -> marked (ents c ws) k k')
  | None, None => True
  | _, _ => False
  end.
Proof.
  induction ws as [|(i, e) ws IH]; intros s; cbn [fold_left].
  - destruct (css s c) as [k|]; auto. split; auto. intros _. apply marked_nil, dsame_refl.
  - rewrite ents_cons. specialize (IH (undo_watch d s (i, e))). set (s' := fold_left _ _ _) in *. unfold undo_watch in IH. cbn [fst snd] in IH.
    destruct (css s e) as [ke|] eqn:KE.
    + destruct (Nat.eqb_spec e c) as [->|N].
      * rewrite KE. rewrite set_cs_same in IH. destruct (css s' c) as [k'|]; [|easy]. destruct (cs_undo_shift i d ke) as [SH _]. assert (Q := sh_def _ _ _ _ SH).
        destruct IH as [I1 I2]. split; [congruence|]. intros DI. destruct (dist_is _ DI) as (l & es & E). apply (marked_trans [i] (ents c ws) ke (cs_undo i d ke)); [now apply (cs_undo_marked i d ke l es)|].
        apply I2. now rewrite Q.
      * rewrite set_cs_other in IH by auto. exact IH.
    + destruct (Nat.eqb_spec e c) as [->|N]; [|exact IH]. rewrite KE in *. exact IH.
Qed.

(** The constraints after undoing the bounds of the variables [xs]; [diff] says which of them have changed for the constraints. *)
Definition redone (diff : var -> Prop) (xs : list var) (s s' : state) : Prop := forall c,
  match css s c, css s' c with
  | Some k, Some k' => c_def k' = c_def k /\ (is_dist (c_def k) -> exists W, marked W k k' /\ (forall i, In i W -> exists x, In i (ents c (wat s x))) /\
      forall x, In x xs -> diff x -> incl (ents c (wat s x)) W)
  | None, None => True
  | _, _ => False
  end.
Lemma redone_cons (diff : var -> Prop) x xs s s1 s2 d (b : bool) : (diff x -> b = true) -> (forall y, wat s1 y = wat s y) ->
  css s1 = css (if b then fold_left (undo_watch d) (wat s x) s else s) -> redone diff xs s1 s2 -> redone diff (x :: xs) s s2.
Proof.
  intros DB WA CS R c. specialize (R c). rewrite CS in R.
  assert (X : match css s c, css (if b then fold_left (undo_watch d) (wat s x) s else s) c with
    | Some k, Some k' => c_def k' = c_def k /\ (is_dist (c_def k) -> marked (if b then ents c (wat s x) else []) k k') | None, None => True | _, _ => False end).
  { destruct b; [apply undo_watches_marked|]. destruct (css s c); auto. split; auto. intros _. apply marked_nil, dsame_refl. }
  destruct (css s c) as [k|]; destruct (css (if b then _ else s) c) as [k1|]; try easy. destruct (css s2 c) as [k2|]; [|easy].
  destruct X as [X1 X2]. destruct R as [R1 R2]. split; [congruence|]. intros DI. destruct R2 as (W & M & I & IN); [now rewrite X1|].
  exists ((if b then ents c (wat s x) else []) ++ W). split; [now apply marked_trans with k1; auto|]. split.
  - intros i J. apply in_app_iff in J as [J|J]; [destruct b; [eauto|easy]|]. apply I in J as (y & J). rewrite WA in J. eauto.
  - intros y [->|J] DY i HI; apply in_or_app; [left; rewrite (DB DY); auto|right]. apply (IN y J DY). now rewrite WA.
Qed.
Lemma undo_lowers_redone xs : forall s s', NoDup xs -> undo_each undo_lower1 xs s = Ok s' ->
  wat s' = wat s /\ udiff s' = udiff s /\ (forall x, ub (vst s' x) = ub (vst s x) /\ ubs (vst s' x) = ubs (vst s x)) /\
  redone (fun x => exists n b r, lbs (vst s x) = (n, b) :: r /\ lb (vst s x) - b - ldiff s x <> 0) xs s s'.
Proof.
  induction xs as [|x xs IH]; intros s s' ND E; cbn [undo_each] in E.
  - injection E as <-. repeat split; auto. intros c. destruct (css s c); auto. split; auto. intros _. exists []. split; [apply marked_nil, dsame_refl|]. split; easy.
  - inversion_clear ND as [|? ? NI ND']. unfold undo_lower1 in E at 1. destruct (lbs (vst s x)) as [|(n, b) r] eqn:LB; [discriminate|]. cbn [bind] in E.
    set (d := lb (vst s x) - b - ldiff s x) in *. set (t1 := set_vs x _ s) in *. set (t2 := if d =? 0 then t1 else fold_left (undo_watch d) (wat s x) t1) in *.
    assert (F2 : t2 = set_css (css t2) t1). { unfold t2. destruct (d =? 0); [now destruct t1|]. apply undo_watches_spec. }
    set (t3 := set_ldiff _ t2) in *. destruct (IH t3 s' ND' E) as (A1 & A2 & A3 & A4).
    assert (W3 : wat t3 = wat s) by (unfold t3; rewrite F2; reflexivity).
    assert (V3 : vst t3 = upd (vst s) x (mkvs b (ub (vst s x)) r (ubs (vst s x)) (lits (vst s x)))) by (unfold t3; rewrite F2; reflexivity).
    assert (L3 : ldiff t3 = upd (ldiff s) x 0) by (unfold t3; rewrite F2; reflexivity).
    assert (U3 : udiff t3 = udiff s) by (unfold t3; rewrite F2; reflexivity).
    split; [congruence|]. split; [congruence|]. split.
    + intros y. destruct (A3 y) as [-> ->]. rewrite V3. unfold upd. now destruct (Nat.eqb_spec y x) as [->|N].
    + apply (redone_cons _ x xs s t3 s' d (negb (d =? 0))).
      * intros (n' & b' & r' & E1 & E2). rewrite LB in E1. injection E1 as <- <- <-. fold d in E2. now apply negb_true_iff, Z.eqb_neq.
      * now rewrite W3.
      * change (css t3) with (css t2). unfold t2. destruct (d =? 0); [reflexivity|]. cbn [negb]. clear.
        assert (G : forall ws u v, css u = css v -> css (fold_left (undo_watch d) ws u) = css (fold_left (undo_watch d) ws v)).
        { induction ws as [|w ws IH]; intros u v H; cbn [fold_left]; auto. apply IH. unfold undo_watch. rewrite H. destruct (css v (snd w)); auto. unfold set_cs. cbn. now rewrite H. }
        now apply G.
      * intros c. specialize (A4 c). destruct (css t3 c); auto. destruct (css s' c); auto. destruct A4 as [B1 B2]. split; auto. intros DI. destruct (B2 DI) as (W & M & I & IN).
        exists W. split; auto. split; auto. intros y J (n' & b' & r' & E1 & E2). apply IN; auto. exists n', b', r'.
        assert (y <> x) by (intros ->; auto). rewrite V3, L3, !upd_other by auto. auto.
Qed.
Lemma undo_uppers_redone xs : forall s s', NoDup xs -> undo_each undo_upper1 xs s = Ok s' ->
  redone (fun x => exists n b r, ubs (vst s x) = (n, b) :: r /\ ub (vst s x) - b - udiff s x <> 0) xs s s'.
Proof.
  induction xs as [|x xs IH]; intros s s' ND E; cbn [undo_each] in E.
  - injection E as <-. intros c. destruct (css s c); auto. split; auto. intros _. exists []. split; [apply marked_nil, dsame_refl|]. split; easy.
  - inversion_clear ND as [|? ? NI ND']. unfold undo_upper1 in E at 1. destruct (ubs (vst s x)) as [|(n, b) r] eqn:LB; [discriminate|]. cbn [bind] in E.
    set (d := ub (vst s x) - b - udiff s x) in *. set (t1 := set_vs x _ s) in *. set (t2 := if d =? 0 then t1 else fold_left (undo_watch d) (wat s x) t1) in *.
    assert (F2 : t2 = set_css (css t2) t1). { unfold t2. destruct (d =? 0); [now destruct t1|]. apply undo_watches_spec. }
    set (t3 := set_udiff _ t2) in *. assert (A4 := IH t3 s' ND' E).
    assert (W3 : wat t3 = wat s) by (unfold t3; rewrite F2; reflexivity).
    assert (V3 : vst t3 = upd (vst s) x (mkvs (lb (vst s x)) b (lbs (vst s x)) r (lits (vst s x)))) by (unfold t3; rewrite F2; reflexivity).
    assert (L3 : udiff t3 = upd (udiff s) x 0) by (unfold t3; rewrite F2; reflexivity).
    apply (redone_cons _ x xs s t3 s' d (negb (d =? 0))).
    + intros (n' & b' & r' & E1 & E2). rewrite LB in E1. injection E1 as <- <- <-. fold d in E2. now apply negb_true_iff, Z.eqb_neq.
    + now rewrite W3.
    + change (css t3) with (css t2). unfold t2. destruct (d =? 0); [reflexivity|]. cbn [negb]. clear.
      assert (G : forall ws u v, css u = css v -> css (fold_left (undo_watch d) ws u) = css (fold_left (undo_watch d) ws v)).
      { induction ws as [|w ws IH]; intros u v H; cbn [fold_left]; auto. apply IH. unfold undo_watch. rewrite H. destruct (css v (snd w)); auto. unfold set_cs. cbn. now rewrite H. }
      now apply G.
    + intros c. specialize (A4 c). destruct (css t3 c); auto. destruct (css s' c); auto. destruct A4 as [B1 B2]. split; auto. intros DI. destruct (B2 DI) as (W & M & I & IN).
      exists W. split; auto. split; auto. intros y J (n' & b' & r' & E1 & E2). apply IN; auto. exists n', b', r'.
      assert (y <> x) by (intros ->; auto). rewrite V3, L3, !upd_other by auto. auto.
Qed.

Definition dkept (k k' : cst) : Prop := c_def k' = c_def k /\ c_asg k' = c_asg k /\ c_dirty k' = c_dirty k /\ c_tlo k' = c_tlo k /\ c_tup k' = c_tup k.
Lemma activate_dkept cs : forall s c, match css s c, css (fold_left activate cs s) c with Some k, Some k' => dkept k k' | None, None => True | _, _ => False end.
Proof.
  intros s c. destruct (activate_spec cs s) as [_ A]. destruct (A c) as [A1 A2]. destruct (in_dec Nat.eq_dec c cs) as [I|I]; [rewrite (A1 I)|rewrite (A2 I)]; destruct (css s c); cbn; auto; now repeat split.
Qed.
Lemma clear_dkept cs : forall s c, match css s c, css (fold_left clear_todo cs s) c with Some k, Some k' => dkept k k' | None, None => True | _, _ => False end.
Proof.
  intros s c. destruct (clear_spec cs s) as [_ A]. destruct (A c) as [A1 A2]. destruct (in_dec Nat.eq_dec c cs) as [I|I]; [rewrite (A1 I)|rewrite (A2 I)]; destruct (css s c); cbn; auto; now repeat split.
Qed.

Lemma dinv_undo s0 G s s' : sinv (s0 :: G) s -> dinv (s0 :: G) s -> solver_undo s = Ok s' -> dinv G s'.
Proof.
  intros SI D E. destruct (undo_sinv s0 G s s' SI E) as (V & _ & _ & _ & _). destruct SI as [(B & SE & OP & C0) _]. destruct SE as (SE1 & SE2 & SE3).
  destruct (o_lvl _ _ OP) as (LV & LN & LT). destruct (o_lows _ _ OP) as (segl & UL & NDL & PL). destruct (o_ups _ _ OP) as (segu & UU & NDU & PU).
  unfold solver_undo in E. rewrite LV in E. destruct (lvls s0) as [|l0 ls0] eqn:LS0; [easy|].
  unfold level_undo in E. cbn [o_lo o_up o_ina o_rem new_level] in E. rewrite UL, skipn_seg in E.
  destruct (undo_each undo_lower1 segl s) as [s1| |] eqn:E1; try discriminate. cbn [bind] in E. set (s2 := set_inl [] _) in *.
  destruct (undo_lowers_redone segl s s1 NDL E1) as (W1 & DU1 & UB1 & R1).
  assert (U2 : skipn (length (uup s0)) (uup s2) = segu).
  { assert (X : uup s1 = uup s). { clear - E1. revert s E1. induction segl as [|x xs IH]; intros s E1; cbn [undo_each] in E1; [now injection E1 as <-|].
      unfold undo_lower1 in E1 at 1. destruct (lbs (vst s x)) as [|(n, b) r]; [discriminate|]. cbn [bind] in E1. apply IH in E1. rewrite E1. clear.
      destruct (_ =? 0); [reflexivity|]. match goal with |- uup (set_ldiff _ (fold_left _ ?ws ?t)) = _ => destruct (undo_watches_spec (lb (vst s x) - b - ldiff s x) ws t) as [-> _] end. reflexivity. }
    change (uup s2) with (uup s1). now rewrite X, UU, skipn_seg. }
  rewrite U2 in E. destruct (undo_each undo_upper1 segu s2) as [s3| |] eqn:E3; try discriminate. cbn [bind] in E.
  assert (R3 := undo_uppers_redone segu s2 s3 NDU E3). set (s4 := set_inu [] _) in *.
  set (acts := skipn _ (ina s4)) in *. assert (A5 := activate_dkept acts s4). set (s5 := fold_left activate acts s4) in *. set (s6 := set_ina _ s5) in *.
  set (rs := skipn _ (remw s6)) in *. destruct (readd_spec rs s6) as [F7 _]. set (s7 := fold_left readd_watch rs s6) in *. set (s8 := set_remw _ s7) in *.
  assert (A9 := clear_dkept (tod s8) s8). set (s9 := fold_left clear_todo (tod s8) s8) in *.
  assert (CS : css s' = css s9) by now injection E as <-. assert (C8 : css s8 = css s5). { unfold s8. rewrite F7. reflexivity. }
  intros c k' l es K' DE. rewrite CS in K'. specialize (A9 c). rewrite K', C8 in A9. specialize (A5 c). change (css s4 c) with (css s3 c) in A5.
  destruct (css s5 c) as [k5|]; [|easy]. destruct (css s3 c) as [k3|] eqn:K3; [|easy]. specialize (R3 c). change (css s2 c) with (css s1 c) in R3. rewrite K3 in R3.
  destruct (css s1 c) as [k1|] eqn:K1; [|easy]. specialize (R1 c). rewrite K1 in R1. destruct (css s c) as [k|] eqn:K; [|easy].
  destruct A9 as (P1 & P2 & P3 & P4 & P5). destruct A5 as (Q1 & Q2 & Q3 & Q4 & Q5). destruct R3 as [R31 R32]. destruct R1 as [R11 R12].
  assert (EK : c_def k = CDistinct l es) by congruence. destruct R12 as (Wl & Ml & Il & INl); [now rewrite EK|]. destruct R32 as (Wu & Mu & Iu & INu); [now rewrite R11, EK|].
  destruct (D c k l es K EK) as [FL FT FA].
  assert (IDX : forall i x, In i (ents c (wat s x)) -> (widx i < length es)%nat).
  { intros i x I. assert (J : In i (wvals x (cs_watches (c_def k)))). { apply (Permutation_in _ (b_watch s B c k x K)). apply in_or_app. auto. }
    apply wvals_in in J. rewrite EK in J. now apply dist_watch_idx in J. }
  constructor.
  - rewrite P2, Q2, (mk_asg _ _ _ Mu), (mk_asg _ _ _ Ml). exact FL.
  - rewrite P4, P5, Q4, Q5. apply Forall_forall. intros i I. apply (mk_todo _ _ _ Mu) in I as [I|I].
    + apply (mk_todo _ _ _ Ml) in I as [I|I]; [rewrite Forall_forall in FT; auto|]. apply in_map_iff in I as (j & <- & I). apply Il in I as (x & I). now apply (IDX j x).
    + apply in_map_iff in I as (j & <- & I). apply Iu in I as (x & I). change (wat s2 x) with (wat s1 x) in I. rewrite W1 in I. now apply (IDX j x).
  - intros i e a NE NA ND. rewrite P2, Q2, (mk_asg _ _ _ Mu), (mk_asg _ _ _ Ml) in NA. rewrite P3, Q3 in ND.
    assert (ND1 : ~ In i (c_dirty k1)) by (intros X; apply ND; apply (mk_dirty _ _ _ Mu); auto).
    assert (ND0 : ~ In i (c_dirty k)) by (intros X; apply ND1; apply (mk_dirty _ _ _ Ml); auto).
    destruct (FA i e a NE NA ND0) as [_ FC].
    assert (ND' : ~ (live c s /\ differs s s0 e)).
    { intros [(kk & KK & RR) DF]. replace kk with k in * by congruence. apply Exists_exists in DF as (p & IP & DF).
      destruct (dist_watch_all l es i e p NE IP) as (j & JI & J).
      assert (JW : In j (ents c (wat s (snd p)))). { apply (Permutation_in _ (Permutation_sym (all_watches s c k (snd p) B K RR))). apply wvals_in. rewrite EK. exact J. }
      unfold li, ui in DF. destruct (SE3 (snd p)) as [Z1 Z2]. rewrite Z1, Z2, !Z.sub_0_r in DF. destruct DF as [DF|DF].
      - apply ND1, (mk_dirty _ _ _ Ml). right. rewrite <- JI. apply in_map. destruct (PL (snd p)) as [PL1 PL2]. destruct (in_dec Nat.eq_dec (snd p) segl) as [X|X].
        + apply (INl (snd p) X); auto. exists (cur_level s), (lb (vst s0 (snd p))), (lbs (vst s0 (snd p))). split; [auto|lia].
        + destruct (PL2 X) as (_ & Y1 & Y2). lia.
      - apply ND, (mk_dirty _ _ _ Mu). right. rewrite <- JI. apply in_map. destruct (PU (snd p)) as [PU1 PU2]. destruct (in_dec Nat.eq_dec (snd p) segu) as [X|X].
        + apply (INu (snd p) X).
          * change (vst s2 (snd p)) with (vst s1 (snd p)). change (udiff s2) with (udiff s1). destruct (UB1 (snd p)) as [-> ->]. rewrite DU1.
            exists (cur_level s), (ub (vst s0 (snd p))), (ubs (vst s0 (snd p))). split; [auto|lia].
          * change (wat s2) with (wat s1). now rewrite W1.
        + destruct (PU2 X) as (_ & Y1 & Y2). lia. }
    apply claims_top with s0.
    + assert (CU := veq_cur _ _ V). split; intros (kk & KK & RR).
      * destruct (veq_css' _ _ _ _ V KK) as (k2 & K2 & _ & I2 & _). exists k2. split; auto. now rewrite CU, (removable_eq _ kk k2 I2).
      * destruct (veq_css _ _ _ _ V KK) as (k2 & K2 & _ & I2 & _). exists k2. split; auto. now rewrite <- CU, <- (removable_eq _ k2 kk I2).
    + intros _ p _. now apply veq_li.
    + apply claims_mono with (2 := FC). tauto.
Qed.
