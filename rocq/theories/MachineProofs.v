(** Searches in the machine types keep the ranges, so that they are searches and all functions compute the same. *)
From Verif Require Import Base Util UtilProofs VarState Terms TermsSpec Solver OrderSpec OrderProofs1 OrderProofs2 Orders Sum PropProofs ConSpec
  Distinct DistinctProofs2 Disjoint Objective Search SearchSpec SearchFrame SearchGrow SearchInv SearchInv2 SearchInv3 SearchInv4 SearchInv5 SearchUndo SearchSetup SearchMain
  CheckSpec CheckFrame CheckSays CheckGrow CheckProofs SumMachine MachineSpec SumMachineProofs MachineInv MachineSearch.
Open Scope Z_scope.

Section Machine.
Context (srt : (ival -> Z) -> list ival -> list ival) (O : oracle) (cfg : config) (chk sol : bool) (W : lit -> Prop).
Notation mrun := (mrun srt O cfg chk sol W).

Record fits (G : list state) (s : state) : Prop := {
  f_inv : sinv G s;
  f_snug : forall s0, In s0 (s :: G) -> snug s0;
  f_tab : tab s }.
Lemma fits_moved G s s' : fits G s -> moved s s' -> sinv G s' -> tab s' -> fits G s'.
Proof.
  intros [H1 H2 H3] M S T. constructor; auto. intros s0 [<-|I]; [|apply H2; now right]. apply snug_moved with s; auto; [apply (core_b _ _ (proj1 H1))|apply H2; now left].
Qed.
Lemma fits_start s : started srt O cfg chk sol W s -> settled s -> (forall x, lb (vst s x) <= MAX_VAL /\ MIN_VAL <= ub (vst s x)) ->
  (forall c k, css s c = Some k -> roomy (c_def k)) -> fits [] s.
Proof.
  intros ST SE B R. pose proof (hist_start srt O cfg chk sol W s ST) as H. constructor; [apply H| |apply H].
  intros s0 [<-|[]]. constructor; auto. intros x. destruct (settled_li s SE x) as [-> ->]. apply (h_small _ _ _ _ H s). now left.
Qed.
Lemma fits_propagate G ls s : fits G s -> in_order O s -> exists G', fits G' (snd (solver_propagate O cfg ls s)).
Proof.
  intros H IO. destruct (solver_propagate O cfg ls s) as [ok s'] eqn:E. cbn [snd]. destruct (tg_propagate O cfg ls s ok s' E) as (A & _).
  pose proof (moved_propagate O cfg ls s) as M. rewrite E in M. cbn [snd] in M.
  assert (T : tab s'). { apply (tg_tab _ _ _ A). apply tab_ext with s; try apply H; unfold push_level; destruct (_ <? _)%nat; auto. }
  destruct (propagate_sinv O cfg G ls s (f_inv _ _ H) (fun L => proj1 (proj2 IO L))) as [[L P]|[L P]]; rewrite E in P; cbn [snd] in P.
  - exists (s :: G). constructor; auto. intros s0 [<-|I]; [|now apply H].
    apply snug_moved with s; [apply (core_b _ _ (proj1 (f_inv _ _ H)))|apply H; now left|exact M].
  - exists G. now apply fits_moved with s.
Qed.
Lemma fits_undo G s s' : fits G s -> solver_undo s = Ok s' -> exists G', fits G' s'.
Proof.
  intros [H1 H2 H3] E. destruct (undo_levels G s s' (proj1 H1) E) as (s0 & G' & ->). exists G'.
  destruct (undo_sinv s0 G' s s' H1 E) as (V & T & S' & ST & (U1 & U2 & U3 & U4 & U5 & _ & _ & U8 & _)). constructor; auto.
  - intros s1 [<-|I]; [|apply H2; cbn; auto]. apply snug_moved with s0; [|apply H2; cbn; auto|now apply moved_veq].
    destruct H1 as [[_ (_ & _ & C)] _]. exact (core_b _ _ C).
  - apply tab_ext with s; auto. intros k. unfold key. now rewrite U3.
Qed.
Lemma mrun_fits K s : mrun K s -> exists G, fits G s.
Proof.
  induction 1 as [s S ST B R|n K s S (G & H)|ls ok K s s' S (G & H) IO F E|fuel m bound K s s' S (G & H) IO E|K s s' S (G & H) E].
  - exists []. now apply fits_start.
  - exists G. apply fits_moved with s; auto.
    + apply moved_only, only_emit.
    + apply sinv_only with (2 := f_inv _ _ H). apply only_emit.
    + apply tab_ext with s; try apply H; auto.
  - destruct (fits_propagate G ls s H IO) as (G' & P). rewrite E in P. eauto.
  - exists G. rewrite (mprop_check_ok srt O cfg chk sol G) in E by apply H. apply fits_moved with s; auto.
    + now apply (moved_prop_check srt O cfg chk sol G fuel m bound s (Ok tt)) in E; [|apply H].
    + now apply (prop_check_sinv srt O cfg chk sol G fuel m bound s (Ok tt) s' (f_inv _ _ H) E).
    + apply (tg_tab _ _ _ (tg_prop_check _ _ _ _ _ _ _ _ _ _ _ E)), H.
  - rewrite (msolver_undo_ok G) in E; [|apply (f_inv _ _ H)|apply H]. now apply fits_undo with G s.
Qed.
Lemma mrun_check K s fuel m bound : mrun K s -> mprop_check O cfg srt chk sol fuel m bound s = prop_check srt O cfg chk sol fuel m bound s.
Proof. intros R. destruct (mrun_fits K s R) as (G & H). apply (mprop_check_ok srt O cfg chk sol G); apply H. Qed.
Lemma mrun_undo K s : mrun K s -> msolver_undo s = solver_undo s.
Proof. intros R. destruct (mrun_fits K s R) as (G & H). apply (msolver_undo_ok G); [apply (f_inv _ _ H)|apply H]. Qed.
Lemma mrun_search K s : mrun K s -> search srt O cfg chk sol W K s.
Proof.
  induction 1 as [s S ST B R|n K s S H|ls ok K s s' S H IO F E|fuel m bound K s s' S H IO E|K s s' S H E].
  - now constructor.
  - now constructor.
  - eapply se_propagate; eauto.
  - rewrite (mrun_check K s) in E by auto. eapply se_check; eauto.
  - rewrite (mrun_undo K s) in E by auto. eapply se_undo; eauto.
Qed.
Lemma mrun_undone K s : mrun K s -> cur_level s <> 0%nat -> exists s', msolver_undo s = Ok s'.
Proof.
  intros R N. rewrite (mrun_undo K s R). destruct (mrun_fits K s R) as (G & H). destruct (f_inv _ _ H) as [C T].
  destruct G as [|s0 G]; [exfalso; apply N; now apply (core_cur [] s)|]. destruct (undo_restores s0 G s C T) as (s' & E & _). eauto.
Qed.

(** ** Linear constraints only: no operation is undefined *)
Definition linear (s : state) : Prop := forall c k, css s c = Some k -> sum_es (c_def k) <> None.
Lemma linear_moved s s' : linear s -> moved s s' -> linear s'.
Proof.
  intros L (_ & M & _) c k E. specialize (M c). rewrite E in M. destruct (css s c) as [k0|] eqn:E0; [|discriminate]. cbn in M. injection M as M. rewrite M. now apply (L c).
Qed.
Lemma rhs_defined s d : sum_es d <> None -> sum_rhs s d <> UB.
Proof. destruct d; cbn; try easy. intros _. destruct (mbound s); [|easy]. now destruct (_ || _). Qed.
Lemma prop_con_defined c k s : linear s -> css s c = Some k -> fst (prop_con srt O cfg chk c s) <> UB.
Proof.
  intros L K. specialize (L c k K). assert (X : fst (prop_sum O cfg chk c s) <> UB).
  { unfold prop_sum. rewrite K. pose proof (rhs_defined s _ L) as R. destruct (sum_es (c_def k)) as [es|]; [|easy]. destruct (sum_rhs s (c_def k)) as [[rhs|]|e|]; try easy.
    destruct (_ && _); [easy|]. destruct (_ <=? _); [easy|]. destruct (_ <? _).
    - destruct (reasons _ _ _ _ _ _) as [[ls|] s1]; [|easy]. now destruct (add_clause _ _ _ _).
    - destruct (negb _); [easy|]. now destruct (prop_elems _ _ _ _ _ _ _ _). }
  unfold prop_con. rewrite K. now destruct (c_def k).
Qed.
Lemma check_full_defined c k s : linear s -> css s c = Some k -> check_full_con c s <> UB.
Proof.
  intros L K. specialize (L c k K). assert (X : check_full_sum c s <> UB).
  { unfold check_full_sum. rewrite K. pose proof (rhs_defined s _ L) as R. destruct (sum_es (c_def k)) as [es|]; [|easy]. destruct (sum_rhs s (c_def k)) as [[rhs|]|e|]; try easy.
    repeat match goal with |- context [if ?b then _ else _] => destruct b end; easy. }
  unfold check_full_con. rewrite K. now destruct (c_def k).
Qed.
Lemma run_todo_defined G cs : forall ret s o s', core G s -> settled s -> tod_run cs s -> linear s -> run_todo srt O cfg chk cs ret s = (o, s') -> o <> UB.
Proof.
  induction cs as [|c cs IH]; intros ret s o s' C ST T LI E; cbn [run_todo] in E.
  - now injection E as <- <-.
  - destruct (clear_todo_tod c cs s T) as (T1 & k & K & KT & KI).
    assert (C1 := clear_todo_core G c s C). assert (S1 := clear_todo_same3 c s). assert (ST1 := settled_same3 _ _ S1 ST). assert (L1 := linear_moved _ _ LI (moved_clear_todo c s)).
    set (s1 := clear_todo s c) in *. destruct ret; cbn [negb] in E; [|eapply IH; eauto].
    rewrite K in E. destruct (is_false _ _ _).
    + assert (F := mark_inactive_own O cfg c k s1 K). assert (F1 := cf_same _ _ _ _ _ _ F). apply IH in E; auto.
      * now apply (cframe_core O cfg G c k s1).
      * now apply settled_same3 with s1.
      * now apply (cframe_tod O cfg cs c k s1).
      * now apply linear_moved with (1 := L1), (cframe_moved O cfg c k).
    + pose proof (prop_con_defined c k s1 L1 K) as D. destruct (prop_con srt O cfg chk c s1) as [o1 s2] eqn:P. assert (F := prop_con_frame O cfg srt chk c k s1 o1 s2 K P).
      destruct o1 as [b|e|]; [|now injection E as <- <-|easy]. apply IH in E; auto.
      * now apply (cframe_core O cfg G c k s1).
      * apply settled_same3 with s1; [apply F|auto].
      * now apply (cframe_tod O cfg cs c k s1).
      * now apply linear_moved with (1 := L1), (cframe_moved O cfg c k).
Qed.
Lemma check_loop_defined G n : forall s o s', sinv G s -> linear s -> check_loop srt O cfg chk n s = Some (o, s') -> o <> UB.
Proof.
  induction n as [|n IH]; intros s o s' H LI E; cbn [check_loop] in E; [discriminate|].
  assert (H1 : sinv G (snd (if is_nil (fmap s) then (true, s) else update_domain O cfg TRUE_LIT s))).
  { destruct (is_nil _); auto. now apply update_domain_sinv. }
  assert (D1 : moved s (snd (if is_nil (fmap s) then (true, s) else update_domain O cfg TRUE_LIT s))).
  { destruct (is_nil _); [apply moved_refl|]. apply moved_update_domain. }
  destruct (if is_nil (fmap s) then _ else _) as [ok s1]. cbn [snd] in H1, D1. destruct ok; cbn [negb] in E; [|now injection E as <- <-].
  destruct (integrate_sinv G s1 H1) as [H2 ST]. assert (D2 := moved_trans _ _ _ D1 (moved_integrate G s1 H1)). set (s2 := integrate s1) in *.
  destruct (run_todo srt O cfg chk (tod s2) true s2) as [o1 s3] eqn:R. assert (TR := tod_ok_run _ _ (proj2 H2)).
  destruct (run_todo_inv srt O cfg chk G (tod s2) true s2 o1 s3 (proj1 H2) ST TR R) as (A1 & A2 & A3 & A4).
  assert (D3 := moved_trans _ _ _ D2 (moved_run_todo srt O cfg chk G (tod s2) true s2 o1 s3 (proj1 H2) ST TR R)).
  assert (U := run_todo_defined G _ _ _ _ _ (proj1 H2) ST TR (linear_moved _ _ LI D2) R).
  destruct o1 as [b|e|]; [|now injection E as <- <-|easy].
  assert (H4 : sinv G (set_tod [] s3)) by (apply set_tod_sinv; eauto using tod_run_nil).
  assert (D4 : moved s (set_tod [] s3)) by (apply moved_trans with (1 := D3); now apply moved_fields).
  destruct (negb b || is_nil (fmap (set_tod [] s3))); [now injection E as <- <-|]. apply IH in E; auto. now apply linear_moved with s.
Qed.
Lemma check_all_defined ps s : linear s -> (forall l c, In (l, c) ps -> css s c <> None) -> check_all O ps s <> UB.
Proof.
  intros LI. induction ps as [|(l, c) ps IH]; intros H; cbn [check_all]; [easy|]. assert (H' : forall l c, In (l, c) ps -> css s c <> None) by (intros; eapply H; right; eauto).
  specialize (IH H'). destruct (is_true _ _ _); [|auto]. specialize (H l c (or_introl eq_refl)). destruct (css s c) as [k|] eqn:K; [|easy].
  pose proof (check_full_defined c k s LI K). now destruct (check_full_con c s).
Qed.
Lemma prop_check_defined G n (m : option (cid * mincon)) bound s o s' : sinv G s -> linear s ->
  match m with Some (_, m) => bound = no_bound \/ - 2^63 <= bound + fst m <= 2^63 - 1 | None => True end ->
  prop_check srt O cfg chk sol n m bound s = Some (o, s') -> o <> UB.
Proof.
  intros H LI B E. unfold prop_check in E.
  destruct (match m with Some (c, m0) => check_minimize c m0 bound (dlevel O s) s | None => Ok s end) as [s1|e|] eqn:M.
  3: { exfalso. destruct m as [[c m]|]; [|discriminate]. unfold check_minimize in M. destruct (Z.eqb_spec bound no_bound); [discriminate|]. destruct B as [B|B]; [easy|].
       unfold iadd in M. rewrite ok64 in M by lia. discriminate. }
  2: { now injection E as <- <-. }
  assert (H1 : sinv G s1). { destruct m as [[c m]|]; [now apply (minimize_sinv G) in M|now injection M as <-]. }
  assert (D1 : moved s s1). { destruct m as [[c m]|]; [now apply moved_minimize in M|injection M as <-; apply moved_refl]. }
  destruct (solver_check srt O cfg chk n s1) as [[o2 s2]|] eqn:C; [|discriminate].
  assert (U2 : o2 <> UB). { unfold solver_check in C. destruct (_ && _); [now injection C as <- <-|]. apply (check_loop_defined G) in C; auto. now apply linear_moved with s. }
  assert (D2 := moved_trans _ _ _ D1 (moved_solver_check srt O cfg chk G n s1 o2 s2 H1 C)). destruct (solver_check_sinv srt O cfg chk G n s1 o2 s2 H1 C) as (_ & H2).
  destruct o2 as [[|]|e|]; [|now injection E as <- <-|now injection E as <- <-|easy].
  destruct (_ && _); [|now injection E as <- <-]. specialize (H2 true eq_refl).
  unfold solver_check_full in E.
  assert (X : sinv G (snd (if split_all cfg then split_every cfg (seq 0 (nvars s2)) false s2 else split_first cfg (seq (slast s2) (nvars s2 - slast s2) ++ seq 0 (slast s2)) s2)) /\
    moved s2 (snd (if split_all cfg then split_every cfg (seq 0 (nvars s2)) false s2 else split_first cfg (seq (slast s2) (nvars s2 - slast s2) ++ seq 0 (slast s2)) s2))).
  { destruct (split_all cfg); [|split; [now apply split_first_sinv|apply moved_split_first]]. pose proof (split_every_only cfg (seq 0 (nvars s2)) false s2) as Q.
    split; [now apply sinv_only with s2|now apply moved_only]. }
  destruct (if split_all cfg then _ else _) as [b s3]. cbn [snd] in X. destruct X as [X1 X2]. destruct b; [now injection E as <- <-|]. destruct sol; [|now injection E as <- <-].
  injection E as <- <-. apply check_all_defined; [now apply linear_moved with s2, X2; apply linear_moved with s|].
  intros l c I. apply (b_l2c s3 (core_b _ _ (proj1 X1))) in I as (k & -> & _). discriminate.
Qed.
Lemma mrun_defined K s fuel (m : option (cid * mincon)) bound o s' : mrun K s -> linear s ->
  match m with Some (_, m) => bound = no_bound \/ - 2^63 <= bound + fst m <= 2^63 - 1 | None => True end ->
  mprop_check O cfg srt chk sol fuel m bound s = Some (o, s') -> o <> UB.
Proof. intros R L B E. rewrite (mrun_check K s) in E by auto. destruct (mrun_fits K s R) as (G & H). now apply (prop_check_defined G) in E; [|apply H|..]. Qed.
End Machine.
