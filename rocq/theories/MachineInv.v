(** Bounds known to constraints stay in range, and constraints stay the same. *)
From Verif Require Import Base Util VarState Terms TermsSpec Solver OrderSpec OrderProofs1 OrderProofs2 Orders Sum PropProofs ConSpec
  Distinct DistinctProofs2 Disjoint Objective Search SearchSpec SearchFrame SearchGrow SearchInv SearchInv2 SearchInv3 SearchInv4 SearchInv5 SearchUndo SearchSetup SearchMain.
From Coq Require Import Permutation.
Open Scope Z_scope.

(** Bounds known to constraints get tighter, constraints stay. *)
Definition moved (s s' : state) : Prop :=
  (forall x, li s x <= li s' x /\ ui s' x <= ui s x) /\ (forall c, option_map c_def (css s' c) = option_map c_def (css s c)) /\
  forall x, lb (vst s x) <= lb (vst s' x) <= Z.max (lb (vst s x)) (ub (vst s x)) /\ Z.min (lb (vst s x)) (ub (vst s x)) <= ub (vst s' x) <= ub (vst s x).
Lemma moved_refl s : moved s s.
Proof. split; [|split]; auto; intros; lia. Qed.
Lemma moved_trans s s1 s2 : moved s s1 -> moved s1 s2 -> moved s s2.
Proof.
  intros (A & B & E) (C & D & F). split; [|split; [intros c; now rewrite D|]]; intros x.
  - specialize (A x). specialize (C x). lia.
  - specialize (E x). specialize (F x). lia.
Qed.
Lemma moved_eq s s' : (forall x, li s' x = li s x /\ ui s' x = ui s x) -> (forall c, option_map c_def (css s' c) = option_map c_def (css s c)) ->
  (forall x, lb (vst s' x) = lb (vst s x) /\ ub (vst s' x) = ub (vst s x)) -> moved s s'.
Proof. intros A B C. split; [|split]; auto; intros x; [destruct (A x)|destruct (C x)]; lia. Qed.
Lemma moved_fields s s' : vst s' = vst s -> ldiff s' = ldiff s -> udiff s' = udiff s -> css s' = css s -> moved s s'.
Proof. intros A B C D. apply moved_eq; [intros x; unfold li, ui; now rewrite A, B, C|now rewrite D|now rewrite A]. Qed.
Lemma moved_same3 s s' : same3 s s' -> (forall c, option_map c_def (css s' c) = option_map c_def (css s c)) -> moved s s'.
Proof.
  intros S D. apply moved_eq; auto; intros x; pose proof (proj2 S x) as V; apply vb_fields in V as (V1 & V2 & _); auto. unfold li, ui. rewrite V1, V2.
  now rewrite (same3_get ldiff (fun _ => eq_refl) _ _ S), (same3_get udiff (fun _ => eq_refl) _ _ S).
Qed.
Lemma moved_only s s' : literals_only s s' -> moved s s'.
Proof. intros (A & B & _). apply moved_same3; auto. now rewrite B. Qed.
Lemma moved_veq s s' : veq s s' -> moved s s'.
Proof.
  intros V. apply moved_eq; [intros x; now apply veq_li| |intros x; destruct (veq_vb _ _ x V) as (? & ? & _); auto]. intros c. pose proof (v_css _ _ V c) as E.
  destruct (css s c) as [k|], (css s' c) as [k'|]; cbn in *; try discriminate; auto. injection E as E _ _. now rewrite E.
Qed.
Lemma moved_mark_todo c s : moved s (mark_todo c s).
Proof. apply moved_veq, mark_todo_veq. Qed.
Lemma moved_clear_todo c s : moved s (clear_todo s c).
Proof.
  apply moved_same3; [apply clear_todo_same3|]. intros d. unfold clear_todo. destruct (css s c) as [k|] eqn:K; auto.
  destruct (Nat.eq_dec d c) as [->|N]; [rewrite set_cs_same, K; reflexivity|now rewrite set_cs_other].
Qed.
Lemma moved_level_lower x v s : lb (vst s x) < v + 1 <= ub (vst s x) -> moved s (level_update_lower x v s).
Proof.
  intros GD. destruct (level_lower_eq x v s) as (EV & _ & _ & ED & ES). set (s' := level_update_lower x v s) in *. split; [|split].
  - intros y. assert (U : udiff s' = udiff s) by (rewrite ES; reflexivity). unfold li, ui. rewrite U, EV, ED. clear ES. unfold upd. destruct (Nat.eqb_spec y x) as [->|N]; cbn [lb ub]; lia.
  - intros c. rewrite ES. reflexivity.
  - intros y. rewrite EV. clear ES. unfold upd. destruct (Nat.eqb_spec y x) as [->|N]; cbn [lb ub]; lia.
Qed.
Lemma moved_level_upper x v s : lb (vst s x) <= v < ub (vst s x) -> moved s (level_update_upper x v s).
Proof.
  intros GD. destruct (level_upper_eq x v s) as (EV & _ & _ & ED & ES). set (s' := level_update_upper x v s) in *. split; [|split].
  - intros y. assert (U : ldiff s' = ldiff s) by (rewrite ES; reflexivity). unfold li, ui. rewrite U, EV, ED. clear ES. unfold upd. destruct (Nat.eqb_spec y x) as [->|N]; cbn [lb ub]; lia.
  - intros c. rewrite ES. reflexivity.
  - intros y. rewrite EV. clear ES. unfold upd. destruct (Nat.eqb_spec y x) as [->|N]; cbn [lb ub]; lia.
Qed.
Lemma shifted_def a b s s' : shifted a b s s' -> forall c, option_map c_def (css s' c) = option_map c_def (css s c).
Proof. intros H c. specialize (H c). destruct (css s c), (css s' c); try easy. cbn. now rewrite (sh_def _ _ _ _ H). Qed.
Lemma moved_integrate_lower s x : bcore s -> moved s (integrate_lower s x).
Proof.
  intros B. unfold integrate_lower. set (s' := update_constraints x (ldiff s x) s).
  assert (P : passed x (ldiff s x) s s') by (apply update_constraints_passed; intros i c; apply (b_wref s B)). split; [|split].
  - intros y. unfold li, ui. cbn [vst ldiff udiff set_ldiff]. assert (EV : vst s' = vst s /\ ldiff s' = ldiff s /\ udiff s' = udiff s) by (rewrite (pa_frame _ _ _ _ P); auto).
    destruct EV as (-> & -> & ->). unfold upd. pose proof (b_diff s B y). destruct (Nat.eqb_spec y x) as [->|N]; lia.
  - cbn [css set_ldiff]. apply (shifted_def _ _ _ _ (pa_css _ _ _ _ P)).
  - intros y. cbn [vst set_ldiff]. rewrite (pa_frame _ _ _ _ P). cbn. lia.
Qed.
Lemma moved_integrate_upper s x : bcore s -> moved s (integrate_upper s x).
Proof.
  intros B. unfold integrate_upper. set (s' := update_constraints x (udiff s x) s).
  assert (P : passed x (udiff s x) s s') by (apply update_constraints_passed; intros i c; apply (b_wref s B)). split; [|split].
  - intros y. unfold li, ui. cbn [vst ldiff udiff set_udiff]. assert (EV : vst s' = vst s /\ ldiff s' = ldiff s /\ udiff s' = udiff s) by (rewrite (pa_frame _ _ _ _ P); auto).
    destruct EV as (-> & -> & ->). unfold upd. pose proof (b_diff s B y). destruct (Nat.eqb_spec y x) as [->|N]; lia.
  - cbn [css set_udiff]. apply (shifted_def _ _ _ _ (pa_css _ _ _ _ P)).
  - intros y. cbn [vst set_udiff]. rewrite (pa_frame _ _ _ _ P). cbn. lia.
Qed.
Lemma moved_integrate G s : sinv G s -> moved s (integrate s).
Proof.
  intros S. unfold integrate.
  assert (U : forall xs s, sinv G s -> sinv G (fold_left integrate_upper xs s) /\ moved s (fold_left integrate_upper xs s)).
  { induction xs as [|x xs IH]; intros t T; cbn [fold_left]; [split; auto using moved_refl|]. destruct (integrate_upper_sinv G t x T) as (A & _).
    destruct (IH _ A) as (B & C). split; auto. apply moved_trans with (2 := C). apply moved_integrate_upper. apply (core_b _ _ (proj1 T)). }
  assert (L : forall xs s, bcore s -> (forall xs, bcore (fold_left integrate_lower xs s)) -> moved s (fold_left integrate_lower xs s)).
  { induction xs as [|x xs IH]; intros t T F; cbn [fold_left]; [apply moved_refl|].
    apply moved_trans with (integrate_lower t x); [now apply moved_integrate_lower|]. apply IH; [apply (F [x])|]. intros ys. apply (F (x :: ys)). }
  destruct (U (inu s) s S) as (A & B). set (s1 := fold_left integrate_upper (inu s) s) in *.
  destruct (integrate_uppers G (inu s) s S) as (_ & A2 & A3 & A4). fold s1 in A2, A3, A4.
  assert (S2 : sinv G (set_inl (inl s1) (set_inu [] s1))).
  { apply sinv_set_in; auto; intros x N; [now apply (b_in s1 (core_b _ _ (proj1 A)))|]. exfalso. apply N.
    destruct (A4 x) as (_ & C1 & C2). destruct (Z.eq_dec (udiff s x) 0) as [Z0|Z0]; [auto|]. apply C1. now apply (b_in s (core_b _ _ (proj1 S))). }
  assert (ES : set_inl (inl s1) (set_inu [] s1) = set_inu [] s1) by now destruct s1. rewrite ES in S2. set (s2 := set_inu [] s1) in *.
  apply moved_trans with s1; [exact B|]. apply moved_trans with s2; [now apply moved_fields|].
  apply moved_trans with (fold_left integrate_lower (inl s2) s2); [|now apply moved_fields].
  apply L; [apply (core_b _ _ (proj1 S2))|]. intros xs. destruct (integrate_lowers G xs s2 S2) as (Q & _). apply (core_b _ _ (proj1 Q)).
Qed.

Section Calls.
Context (srt : (ival -> Z) -> list ival -> list ival) (O : oracle) (cfg : config) (chk sol : bool).

Lemma cframe_moved c k s s' : css s c = Some k -> cframe O cfg c k s s' -> moved s s'.
Proof.
  intros K F. apply moved_same3; [apply F|]. intros d. destruct (Nat.eq_dec d c) as [->|N]; [|now rewrite (cf_other _ _ _ _ _ _ F)].
  destruct (cf_own _ _ _ _ _ _ F) as (k' & K' & (KD & _) & _). rewrite K, K'. cbn. now rewrite KD.
Qed.
Lemma moved_update_upper x l v n s : moved s (snd (update_upper O cfg x l v n s)).
Proof.
  unfold update_upper. destruct (Z.ltb_spec v (lb (vst s x))).
  - pose proof (only_get cfg x (lb (vst s x) - 1) s) as A. destruct (get_literal _ _ _ _) as [g s1]. cbn [snd] in A.
    apply moved_trans with s1; [now apply moved_only|]. apply moved_only. unfold add_clause, cc_propagate. destruct (o_answer _ _); cbn [snd]; auto using only_emit.
    eapply only_trans; apply only_emit.
  - assert (H1 : moved s (if v <? ub (vst s x) then level_update_upper x v s else s)).
    { destruct (Z.ltb_spec v (ub (vst s x))); [apply moved_level_upper; lia|apply moved_refl]. }
    set (s1 := if v <? ub (vst s x) then _ else _) in *. destruct (is_true _ _ _); [exact H1|]. apply moved_trans with (1 := H1). apply moved_only, only_propvars.
Qed.
Lemma moved_update_lower x l v n s : moved s (snd (update_lower O cfg x l v n s)).
Proof.
  unfold update_lower. destruct (Z.ltb_spec (ub (vst s x)) (v + 1)).
  - pose proof (only_get cfg x (ub (vst s x)) s) as A. destruct (get_literal _ _ _ _) as [g s1]. cbn [snd] in A.
    apply moved_trans with s1; [now apply moved_only|]. apply moved_only. unfold add_clause, cc_propagate. destruct (o_answer _ _); cbn [snd]; auto using only_emit.
    eapply only_trans; apply only_emit.
  - assert (H1 : moved s (if lb (vst s x) <? v + 1 then level_update_lower x v s else s)).
    { destruct (Z.ltb_spec (lb (vst s x)) (v + 1)); [apply moved_level_lower; lia|apply moved_refl]. }
    set (s1 := if lb (vst s x) <? v + 1 then _ else _) in *. destruct (is_true _ _ _); [exact H1|]. apply moved_trans with (1 := H1). apply moved_only, only_propvars.
Qed.
Lemma moved_apply_fact f s : moved s (snd (apply_fact O cfg f s)).
Proof.
  unfold apply_fact.
  assert (H1 : moved s (snd (if f_lit f =? TRUE_LIT then update_upper O cfg (f_var f) TRUE_LIT (f_val f) (f_prec f) s else update_lower O cfg (f_var f) TRUE_LIT (f_val f) (f_prec f) s))).
  { destruct (_ =? _); [apply moved_update_upper|apply moved_update_lower]. }
  destruct (if f_lit f =? TRUE_LIT then _ else _) as [ok s1]. cbn [snd] in H1. destruct ok; [|exact H1]. cbn [snd].
  apply moved_trans with (1 := H1). apply moved_only. eapply only_trans; [apply only_litmap|apply only_erase].
Qed.
Lemma moved_apply_facts fs : forall s, moved s (snd (apply_facts O cfg fs s)).
Proof.
  induction fs as [|f fs IH]; intros s; cbn [apply_facts].
  - cbn [snd]. now apply moved_fields.
  - pose proof (moved_apply_fact f s) as A. destruct (apply_fact O cfg f s) as [ok s1]. cbn [snd] in A. destruct ok; [apply moved_trans with (1 := A), IH|exact A].
Qed.
Lemma moved_update_domain l s : moved s (snd (update_domain O cfg l s)).
Proof.
  unfold update_domain.
  destruct (if negb (l =? TRUE_LIT) && _ && _ then _ else _) as [l1 s1] eqn:E.
  assert (H1 : moved s s1).
  { destruct (_ && _ && _); injection E as _ <-; [|apply moved_refl]. apply moved_only. eapply only_trans; apply only_fix. }
  clear E. apply moved_trans with (1 := H1). clear H1. destruct (l1 =? TRUE_LIT); [apply moved_apply_facts|].
  assert (H2 : moved s1 (snd (match valid_entry s1 l1 with Some e => update_upper O cfg (e_var e) l1 (e_val e) (e_succ e) s1 | None => (true, s1) end))).
  { destruct (valid_entry s1 l1); [apply moved_update_upper|apply moved_refl]. }
  destruct (match valid_entry s1 l1 with Some e => _ | None => _ end) as [ok s2]. cbn [snd] in H2. destruct ok; [|exact H2]. apply moved_trans with (1 := H2).
  destruct (valid_entry s2 (- l1)); [apply moved_update_lower|apply moved_refl].
Qed.
Lemma moved_propagate_lits ls : forall s, moved s (snd (propagate_lits O cfg ls s)).
Proof.
  assert (P : forall l s, moved s (snd (propagate_lit O cfg l s))).
  { intros l s. unfold propagate_lit. eapply moved_trans; [|apply moved_update_domain]. generalize (l2c s). intros ps. revert s.
    induction ps as [|p ps IH]; intros s; cbn [fold_left]; [apply moved_refl|]. eapply moved_trans; [|apply IH]. destruct (_ =? _); [apply moved_mark_todo|apply moved_refl]. }
  induction ls as [|l ls IH]; intros s; cbn [propagate_lits]; [apply moved_refl|].
  specialize (P l s). destruct (propagate_lit O cfg l s) as [ok s1]. cbn [snd] in P. destruct ok; [apply moved_trans with (1 := P), IH|exact P].
Qed.
Lemma moved_propagate ls s : moved s (snd (solver_propagate O cfg ls s)).
Proof.
  unfold solver_propagate. eapply moved_trans; [|apply moved_propagate_lits]. unfold push_level. destruct (_ <? _)%nat; [now apply moved_fields|apply moved_refl].
Qed.
Lemma moved_run_todo G cs : forall ret s o s', core G s -> settled s -> tod_run cs s -> run_todo srt O cfg chk cs ret s = (o, s') -> moved s s'.
Proof.
  induction cs as [|c cs IH]; intros ret s o s' C ST T E; cbn [run_todo] in E.
  - injection E as <- <-. apply moved_refl.
  - destruct (clear_todo_tod c cs s T) as (T1 & k & K & KT & KI).
    assert (C1 := clear_todo_core G c s C). assert (S1 := clear_todo_same3 c s). assert (ST1 := settled_same3 _ _ S1 ST). assert (D1 := moved_clear_todo c s).
    apply moved_trans with (1 := D1). set (s1 := clear_todo s c) in *. destruct ret; cbn [negb] in E; [|eapply IH; eauto].
    rewrite K in E. destruct (is_false _ _ _).
    + assert (F := mark_inactive_own O cfg c k s1 K). assert (F1 := cf_same _ _ _ _ _ _ F). apply moved_trans with (1 := cframe_moved _ _ _ _ K F). apply IH in E; auto.
      * now apply (cframe_core O cfg G c k s1).
      * now apply settled_same3 with s1.
      * now apply (cframe_tod O cfg cs c k s1).
    + destruct (prop_con srt O cfg chk c s1) as [o1 s2] eqn:P. assert (F := prop_con_frame O cfg srt chk c k s1 o1 s2 K P).
      assert (C2 : core G s2) by now apply (cframe_core O cfg G c k s1).
      assert (ST2 : settled s2) by (apply settled_same3 with s1; [apply F|auto]).
      assert (T2 : tod_run cs s2) by now apply (cframe_tod O cfg cs c k s1).
      apply moved_trans with (1 := cframe_moved _ _ _ _ K F). destruct o1 as [b|e|]; [|injection E as <- <-; apply moved_refl..]. eapply IH; eauto.
Qed.
Lemma moved_check_loop G n : forall s o s', sinv G s -> check_loop srt O cfg chk n s = Some (o, s') -> moved s s'.
Proof.
  induction n as [|n IH]; intros s o s' H E; cbn [check_loop] in E; [discriminate|].
  assert (H1 : sinv G (snd (if is_nil (fmap s) then (true, s) else update_domain O cfg TRUE_LIT s))).
  { destruct (is_nil _); auto. now apply update_domain_sinv. }
  assert (D1 : moved s (snd (if is_nil (fmap s) then (true, s) else update_domain O cfg TRUE_LIT s))).
  { destruct (is_nil _); [apply moved_refl|]. apply moved_update_domain. }
  destruct (if is_nil (fmap s) then _ else _) as [ok s1]. cbn [snd] in H1, D1. apply moved_trans with (1 := D1). destruct ok; cbn [negb] in E.
  - destruct (integrate_sinv G s1 H1) as [H2 ST]. apply moved_trans with (1 := moved_integrate G s1 H1). set (s2 := integrate s1) in *.
    destruct (run_todo srt O cfg chk (tod s2) true s2) as [o1 s3] eqn:R.
    destruct (run_todo_inv srt O cfg chk G (tod s2) true s2 o1 s3 (proj1 H2) ST (tod_ok_run _ _ (proj2 H2)) R) as (A1 & A2 & A3 & A4).
    apply moved_trans with (1 := moved_run_todo G (tod s2) true s2 o1 s3 (proj1 H2) ST (tod_ok_run _ _ (proj2 H2)) R).
    destruct o1 as [b|e|].
    + assert (H4 : sinv G (set_tod [] s3)) by (apply set_tod_sinv; eauto using tod_run_nil).
      apply moved_trans with (set_tod [] s3); [now apply moved_fields|].
      destruct (negb b || is_nil (fmap (set_tod [] s3))); [injection E as <- <-; apply moved_refl|now apply IH in E].
    + injection E as <- <-. apply moved_refl.
    + injection E as <- <-. apply moved_refl.
  - injection E as <- <-. apply moved_refl.
Qed.
Lemma moved_solver_check G n s o s' : sinv G s -> solver_check srt O cfg chk n s = Some (o, s') -> moved s s'.
Proof.
  intros H E. unfold solver_check in E. destruct (_ && _); [injection E as <- <-; apply moved_refl|]. now apply (moved_check_loop G n s o).
Qed.
Lemma moved_split_first xs : forall s, moved s (snd (split_first cfg xs s)).
Proof.
  induction xs as [|x xs IH]; intros s; cbn [split_first]; [apply moved_refl|].
  pose proof (split_only cfg x s) as A. destruct (split cfg x s) as [b s1]. cbn [snd] in A. apply moved_only in A.
  apply moved_trans with (1 := A). destruct b; [cbn [snd]; now apply moved_fields|apply IH].
Qed.
Lemma moved_check_full s o s' : solver_check_full O cfg sol s = (o, s') -> moved s s'.
Proof.
  intros E. unfold solver_check_full in E.
  assert (H1 : moved s (snd (if split_all cfg then split_every cfg (seq 0 (nvars s)) false s else split_first cfg (seq (slast s) (nvars s - slast s) ++ seq 0 (slast s)) s))).
  { destruct (split_all cfg); [apply moved_only; apply split_every_only|apply moved_split_first]. }
  destruct (if split_all cfg then _ else _) as [b s1]. cbn [snd] in H1. destruct b; [now injection E as _ <-|].
  destruct sol; now injection E as _ <-.
Qed.
Lemma moved_minimize c m b l s s' : check_minimize c m b l s = Ok s' -> moved s s'.
Proof.
  intros E. unfold check_minimize in E. destruct (b =? no_bound); [injection E as <-; apply moved_refl|].
  destruct (iadd int64 b (fst m)) as [b1|e|]; cbn [bind] in E; try discriminate. injection E as <-.
  unfold update_minimize. destruct (match mbound s with Some _ => _ | None => _ end); [|destruct (_ <? _)%nat; [|apply moved_refl]];
    (eapply moved_trans; [|apply moved_mark_todo]; now apply moved_fields).
Qed.
Lemma moved_prop_check G n m bound s o s' : sinv G s -> prop_check srt O cfg chk sol n m bound s = Some (o, s') -> moved s s'.
Proof.
  intros H E. unfold prop_check in E.
  destruct (match m with Some (c, m0) => _ | None => Ok s end) as [s1|e|] eqn:M; [|injection E as <- <-; apply moved_refl..].
  assert (H1 : sinv G s1). { destruct m as [[c m]|]; [now apply (minimize_sinv G) in M|now injection M as <-]. }
  assert (D1 : moved s s1). { destruct m as [[c m]|]; [now apply moved_minimize in M|injection M as <-; apply moved_refl]. }
  apply moved_trans with (1 := D1).
  destruct (solver_check srt O cfg chk n s1) as [[o2 s2]|] eqn:C; [|discriminate].
  apply moved_trans with (1 := moved_solver_check G n s1 o2 s2 H1 C).
  destruct o2 as [[|]|e|]; [|injection E as <- <-; apply moved_refl..].
  destruct (_ && _); [|injection E as <- <-; apply moved_refl].
  destruct (solver_check_full O cfg sol s2) as [o3 s3] eqn:F. injection E as <- <-. now apply moved_check_full in F.
Qed.
End Calls.
