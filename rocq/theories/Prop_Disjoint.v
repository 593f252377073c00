(** Disjoint constraints: C22 and C23.

    [csem] (ConSpec.v) is what a constraint means: if its literal is true, the intervals of the elements do not
    overlap, where an element with weight w and variable x stands for the integers x, ..., x + w - 1.
    [disj_ok s c k clit es] (DisjointProofs.v) says that constraint [c] has the literal
    [clit] and the elements [es] with positive weights over existing variables, and that the
    state of the constraint has an interval for every element, in some order.  [sorting srt] says that [srt] sorts,
    as std::sort does, but in an unknown order if keys are equal. *)
From Coq Require Import Permutation Sorted.
From Verif Require Import Base Util IntervalSet VarState VarStateProofs Terms TermsSpec Solver OrderSpec OrderProofs1 OrderProofs2 OrderProofs5 OrderProofs6 OrderProofs7
  Orders OrderProofs8 Demo Sum PropProofs ConSpec SumProofs SumProofs2 Distinct DistinctProofs Disjoint DisjointProofs DemoReady.
Open Scope Z_scope.
Local Ltac check := vm_compute; repeat split; try reflexivity; intros; try discriminate.

Definition sorting (srt : (ival -> Z) -> list ival -> list ival) : Prop :=
  forall f l, Permutation (srt f l) l /\ StronglySorted Z.le (map f (srt f l)).
Lemma isort_sorting : sorting isort.
Proof. intros f l. split; [apply isort_perm|apply isort_sorted]. Qed.
(** No integer belongs to two intervals. *)
Definition no_overlap (es : list (Z * var)) (nu : var -> Z) : Prop :=
  forall i j e f p, i <> j -> nth_error es i = Some e -> nth_error es j = Some f ->
    ~ (nu (snd e) <= p < nu (snd e) + fst e /\ nu (snd f) <= p < nu (snd f) + fst f).
Lemma no_overlap_free es nu : no_overlap es nu <-> overlap_free es nu.
Proof.
  split.
  - intros H. apply nth_ford. intros i j e f L Hi Hj p. apply (H i j e f p); auto. lia.
  - intros H i j e f p N Hi Hj Hp. refine (ford_nth (fun e f => apart (nu (snd e)) (fst e) (nu (snd f)) (fst f)) es _ H i j e f N Hi Hj p Hp). intros x y. apply apart_sym.
Qed.

(** ** C22 *)

(** Propagation keeps all solutions in which the intervals do not overlap, unless a sum overflows. *)
Theorem C22_sound srt O cfg Base n0 c k clit es s r s' : sorting srt -> base_ok Base n0 -> clasp_ok O Base ->
  ready O n0 s -> disj_ok s c k clit es -> prop_disjoint srt O cfg c s = (r, s') ->
  (r = UB \/ exists b, r = Ok b) /\ wf s' /\ step Base (fun _ nu => no_overlap es nu) T2 s s' /\
  (forall x, lb (vst s' x) = lb (vst s x) /\ ub (vst s' x) = ub (vst s x)).
Proof.
  intros SR BO CO R K E. destruct (prop_disjoint_ok O cfg Base n0 BO CO srt (fun f l => proj1 (SR f l)) (fun f l => proj2 (SR f l)) false c k clit es s r s' R K ltac:(discriminate) E) as [[A B C _ _] D _ _ _].
  split; [exact D|]. split; [exact A|]. split; [apply step_weaken with (1 := B); [intros I nu _ _ H _; now apply no_overlap_free|easy]|].
  intros x. destruct (same3_bnds _ _ x C) as (H1 & H2 & _). now split.
Qed.
Print Assumptions C22_sound.
(** If moreover the literal of the constraint is true then the clauses also keep the solutions in which it is false. *)
Theorem C22_guarded srt O cfg Base n0 c k clit es s r s' : sorting srt -> base_ok Base n0 -> clasp_ok O Base ->
  ready O n0 s -> disj_ok s c k clit es -> is_true O s clit = true -> prop_disjoint srt O cfg c s = (r, s') ->
  step Base (csem None (CDisjoint clit es)) T2 s s'.
Proof.
  intros SR BO CO R K T E.
  assert (S : dj_lit O clit s). { intros s2 L _. apply (later_is_true O Base CO s s2 clit L T). }
  destruct (prop_disjoint_ok O cfg Base n0 BO CO srt (fun f l => proj1 (SR f l)) (fun f l => proj2 (SR f l)) true c k clit es s r s' R K (fun _ => S) E) as [[A B C _ _] D _ _ _].
  apply step_weaken with (1 := B); [|easy]. intros I nu _ _ H H1. apply H, H1. reflexivity.
Qed.
Print Assumptions C22_guarded.
(** The same holds for an open literal as long as it does not become fixed while the constraint is propagated. *)
Theorem C22_open srt O cfg Base n0 c k clit es s r s' : sorting srt -> base_ok Base n0 -> clasp_ok O Base ->
  ready O n0 s -> disj_ok s c k clit es -> (forall lg, later O (log s) lg -> o_fixed O lg clit = false) -> prop_disjoint srt O cfg c s = (r, s') ->
  step Base (csem None (CDisjoint clit es)) T2 s s'.
Proof.
  intros SR BO CO R K T E.
  assert (S : dj_lit O clit s). { intros s2 L H. exfalso. unfold is_fixed in H. rewrite (T _ L) in H. discriminate. }
  destruct (prop_disjoint_ok O cfg Base n0 BO CO srt (fun f l => proj1 (SR f l)) (fun f l => proj2 (SR f l)) true c k clit es s r s' R K (fun _ => S) E) as [[A B C _ _] D _ _ _].
  apply step_weaken with (1 := B); [|easy]. intros I nu _ _ H H1. apply H, H1. reflexivity.
Qed.
Print Assumptions C22_open.
(** No sum overflows if the weights add up to at most 2^30 and the variables have bounds in the usual range.
    Missing for larger weights: see C22_overflow_refuted. *)
Theorem C22_no_overflow_partial srt O cfg Base n0 c k clit es s r s' : sorting srt -> base_ok Base n0 -> clasp_ok O Base ->
  ready O n0 s -> disj_ok s c k clit es -> fold_right Z.add 0 (map fst es) <= 2^30 ->
  (forall e, In e es -> MIN_VAL <= lb (vst s (snd e)) /\ ub (vst s (snd e)) <= MAX_VAL) ->
  prop_disjoint srt O cfg c s = (r, s') -> exists b, r = Ok b.
Proof.
  intros SR BO CO R K C1 C2 E.
  destruct (prop_disjoint_ok O cfg Base n0 BO CO srt (fun f l => proj1 (SR f l)) (fun f l => proj2 (SR f l)) false c k clit es s r s' R K ltac:(discriminate) E) as [_ _ _ _ H].
  apply H. split; [exact C1|exact C2].
Qed.
Print Assumptions C22_no_overflow_partial.

(** x0 = 0 with length 3, x1 in 1..5 with length 1 and x2 in 0..7 with length 4; literal 2 is decided on level 1.  The first
    interval fills 0..2, so x1 >= 3 and x2 >= 3 are derived. *)
Definition jx_es : list (Z * var) := [(3, 0%nat); (1, 1%nat); (4, 2%nat)].
Definition jx_k := mkcst (CDisjoint 2 jx_es) 0 true 0 0 [] [] [] [] (disj_init jx_es) true.
Definition jx_O := demo 1 [2].
Definition jx_state := demo_state 1 [2] [OpVar 0 0; OpVar 1 5; OpVar 0 7; OpLit] [OpTrue 2] (one jx_k).
Lemma jx_clasp : clasp_ok jx_O (fun _ => True).
Proof. apply demo_clasp; [reflexivity|discriminate]. Qed.
Lemma jx_wf : wf jx_state.
Proof. apply demo_wf; [exact jx_clasp|check; lia|vm_compute; reflexivity|check|vm_compute; reflexivity]. Qed.
Lemma jx_ready : ready jx_O 2 jx_state.
Proof. apply ready_b_ok; [exact jx_wf|vm_compute; reflexivity]. Qed.
Lemma jx_disj : disj_ok jx_state 0%nat jx_k 2 jx_es.
Proof.
  constructor; try (vm_compute; reflexivity).
  - replace (nvars jx_state) with 3%nat by (vm_compute; reflexivity). repeat (constructor; [cbn; lia|]). constructor.
  - vm_compute. split; [discriminate|reflexivity].
Qed.
Definition added (e : event) : bool := match e with EClause _ _ | EWeight _ _ _ => true | _ => false end.
Example C22_demo : sorting isort /\ clasp_ok jx_O (fun _ => True) /\ ready jx_O 2 jx_state /\ disj_ok jx_state 0%nat jx_k 2 jx_es /\ is_true jx_O jx_state 2 = true /\
  let r := prop_disjoint isort jx_O demo_cfg 0%nat jx_state in
  fst r = Ok true /\ filter added (log (snd r)) = [EClause Learnt [-2; -1; 4]; EClause Learnt [-2; -1; 3]] /\
  lits (vst (snd r) 1%nat) = [(2, -3)] /\ lits (vst (snd r) 2%nat) = [(2, -4)].
Proof.
  split; [exact isort_sorting|]. split; [exact jx_clasp|]. split; [exact jx_ready|]. split; [exact jx_disj|]. split; [vm_compute; reflexivity|]. vm_compute. repeat split; reflexivity.
Qed.

(** As for distinct constraints, an open literal on the top level can become false by the first clause, after which
    clauses are added without it (constraints.cc 1667-1672): x0 = x1 = x2 = 0 with lengths 1 and the open literal 2;
    everything is a solution if 2 is false, but after the propagation there is no solution. *)
Definition jy_es : list (Z * var) := [(1, 0%nat); (1, 1%nat); (1, 2%nat)].
Definition jy_k := mkcst (CDisjoint 2 jy_es) 0 true 0 0 [] [] [] [] (disj_init jy_es) true.
Definition jy_state := demo_state 0 [] [OpVar 0 0; OpVar 0 0; OpVar 0 0; OpLit] [] (one jy_k).
Lemma jy_clasp : clasp_ok (demo 0 []) (fun _ => True).
Proof. apply demo_clasp; reflexivity. Qed.
Lemma jy_wf : wf jy_state.
Proof. apply demo_wf; [exact jy_clasp|check; lia|vm_compute; reflexivity|check|vm_compute; reflexivity]. Qed.
Lemma jy_ready : ready (demo 0 []) 2 jy_state.
Proof. apply ready_b_ok; [exact jy_wf|vm_compute; reflexivity]. Qed.
Lemma jy_disj : disj_ok jy_state 0%nat jy_k 2 jy_es.
Proof.
  constructor; try (vm_compute; reflexivity).
  - replace (nvars jy_state) with 3%nat by (vm_compute; reflexivity). repeat (constructor; [cbn; lia|]). constructor.
  - vm_compute. split; [discriminate|reflexivity].
Qed.
Theorem C22_literal_refuted : exists (O : oracle) (cfg : config) (s s' : state) (c : cid) (k : cst) (clit : Z) (es : list (Z * var)) (I : interp) (nu : var -> Z),
  clasp_ok O (fun _ => True) /\ units O /\ ready O 2 s /\ disj_ok s c k clit es /\ is_false O s clit = false /\
  prop_disjoint isort O cfg c s = (Ok false, s') /\
  good (fun _ => True) s I /\ order_ok s I nu /\ csem None (CDisjoint clit es) I nu /\
  forall J, ~ good (fun _ => True) s' J.
Proof.
  exists (demo 0 []), demo_cfg, jy_state, (snd (prop_disjoint isort (demo 0 []) demo_cfg 0%nat jy_state)), 0%nat, jy_k, 2, jy_es, (fun i => i =? 1), (fun _ => 0).
  split; [exact jy_clasp|]. split; [apply demo_units|]. split; [exact jy_ready|]. split; [exact jy_disj|]. split; [vm_compute; reflexivity|].
  split; [vm_compute; reflexivity|]. split.
  { split; [easy|]. split; [reflexivity|]. replace (log jy_state) with [ELit 2] by (vm_compute; reflexivity). now constructor. }
  split.
  { intros x Hx. assert (V : x = 0%nat \/ x = 1%nat \/ x = 2%nat) by (replace (nvars jy_state) with 3%nat in Hx by (vm_compute; reflexivity); lia).
    destruct V as [->|[->| ->]]; (split; [vm_compute; split; discriminate|now vm_compute]). }
  split; [discriminate|]. intros J (_ & J1 & H).
  replace (log (snd (prop_disjoint isort (demo 0 []) demo_cfg 0%nat jy_state))) with [EClause Learnt []; EClause Learnt [-2; -1; -1]; EClause Learnt [-2; -1; -1]; ELit 2] in H by (vm_compute; reflexivity).
  inversion H as [|? ? H1 _]; subst. destruct H1 as (l & [] & T).
Qed.
Print Assumptions C22_literal_refuted.

(** Lengths up to MAX_VAL are accepted, but the sums for two long intervals overflow val_t (constraints.cc 1720-1721):
    x0 in MAX_VAL - 2 .. MAX_VAL - 1 and x1 = MAX_VAL with lengths MAX_VAL, and x2 = 0 with length 1. *)
Definition jo_es : list (Z * var) := [(MAX_VAL, 0%nat); (MAX_VAL, 1%nat); (1, 2%nat)].
Definition jo_k := mkcst (CDisjoint 1 jo_es) 0 true 0 0 [] [] [] [] (disj_init jo_es) true.
Definition jo_state := demo_state 0 [] [OpVar (MAX_VAL - 2) (MAX_VAL - 1); OpVar MAX_VAL MAX_VAL; OpVar 0 0] [] (one jo_k).
Lemma jo_wf : wf jo_state.
Proof. apply demo_wf; [exact jy_clasp|check; lia|vm_compute; reflexivity|check|vm_compute; reflexivity]. Qed.
Lemma jo_ready : ready (demo 0 []) 2 jo_state.
Proof. apply ready_b_ok; [exact jo_wf|vm_compute; reflexivity]. Qed.
Lemma jo_disj : disj_ok jo_state 0%nat jo_k 1 jo_es.
Proof.
  constructor; try (vm_compute; reflexivity).
  - replace (nvars jo_state) with 3%nat by (vm_compute; reflexivity). repeat (constructor; [cbn; lia|]). constructor.
  - vm_compute. split; [discriminate|reflexivity].
Qed.
Theorem C22_overflow_refuted : exists (O : oracle) (cfg : config) (s s' : state) (c : cid) (k : cst) (clit : Z) (es : list (Z * var)),
  clasp_ok O (fun _ => True) /\ ready O 2 s /\ disj_ok s c k clit es /\ is_true O s clit = true /\
  Forall (fun e => 0 < fst e <= MAX_VAL /\ MIN_VAL <= lb (vst s (snd e)) /\ ub (vst s (snd e)) <= MAX_VAL) es /\
  prop_disjoint isort O cfg c s = (UB, s').
Proof.
  exists (demo 0 []), demo_cfg, jo_state, (snd (prop_disjoint isort (demo 0 []) demo_cfg 0%nat jo_state)), 0%nat, jo_k, 1, jo_es.
  split; [exact jy_clasp|]. split; [exact jo_ready|]. split; [exact jo_disj|]. split; [vm_compute; reflexivity|]. split; [|vm_compute; reflexivity].
  repeat (constructor; [check|]). constructor.
Qed.
Print Assumptions C22_overflow_refuted.

(** ** C23 *)

(** The final check accepts exactly the assignments in which the ranges the intervals can cover do not overlap;
    if all variables are assigned these are the intervals. *)
Theorem C23_check c k clit es s : css s c = Some k -> c_def k = CDisjoint clit es ->
  Forall (fun e => 0 < fst e <= MAX_VAL /\ MIN_VAL <= lb (vst s (snd e)) /\ lb (vst s (snd e)) = ub (vst s (snd e)) /\ ub (vst s (snd e)) <= MAX_VAL) es ->
  (check_full_disjoint c s = Ok tt <-> no_overlap es (fun x => lb (vst s x))) /\ check_full_disjoint c s <> UB.
Proof.
  intros K KD B. unfold check_full_disjoint. rewrite K, KD.
  assert (BB : forall e, In e es -> - 2^31 <= ub (vst s (snd e)) + fst e <= 2^31 - 1).
  { intros e He. rewrite Forall_forall in B. specialize (B e He). unfold MIN_VAL, MAX_VAL in B. lia. }
  split.
  - rewrite (check_disjoint_ok s es [] Logic.I BB), no_overlap_free.
    assert (SP : forall e p, In e es -> (span s e p <-> lb (vst s (snd e)) <= p < lb (vst s (snd e)) + fst e)).
    { intros e p He. rewrite Forall_forall in B. specialize (B e He). unfold span. lia. }
    assert (X : forall l, incl l es -> (ForallOrdPairs (fun e f => forall p, ~ (span s e p /\ span s f p)) l <-> overlap_free l (fun x => lb (vst s x)))).
    { unfold overlap_free. induction l as [|e l IH]; intros IN; [split; constructor|]. apply incl_cons_inv in IN as (I1 & I2).
      assert (Y : forall f, In f l -> ((forall p, ~ (span s e p /\ span s f p)) <-> apart (lb (vst s (snd e))) (fst e) (lb (vst s (snd f))) (fst f))).
      { intros f Hf. unfold apart. split; intros H p; specialize (H p); rewrite (SP e p I1), (SP f p (I2 f Hf)) in *; tauto. }
      split; intros H; inversion H as [|? ? H1 H2]; subst; (constructor; [|now apply IH]); rewrite Forall_forall in *; intros f Hf; apply (Y f Hf); now apply H1. }
    rewrite (X es (incl_refl _)). split; [now intros []|]. intros H. split; [easy|]. intros e p _ _ (x & y & [] & _).
  - clear K KD. generalize (@nil (Z * Z)). induction es as [|[w x] t IH]; intros m; cbn [check_disjoint]; [easy|].
    pose proof (BB (w, x) (or_introl eq_refl)) as B1. cbn in B1. unfold iadd. destruct (ck32_cases (ub (vst s x) + w)) as [->|(_ & N)]; [|lia]. cbn [bind].
    destruct (intersects _ _ _); [easy|]. apply IH; [now inversion B|]. intros e He. apply BB. now right.
Qed.
Print Assumptions C23_check.
(** In general the check accepts iff the ranges that the intervals can cover are apart, so an accepted
    state only has assignments without overlap. *)
Theorem C23_accepts c k clit es s nu : css s c = Some k -> c_def k = CDisjoint clit es ->
  Forall (fun e => 0 < fst e <= MAX_VAL /\ MIN_VAL <= lb (vst s (snd e)) /\ ub (vst s (snd e)) <= MAX_VAL) es ->
  Forall (fun e => lb (vst s (snd e)) <= nu (snd e) <= ub (vst s (snd e))) es ->
  check_full_disjoint c s = Ok tt -> no_overlap es nu.
Proof.
  intros K KD B N. unfold check_full_disjoint. rewrite K, KD. rewrite Forall_forall in B, N.
  assert (BB : forall e, In e es -> - 2^31 <= ub (vst s (snd e)) + fst e <= 2^31 - 1).
  { intros e He. specialize (B e He). specialize (N e He). unfold MIN_VAL, MAX_VAL in B. lia. }
  rewrite (check_disjoint_ok s es [] Logic.I BB). intros (F & _). rewrite no_overlap_free. unfold overlap_free. clear K KD BB B.
  induction F as [|e l H F IH]; constructor.
  - rewrite Forall_forall in *. intros f Hf p (P1 & P2). apply (H f Hf p). pose proof (N e (or_introl eq_refl)). pose proof (N f (or_intror Hf)). unfold span. lia.
  - apply IH. intros f Hf. apply N. now right.
Qed.
Print Assumptions C23_accepts.
(** The intervals of C22_literal_refuted all overlap; those with x0 = 0, x1 = 2 and x2 = 5 and lengths 2, 3 and 1 do not, but do
    if the second one is longer. *)
Definition jc_state es := set_css (one (mkcst (CDisjoint 1 es) 0 true 0 0 [] [] [] [] [] true)) (demo_state 0 [] [OpVar 0 0; OpVar 2 2; OpVar 5 5] [] (fun _ => None)).
Example C23_demo : check_full_disjoint 0%nat jy_state = Throw Logic /\
  check_full_disjoint 0%nat (jc_state [(2, 0%nat); (3, 1%nat); (1, 2%nat)]) = Ok tt /\ check_full_disjoint 0%nat (jc_state [(2, 0%nat); (4, 1%nat); (1, 2%nat)]) = Throw Logic.
Proof. vm_compute. repeat split; reflexivity. Qed.
