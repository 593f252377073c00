(** Theorems about the machine arithmetic of linear constraints (C48). *)
From Verif Require Import Base Util IntervalSet VarState Terms TermsSpec Solver OrderSpec OrderProofs2 Orders Sum PropProofs ConSpec Distinct Disjoint DisjointProofs Objective Search SearchSpec
  SearchInv5 CheckSpec CheckProofs Demo DemoSearch Prop_Check SumMachine MachineSpec MachineSearch MachineProofs MachineParse.
Open Scope Z_scope.

(** ** C48 *)

(** [mrun] are the searches of the program with 32 and 64 bit arithmetic (MachineSpec), started with bounds in the range of values and
    constraints that have room.  In every state of such a search check computes the same as with unbounded integers. *)
Theorem C48_check : forall srt O cfg check_state check_solution W K s fuel m bound, mrun srt O cfg check_state check_solution W K s ->
  mprop_check O cfg srt check_state check_solution fuel m bound s = prop_check srt O cfg check_state check_solution fuel m bound s.
Proof. intros srt O cfg cs sol W K s fuel m bound. apply mrun_check. Qed.
Print Assumptions C48_check.
(** The same for backtracking, which is defined unless the solver is on the top level. *)
Theorem C48_undo : forall srt O cfg check_state check_solution W K s, mrun srt O cfg check_state check_solution W K s ->
  msolver_undo s = solver_undo s /\ (cur_level s <> 0%nat -> exists s', msolver_undo s = Ok s').
Proof. intros srt O cfg cs sol W K s R. split; [now apply (mrun_undo srt O cfg cs sol W K)|now apply (mrun_undone srt O cfg cs sol W K)]. Qed.
Print Assumptions C48_undo.
(** The searches with machine arithmetic are searches. *)
Theorem C48_search : forall srt O cfg check_state check_solution W K s, mrun srt O cfg check_state check_solution W K s ->
  search srt O cfg check_state check_solution W K s.
Proof. intros srt O cfg cs sol W K s. apply mrun_search. Qed.
Print Assumptions C48_search.
(** If all constraints are linear then no operation of check is undefined.  The bound of the objective is passed as a 64 bit integer to which
    the constant part of the objective is added; this sum has to fit. *)
Theorem C48_defined : forall srt O cfg check_state check_solution W K s fuel (m : option (cid * mincon)) bound o s',
  mrun srt O cfg check_state check_solution W K s ->
  (forall c k, css s c = Some k -> match c_def k with CSum _ _ _ | CMin _ _ => True | _ => False end) ->
  match m with Some (_, m) => bound = no_bound \/ - 2^63 <= bound + fst m <= 2^63 - 1 | None => True end ->
  mprop_check O cfg srt check_state check_solution fuel m bound s = Some (o, s') -> o <> UB.
Proof.
  intros srt O cfg cs sol W K s fuel m bound o s' R L B E. apply (mrun_defined srt O cfg cs sol W K s fuel m bound o s' R); auto.
  intros c k Q. specialize (L c k Q). now destruct (c_def k).
Qed.
Print Assumptions C48_defined.
(** A total assignment that the program accepts is a solution (C28_check for the program with machine arithmetic). *)
Theorem C48_accepts : forall srt O cfg check_state check_solution W K s fuel m bound s', calm O ->
  mrun srt O cfg check_state check_solution W K s -> in_order O s -> o_total O (log s) = true -> total O s -> reported O W K s ->
  mprop_check O cfg srt check_state check_solution fuel m bound s = Some (Ok tt, s') ->
  (exists es, log s' = es ++ log s /\ Exists news es) \/
  (log s' = log s /\ solution O s' /\ (check_solution = true -> satisfied O s')).
Proof.
  intros srt O cfg cs sol W K s fuel m bound s' CA S IO OT TO RE E. rewrite (mrun_check srt O cfg cs sol W K) in E by exact S. apply mrun_search in S.
  exact (C28_check srt O cfg cs sol W K s fuel m bound s' CA S IO OT TO RE E).
Qed.
Print Assumptions C48_accepts.
(** The constraints posted for a linear atom have room if its simplified terms stay three below the limit that the parser enforces:
    [simplify] fails unless [r - weight vec] and [r + weight vec] are 64 bit integers. *)
Theorem C48_room : forall is_true ret l ts op strict s b s' vec r,
  simplify true ts = Ok (vec, r) -> Z.abs r + weight vec <= 2^63 - 4 ->
  constrain_l is_true ret l ts op strict s = Ok (b, s') ->
  exists new, b_log s' = b_log s ++ new /\ forall l es rhs st, In (BSum l es rhs st) new -> room es rhs.
Proof.
  intros is_true ret l ts op strict s b s' vec r E W C. destruct (constrain_room _ _ _ _ _ _ _ _ _ _ _ E W C) as (new & A & B). exists new. split; [exact A|].
  rewrite Forall_forall in B. intros l0 es rhs st I. exact (B _ I).
Qed.
Print Assumptions C48_room.

(** *** The search of C28 *)
Local Notation mstate := (mrun isort tclasp demo_cfg false true tW).
Local Notation mchk s := (mprop_check tclasp demo_cfg isort false true 9 None 0 s).
Local Notation tchk s := (prop_check isort tclasp demo_cfg false true 9 None 0 s).
Local Notation tchecked s := (match tchk s with Some (Ok tt, s') => s' | _ => s end).
Local Notation tprop ls s := (snd (solver_propagate tclasp demo_cfg ls s)).
Local Notation p3 := (tprop [-3] t2).
Local Notation K3 := [(1%nat, -3); (1%nat, 2)].
Local Ltac settle := split; [vm_compute; reflexivity|]; split; [vm_compute; reflexivity|]; intros x; destruct x as [|[|[|x]]]; split; vm_compute; reflexivity.
Local Ltac ordered := split; [vm_compute; lia|intros _; split; [settle|vm_compute; reflexivity]].
Lemma mstate_t0 : mstate [] t0.
Proof.
  apply mr_start.
  - exact started_t0.
  - settle.
  - intros x. destruct x as [|[|x]]; vm_compute; split; discriminate.
  - intros c k E. destruct c as [|c]; [|discriminate]. injection E as <-. split; [|vm_compute; split; discriminate].
    intros co x [H|[H|[]]]; injection H as <- <-; split; vm_compute; try discriminate; split; discriminate.
Qed.
Lemma mstate_check K s : oks s = true -> Nat.eqb (cur_level s) (dlevel tclasp s) = true -> mstate K s -> mstate K (tchecked s).
Proof.
  intros H L R. apply Nat.eqb_eq in L. eapply mr_check with (fuel := 9%nat) (m := None) (bound := 0); [exact R|split; lia|].
  rewrite (mrun_check isort tclasp demo_cfg false true tW K s 9 None 0 R). unfold oks in H. destruct (tchk s) as [[[[]| |] s']|]; try discriminate. reflexivity.
Qed.
Lemma mstate_prop n K l s : cur_level (tprop [l] s) = n -> fst (solver_propagate tclasp demo_cfg [l] s) = true -> negb (l =? 0) && (Z.abs l <? nxt s) = true -> in_order tclasp s -> mstate K s ->
  mstate ((n, l) :: K) (tprop [l] s).
Proof.
  intros <- H B Q R. apply (mr_propagate isort tclasp demo_cfg false true tW [l] true K s); [exact R|exact Q| |].
  - constructor; [|constructor]. unfold below. apply andb_prop in B. lia.
  - rewrite (surjective_pairing (solver_propagate tclasp demo_cfg [l] s)). cbn [fst snd]. now rewrite H.
Qed.
Lemma mstate_p3 : mstate K3 p3.
Proof.
  assert (A1 : mstate [] t1) by (apply mstate_check; [vm_compute; reflexivity|vm_compute; reflexivity|exact mstate_t0]).
  assert (A2 : mstate [(1%nat, 2)] t2).
  { apply mstate_check; [vm_compute; reflexivity|vm_compute; reflexivity|]. apply (mstate_prop 1 [] 2); [vm_compute; reflexivity|vm_compute; reflexivity|vm_compute; reflexivity|ordered|]. now apply mr_call. }
  apply (mstate_prop 1 [(1%nat, 2)] (-3)); [vm_compute; reflexivity|vm_compute; reflexivity|vm_compute; reflexivity|ordered|exact A2].
Qed.
(** Literal 2 posts x - y <= 0; the check on level 1 adds a literal, and both levels can be left. *)
Example C48_demo : mstate K3 p3 /\ calm tclasp /\ in_order tclasp p3 /\ total tclasp p3 /\ reported tclasp tW K3 p3 /\
  mchk p3 = Some (Ok tt, t3) /\ log t3 = [EWatch 4; EWatch (-4); ELit 4] ++ log p3 /\ cur_level t3 = 1%nat /\
  match msolver_undo t3 with Ok s => cur_level s = 0%nat /\ ub (vst s 0%nat) = 3 /\ ub (vst t3 0%nat) = 1 | _ => False end.
Proof.
  destruct C28_demo_news as (A1 & _ & A3 & _ & A5 & A6 & A7 & A8).
  split; [exact mstate_p3|]. split; [exact A1|]. split; [exact A3|]. split; [exact A5|]. split; [exact A6|]. split.
  - rewrite (C48_check _ _ _ _ _ _ _ _ 9 None 0 mstate_p3). exact A7.
  - split; [exact A8|]. split; [vm_compute; reflexivity|]. vm_compute. auto.
Qed.

(** *** Room *)

(** 2*x + 4*y <= 6 if literal 2 holds, and otherwise 2*x + 4*y > 6: both constraints have room. *)
Definition never (l : lit) : bool := false.
Definition yes (lg : list bcall) : bool := true.
Example C48_room_demo : simplify true [(2, Some 0%nat); (4, Some 1%nat); (-6, None)] = Ok ([(2, Some 0%nat); (4, Some 1%nat)], 6) /\
  Z.abs 6 + weight [(2, Some 0%nat); (4, Some 1%nat)] <= 2^63 - 4 /\
  constrain_l never yes 2 [(2, Some 0%nat); (4, Some 1%nat); (-6, None)] RLe true (mkbst 3 []) =
    Ok (true, mkbst 3 [BSum 2 [(1, 0%nat); (2, 1%nat)] 3 false; BSum (-2) [(-1, 0%nat); (-2, 1%nat)] (-4) false]).
Proof. split; [vm_compute; reflexivity|]. split; [vm_compute; discriminate|]. vm_compute. reflexivity. Qed.

(** The limit of the parser is not enough.  Below are the terms of
    [&sum { 1073741823*x1; ...; 1073741823*x8; 16*x9 } <= 7] for variables without a domain. *)
Definition big : list (Z * var) := map (fun x => (MAX_VAL, x)) (seq 0 8) ++ [(16, 8%nat)].
Definition big_terms : list lterm := map (fun t => (fst t, Some (snd t))) big ++ [(-7, None)].
(** Clasp on the top level with no literal but 1. *)
Definition oclasp : oracle := phases_total (fun _ => []).
Definition ov : state := Nat.iter 9 (fun s => snd (add_variable MIN_VAL MAX_VAL s)) init_state.
Definition o0 : state := add_constraint 0%nat (CSum TRUE_LIT 7 big) ov.
Local Notation oreach := (reachable isort false true oclasp demo_cfg).
Local Ltac nine x := destruct x as [|[|[|[|[|[|[|[|[|x]]]]]]]]].
Local Ltac settle9 := split; [vm_compute; reflexivity|]; split; [vm_compute; reflexivity|]; intros x; nine x; split; vm_compute; reflexivity.
Lemma oreach_o0 : oreach o0.
Proof.
  assert (V : oreach ov) by (unfold ov; cbn [Nat.iter nat_rect]; repeat (eapply re_step; [|apply cb_variable; [vm_compute; reflexivity|settle9|vm_compute; discriminate]]); apply re_init).
  eapply re_step; [exact V|]. apply cb_constraint; [vm_compute; reflexivity|settle9|repeat constructor; vm_compute; lia].
Qed.
Lemma nolits_o0 x : lits (vst o0 x) = [].
Proof. nine x; reflexivity. Qed.
Lemma wf_o0 : wf o0.
Proof.
  split; split.
  - reflexivity.
  - intros x _. rewrite nolits_o0. constructor.
  - intros x w l _ H. now rewrite nolits_o0 in H.
  - intros k e H. discriminate.
  - repeat constructor; cbn; lia.
  - intros _ x _. nine x; split; reflexivity.
  - intros f [].
  - constructor.
  - intros x w l _ H. now rewrite nolits_o0 in H.
Qed.
Lemma started_o0 : started isort oclasp demo_cfg false true tW o0.
Proof.
  split.
  - exact oreach_o0.
  - reflexivity.
  - exact wf_o0.
  - intros x X. split; [apply nolits_o0|]. nine x; vm_compute in X |- *; try lia; discriminate.
  - vm_compute. lia.
  - intros x. nine x; vm_compute; split; discriminate.
  - intros x w l H. now rewrite nolits_o0 in H.
Qed.
(** The parser accepts these terms and posts a constraint; in a state with this constraint and variables in the range of values propagation
    computes a slack of 2^63 - 1 and adds one to it. *)
Theorem C48_overflow_refuted : exists ts es rhs s,
  constrain_l never yes TRUE_LIT ts RLe false (mkbst 2 []) = Ok (true, mkbst 2 [BSum TRUE_LIT es rhs false]) /\
  started isort oclasp demo_cfg false true tW s /\ settled s /\ (forall x, lb (vst s x) <= MAX_VAL /\ MIN_VAL <= ub (vst s x)) /\
  (forall c, option_map c_def (css s c) = if Nat.eqb c 0 then Some (CSum TRUE_LIT rhs es) else None) /\
  match mprop_check oclasp demo_cfg isort false true 9 None 0 s with Some (UB, _) => True | _ => False end /\
  match prop_check isort oclasp demo_cfg false true 9 None 0 s with Some (Ok _, _) => True | _ => False end.
Proof.
  exists big_terms, big, 7, o0. split; [vm_compute; reflexivity|]. split; [exact started_o0|]. split; [settle9|].
  split; [intros x; nine x; vm_compute; split; discriminate|]. split; [intros [|c]; reflexivity|]. split; vm_compute; exact Logic.I.
Qed.
Print Assumptions C48_overflow_refuted.
