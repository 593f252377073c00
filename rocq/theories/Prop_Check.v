(** Theorems about the final check (C28). *)
From Verif Require Import Base Util IntervalSet VarState Terms TermsSpec Solver OrderSpec OrderProofs2 Orders Sum PropProofs ConSpec Distinct Disjoint DisjointProofs Objective Search SearchSpec
  SearchInv5 CheckSpec CheckProofs Demo DemoSearch.
Open Scope Z_scope.

(** ** C28 *)

(** [search] are the histories of a search (CheckSpec), [K] the literals reported to the solver.  If clasp calls check with a total assignment
    and check returns without an error then it has added a clause or a literal, or the assignment is a solution. *)
Theorem C28_check : forall srt O cfg check_state check_solution W K s fuel m bound s', calm O ->
  search srt O cfg check_state check_solution W K s -> in_order O s -> o_total O (log s) = true -> total O s -> reported O W K s ->
  prop_check srt O cfg check_state check_solution fuel m bound s = Some (Ok tt, s') ->
  (exists es, log s' = es ++ log s /\ Exists news es) \/
  (log s' = log s /\ solution O s' /\ (check_solution = true -> satisfied O s')).
Proof. intros srt O cfg cs sol W K s fuel m bound s' CA S IO OT TO RE E. exact (check_accepts srt O cfg cs sol CA W K s fuel m bound s' S IO TO RE OT E). Qed.
Print Assumptions C28_check.

(** Clasp with decisions [D n] up to level [n] as in DemoSearch; its assignment is total if all literals that were added are assigned. *)
Definition all_known (T : list Z) (lg : list event) : bool := forallb (fun e => match e with ELit l => d_in T l || d_in T (- l) | _ => true end) lg.
Definition phases_total (D : nat -> list Z) : oracle :=
  let P := phases D in mko (o_true P) (o_fixed P) (o_litlevel P) (o_level P) (o_answer P) (o_trail P) (fun lg => all_known (d_true (D (ph_level lg)) lg) lg).
(** x between 0 and 3, y between 0 and 1; x - y <= 0 if literal 2 holds. *)
Definition tclasp := phases_total (fun n => match n with 0%nat => [] | 1%nat => [2] | 2%nat => [2; -4] | _ => [2; -4; -5] end).
Local Notation tchk s := (prop_check isort tclasp demo_cfg false true 9 None 0 s).
Local Notation tchecked s := (match tchk s with Some (Ok tt, s') => s' | _ => s end).
Local Notation tprop ls s := (snd (solver_propagate tclasp demo_cfg ls s)).
Definition tv : state := snd (add_variable 0 1 (snd (add_variable 0 3 init_state))).
Definition tl : state := snd (add_literal tv).
Definition t0 : state := add_constraint 0%nat (CSum 2 0 [(1, 0%nat); (-1, 1%nat)]) tl.
Definition t1 : state := tchecked t0.
Definition t2 : state := tchecked (tprop [2] (emit (ECall 1) t1)).

Definition t3 : state := tchecked (tprop [-3] t2).
Definition t4 : state := tchecked (tprop [-4] (emit (ECall 2) t3)).
Definition t5 : state := tchecked (tprop [-5] (emit (ECall 3) t4)).
Local Notation p3 := (tprop [-3] t2).
Local Notation p5 := (tprop [-5] (emit (ECall 3) t4)).
Definition tW : lit -> Prop := fun _ => False.
Local Notation K3 := [(1%nat, -3); (1%nat, 2)].
Local Notation K5 := [(3%nat, -5); (2%nat, -4); (1%nat, -3); (1%nat, 2)].
Local Notation reach := (reachable isort false true tclasp demo_cfg).
Local Notation srch := (search isort tclasp demo_cfg false true tW).
Local Ltac settle := split; [vm_compute; reflexivity|]; split; [vm_compute; reflexivity|]; intros x; destruct x as [|[|[|x]]]; split; vm_compute; reflexivity.

Lemma calm_tclasp : calm tclasp.
Proof. intros lg e H. destruct e; try easy. Qed.
Lemma reach_t0 : reach t0.
Proof.
  assert (V : reach tv) by (repeat (eapply re_step; [|apply cb_variable; [vm_compute; reflexivity|settle|lia]]); apply re_init).
  assert (L : reach tl) by (eapply re_step; [exact V|apply cb_literals; [vm_compute; reflexivity|now repeat split]]).
  eapply re_step; [exact L|]. apply cb_constraint; [vm_compute; reflexivity|settle|repeat constructor; vm_compute; lia].
Qed.
Lemma nolits_t0 x : lits (vst t0 x) = [].
Proof. destruct x as [|[|x]]; reflexivity. Qed.
Lemma wf_t0 : wf t0.
Proof.
  split; split.
  - reflexivity.
  - intros x _. rewrite nolits_t0. constructor.
  - intros x w l _ H. now rewrite nolits_t0 in H.
  - intros k e H. discriminate.
  - repeat constructor; cbn; lia.
  - intros _ x _. destruct x as [|[|x]]; split; reflexivity.
  - intros f [].
  - constructor.
  - intros x w l _ H. now rewrite nolits_t0 in H.
Qed.
Lemma started_t0 : started isort tclasp demo_cfg false true tW t0.
Proof.
  split.
  - exact reach_t0.
  - reflexivity.
  - exact wf_t0.
  - intros x X. split; [apply nolits_t0|]. destruct x as [|[|x]]; vm_compute in X |- *; try lia; discriminate.
  - vm_compute. lia.
  - intros x. destruct x as [|[|x]]; vm_compute; split; discriminate.
  - intros x w l H. now rewrite nolits_t0 in H.
Qed.
(** A check and a propagation of the search, with the conditions computed. *)
Definition oks s := match tchk s with Some (Ok tt, _) => true | _ => false end.
Lemma srch_check K s : oks s = true -> Nat.eqb (cur_level s) (dlevel tclasp s) = true -> srch K s -> srch K (tchecked s).
Proof.
  intros H L R. apply Nat.eqb_eq in L. eapply se_check with (fuel := 9%nat) (m := None) (bound := 0); [exact R|split; lia|].
  unfold oks in H. destruct (tchk s) as [[[[]| |] s']|]; try discriminate. reflexivity.
Qed.
Lemma srch_prop n K l s : cur_level (tprop [l] s) = n -> fst (solver_propagate tclasp demo_cfg [l] s) = true -> negb (l =? 0) && (Z.abs l <? nxt s) = true -> in_order tclasp s -> srch K s ->
  srch ((n, l) :: K) (tprop [l] s).
Proof.
  intros <- H B Q R. apply (se_propagate isort tclasp demo_cfg false true tW [l] true K s); [exact R|exact Q| |].
  - constructor; [|constructor]. unfold below. apply andb_prop in B. lia.
  - rewrite (surjective_pairing (solver_propagate tclasp demo_cfg [l] s)). cbn [fst snd]. now rewrite H.
Qed.
Local Ltac ordered := split; [vm_compute; lia|intros _; split; [settle|vm_compute; reflexivity]].
Lemma search_p3 : srch K3 p3.
Proof.
  assert (A1 : srch [] t1) by (apply srch_check; [vm_compute; reflexivity|vm_compute; reflexivity|apply se_start, started_t0]).
  assert (A2 : srch [(1%nat, 2)] t2).
  { apply srch_check; [vm_compute; reflexivity|vm_compute; reflexivity|]. apply (srch_prop 1 [] 2); [vm_compute; reflexivity|vm_compute; reflexivity|vm_compute; reflexivity|ordered|]. now apply se_call. }
  apply (srch_prop 1 [(1%nat, 2)] (-3)); [vm_compute; reflexivity|vm_compute; reflexivity|vm_compute; reflexivity| |exact A2].
  split; [vm_compute; lia|]. intros _. split; [settle|vm_compute; reflexivity].
Qed.
Lemma search_p5 : srch K5 p5.
Proof.
  assert (A3 : srch K3 t3) by (apply srch_check; [vm_compute; reflexivity|vm_compute; reflexivity|exact search_p3]).
  assert (A4 : srch [(2%nat, -4); (1%nat, -3); (1%nat, 2)] t4).
  { apply srch_check; [vm_compute; reflexivity|vm_compute; reflexivity|]. apply (srch_prop 2 K3 (-4)); [vm_compute; reflexivity|vm_compute; reflexivity|vm_compute; reflexivity|ordered|]. now apply se_call. }
  apply (srch_prop 3 [(2%nat, -4); (1%nat, -3); (1%nat, 2)] (-5)); [vm_compute; reflexivity|vm_compute; reflexivity|vm_compute; reflexivity|ordered|]. now apply se_call.
Qed.
Lemma reported_check K s : forallb (fun e => match e with EWatch l => negb (o_true tclasp (log s) l) || existsb (Z.eqb l) (map snd K) | _ => true end) (log s) = true ->
  reported tclasp tW K s.
Proof.
  intros H l [[]|HI] HT. rewrite forallb_forall in H. specialize (H _ HI). cbn beta iota in H. rewrite HT in H. apply existsb_exists in H. destruct H as (m & HM & E).
  apply Z.eqb_eq in E. now subst m.
Qed.
Lemma total_check n s : nxt s = Z.of_nat n -> o_true tclasp (log s) 1 = true ->
  forallb (fun k => Bool.eqb (o_true tclasp (log s) (Z.of_nat k)) (negb (o_true tclasp (log s) (- Z.of_nat k)))) (seq 1 (n - 1)) = true -> total tclasp s.
Proof.
  intros N T H. split; [exact T|]. intros l (L0 & L1). rewrite forallb_forall in H. specialize (H (Z.to_nat (Z.abs l))).
  assert (M : In (Z.to_nat (Z.abs l)) (seq 1 (n - 1))) by (apply in_seq; lia). specialize (H M). apply Bool.eqb_prop in H. rewrite Z2Nat.id in H by lia.
  destruct (Z.abs_eq_or_opp l) as [E|E]; rewrite E in H; [exact H|]. rewrite Z.opp_involutive in H. rewrite H. now rewrite Bool.negb_involutive.
Qed.
(** Clasp's assignment is total after literal 3 is assigned but x may be 0 or 1: check adds a literal. *)
Example C28_demo_news : calm tclasp /\ srch K3 p3 /\ in_order tclasp p3 /\ o_total tclasp (log p3) = true /\ total tclasp p3 /\ reported tclasp tW K3 p3 /\
  tchk p3 = Some (Ok tt, t3) /\ log t3 = [EWatch 4; EWatch (-4); ELit 4] ++ log p3.
Proof.
  repeat apply conj.
  - exact calm_tclasp.
  - exact search_p3.
  - vm_compute; lia.
  - intros H. exfalso. revert H. vm_compute. lia.
  - vm_compute; reflexivity.
  - vm_compute; reflexivity.
  - refine (proj2 (total_check 4 p3 _ _ _)); vm_compute; reflexivity.
  - apply reported_check. vm_compute. reflexivity.
  - assert (H : oks p3 = true) by (vm_compute; reflexivity). unfold t3, oks in *. destruct (tchk p3) as [[[[]| |] s']|]; try discriminate. reflexivity.
  - vm_compute. reflexivity.
Qed.
(** On level 3 both variables are 0: the assignment is accepted. *)
Example C28_demo_accepted : srch K5 p5 /\ in_order tclasp p5 /\ o_total tclasp (log p5) = true /\ total tclasp p5 /\ reported tclasp tW K5 p5 /\
  tchk p5 = Some (Ok tt, t5) /\ log t5 = log p5.
Proof.
  repeat apply conj.
  - exact search_p5.
  - vm_compute; lia.
  - intros H. exfalso. revert H. vm_compute. lia.
  - vm_compute; reflexivity.
  - vm_compute; reflexivity.
  - refine (proj2 (total_check 6 p5 _ _ _)); vm_compute; reflexivity.
  - apply reported_check. vm_compute. reflexivity.
  - assert (H : oks p5 = true) by (vm_compute; reflexivity). unfold t5, oks in *. destruct (tchk p5) as [[[[]| |] s']|]; try discriminate. reflexivity.
  - vm_compute. reflexivity.
Qed.
