(** What distinct constraints know about their elements during search (C20).

    [reachable] and [settled] (SearchSpec.v) are the states and the condition of C26 and C27. *)
From Verif Require Import Base Util IntervalSet VarState Terms TermsSpec Solver OrderSpec Orders Sum PropProofs ConSpec Distinct Disjoint DisjointProofs Objective Search SearchSpec
  SearchMain SearchInv5 FreshSearch Demo DemoSearch.
Open Scope Z_scope.

(** Smallest and largest value of an element for the bounds in [s]. *)
Definition element_bounds (s : state) (e : Z * list (Z * var)) : Z * Z :=
  (fst e + zsum (map (fun t => fst t * (if 0 <? fst t then lb (vst s (snd t)) else ub (vst s (snd t)))) (snd e)),
   fst e + zsum (map (fun t => fst t * (if 0 <? fst t then ub (vst s (snd t)) else lb (vst s (snd t)))) (snd e))).

(** The bounds kept for elements that are not marked for recalculation are those of the state, and
    only elements of the constraint are marked for propagation: what C19 and C20_conflict require. *)
Theorem C20_current : forall srt check_state check_solution O cfg s c k clit es,
  reachable srt check_state check_solution O cfg s -> settled s -> css s c = Some k -> c_def k = CDistinct clit es -> c_inact k = 0%nat ->
  length (c_asg k) = length es /\ (forall i, In i (c_tlo k ++ c_tup k) -> (i < length es)%nat) /\
  (forall i e a, nth_error es i = Some e -> nth_error (c_asg k) i = Some a -> ~ In i (c_dirty k) -> a = element_bounds s e).
Proof.
  intros srt chk sol O cfg s c k clit es R ST K E I. destruct (reachable_fresh srt chk sol O cfg s c k clit es R ST K E I) as (A & B & C).
  split; [exact A|]. split; [now apply Forall_forall|]. intros i e a H1 H2 H3. rewrite (C i e a H1 H2 H3).
  unfold dist_init, element_bounds, sum_lo, sum_hi. f_equal; f_equal; f_equal; apply map_ext; intros (co, x); unfold lo_of, hi_of; cbn; destruct (0 <? co); ring.
Qed.
Print Assumptions C20_current.

(** x + 1, y - 2z and 4 are different; on level 1 x > 5 is decided; after backtracking the first element is marked for
    recalculation: its bounds are those of level 1. *)
Definition fc : state := checked (add_constraint 0%nat (CDistinct 1 [(1, [(1, 0%nat)]); (0, [(1, 1%nat); (-2, 2%nat)]); (4, [])]) l3).
Definition fp : state := checked (prop [3] (emit (ECall 1) fc)).
Definition fu : state := undone fp.
Local Ltac settle := split; [vm_compute; reflexivity|]; split; [vm_compute; reflexivity|]; intros x; destruct x as [|[|[|x]]]; split; vm_compute; reflexivity.
Lemma reach_fp : reachable isort false true clasp dcfg fp.
Proof.
  assert (A : reachable isort false true clasp dcfg fc).
  { eapply re_step; [eapply re_step; [apply reach_l3|apply cb_constraint with (c := 0%nat) (d := CDistinct 1 [(1, [(1, 0%nat)]); (0, [(1, 1%nat); (-2, 2%nat)]); (4, [])]); [vm_compute; reflexivity|settle|repeat constructor; vm_compute; lia]]|].
    apply call_check. vm_compute. reflexivity. }
  eapply re_step; [eapply re_step; [eapply re_step; [exact A|apply (cb_call isort clasp dcfg false true 1)]|apply cb_propagate with (ls := [3]); intros _; settle]|].
  apply call_check. vm_compute. reflexivity.
Qed.
Example C20_current_demo : reachable isort false true clasp dcfg fp /\ settled fp /\ reachable isort false true clasp dcfg fu /\ settled fu /\
  map (fun s => option_map (fun k => (c_inact k, c_asg k, c_dirty k)) (css s 0%nat)) [fc; fp; fu] =
    [Some (0%nat, [(1, 11); (-10, 20); (4, 4)], []); Some (0%nat, [(7, 11); (-10, 20); (4, 4)], []); Some (0%nat, [(7, 11); (-10, 20); (4, 4)], [0%nat])].
Proof.
  split; [exact reach_fp|]. split; [settle|]. split; [eapply re_step; [exact reach_fp|apply (call_undo fp); vm_compute; reflexivity]|]. split; [settle|]. vm_compute. reflexivity.
Qed.
