(** A concrete search for the examples. *)
From Verif Require Import Base Util IntervalSet VarState Terms TermsSpec Solver OrderSpec OrderProofs2 Orders OrderProofs8 Demo Sum PropProofs ConSpec Distinct DistinctProofs2 Disjoint DisjointProofs
  Objective Search SearchSpec SearchInv5.
Open Scope Z_scope.

(** Clasp is on the level of the last call and has decided the literals [D n] up to level [n]; it derives what a clause leaves as only literal. *)
Fixpoint ph_level (lg : list event) : nat := match lg with [] => 0%nat | ECall n :: _ => n | _ :: lg => ph_level lg end.
Definition phases (D : nat -> list Z) : oracle :=
  mko (fun lg l => d_in (d_true (D (ph_level lg)) lg) l) (fun _ l => Z.abs l =? 1) (fun lg l => if Z.abs l =? 1 then 0%nat else ph_level lg) ph_level
      (fun lg => d_answer (D (ph_level lg)) lg) (fun lg => rev (d_true (D (ph_level lg)) lg)) (fun _ => false).

(** x, y between 0 and 10, z between -5 and 5; x + y - 2z <= 4 (constraint 0), x + z <= 7 if literal 2 holds (constraint 1).
    Literals 3, 4, 5 and 6 are x > 5, z > 0, y > 3 and x > 8; clasp decides 3, 5 and 6. *)
Definition dcfg := demo_cfg.
Definition clasp := phases (fun n => match n with 0%nat => [] | 1%nat => [3] | 2%nat => [3; 5] | _ => [3; 5; 6] end).
Notation chk s := (prop_check isort clasp dcfg false true 9 None 0 s).
Notation checked s := (match chk s with Some (Ok tt, s') => s' | _ => s end).
Notation prop ls s := (snd (solver_propagate clasp dcfg ls s)).
Notation undone s := (match solver_undo s with Ok s' => s' | _ => s end).
Definition v3 : state := snd (add_variable (-5) 5 (snd (add_variable 0 10 (snd (add_variable 0 10 init_state))))).
Definition l3 : state := snd (get_literal dcfg 0%nat 8 (snd (get_literal dcfg 1%nat 3 (snd (get_literal dcfg 2%nat 0 (snd (get_literal dcfg 0%nat 5 (snd (add_literal v3))))))))).
Definition c0 : state := add_constraint 0%nat (CSum 1 4 [(1, 0%nat); (1, 1%nat); (-2, 2%nat)]) l3.
Definition c1 : state := add_constraint 1%nat (CSum 2 7 [(1, 0%nat); (1, 2%nat)]) c0.
Definition k0 : state := checked c1.
Definition top0 : state := emit (ECall 1) k0.
Notation p1 := (prop [3] top0).
Definition k1 : state := checked p1.
Definition k2 : state := checked (prop [-7; 8; 4] k1).
Definition p2 : state := prop [5] (emit (ECall 2) k2).
Definition k3 : state := checked p2.
Definition k4 : state := checked (prop [9; -2] k3).
Definition p3 : state := prop [6] (emit (ECall 3) k4).
Definition k5 : state := checked p3.
Definition u2 : state := undone k5.
Definition u1 : state := undone u2.
Definition u0 : state := undone u1.

Local Ltac settle := split; [vm_compute; reflexivity|]; split; [vm_compute; reflexivity|]; intros x; destruct x as [|[|[|x]]]; split; vm_compute; reflexivity.
Local Notation reach := (reachable isort false true clasp dcfg).
Local Notation call := (callback isort clasp dcfg false true).

Lemma call_check s : (match chk s with Some (Ok tt, _) => true | _ => false end) = true -> call s (checked s).
Proof. intros H. apply cb_check with (fuel := 9%nat) (m := None) (bound := 0). destruct (chk s) as [[[[]| |] s']|]; try discriminate. reflexivity. Qed.
Lemma call_undo s : (match solver_undo s with Ok _ => true | _ => false end) = true -> call s (undone s).
Proof. intros H. apply cb_undo. destruct (solver_undo s); easy. Qed.
Lemma reach_v3 : reach v3.
Proof. repeat (eapply re_step; [|apply cb_variable; [vm_compute; reflexivity|settle|lia]]). apply re_init. Qed.
Lemma reach_l3 : reach l3.
Proof.
  assert (S : forall x v s, cur_level s = 0%nat -> reach s -> reach (snd (get_literal dcfg x v s))).
  { intros x v s L R. eapply re_step; [exact R|]. apply cb_literals; [exact L|apply only_get]. }
  do 4 (apply S; [vm_compute; reflexivity|]).
  assert (A : forall s, literals_only s (snd (add_literal s))) by (intros s; now repeat split).
  eapply re_step; [apply reach_v3|apply cb_literals; [vm_compute; reflexivity|apply A]].
Qed.
Lemma reach_c1 : reach c1.
Proof.
  repeat (eapply re_step; [|apply cb_constraint; [vm_compute; reflexivity|settle|repeat constructor; vm_compute; lia]]). apply reach_l3.
Qed.
Lemma reach_k0 : reach k0.
Proof. eapply re_step; [apply reach_c1|apply call_check; vm_compute; reflexivity]. Qed.
Lemma reach_top0 : reach top0.
Proof. eapply re_step; [apply reach_k0|apply cb_call]. Qed.
Lemma settled_top0 : settled top0.
Proof. settle. Qed.

(** The levels 1 to 3 are opened and the last two undone. *)
Lemma above_u1 : above isort clasp dcfg false true (cur_level top0) p1 u1.
Proof.
  assert (L : forall s t, above isort clasp dcfg false true (cur_level top0) p1 s -> call s t -> Nat.ltb 0 (cur_level t) = true -> above isort clasp dcfg false true (cur_level top0) p1 t).
  { intros s t A C H. eapply ab_step; [exact A|exact C|]. apply Nat.ltb_lt in H. exact H. }
  assert (P : forall ls s, Nat.ltb (cur_level s) (dlevel clasp s) = false -> call s (prop ls s)).
  { intros ls s H. apply cb_propagate. apply Nat.ltb_ge in H. lia. }
  assert (A1 : above isort clasp dcfg false true (cur_level top0) p1 k1) by (eapply L; [apply ab_refl; apply Nat.ltb_lt; vm_compute; reflexivity|apply call_check; vm_compute; reflexivity|vm_compute; reflexivity]).
  assert (A2 : above isort clasp dcfg false true (cur_level top0) p1 k2).
  { apply L with (prop [-7; 8; 4] k1); [apply L with k1; [exact A1|apply P; vm_compute; reflexivity|vm_compute; reflexivity]|apply call_check; vm_compute; reflexivity|vm_compute; reflexivity]. }
  assert (A3 : above isort clasp dcfg false true (cur_level top0) p1 k3).
  { apply L with p2; [|apply call_check; vm_compute; reflexivity|vm_compute; reflexivity].
    apply L with (emit (ECall 2) k2); [apply L with k2; [exact A2|apply cb_call|vm_compute; reflexivity]| |vm_compute; reflexivity].
    apply cb_propagate. intros _. settle. }
  assert (A4 : above isort clasp dcfg false true (cur_level top0) p1 k4).
  { apply L with (prop [9; -2] k3); [apply L with k3; [exact A3|apply P; vm_compute; reflexivity|vm_compute; reflexivity]|apply call_check; vm_compute; reflexivity|vm_compute; reflexivity]. }
  assert (A5 : above isort clasp dcfg false true (cur_level top0) p1 k5).
  { apply L with p3; [|apply call_check; vm_compute; reflexivity|vm_compute; reflexivity].
    apply L with (emit (ECall 3) k4); [apply L with k4; [exact A4|apply cb_call|vm_compute; reflexivity]| |vm_compute; reflexivity].
    apply cb_propagate. intros _. settle. }
  apply L with u2; [apply L with k5; [exact A5|apply (call_undo k5); vm_compute; reflexivity|vm_compute; reflexivity]|apply (call_undo u2); vm_compute; reflexivity|vm_compute; reflexivity].
Qed.
Lemma undo_u1 : solver_undo u1 = Ok u0.
Proof.
  assert (H : (match solver_undo u1 with Ok _ => true | _ => false end) = true) by (vm_compute; reflexivity).
  unfold u0. destruct (solver_undo u1); easy.
Qed.
