(** Theorems about the end of check (C50). *)
From Verif Require Import Base Util IntervalSet VarState Terms TermsSpec Solver OrderSpec OrderProofs2 Orders Sum PropProofs ConSpec Distinct Disjoint DisjointProofs Objective Search SearchSpec
  SearchInv5 CheckSpec CheckProofs Demo DemoSearch EndSpec EndProofs Prop_Check.
Open Scope Z_scope.

(** ** C50 *)

(** [search] are the histories of a search (CheckSpec).  [room s] adds up the differences between the bounds of the variables.  A call of check
    ends after at most [room s + 1] rounds of its loop, with a result that does not depend on the number of rounds it is allowed. *)
Theorem C50_check_ends : forall srt O cfg check_state check_solution W K s m bound, calm O ->
  search srt O cfg check_state check_solution W K s -> in_order O s ->
  exists r, forall fuel, (room s < fuel)%nat -> prop_check srt O cfg check_state check_solution fuel m bound s = Some r.
Proof. intros. now apply search_check_result with W K. Qed.
Print Assumptions C50_check_ends.

(** x and y between 0 and 3, x < y and y < x: check needs several rounds to find the conflict, each of them removes values. *)
Definition e0 : state := add_constraint 1%nat (CSum 1 (-1) [(-1, 0%nat); (1, 1%nat)]) (add_constraint 0%nat (CSum 1 (-1) [(1, 0%nat); (-1, 1%nat)])
  (snd (add_variable 0 3 (snd (add_variable 0 3 init_state))))).
Local Ltac settle := split; [vm_compute; reflexivity|]; split; [vm_compute; reflexivity|]; intros x; destruct x as [|[|[|x]]]; split; vm_compute; reflexivity.
Lemma reach_e0 : reachable isort false true tclasp demo_cfg e0.
Proof.
  do 2 (eapply re_step; [|apply cb_constraint; [vm_compute; reflexivity|settle|repeat constructor; vm_compute; lia]]).
  repeat (eapply re_step; [|apply cb_variable; [vm_compute; reflexivity|settle|lia]]). apply re_init.
Qed.
Lemma nolits_e0 x : lits (vst e0 x) = [].
Proof. destruct x as [|[|x]]; reflexivity. Qed.
Lemma started_e0 : started isort tclasp demo_cfg false true tW e0.
Proof.
  split.
  - exact reach_e0.
  - reflexivity.
  - split; split.
    + reflexivity.
    + intros x _. rewrite nolits_e0. constructor.
    + intros x w l _ H. now rewrite nolits_e0 in H.
    + intros k e H. discriminate.
    + repeat constructor; cbn; lia.
    + intros _ x _. destruct x as [|[|x]]; split; reflexivity.
    + intros f [].
    + constructor.
    + intros x w l _ H. now rewrite nolits_e0 in H.
  - intros x X. split; [apply nolits_e0|]. destruct x as [|[|x]]; vm_compute in X |- *; try lia; discriminate.
  - vm_compute. lia.
  - intros x. destruct x as [|[|x]]; vm_compute; split; discriminate.
  - intros x w l H. now rewrite nolits_e0 in H.
Qed.
Example C50_rounds : (exists W K, search isort tclasp demo_cfg false true W K e0) /\ in_order tclasp e0 /\ room e0 = 6%nat /\
  prop_check isort tclasp demo_cfg false true 2 None 0 e0 = None /\
  exists s, prop_check isort tclasp demo_cfg false true 7 None 0 e0 = Some (Ok tt, s) /\ room s <> 6%nat.
Proof.
  split; [exists tW, []; apply se_start, started_e0|]. split; [split; vm_compute; lia|]. split; [reflexivity|]. split; [vm_compute; reflexivity|].
  eexists. split; [vm_compute; reflexivity|]. vm_compute. discriminate.
Qed.
