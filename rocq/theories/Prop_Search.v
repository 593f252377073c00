(** Theorems about backtracking, the sums of linear constraints and copying (C26, C27, C40). *)
From Coq Require Import Permutation.
From Verif Require Import Base Util IntervalSet VarState Terms TermsSpec Solver OrderSpec Orders Sum PropProofs ConSpec Distinct Disjoint DisjointProofs Objective Search SearchSpec
  SearchMain SearchInv5 Demo DemoSearch.
Open Scope Z_scope.

(** ** C26 *)

(** [s] is any state in which clasp opens a new level, [t] any later state of the search above that level, and undo leaves the level. *)
Theorem C26_restored : forall srt check_state check_solution O cfg s ls t s',
  reachable srt check_state check_solution O cfg s -> settled s -> (cur_level s < dlevel O s)%nat ->
  above srt O cfg check_state check_solution (cur_level s) (snd (solver_propagate O cfg ls s)) t ->
  solver_undo t = Ok s' -> (cur_level s' <= cur_level s)%nat -> restored s s'.
Proof. exact undo_restored. Qed.
Print Assumptions C26_restored.

(** Undo is defined above the bottom level. *)
Theorem C26_defined : forall srt check_state check_solution O cfg s,
  reachable srt check_state check_solution O cfg s -> cur_level s <> 0%nat -> exists s', solver_undo s = Ok s'.
Proof. exact undo_defined. Qed.
Print Assumptions C26_defined.

(** Three levels are opened and undone: bounds, an inactive constraint and its removed watch are restored. *)
Example C26_demo : exists ls t s', reachable isort false true clasp dcfg top0 /\ settled top0 /\ (cur_level top0 < dlevel clasp top0)%nat /\
  above isort clasp dcfg false true (cur_level top0) (snd (solver_propagate clasp dcfg ls top0)) t /\
  solver_undo t = Ok s' /\ (cur_level s' <= cur_level top0)%nat.
Proof.
  exists [3], u1, u0. split; [exact reach_top0|]. split; [exact settled_top0|]. split; [vm_compute; lia|]. split; [exact above_u1|].
  split; [exact undo_u1|]. apply Nat.leb_le. vm_compute. reflexivity.
Qed.
Example C26_levels : map (fun s => (cur_level s, map (fun x => (lb (vst s x), ub (vst s x))) [0; 1; 2]%nat, wat s 0%nat, ina s)) [top0; k2; k5; u2; u1; u0] =
  [(0%nat, [(0, 10); (0, 10); (-2, 5)], [(1, 0%nat); (1, 1%nat)], []);
   (1%nat, [(6, 10); (0, 8); (1, 5)], [(1, 0%nat); (1, 1%nat)], []);
   (3%nat, [(9, 10); (4, 8); (3, 5)], [(1, 0%nat)], [1%nat]);
   (2%nat, [(6, 10); (4, 8); (3, 5)], [(1, 0%nat); (1, 1%nat)], [1%nat]);
   (1%nat, [(6, 10); (0, 8); (1, 5)], [(1, 0%nat); (1, 1%nat)], []);
   (0%nat, [(0, 10); (0, 10); (-2, 5)], [(1, 0%nat); (1, 1%nat)], [])].
Proof. vm_compute. reflexivity. Qed.

(** ** C27 *)

(** The bounds kept for a linear constraint that is not inactive are those of its sum ... *)
Theorem C27_sums : forall srt check_state check_solution O cfg s c k es,
  reachable srt check_state check_solution O cfg s -> settled s -> css s c = Some k -> sum_es (c_def k) = Some es -> c_inact k = 0%nat ->
  c_lo k = sum_lo s es /\ c_hi k = sum_hi s es.
Proof. exact reachable_sums. Qed.
Print Assumptions C27_sums.

(** ... whenever constraints are propagated: the comparison with the recomputed bounds (option check-state) never fails. *)
Theorem C27_check : forall srt check_state check_solution O cfg s fuel,
  reachable srt check_state check_solution O cfg s -> solver_check srt O cfg true fuel s = solver_check srt O cfg false fuel s.
Proof. exact reachable_chk. Qed.
Print Assumptions C27_check.

(** A successful check leaves no changes behind, as required for opening levels and adding constraints. *)
Theorem C27_settles : forall srt check_state check_solution O cfg s fuel s',
  reachable srt check_state check_solution O cfg s -> dlevel O s = cur_level s -> solver_check srt O cfg check_state fuel s = Some (Ok true, s') -> settled s'.
Proof. exact check_settles. Qed.
Print Assumptions C27_settles.

(** The sums on the deepest level of the search above: 1*[9,10] + 1*[4,8] - 2*[3,5]. *)
Example C27_demo : exists k, css k5 0%nat = Some k /\ c_lo k = 3 /\ c_hi k = 12 /\ c_inact k = 0%nat /\ sum_es (c_def k) = Some [(1, 0%nat); (1, 1%nat); (-2, 2%nat)].
Proof. eexists. split; [vm_compute; reflexivity|]. vm_compute. auto. Qed.

(** A constraint added while changes of bounds wait would count them twice. *)
Theorem C27_pending_refuted : exists O cfg s c d k es, reachable isort false true O cfg s /\ cur_level s = 0%nat /\
  css (integrate (add_constraint c d s)) c = Some k /\ sum_es (c_def k) = Some es /\ c_inact k = 0%nat /\
  c_lo k <> sum_lo (integrate (add_constraint c d s)) es.
Proof.
  set (s := prop [3] k0).
  exists clasp, dcfg, s, 2%nat, (CSum 1 20 [(1, 0%nat); (1, 1%nat)]). eexists _, [(1, 0%nat); (1, 1%nat)].
  split; [eapply re_step; [exact reach_k0|apply cb_propagate; intros L; vm_compute in L; lia]|].
  split; [vm_compute; reflexivity|]. split; [vm_compute; reflexivity|]. split; [vm_compute; reflexivity|]. split; [vm_compute; reflexivity|].
  vm_compute. discriminate.
Qed.
Print Assumptions C27_pending_refuted.

(** A step of translation that removes constraint 1 while constraint 0 is queued leaves constraint 0 in the queue although it
    counts as not queued; removing it then, too, leaves a queue with a constraint that does not exist. *)
Theorem C27_queue_refuted : exists O cfg s s', reachable isort false true O cfg s /\ cur_level s = 0%nat /\
  remove_constraint 0%nat (remove_constraints [1%nat] s) = Ok s' /\ option_map fst (solver_check isort O cfg false 1 s') = Some UB.
Proof.
  exists clasp, dcfg, c1, (match remove_constraint 0%nat (remove_constraints [1%nat] c1) with Ok s => s | _ => c1 end).
  split; [exact reach_c1|]. split; [vm_compute; reflexivity|]. split.
  - assert (E : (match remove_constraint 0%nat (remove_constraints [1%nat] c1) with Ok _ => true | _ => false end) = true) by (vm_compute; reflexivity).
    destruct (remove_constraint 0%nat (remove_constraints [1%nat] c1)); easy.
  - vm_compute. reflexivity.
Qed.
Print Assumptions C27_queue_refuted.

(** ** C40 *)

(** The solver of another thread is that of the master; only the statistics of variables, what clasp was told and the numbers of literals are not copied. *)
Theorem C40_copied : forall srt check_state check_solution O cfg O' cfg' m s s',
  reachable srt check_state check_solution O' cfg' m -> reachable srt check_state check_solution O cfg s -> copy_state m s = Ok s' ->
  nvars s' = nvars m /\ vst s' = vst m /\ lmap s' = lmap m /\ fmap s' = fmap m /\ lvls s' = lvls m /\ ulo s' = ulo m /\ uup s' = uup m /\
  ldiff s' = ldiff m /\ udiff s' = udiff m /\ inl s' = inl m /\ inu s' = inu m /\ wat s' = wat m /\ remw s' = remw m /\ ina s' = ina m /\ tod s' = tod m /\
  l2c s' = l2c m /\ css s' = css m /\ mbound s' = mbound m /\ mlevel s' = mlevel m /\ slast s' = slast m /\ toff s' = toff m.
Proof. intros srt k l O cfg O' cfg' m s s' RM R E. rewrite (copy_equal srt k l O cfg O' cfg' m s s' RM R E). repeat split. Qed.
Print Assumptions C40_copied.

(** Copying is defined on the bottom level. *)
Theorem C40_defined : forall srt check_state check_solution O cfg O' cfg' m s,
  reachable srt check_state check_solution O' cfg' m -> reachable srt check_state check_solution O cfg s -> cur_level m = 0%nat -> cur_level s = 0%nat ->
  exists s', copy_state m s = Ok s'.
Proof. exact copy_defined. Qed.
Print Assumptions C40_defined.

(** The state after the first check is copied to a new thread. *)
Example C40_demo : exists s', reachable isort false true clasp dcfg k0 /\ copy_state k0 init_state = Ok s' /\ lb (vst s' 2%nat) = -2 /\ wat s' 0%nat = [(1, 0%nat); (1, 1%nat)] /\
  option_map c_lo (css s' 0%nat) = Some (-10).
Proof.
  exists (match copy_state k0 init_state with Ok s => s | _ => k0 end). split; [exact reach_k0|]. split.
  - assert (E : (match copy_state k0 init_state with Ok _ => true | _ => false end) = true) by (vm_compute; reflexivity).
    destruct (copy_state k0 init_state); easy.
  - vm_compute. auto.
Qed.
