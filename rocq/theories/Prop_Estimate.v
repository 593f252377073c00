(** Theorems about the limits for the translation of linear and distinct constraints (C51). *)
From Verif Require Import Base Util IntervalSet VarState Solver OrderProofs1 OrderProofs2 Sum Orders Objective Search Translate Translation Distinct Estimate EstimateSpec EstimateProofs EstimateDistinct Demo DemoSearch Prop_Check.
Open Scope Z_scope.

(** ** C51 *)

(** A constraint for which [made] clauses were made before is translated as [decide] says.  Clauses are only sent if [made] is below the total limit, then
    fewer than the limit per constraint, and none if only literals are to be made; a weight constraint has at most ratio times the number of
    unassigned variables many literals.
    The full property is that the total number of clauses stays within the total limit; it is false, see C51_total_refuted. *)
Theorem C51_limits_partial : forall O cfg t made fuel l rhs es k s ch r s', 0 < tc_den t -> propagated s k l rhs es -> decide t made fuel k s = Some (Ok ch) ->
  translate_sum O cfg (ch_weight ch) (ch_clauses ch) (ch_literals ch) k s = (r, s') ->
  exists new, log s' = new ++ log s /\
    ((0 < clauses_sent new)%nat -> made < tc_total t /\ Z.of_nat (clauses_sent new) < tc_limit t /\ tc_literals t = false) /\
    (forall l' wl b, In (EWeight l' wl b) new -> Z.of_nat (length wl) * tc_den t <= tc_num t * Z.of_nat (open_vars s es)).
Proof. intros O cfg t made fuel l rhs es k s ch r s'. apply translate_within. Qed.
Print Assumptions C51_limits_partial.

(** The estimate ends and is exact: a constraint that is not satisfied by its bounds and has too many literals for a weight constraint is translated to clauses if and only if the
    clauses are fewer than the limit. *)
Theorem C51_estimate : forall O cfg t made l rhs es k s, propagated s k l rhs es -> rhs < c_hi k ->
  ratio_within (tc_num t) (tc_den t) (ratio_parts (rhs - c_lo k) es s) = false -> made < tc_total t ->
  exists b N, (forall fuel, (N <= fuel)%nat -> decide t made fuel k s = Some (Ok (mkch false b (tc_literals t)))) /\
    forall s', clause_translate O cfg false l es (rhs - c_lo k) (rhs - c_hi k) s = (Ok true, s') ->
      exists new, log s' = new ++ log s /\ (b = true <-> Z.of_nat (clauses_sent new) < tc_limit t).
Proof.
  intros O cfg t made l rhs es k s P T RW MT. destruct (decide_exact O cfg t made l rhs es k s P T RW MT) as (b & N & A & B). exists b, N. split; [exact A|].
  intros s' E. exact (B _ s' E).
Qed.
Print Assumptions C51_estimate.

(** x + y <= 3 if literal 2 holds, with x and y between 0 and 3: three clauses, or a weight constraint with six literals. *)
Definition s51 : state := add_constraint 0%nat (CSum 2 3 [(1, 0%nat); (1, 1%nat)]) (snd (add_literal (snd (add_variable 0 3 (snd (add_variable 0 3 init_state)))))).
Definition k51 : cst := match css s51 0%nat with Some k => k | None => mkcst (CSum 2 3 []) 0 false 0 0 [] [] [] [] [] false end.
Lemma p51 : propagated s51 k51 2 3 [(1, 0%nat); (1, 1%nat)].
Proof.
  split; [vm_compute; reflexivity|]. split; [repeat (apply Forall_cons; [split; [discriminate|vm_compute; discriminate]|]); apply Forall_nil|].
  split; [vm_compute; reflexivity|]. split; [vm_compute; reflexivity|]. vm_compute. discriminate.
Qed.
Example C51_decisions : 3 < c_hi k51 /\
  decide (mktc 4 9 5 2 false) 8 20 k51 s51 = Some (Ok (mkch false true false)) /\ decide (mktc 3 9 5 2 false) 8 20 k51 s51 = Some (Ok (mkch false false false)) /\
  decide (mktc 4 9 5 2 false) 9 20 k51 s51 = Some (Ok (mkch false false false)) /\ decide (mktc 4 9 6 2 false) 8 20 k51 s51 = Some (Ok (mkch true false false)) /\
  clauses_sent (log (snd (translate_sum tclasp demo_cfg false true false k51 s51))) = 3%nat /\ clauses_sent (log (snd (translate_sum tclasp demo_cfg false true true k51 s51))) = 0%nat /\
  map (fun e => match e with EWeight _ wl _ => length wl | _ => 0%nat end) (firstn 1 (log (snd (translate_sum tclasp demo_cfg true false false k51 s51)))) = [6%nat].
Proof. do 7 (split; [vm_compute; reflexivity|]). vm_compute. reflexivity. Qed.

(** With a total limit of 2 and no clause made before, three clauses are made. *)
Theorem C51_total_refuted : exists O cfg t made fuel l rhs es k s ch s' new, propagated s k l rhs es /\ 0 <= made <= tc_total t /\ decide t made fuel k s = Some (Ok ch) /\
  translate_sum O cfg (ch_weight ch) (ch_clauses ch) (ch_literals ch) k s = (Ok (true, true), s') /\ log s' = new ++ log s /\ tc_total t < made + Z.of_nat (clauses_sent new).
Proof.
  exists tclasp, demo_cfg, (mktc 10 2 0 1 false), 0, 20%nat, 2, 3, [(1, 0%nat); (1, 1%nat)], k51, s51, (mkch false true false), (snd (translate_sum tclasp demo_cfg false true false k51 s51)).
  exists (firstn 21 (log (snd (translate_sum tclasp demo_cfg false true false k51 s51)))).
  split; [exact p51|]. split; [cbn; lia|]. split; [vm_compute; reflexivity|]. split; [|split; vm_compute; reflexivity].
  assert (H : fst (translate_sum tclasp demo_cfg false true false k51 s51) = Ok (true, true)) by (vm_compute; reflexivity).
  cbn [ch_weight ch_clauses ch_literals]. rewrite <- H. apply surjective_pairing.
Qed.
Print Assumptions C51_total_refuted.

(** What holds for the total: translating linear constraints one after the other, in any states, the number of clauses made exceeds the total limit by at most the limit per constraint minus 2.
    [linear_run t made made']: from [made] clauses, linear constraints are translated until there are [made']. *)
Inductive linear_run (t : tconf) : Z -> Z -> Prop :=
| run_none made : linear_run t made made
| run_next O cfg made fuel l rhs es k s ch r s' new made' : propagated s k l rhs es -> decide t made fuel k s = Some (Ok ch) ->
    translate_sum O cfg (ch_weight ch) (ch_clauses ch) (ch_literals ch) k s = (r, s') -> log s' = new ++ log s ->
    linear_run t (made + Z.of_nat (clauses_sent new)) made' -> linear_run t made made'.
Theorem C51_total_partial : forall t made made', 0 < tc_den t -> linear_run t made made' -> made <= made' <= Z.max made (tc_total t + tc_limit t - 2).
Proof.
  intros t made made' D R. induction R as [made|O cfg made fuel l rhs es k s ch r s' new made' P E T L R IH]; [lia|].
  destruct (C51_limits_partial O cfg t made fuel l rhs es k s ch r s' D P E T) as (new' & L' & A & _).
  assert (new' = new) as -> by (apply (app_inv_tail (log s)); congruence). destruct (clauses_sent new) as [|n]; [lia|]. destruct (A ltac:(lia)) as (A1 & A2 & _). lia.
Qed.
Print Assumptions C51_total_partial.
(** The bound is reached: limit 4 and total limit 1, three clauses. *)
Example C51_total_reached : linear_run (mktc 4 1 0 1 false) 0 3.
Proof.
  set (R := translate_sum tclasp demo_cfg false true false k51 s51). set (new := firstn 21 (log (snd R))).
  apply (run_next _ tclasp demo_cfg 0 20 2 3 [(1, 0%nat); (1, 1%nat)] k51 s51 (mkch false true false) (fst R) (snd R) new);
    [exact p51|vm_compute; reflexivity|apply surjective_pairing|vm_compute; reflexivity|]. replace (0 + Z.of_nat (clauses_sent new)) with 3 by (vm_compute; reflexivity). apply run_none.
Qed.

(** The limit for distinct constraints (option translate-distinct, the number of weight constraints) does not hold either: estimate_ leaves out the last value of each
    interval (constraints.cc 1079-1083).  Two variables between 0 and 1 and two between 10 and 11 are counted as 2 values, below a limit of 3, but four weight constraints are made. *)
Definition d51 : state := add_constraint 0%nat (CDistinct 2 [(0, [(1, 0%nat)]); (0, [(1, 1%nat)]); (0, [(1, 2%nat)]); (0, [(1, 3%nat)])])
  (snd (add_literal (snd (add_variable 10 11 (snd (add_variable 10 11 (snd (add_variable 0 1 (snd (add_variable 0 1 init_state)))))))))).
Definition kd51 : cst := match css d51 0%nat with Some k => k | None => k51 end.
Lemma p51d : spread d51 kd51 2 [(0, [(1, 0%nat)]); (0, [(1, 1%nat)]); (0, [(1, 2%nat)]); (0, [(1, 3%nat)])].
Proof.
  split; [vm_compute; reflexivity|]. split; [repeat (apply Forall_cons; [apply Forall_cons; [vm_compute; discriminate|apply Forall_nil]|]); apply Forall_nil|].
  split; [vm_compute; reflexivity|]. replace (filter _ _) with (@nil (Z * Z)) by (vm_compute; reflexivity). constructor.
Qed.
Theorem C51_distinct_refuted : exists O cfg limit l es k s s' new, spread s k l es /\ translate_distinct O cfg limit k s = (Ok (true, true, []), s') /\
  log s' = new ++ log s /\ limit < Z.of_nat (weights_sent new).
Proof.
  exists tclasp, demo_cfg, 3, 2, [(0, [(1, 0%nat)]); (0, [(1, 1%nat)]); (0, [(1, 2%nat)]); (0, [(1, 3%nat)])], kd51, d51, (snd (translate_distinct tclasp demo_cfg 3 kd51 d51)).
  exists (let lg := log (snd (translate_distinct tclasp demo_cfg 3 kd51 d51)) in firstn (length lg - length (log d51)) lg).
  split; [exact p51d|]. split; [|split; vm_compute; reflexivity].
  assert (H : fst (translate_distinct tclasp demo_cfg 3 kd51 d51) = Ok (true, true, [])) by (vm_compute; reflexivity). rewrite <- H. apply surjective_pairing.
Qed.
Print Assumptions C51_distinct_refuted.

(** What holds: the number of weight constraints is below twice the limit, in the sense that it is at most twice the largest estimate that is accepted.
    The full property, at most as many as the limit, is false: C51_distinct_refuted, where this bound is reached. *)
Theorem C51_distinct_partial : forall O cfg limit l es k s r s', spread s k l es -> translate_distinct O cfg limit k s = (r, s') ->
  exists new, log s' = new ++ log s /\ ((0 < weights_sent new)%nat -> Z.of_nat (weights_sent new) <= 2 * (limit - 1)).
Proof. intros O cfg limit l es k s r s'. apply distinct_within. Qed.
Print Assumptions C51_distinct_partial.
Example C51_distinct : spread d51 kd51 2 [(0, [(1, 0%nat)]); (0, [(1, 1%nat)]); (0, [(1, 2%nat)]); (0, [(1, 3%nat)])] /\
  weights_sent (log (snd (translate_distinct tclasp demo_cfg 3 kd51 d51))) = 4%nat /\ weights_sent (log (snd (translate_distinct tclasp demo_cfg 2 kd51 d51))) = 0%nat.
Proof. split; [exact p51d|]. split; vm_compute; reflexivity. Qed.
