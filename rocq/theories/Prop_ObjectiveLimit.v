(** Theorems about the limit for the translation of the objective (C52). *)
From Verif Require Import Base Util IntervalSet VarState Solver OrderProofs1 Sum PropProofs Orders Objective EstimateSpec ObjectiveLimit Demo.
Open Scope Z_scope.

(** ** C52 *)

(** When the objective is translated, in terms of the number [needed] of literals for values; the number of entries sent is exactly one for the constant, one for each variable and
    one for each of these literals.  With at most that many literals more than the limit allows as there are variables, the objective is translated.
    The full property is: translated if and only if [needed] is below the limit; the direction from left to right is false, see C52_limit_refuted. *)
Theorem C52_limit_partial : forall cfg limit adj es s b s', Forall (fun e => minb (vst s (snd e)) <= maxb (vst s (snd e))) es -> tmin s = false -> limit <> 2^32 - 1 ->
  translate_minimize cfg limit (adj, es) s = Ok (b, s') ->
  (needed s es < limit -> b = true) /\ (b = true -> needed s es < limit + Z.of_nat (length es)) /\
  exists new, log s' = new ++ log s /\ Z.of_nat (mins_sent new) = if b then 1 + Z.of_nat (length es) + needed s es else 0.
Proof.
  intros cfg limit adj es s b s' F T N E. destruct (objective_within cfg limit adj es s b s' F T N E) as [A B]. split; [intros H; apply A; lia|]. split; [apply A|exact B].
Qed.
Print Assumptions C52_limit_partial.

(** The largest limit: always translated; also once a part of the objective has been translated in an earlier step. *)
Theorem C52_always : forall cfg limit m s b s', tmin s = true \/ limit = 2^32 - 1 -> translate_minimize cfg limit m s = Ok (b, s') -> b = true.
Proof. intros cfg limit m s b s'. apply objective_always. Qed.
Print Assumptions C52_always.

(** Limit 0: not translated if each variable still has several values.  Without this condition the claim is false, see C52_never_refuted. *)
Theorem C52_never_partial : forall cfg m s, Forall (fun e => minb (vst s (snd e)) < maxb (vst s (snd e))) (snd m) -> tmin s = false -> translate_minimize cfg 0 m s = Ok (false, s).
Proof.
  intros cfg [adj es] s F T. unfold translate_minimize. rewrite T, required_needed. cbn [snd fst orb] in *.
  assert (H : Z.of_nat (length es) <= needed s es). { induction F as [|[co x] r A F IH]; [easy|]. cbn [needed length snd] in *. lia. }
  replace (0 =? 2^32 - 1) with false by reflexivity. cbn [orb]. replace (_ <? 0) with false by lia. reflexivity.
Qed.
Print Assumptions C52_never_partial.

(** Two variables with three values each and one with the value 5. *)
Definition o52 : state := snd (add_variable 5 5 (snd (add_variable (-1) 1 (snd (add_variable 1 3 init_state))))).
Example C52_translated : Forall (fun e => minb (vst o52 (snd e)) < maxb (vst o52 (snd e))) [(2, 0%nat); (-5, 1%nat)] /\ tmin o52 = false /\ needed o52 [(2, 0%nat); (-5, 1%nat)] = 4 /\
  translate_minimize demo_cfg 2 (-4, [(2, 0%nat); (-5, 1%nat)]) o52 = Ok (false, o52) /\
  exists s', translate_minimize demo_cfg 5 (-4, [(2, 0%nat); (-5, 1%nat)]) o52 = Ok (true, s') /\ mins_sent (log s') = 7%nat.
Proof.
  split; [repeat (apply Forall_cons; [vm_compute; reflexivity|]); apply Forall_nil|]. split; [reflexivity|]. split; [vm_compute; reflexivity|]. split; [vm_compute; reflexivity|].
  eexists. split; vm_compute; reflexivity.
Qed.

(** required_literals subtracts one for each variable (constraints.cc 737), although there is one entry for each value but the largest (760): an objective that needs four literals is
    translated with a limit of 3. *)
Theorem C52_limit_refuted : exists cfg limit adj es s s', Forall (fun e => minb (vst s (snd e)) <= maxb (vst s (snd e))) es /\ tmin s = false /\ limit <> 2^32 - 1 /\
  translate_minimize cfg limit (adj, es) s = Ok (true, s') /\ limit < needed s es.
Proof.
  exists demo_cfg, 3, (-4), [(2, 0%nat); (-5, 1%nat)], o52. eexists.
  split; [repeat (apply Forall_cons; [vm_compute; discriminate|]); apply Forall_nil|]. split; [reflexivity|]. split; [discriminate|]. split; vm_compute; reflexivity.
Qed.
Print Assumptions C52_limit_refuted.
(** A variable with one value counts -1, so that an objective is translated with limit 0, which is documented as: never translate. *)
Theorem C52_never_refuted : exists cfg adj es s s', Forall (fun e => minb (vst s (snd e)) <= maxb (vst s (snd e))) es /\ tmin s = false /\ translate_minimize cfg 0 (adj, es) s = Ok (true, s').
Proof.
  exists demo_cfg, 0, [(1, 2%nat)], o52. eexists. split; [apply Forall_cons; [vm_compute; discriminate|apply Forall_nil]|]. split; vm_compute; reflexivity.
Qed.
Print Assumptions C52_never_refuted.
