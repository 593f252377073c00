(** Specification for the machine arithmetic of linear constraints: the room a constraint needs and searches of the program in the machine types. *)
From Verif Require Import Base VarState IntervalSet Terms TermsSpec Solver OrderSpec Disjoint Objective Search SearchSpec CheckSpec SumMachine.
Open Scope Z_scope.

(** The largest absolute value of the elements, variables being in the range of values. *)
Fixpoint weight {K} (es : list (Z * K)) : Z :=
  match es with [] => 0 | (co, _) :: r => Z.abs co * MAX_VAL + weight r end.
(** Coefficients are values other than zero, and the distance between the right-hand side and every value of the sum, and one more,
    is a 64 bit integer. *)
Definition room (es : list (Z * var)) (rhs : Z) : Prop :=
  (forall co x, In (co, x) es -> co <> 0 /\ MIN_VAL <= co <= MAX_VAL) /\
  - 2^63 <= rhs - weight es /\ rhs + weight es <= 2^63 - 2.
(** Linear constraints have room for their right-hand side, minimize constraints for every bound in the range of values. *)
Definition roomy (d : constr) : Prop :=
  match d with
  | CSum _ rhs es => room es rhs
  | CMin _ es => room es MIN_VAL /\ room es MAX_VAL
  | _ => True
  end.

Section Run.
Context (srt : (ival -> Z) -> list ival -> list ival) (O : oracle) (cfg : config) (check_state check_solution : bool).

(** A search as in [search] (CheckSpec) but with the functions of SumMachine.v for check and undo.  It starts in a state in which all bounds are
    in the range of values and have been passed on to the constraints, and all constraints have room. *)
Inductive mrun (W : lit -> Prop) : list (nat * lit) -> state -> Prop :=
| mr_start s : started srt O cfg check_state check_solution W s -> settled s -> (forall x, lb (vst s x) <= MAX_VAL /\ MIN_VAL <= ub (vst s x)) ->
    (forall c k, css s c = Some k -> roomy (c_def k)) -> mrun W [] s
| mr_call n K s : mrun W K s -> mrun W K (emit (ECall n) s)
| mr_propagate ls ok K s s' : mrun W K s -> in_order O s -> Forall (below (nxt s)) ls -> solver_propagate O cfg ls s = (ok, s') ->
    mrun W (if ok then map (pair (cur_level s')) ls ++ K else K) s'
| mr_check fuel m bound K s s' : mrun W K s -> in_order O s ->
    mprop_check O cfg srt check_state check_solution fuel m bound s = Some (Ok tt, s') -> mrun W K s'
| mr_undo K s s' : mrun W K s -> msolver_undo s = Ok s' -> mrun W (filter (fun p => (fst p <=? cur_level s')%nat) K) s'.
End Run.
