(** The number of values that can still be removed from the domains of the variables. *)
From Verif Require Import Base Util VarState Solver SearchSpec.
Open Scope Z_scope.

(** The sum of [f x] for the first [n] variables. *)
Fixpoint spread (f : var -> nat) (n : nat) : nat := match n with 0%nat => 0%nat | S n => (f n + spread f n)%nat end.
(** The differences between the upper and the lower bounds, added up. *)
Definition room (s : state) : nat := spread (fun x => Z.to_nat (ub (vst s x) - lb (vst s x))) (nvars s).
(** The number of literals that were added. *)
Fixpoint new_lits (lg : list event) : nat := match lg with [] => 0%nat | ELit _ :: r => S (new_lits r) | _ :: r => new_lits r end.
(** The trail of clasp does not mention a variable twice, so that it is not longer than the number of variables: [n] that clasp has without the ones added by the solver, ... *)
Definition trail_limited (O : oracle) (n : nat) : Prop := forall lg, (length (o_trail O lg) <= n + new_lits lg)%nat.
(** ... and on the top level nothing is removed from it. *)
Definition trail_grows (O : oracle) : Prop := forall lg e, within e -> (length (o_trail O lg) <= length (o_trail O (e :: lg)))%nat.
