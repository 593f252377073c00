(** Basic types: machine integers, outcomes, literals. *)
From Coq Require Export ZArith List Bool Lia.
From Coq Require Export ZifyBool.
Export ListNotations.
Open Scope Z_scope.

(** The exceptions thrown by the modelled code: [std::overflow_error],
    [std::underflow_error] (util.hh 44-71, 393-482, base.hh 90-98),
    [std::runtime_error] for syntax errors (parsing.cc 39-47) and
    [std::logic_error] thrown by consistency checks (constraints.cc, solver.cc). *)
Inductive exn := Overflow | Underflow | Syntax | Logic.

(** Result of running a C++ function: a value, an exception, or undefined
    behaviour (signed overflow, division by zero). *)
Inductive outcome (A : Type) := Ok (a : A) | Throw (e : exn) | UB.
Arguments Ok {A} a.
Arguments Throw {A} e.
Arguments UB {A}.

Definition bind {A B} (m : outcome A) (f : A -> outcome B) : outcome B :=
  match m with Ok a => f a | Throw e => Throw e | UB => UB end.
Notation "x <- m ;; k" := (bind m (fun x => k)) (at level 61, m at next level, right associativity).
Notation "' p <- m ;; k" := (bind m (fun x => let 'p := x in k))
  (at level 61, p pattern, m at next level, right associativity).

(** A signed integer type is given by its smallest and largest value. *)
Record ity := mkity { imin : Z; imax : Z }.

(** val_t = int32_t, sum_t = int64_t, nsum_t = int128 (base.hh 43-45). *)
Definition int32 := mkity (-(2^31)) (2^31 - 1).
Definition int64 := mkity (-(2^63)) (2^63 - 1).
Definition int128 := mkity (-(2^127)) (2^127 - 1).

Definition in_range (t : ity) (z : Z) : bool := (imin t <=? z) && (z <=? imax t).

(** Two's complement ranges: what every signed C++ integer type satisfies. *)
Definition twos (t : ity) : Prop := imin t = - imax t - 1 /\ 1 <= imax t.

(** Signed arithmetic is undefined when the result is not representable. *)
Definition ck (t : ity) (z : Z) : outcome Z := if in_range t z then Ok z else UB.
Definition iadd t a b := ck t (a + b).
Definition isub t a b := ck t (a - b).
Definition imul t a b := ck t (a * b).
Definition ineg t a := ck t (- a).
(** C++ division truncates towards zero and is undefined for divisor 0. *)
Definition idiv t a b := if b =? 0 then UB else ck t (Z.quot a b).
Definition irem t a b := if b =? 0 then UB else if in_range t (Z.quot a b) then Ok (Z.rem a b) else UB.

(** MAX_VAL and MIN_VAL (base.hh 56, 61). *)
Definition MAX_VAL : Z := 2^30 - 1.
Definition MIN_VAL : Z := - MAX_VAL.

(** TRUE_LIT (base.hh 84). *)
Definition TRUE_LIT : Z := 1.

(** Indices of integer variables (var_t); the sentinel INVALID_VAR (base.hh 85)
    is not an index in the model, see [Terms.v]. *)
Definition var := nat.
Definition lit := Z.
Definition clause := list lit.
