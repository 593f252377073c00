(** What is counted in the claims about estimates. *)
From Verif Require Import Base Util VarState Solver Sum.
Open Scope Z_scope.

(** The number of clauses that were sent. *)
Fixpoint clauses_sent (lg : list event) : nat := match lg with [] => 0%nat | EClause _ _ :: r => S (clauses_sent r) | _ :: r => clauses_sent r end.
(** The number of weight constraints that were sent. *)
Fixpoint weights_sent (lg : list event) : nat := match lg with [] => 0%nat | EWeight _ _ _ :: r => S (weights_sent r) | _ :: r => weights_sent r end.
(** The number of variables that have more than one value. *)
Definition open_vars (s : state) (es : list (Z * var)) : nat := length (filter (fun e => negb (lb (vst s (snd e)) =? ub (vst s (snd e)))) es).
(** A linear constraint when translation starts: no coefficient is zero, no domain is empty, the sums of bounds are up to date, and propagation has found no conflict. *)
Definition propagated (s : state) (k : cst) (l : lit) (rhs : Z) (es : list (Z * var)) : Prop :=
  c_def k = CSum l rhs es /\ Forall (fun e => fst e <> 0 /\ lb (vst s (snd e)) <= ub (vst s (snd e))) es /\ c_lo k = sum_lo s es /\ c_hi k = sum_hi s es /\ c_lo k <= rhs.
(** A distinct constraint when translation starts: no domain is empty, the bounds of its elements are up to date, and no two elements are fixed to the same value. *)
Definition spread (s : state) (k : cst) (l : lit) (es : list (Z * list (Z * var))) : Prop :=
  c_def k = CDistinct l es /\ Forall (fun e => Forall (fun t => lb (vst s (snd t)) <= ub (vst s (snd t))) (snd e)) es /\
  c_asg k = map (fun e => (fst e + sum_lo s (snd e), fst e + sum_hi s (snd e))) es /\ NoDup (filter (fun a => fst a =? snd a) (c_asg k)).
(** The number of entries sent for clasp's objective function, and the number of literals needed for the values of the variables: one less than there are values. *)
Fixpoint mins_sent (lg : list event) : nat := match lg with [] => 0%nat | EMin _ _ _ :: r => S (mins_sent r) | _ :: r => mins_sent r end.
Fixpoint needed (s : state) (es : list (Z * var)) : Z := match es with [] => 0 | (_, x) :: r => (maxb (vst s x) - minb (vst s x)) + needed s r end.
