(** What was added and what it means. *)
From Verif Require Import Base Terms TermsSpec Creator.
Open Scope Z_scope.

Definition weight (I : interp) (wl : list (Z * Z)) : Z :=
  fold_right (fun lw a => (if 0 <? fst lw then (if I (fst lw) then snd lw else 0) else (if I (- fst lw) then 0 else snd lw)) + a) 0 wl.
(** A clingo weight constraint (clingo.h 2.1, clingo_weight_constraint_type): the
    literal [l] and "the weight is at least [b]"; type -1: the constraint implies
    the literal, 1: the literal implies the constraint, 0: both. *)
Definition at_least (I : interp) (l : Z) (wl : list (Z * Z)) (b type : Z) : Prop :=
  (type <= 0 -> b <= weight I wl -> lit_true I l) /\ (0 <= type -> lit_true I l -> b <= weight I wl).
(** What add_weight_constraint is documented to add: [lit == (wlits <= bound)]. *)
Definition at_most (I : interp) (l : Z) (wl : list (Z * Z)) (b type : Z) : Prop :=
  (type <= 0 -> weight I wl <= b -> lit_true I l) /\ (0 <= type -> lit_true I l -> weight I wl <= b).

Definition called (I : interp) (c : icall) : Prop :=
  match c with IClause c => clause_true I c | IWeight l wl b t => at_least I l wl b t | _ => True end.
Definition added (I : interp) (op : cop) : Prop :=
  match op with OClause c => clause_true I c | OWeight l wl b t => at_most I l wl b t | _ => True end.

Definition clauses_added (ops : list cop) : list (list Z) := flat_map (fun op => match op with OClause c => [c] | _ => [] end) ops.
Definition minimize_added (ops : list cop) : list (Z * Z * Z) := flat_map (fun op => match op with OMin l w p => [(l, w, p)] | _ => [] end) ops.
Definition weights_added (ops : list cop) : list (Z * list (Z * Z) * Z * Z) := flat_map (fun op => match op with OWeight l wl b t => [(l, wl, b, t)] | _ => [] end) ops.
Definition clauses_sent (o : list icall) : list (list Z) := flat_map (fun op => match op with IClause c => [c] | _ => [] end) o.
Definition minimize_sent (o : list icall) : list (Z * Z * Z) := flat_map (fun op => match op with IMin l w p => [(l, w, p)] | _ => [] end) o.
(** Weight constraints as sent, in the form in which they were added. *)
Definition weights_sent (o : list icall) : list (Z * list (Z * Z) * Z * Z) :=
  flat_map (fun op => match op with IWeight l wl b t => [(- l, wl, b - 1, - t)] | _ => [] end) o.
(** [a] results from [b] by dropping elements that satisfy [D]. *)
Inductive kept {A} (D : A -> Prop) : list A -> list A -> Prop :=
| k_nil : kept D [] []
| k_keep x a b : kept D a b -> kept D (x :: a) (x :: b)
| k_drop x a b : D x -> kept D a b -> kept D a (x :: b).

Definition wf_op (op : cop) : Prop := match op with OClause c => Forall (fun l => l <> 0) c | OWeight l _ _ _ => l <> 0 | _ => True end.

(** A weight constraint was dropped: its literal made it hold at that point. *)
Definition dropped_at (S : isolver) (o : list icall) (w : Z * list (Z * Z) * Z * Z) : Prop :=
  let '(l, _, _, t) := w in exists o1 o2, o = o1 ++ o2 /\ ((is_true S o1 l = true /\ t < 0) \/ (is_true S o1 (- l) = true /\ 0 < t)).

(** Operations that empty the queues. *)
Definition is_commit (op : cop) : Prop := op = OCommit \/ op = OPropagate.

(** The solver's assignment during initialization is permanent. *)
Definition respects (S : isolver) (I : interp) (o : list icall) : Prop := forall o1 o2 l, o = o1 ++ o2 -> l <> 0 -> is_true S o1 l = true -> lit_true I l.
