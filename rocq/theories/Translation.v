(** Model of Solver::translate (solver.cc 565-641): all constraints are translated to clauses or weight
    constraints as far as the configuration asks for it, and those translated are removed. *)
From Verif Require Import Base Util IntervalSet VarState Solver Sum Translate Distinct Objective Search Builder.
Open Scope Z_scope.

(** How constraint [c] is to be translated: to a weight constraint, to clauses, and whether only the order
    literals are to be introduced; these stand for the estimates and limits of
    SumConstraintState::translate (constraints.cc 420-451) and are arbitrary. *)
Record choice := mkch { ch_weight : bool; ch_clauses : bool; ch_literals : bool }.

Section Translation.
Context (O : oracle) (cfg : config).
(** The options distinct-limit, translate-minimize and add-order-clauses (config.hh). *)
Context (dlimit mlimit : Z) (order : bool) (ch : cid -> choice).

(** AbstractConstraintState::translate for constraint [c]: success, whether the constraint is to be
    removed, and the constraints added.  Non-linear and disjoint constraints are never translated
    (constraints.cc 1351-1358, 1807-1814). *)
Definition translate1 (c : cid) (s : state) : outcome (bool * bool * list constr) * state :=
  match css s c with
  | None => (UB, s)
  | Some k =>
      match c_def k with
      | CSum _ _ _ =>
          match translate_sum O cfg (ch_weight (ch c)) (ch_clauses (ch c)) (ch_literals (ch c)) k s with
          | (Ok p, s) => (Ok (p, []), s)
          | (Throw e, s) => (Throw e, s)
          | (UB, s) => (UB, s)
          end
      | CMin adjust es =>
          match translate_minimize cfg mlimit (adjust, es) s with
          | Ok (b, s) => (Ok (true, b, []), s)
          | Throw e => (Throw e, s)
          | UB => (UB, s)
          end
      | CDistinct _ _ => translate_distinct O cfg dlimit k s
      | CDisjoint _ _ | CNonlin _ _ _ _ _ _ _ => (Ok (true, false, []), s)
      end
  end.

(** The constraints that have been kept, those to be removed, and those still to be looked at. *)
Record work := mkw { w_kept : list (cid * constr); w_rm : list (cid * constr); w_rest : list (cid * constr); w_id : cid; w_s : state }.

(** Numbers for new constraints. *)
Fixpoint number (id : cid) (cs : list constr) : list (cid * constr) :=
  match cs with [] => [] | d :: cs => (id, d) :: number (S id) cs end.

(** The loop over the constraints (solver.cc 568-588), including those added on the way; [None] if [n] iterations are
    not enough.  The vector is split into three lists: the order of the constraints in it is not modelled.
    If a translation fails the constraints stay where they are. *)
Fixpoint tloop (n : nat) (w : work) : option (outcome bool * work) :=
  match w_rest w with
  | [] => Some (Ok true, w)
  | (c, d) :: rest =>
      match n with
      | 0%nat => None
      | S n =>
          match translate1 c (add_constraint c d (w_s w)) with
          | (Ok (ok, rm, cs), s) =>
              let new := number (w_id w) cs in
              let id := (w_id w + length cs)%nat in
              if negb ok then Some (Ok false, mkw (w_kept w) (w_rm w) ((c, d) :: rest ++ new) id s)
              else if rm then tloop n (mkw (w_kept w) (w_rm w ++ [(c, d)]) (rest ++ new) id s)
              else tloop n (mkw (w_kept w ++ [(c, d)]) (w_rm w) (rest ++ new) id s)
          | (Throw e, s) => Some (Throw e, mkw (w_kept w) (w_rm w) ((c, d) :: rest) (w_id w) s)
          | (UB, s) => Some (UB, mkw (w_kept w) (w_rm w) ((c, d) :: rest) (w_id w) s)
          end
      end
  end.

(** The clauses for neighbouring order literals of a variable (solver.cc 624-634), and for all variables (622-637). *)
Fixpoint order_clauses1 (prev : lit) (m : list (Z * lit)) (s : state) : bool * state :=
  match m with
  | [] => (true, s)
  | (_, l) :: m =>
      if prev =? - TRUE_LIT then order_clauses1 l m s
      else
        let '(ok, s) := add_clause O Learnt [- prev; l] s in
        if ok then order_clauses1 l m s else (false, s)
  end.
Fixpoint order_clauses (xs : list var) (s : state) : bool * state :=
  match xs with
  | [] => (true, s)
  | x :: xs =>
      let '(ok, s) := order_clauses1 (- TRUE_LIT) (lits (vst s x)) s in
      if ok then order_clauses xs s else (false, s)
  end.

(** translate (solver.cc 565-641) for the constraints of the propagator. *)
Definition solver_translate (n : nat) (b : bld) : option (outcome bool * bld) :=
  match tloop n (mkw [] [] (b_cs b) (b_id b) (b_s b)) with
  | None => None
  | Some (Ok true, w) =>
      let s := match w_rm w with [] => w_s w | rm => remove_constraints (map fst rm) (w_s w) end in
      let '(ok, s) := if order then order_clauses (seq 0 (nvars s)) s else (true, s) in
      Some (Ok ok, mkb s (w_kept w) (w_id w))
  | Some (r, w) => Some (r, mkb (w_s w) (w_kept w ++ w_rm w ++ w_rest w) (w_id w))
  end.
End Translation.
