(** Model of the translation of linear constraints: SumConstraintState::translate,
    weight_translate_ and clause_translate_ (constraints.cc 420-451, 497-533, 601-713).
    Values are unbounded integers. *)
From Verif Require Import Base Util IntervalSet VarState Solver Sum.
Open Scope Z_scope.

Section Translate.
Context (O : oracle) (cfg : config).

(** InitClauseCreator::add_weight_constraint for an implication from the literal to the
    weight constraint (base.hh 338-357); the condition is queued and sent by commit as
    the implication from the opposite weight constraint to the opposite literal (371-377),
    which is the same condition. *)
Definition add_weight (l : lit) (wl : list (lit * Z)) (b : Z) (s : state) : bool * state :=
  if is_false O s l then (true, s) else (true, emit (EWeight l wl b) s).

(** The loops over the values of one variable (constraints.cc 508-510, 516-518). *)
Fixpoint weight_vals (co : Z) (x : var) (vs : list Z) (s : state) : list (lit * Z) * state :=
  match vs with
  | [] => ([], s)
  | i :: r =>
      let '(g, s) := get_literal cfg x i s in
      let '(wl, s) := weight_vals co x r s in
      ((if 0 <? co then (- g, co) else (g, - co)) :: wl, s)
  end.
(** The loop over the elements (constraints.cc 502-520). *)
Fixpoint weight_lits (slack : Z) (es : list (Z * var)) (s : state) : list (lit * Z) * state :=
  match es with
  | [] => ([], s)
  | (co, x) :: r =>
      let v := vst s x in
      let vs :=
        if 0 <? co then
          let value := (slack + co * lb v) / co in
          zseq (lb v) (Z.to_nat (Z.min (value + 1) (ub v) - lb v))
        else
          let value := - ((slack + co * ub v) / (- co)) in
          let b := Z.max (value - 1) (lb v) in
          zseq b (Z.to_nat (ub v - b)) in
      let '(w1, s) := weight_vals co x vs s in
      let '(w2, s) := weight_lits slack r s in
      (w1 ++ w2, s)
  end.
(** weight_translate_ (constraints.cc 497-533). *)
Definition weight_translate (l : lit) (es : list (Z * var)) (slack : Z) (s : state) : (bool * bool) * state :=
  let '(wl, s) := weight_lits slack es s in
  if (- 2147483648 <? slack) && (slack <? 2147483647) then
    let '(ok, s) := add_weight l wl slack s in ((ok, true), s)
  else ((true, false), s).

(** Appending a literal that is not false (constraints.cc 678-681). *)
Definition push_lit (l : lit) (c : list lit) : list lit := if l =? - TRUE_LIT then c else c ++ [l].

(** The iterations of one entry of the stack (constraints.cc 655-676): value [w], then
    [w + d], and so on. *)
Fixpoint vloop (f : lit -> Z -> Z -> state -> outcome bool * state) (co : Z) (x : var) (d : Z)
    (n : nat) (w lower upper : Z) (s : state) : outcome bool * state :=
  match n with
  | 0%nat => (Ok true, s)
  | S n =>
      let '(g, s) := get_literal cfg x w s in
      match f (if 0 <? co then g else - g) lower upper s with
      | (Ok true, s) => vloop f co x d n (w + d) (lower + Z.abs co) (upper + Z.abs co) s
      | r => r
      end
  end.
(** clause_translate_ (constraints.cc 601-713): the explicit stack is replaced by recursion
    over the elements; the condition asserted in line 690 not being met is undefined
    behaviour (the access of a non-existing element). *)
Fixpoint clause_elems (literals_only : bool) (es : list (Z * var)) (cl : list lit) (lower upper : Z) (s : state) : outcome bool * state :=
  if lower <? 0 then
    if literals_only then (Ok true, s) else let '(b, s) := add_clause O Learnt cl s in (Ok b, s)
  else
    match es with
    | [] => (UB, s)
    | (co, x) :: r =>
        let v := vst s x in
        let f := fun l lower upper s => clause_elems literals_only r (push_lit l cl) lower upper s in
        if 0 <? co then
          let vl := Z.max (lb v - 1) ((upper + co * ub v) / co) in
          let vu := Z.min (ub v - 1) ((lower + co * lb v) / co) in
          vloop f co x (-1) (Z.to_nat (vu - vl + 1)) vu (lower - co * (vu - lb v + 1)) (upper + co * (ub v - vu - 1)) s
        else
          let vl := Z.max (lb v) (- ((lower + co * ub v) / (- co)) - 1) in
          let vu := Z.min (ub v) (- ((upper + co * lb v) / (- co)) - 1) in
          vloop f co x 1 (Z.to_nat (vu - vl + 1)) vl (lower - co * (vl - ub v)) (upper + co * (lb v - vl)) s
    end.
Definition clause_translate (literals_only : bool) (l : lit) (es : list (Z * var)) (lower upper : Z) (s : state) : outcome bool * state :=
  clause_elems literals_only es (push_lit (if is_true O s l then - TRUE_LIT else - l) []) lower upper s.

(** translate (constraints.cc 420-451).  [weight] stands for the comparison of
    literal_variable_ratio_ with the configured ratio (a floating point computation) and
    [clauses] for the limits on the number of clauses (statistics and clause_estimate_);
    both are arbitrary here.  The result are success and whether the constraint is to be
    removed. *)
Definition translate_sum (weight clauses literals_only : bool) (k : cst) (s : state) : outcome (bool * bool) * state :=
  match c_def k with
  | CSum l rhs es =>
      if is_false O s l || (c_hi k <=? rhs) then (Ok (true, true), s)
      else
        let lower := rhs - c_lo k in
        let upper := rhs - c_hi k in
        if weight then let '(p, s) := weight_translate l es lower s in (Ok p, s)
        else if clauses then
          match clause_translate literals_only l es lower upper s with
          | (Ok b, s) => (Ok (b, negb literals_only), s)
          | (Throw e, s) => (Throw e, s)
          | (UB, s) => (UB, s)
          end
        else (Ok (true, false), s)
  | _ => (UB, s)
  end.

End Translate.
