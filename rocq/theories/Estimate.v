(** Model of the estimates that decide how a linear constraint is translated: SumConstraintState::literal_variable_ratio_ and
    clause_estimate_ (constraints.cc 470-494, 535-599) and the decision itself in translate (420-451).
    Values are unbounded integers, the ratio of the configuration is a fraction. *)
From Verif Require Import Base Util IntervalSet VarState Solver Sum Translate Translation.
Open Scope Z_scope.

(** The loop of literal_variable_ratio_ (constraints.cc 473-492): the number of variables that are not assigned and the number of literals. *)
Fixpoint ratio_parts (slack : Z) (es : list (Z * var)) (s : state) : Z * Z :=
  match es with
  | [] => (0, 0)
  | (co, x) :: r =>
      let v := vst s x in
      let '(n, estimate) := ratio_parts slack r s in
      (if lb v =? ub v then n else n + 1,
       if 0 <? co then
         let value := (slack + co * lb v) / co in
         estimate + (Z.min (value + 1) (ub v) - lb v)
       else
         let value := - ((slack + co * ub v) / (- co)) in
         estimate + (ub v - Z.max (value - 1) (lb v)))
  end.
(** The comparison of the ratio (constraints.cc 437, 493) with the fraction [num / den]. *)
Definition ratio_within (num den : Z) (p : Z * Z) : bool :=
  let '(n, estimate) := p in if 0 <? n then estimate * den <=? num * n else 0 <=? num.

(** The values of the next variable (constraints.cc 569-590): their number and the bounds for the first of them. *)
Definition estimate_vals (co : Z) (v : vstate) (lower upper : Z) : Z * Z * Z :=
  if 0 <? co then
    let value_lower := Z.max (lb v) ((upper + co * ub v) / co + 1) in
    let value_upper := Z.min (ub v) ((lower + co * lb v) / co + 1) in
    (value_upper - value_lower + 1, lower - co * (value_upper - lb v), upper + co * (ub v - value_upper))
  else
    let value_lower := Z.max (lb v) (- ((lower + co * ub v) / (- co)) - 1) in
    let value_upper := Z.min (ub v) (- ((upper + co * lb v) / (- co)) - 1) in
    (value_upper - value_lower + 1, lower - co * (value_lower - ub v), upper + co * (lb v - value_lower)).
(** clause_estimate_ (constraints.cc 535-599): the stack holds the number of the element, the number of values left and the two bounds.  [None] if [fuel]
    iterations are not enough; accessing an element that does not exist is undefined behaviour. *)
Fixpoint estimate_loop (es : list (Z * var)) (s : state) (maximum : Z) (fuel : nat) (todo : list (nat * Z * Z * Z)) (estimate : Z) : option (outcome bool) :=
  match todo with
  | [] => Some (Ok true)
  | (i, n, lower, upper) :: r =>
      match fuel with
      | 0%nat => None
      | S fuel =>
          if n <=? 0 then estimate_loop es s maximum fuel r estimate
          else
            match (match i with
                   | 0%nat => Some (r, estimate)
                   | S j =>
                       match nth_error es j with
                       | Some (co, _) => Some ((i, n - 1, if 0 <? co then lower + co else lower - co, if 0 <? co then upper + co else upper - co) :: r, estimate - 1)
                       | None => None
                       end
                   end) with
            | None => Some UB
            | Some (todo, estimate) =>
                if lower <? 0 then
                  if maximum <=? estimate + 1 then Some (Ok false) else estimate_loop es s maximum fuel todo (estimate + 1)
                else
                  match nth_error es i with
                  | None => Some UB
                  | Some (co, x) =>
                      let '(n, lower, upper) := estimate_vals co (vst s x) lower upper in
                      if maximum <=? estimate + n then Some (Ok false)
                      else estimate_loop es s maximum fuel ((S i, n, lower, upper) :: todo) (estimate + n)
                  end
            end
      end
  end.
Definition clause_estimate (es : list (Z * var)) (s : state) (lower upper maximum : Z) (fuel : nat) : option (outcome bool) :=
  estimate_loop es s maximum fuel [(0%nat, 1, lower, upper)] 0.

(** The options translate-clauses (two numbers), translate-pb and literals-only (base.hh 230-236, clingcon.cc 458-473). *)
Record tconf := mktc { tc_limit : Z; tc_total : Z; tc_num : Z; tc_den : Z; tc_literals : bool }.
(** The decision in translate (constraints.cc 437-442); [made] is the number of clauses made by translation before (base.hh 316-318). *)
Definition decide (t : tconf) (made : Z) (fuel : nat) (k : cst) (s : state) : option (outcome choice) :=
  match c_def k with
  | CSum l rhs es =>
      let lower := rhs - c_lo k in
      let upper := rhs - c_hi k in
      if ratio_within (tc_num t) (tc_den t) (ratio_parts lower es s) then Some (Ok (mkch true false (tc_literals t)))
      else if made <? tc_total t then
        match clause_estimate es s lower upper (tc_limit t) fuel with
        | None => None
        | Some (Ok b) => Some (Ok (mkch false b (tc_literals t)))
        | Some (Throw e) => Some (Throw e)
        | Some UB => Some UB
        end
      else Some (Ok (mkch false false (tc_literals t)))
  | _ => Some UB
  end.
