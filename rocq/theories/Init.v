(** Model of Propagator::init (propagator.cc 390-501) in the first step with one thread: the calls of the parser,
    simplification, the objective function, translation and watches. *)
From Verif Require Import Base Util VarState Terms Solver Sum Distinct Objective Search Builder Translation.
Open Scope Z_scope.

Section Init.
Context (isrt : (ival -> Z) -> list ival -> list ival) (O : oracle) (cfg : config) (check_state : bool) (srt : list (Z * var) -> list (Z * var)).
Context (dlimit mlimit : Z) (order : bool) (ch : cid -> choice).

(** The calls among what the parser does. *)
Definition calls (ops : list bop) : list bcall := flat_map (fun o => match o with POp c => [c] | _ => [] end) ops.

(** Adding the objective function (propagator.cc 480-485 with 584-588). *)
Definition add_minimize (m : option mincon) (b : bld) : bld :=
  match m with Some (adjust, es) => post (CMin adjust es) b | None => b end.

(** The watches for the literals of the remaining constraints (propagator.cc 431-434). *)
Definition watch_all (b : bld) : bld :=
  mkb (fold_left (fun s p => add_watch (c_lit (snd p)) s) (b_cs b) (b_s b)) (b_cs b) (b_id b).

(** init (propagator.cc 390-463 with simplify_ 465-475 and translate_ 477-501): whether all steps succeeded, the solver and the
    constraints, and the objective function with its number if there is one and it was not translated (propagator.cc 496-498).
    [None] if [n] rounds of simplification or translation are not enough.
    Left out are statistics, the check mode, the clauses waiting in the clause creator (see Creator.v), other threads
    (411-419 and 438-449, see C32 and C40), and what concerns later steps: removing the objective of the previous step
    and local literals (396-401), and the marking of variables (458-461). *)
Definition init (n : nat) (ops : list bop) (b : bld) : option (outcome bool * bld * option (cid * mincon)) :=
  match build O cfg srt ops b with
  | Throw e => Some (Throw e, b, None)
  | UB => Some (UB, b, None)
  | Ok (false, b) => Some (Ok false, b, None)
  | Ok (true, b) =>
      match solver_simplify isrt O cfg check_state n (b_s b) with
      | None => None
      | Some (Ok true, s) =>
          let b := mkb s (b_cs b) (b_id b) in
          match prepare_minimize srt None (min_terms (calls ops)) with
          | Throw e => Some (Throw e, b, None)
          | UB => Some (UB, b, None)
          | Ok m =>
              let mc := match m with Some m => Some (b_id b, m) | None => None end in
              match solver_translate O cfg dlimit mlimit order ch n (add_minimize m b) with
              | None => None
              | Some (Ok true, b) => Some (Ok true, watch_all b, if tmin (b_s b) then None else mc)
              | Some (r, b) => Some (r, b, mc)
              end
          end
      | Some (r, s) => Some (r, mkb s (b_cs b) (b_id b), None)
      end
  end.
End Init.
