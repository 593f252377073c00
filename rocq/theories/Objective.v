(** Model of the objective function: how it is put together in each step
    (propagator.cc 92, 248-264), its bound (propagator.cc 275-295, 509-521, 610-625,
    solver.cc 418-428) and its translation (constraints.cc 733-766). *)
From Verif Require Import Base Util IntervalSet VarState Terms Solver Sum.
Open Scope Z_scope.

(** The elements of a minimize constraint with its constant adjust_ (constraints.hh, MinimizeConstraint). *)
Definition mincon := (Z * list (Z * var))%type.

(** add_minimize (propagator.cc 92): the terms collected while reading the program. *)
Definition min_terms (calls : list bcall) : list lterm :=
  flat_map (fun c => match c with BMin co v => [(co, v)] | _ => [] end) calls.

Section Prepare.
(** The sorting of the elements in MinimizeConstraint. *)
Context (srt : list (Z * var) -> list (Z * var)).

(** prepare_minimize (propagator.cc 249-264); [old] is the constraint of the previous step. *)
Definition prepare_minimize (old : option mincon) (terms : list lterm) : outcome (option mincon) :=
  let terms :=
    terms ++ match old with
             | Some (adjust, es) => map (fun e => (fst e, Some (snd e))) es ++ [(adjust, None)]
             | None => []
             end in
  match terms with
  | [] => Ok None
  | _ =>
      '(vec, adjust) <- simplify true terms ;;
      es <- strip vec ;;
      Ok (Some (adjust, srt es))
  end.
(** The steps of a session in which the objective is not translated, so that remove_minimize
    (propagator.cc 590-608) hands the constraint of a step to the next. *)
Fixpoint prepare_steps (old : option mincon) (steps : list (list lterm)) : outcome (option mincon) :=
  match steps with
  | [] => Ok old
  | ts :: r => m <- prepare_minimize old ts ;; prepare_steps m r
  end.
End Prepare.

(** get_minimize_value (propagator.cc 610-619) in 64 bits. *)
Fixpoint cost_sum (value : var -> Z) (es : list (Z * var)) (bound : Z) : outcome Z :=
  match es with
  | [] => Ok bound
  | (co, x) :: r => p <- imul int64 co (value x) ;; b <- iadd int64 bound p ;; cost_sum value r b
  end.
Definition get_minimize_value (m : mincon) (value : var -> Z) : outcome Z :=
  b <- cost_sum value (snd m) 0 ;; isub int64 b (fst m).

(** The bound of the propagator: the largest 64 bit number stands for none (propagator.hh). *)
Definition no_bound : Z := 2^63 - 1.
(** The objective in on_model (propagator.cc 284-292): the cost and the new bound. *)
Definition on_model (m : mincon) (value : var -> Z) (bound : Z) : outcome (Z * Z) :=
  cost <- get_minimize_value m value ;;
  if cost <=? bound then b <- isub int64 cost 1 ;; Ok (cost, b) else Ok (cost, bound).

(** Solver::update_minimize (solver.cc 418-428). *)
Definition update_minimize (c : cid) (level : nat) (bound : Z) (s : state) : state :=
  if match mbound s with None => true | Some b => bound <? b end
  then mark_todo c (set_mlevel level (set_mbound (Some bound) s))
  else if (level <? mlevel s)%nat then mark_todo c (set_mlevel level s) else s.
(** The first part of check (propagator.cc 515-521). *)
Definition check_minimize (c : cid) (m : mincon) (gbound : Z) (level : nat) (s : state) : outcome state :=
  if gbound =? no_bound then Ok s else b <- iadd int64 gbound (fst m) ;; Ok (update_minimize c level b s).

(** ** Translation *)

Section Translate.
Context (cfg : config).

(** MinimizeConstraintState::translate (constraints.cc 755-763) once it has been decided to
    translate; the values are added with safe_mul in 32 bits. *)
Fixpoint min_values (co : Z) (x : var) (vs : list Z) (s : state) : state :=
  match vs with
  | [] => s
  | v :: r => let '(l, s) := get_literal cfg x v s in min_values co x r (emit (EMin (- l) co 0) s)
  end.
Fixpoint min_elems (es : list (Z * var)) (s : state) : outcome state :=
  match es with
  | [] => Ok s
  | (co, x) :: r =>
      p <- safe_mul int32 co (minb (vst s x)) ;;
      let s := emit (EMin TRUE_LIT p 0) s in
      min_elems r (min_values co x (zseq (minb (vst s x)) (Z.to_nat (maxb (vst s x) - minb (vst s x)))) s)
  end.
(** required_literals (constraints.cc 733-741). *)
Definition required_literals (es : list (Z * var)) (s : state) : Z :=
  zsum (map (fun e => maxb (vst s (snd e)) - minb (vst s (snd e)) - 1) es).
(** The whole of translate: [limit] is the option translate-minimize.  The result says whether
    the constraint has been translated. *)
Definition translate_minimize (limit : Z) (m : mincon) (s : state) : outcome (bool * state) :=
  if tmin s || (limit =? 2^32 - 1) || (required_literals (snd m) s <? limit) then
    s <- min_elems (snd m) (emit (EMin TRUE_LIT (- fst m) 0) (set_tmin true s)) ;;
    Ok (true, s)
  else Ok (false, s).
End Translate.
