(** What the translation of all constraints has to achieve. *)
From Verif Require Import Base Util VarState Terms TermsSpec Solver OrderSpec Sum ConSpec Distinct Objective Search SearchSpec Builder BuilderSpec Translation.
Open Scope Z_scope.

(** The bounds stored with a constraint are up to date, as after the propagation preceding the translation.
    Constraints that do not matter any more are not updated: those with a false literal and linear ones that are
    satisfied by all values. *)
Definition current (O : oracle) (s : state) (k : cst) : Prop :=
  match c_def k with
  | CSum l rhs es =>
      Forall (fun e => fst e <> 0) es /\
      (is_false O s l = true \/ (c_hi k <= rhs /\ sum_hi s es <= c_hi k) \/ (c_lo k = sum_lo s es /\ c_hi k = sum_hi s es))
  | CDistinct l es =>
      Forall (fun e => Forall (fun t => fst t <> 0) (snd e)) es /\
      (c_asg k = map (dist_init s) es \/
       (is_false O s l = true /\ Forall2 (fun a e => fst a <= fst (dist_init s e) /\ snd (dist_init s e) <= snd a) (c_asg k) es))
  | _ => True
  end.

(** A state of the propagator in which translation may start: the top level, no variable without values, no facts
    waiting to be integrated, and all constraints up to date. *)
Record translatable (O : oracle) (n0 : Z) (b : bld) : Prop := {
  tl_top : top O n0 b;
  tl_bnds : forall x, (x < nvars (b_s b))%nat -> lb (vst (b_s b) x) <= ub (vst (b_s b) x);
  tl_facts : fmap (b_s b) = [];
  tl_cons : forall c k, css (b_s b) c = Some k -> current O (b_s b) k }.

(** The integer assignments possible with [b], for the literals and variables known in [b0]. *)
Definition accepted (Base : interp -> Prop) (b0 b : bld) (I : interp) (nu : var -> Z) : Prop :=
  exists J nu', agree_below (nxt (b_s b0)) I J /\ ext_nu (nvars (b_s b0)) nu nu' /\ models Base b J nu'.

(** How often the loop over the constraints runs at most: distinct constraints add two linear constraints for each
    element. *)
Definition rounds1 (d : constr) : nat := match d with CDistinct _ es => 1 + 2 * length es | _ => 1 end.
Definition rounds (cs : list (cid * constr)) : nat := list_sum (map (fun p => rounds1 (snd p)) cs).

(** The coefficients of the objective function and the lower bounds of its variables are 32-bit numbers, as in the
    program. *)
Definition small (s : state) (d : constr) : Prop :=
  match d with CMin _ es => Forall (fun e => imin int32 <= fst e <= imax int32 /\ imin int32 <= minb (vst s (snd e)) <= imax int32) es | _ => True end.
