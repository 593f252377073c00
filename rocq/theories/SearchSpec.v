(** Histories of a solver: what clasp may call in which order. *)
From Coq Require Import Permutation.
From Verif Require Import Base Util VarState Terms TermsSpec Solver OrderSpec Orders Sum PropProofs ConSpec Objective Search.
Open Scope Z_scope.

(** No change of a bound waits for being passed to the constraints. *)
Definition settled (s : state) : Prop := inl s = [] /\ inu s = [] /\ forall x, ldiff s x = 0 /\ udiff s x = 0.

(** The bookkeeping of a constraint: its bounds are kept in the state if it is linear. *)
Definition same_con (k k' : cst) : Prop :=
  c_def k' = c_def k /\ c_inact k' = c_inact k /\ (sum_es (c_def k) <> None -> c_lo k' = c_lo k /\ c_hi k' = c_hi k).
(** All that depends on the decision level is in [s'] as in [s]. *)
Record restored (s s' : state) : Prop := {
  r_vars : nvars s' = nvars s;
  r_bounds : forall x, lb (vst s' x) = lb (vst s x) /\ ub (vst s' x) = ub (vst s x);
  r_stacks : forall x, lbs (vst s' x) = lbs (vst s x) /\ ubs (vst s' x) = ubs (vst s x);
  r_levels : lvls s' = lvls s /\ ulo s' = ulo s /\ uup s' = uup s /\ ina s' = ina s /\ remw s' = remw s;
  r_settled : settled s' /\ tod s' = [];
  r_cons : l2c s' = l2c s /\ forall c, match css s c, css s' c with
                                        | Some k, Some k' => same_con k k'
                                        | None, None => True
                                        | _, _ => False
                                        end;
  r_watches : forall x, Permutation (wat s' x) (wat s x) }.

(** Steps that only ask for order literals or add clauses. *)
Definition literals_only (s s' : state) : Prop := same3 s s' /\ css s' = css s /\ ina s' = ina s.

(** Communication within a callback. *)
Definition within (e : event) : Prop := match e with ECall _ => False | _ => True end.

Section History.
Context (srt : (ival -> Z) -> list ival -> list ival) (O : oracle) (cfg : config) (check_state check_solution : bool).

(** Clasp stays on its top level as long as the callback that starts in [s] does not return. *)
Definition stays_top (s : state) : Prop := forall es, Forall within es -> o_level O (es ++ log s) = 0%nat.

(** One step of a history.  The callbacks of clasp during search are [cb_call] (clasp goes on with the
    search, so that its assignment changes), [cb_propagate], [cb_check] and [cb_undo]; the other steps prepare
    a search on the top level.  The restriction for [cb_propagate] says that clasp calls check on a level
    before it opens a new one.  [cb_check] leaves out checks that throw: they end the search.
    [cb_translated] is the flag set when the objective function is translated (solver.hh 726, called in constraints.cc 755).
    The restriction for [cb_remove] excludes constraints for which [cb_detach] left a wrong entry in the queue. *)
Inductive callback : state -> state -> Prop :=
| cb_call n s : callback s (emit (ECall n) s)
| cb_propagate ls s : ((cur_level s < dlevel O s)%nat -> settled s) -> callback s (snd (solver_propagate O cfg ls s))
| cb_check fuel m bound s s' : prop_check srt O cfg check_state check_solution fuel m bound s = Some (Ok tt, s') -> callback s s'
| cb_undo s s' : solver_undo s = Ok s' -> callback s s'
| cb_literals s s' : cur_level s = 0%nat -> literals_only s s' -> callback s s'
| cb_variable mn mx s : cur_level s = 0%nat -> settled s -> mn <= mx -> callback s (snd (add_variable mn mx s))
| cb_constraint c d s : cur_level s = 0%nat -> settled s -> Forall (fun x => x < nvars s)%nat (cvars d) -> callback s (add_constraint c d s)
| cb_remove c s s' : cur_level s = 0%nat -> (forall k, css s c = Some k -> count_occ Nat.eq_dec (tod s) c = if c_todo k then 1%nat else 0%nat) -> remove_constraint c s = Ok s' -> callback s s'
| cb_detach rm s : cur_level s = 0%nat -> callback s (remove_constraints rm s)
| cb_translated s : cur_level s = 0%nat -> callback s (set_tmin true s)
| cb_update s : cur_level s = 0%nat -> callback s (solver_update s)
| cb_simplify fuel b s s' : cur_level s = 0%nat -> stays_top s -> solver_simplify srt O cfg check_state fuel s = Some (Ok b, s') -> callback s s'
| cb_bounds fuel other b s s' : cur_level s = 0%nat -> update_bounds srt O cfg check_state fuel other s = Some (Ok b, s') -> callback s s'.

(** Histories in which the current level stays above [n]. *)
Inductive above (n : nat) (s : state) : state -> Prop :=
| ab_refl : (n < cur_level s)%nat -> above n s s
| ab_step s1 s2 : above n s s1 -> callback s1 s2 -> (n < cur_level s2)%nat -> above n s s2.
End History.

(** States of solvers: [m] is the state of the master from which a solver is copied. *)
Inductive reachable srt check_state check_solution : oracle -> config -> state -> Prop :=
| re_init O cfg : reachable srt check_state check_solution O cfg init_state
| re_step O cfg s s' : reachable srt check_state check_solution O cfg s -> callback srt O cfg check_state check_solution s s' ->
    reachable srt check_state check_solution O cfg s'
| re_copy O cfg O' cfg' m s s' : reachable srt check_state check_solution O' cfg' m -> reachable srt check_state check_solution O cfg s ->
    copy_state m s = Ok s' -> reachable srt check_state check_solution O cfg s'.
