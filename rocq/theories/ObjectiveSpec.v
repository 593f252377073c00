(** What the objective function is. *)
From Coq Require Import Sorting.Permutation.
From Verif Require Import Base Util VarState Terms TermsSpec Solver OrderSpec ConSpec Objective.
Open Scope Z_scope.

(** The value of a minimize constraint under an assignment. *)
Definition cost (nu : var -> Z) (m : option mincon) : Z :=
  match m with Some (adjust, es) => lval nu es - adjust | None => 0 end.
(** The constants among some terms. *)
Fixpoint constants (ts : list lterm) : Z :=
  match ts with [] => 0 | (co, None) :: r => co + constants r | (_, Some _) :: r => constants r end.

(** The value of clasp's objective function (for the only priority used). *)
Fixpoint clasp_cost (I : interp) (lg : list event) : Z :=
  match lg with
  | [] => 0
  | EMin l w p :: r => wsum I [(l, w)] + clasp_cost I r
  | _ :: r => clasp_cost I r
  end.

(** ** Runs

    One solver per thread, the shared bound and the costs reported so far (latest first).
    [run_check] is the part of check that passes on the bound, [run_work] everything else a
    solver does while searching.  A model of thread [t] is reported after a check of a total
    assignment, which includes check_full of the constraint. *)
Section Run.
Context (c : cid) (m : mincon).
Definition is_min (s : state) : Prop :=
  exists k, css s c = Some k /\ c_def k = CMin (fst m) (snd m).
Record run := mkrun { r_state : nat -> state; r_bound : Z; r_costs : list Z }.
Definition put (t : nat) (s : state) (f : nat -> state) (u : nat) : state := if Nat.eqb u t then s else f u.
Inductive run_step : run -> run -> Prop :=
| run_check : forall t dl f g cs s, check_minimize c m g dl (f t) = Ok s -> run_step (mkrun f g cs) (mkrun (put t s f) g cs)
| run_work : forall t f g cs s, mbound s = mbound (f t) -> is_min s -> run_step (mkrun f g cs) (mkrun (put t s f) g cs)
| run_model : forall t dl f g cs s1 s2 v g', check_minimize c m g dl (f t) = Ok s1 ->
    mbound s2 = mbound s1 -> is_min s2 -> Sum.check_full_sum c s2 = Ok tt ->
    on_model m (fun x => lb (vst s2 x)) g = Ok (v, g') ->
    run_step (mkrun f g cs) (mkrun (put t s2 f) g' (v :: cs)).
Inductive runs (r : run) : run -> Prop :=
| runs_refl : runs r r
| runs_step : forall r1 r2, runs r r1 -> run_step r1 r2 -> runs r r2.
(** After init: no bound in any solver and no shared bound. *)
Definition run_start (f : nat -> state) : Prop := forall t, mbound (f t) = None.
End Run.
