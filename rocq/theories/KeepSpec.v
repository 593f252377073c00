(** Searches that keep all solutions. *)
From Verif Require Import Base Util VarState Terms TermsSpec Solver OrderSpec Orders Sum Distinct ConSpec Objective Search SearchSpec CheckSpec.
Open Scope Z_scope.

(** What a constraint demands.  The literals of distinct and disjoint constraints count only if [guard] is true, those of non-linear constraints
    do not count: the code does not add the literal of a non-linear constraint to its clauses, and those of the others only as long as they are not fixed
    (see C19, C22 and C24).  Nothing is claimed about non-linear constraints whose third variable has a coefficient below -1 (see C24). *)
Definition demand (guard : bool) (mb : option Z) (d : constr) (I : interp) (nu : var -> Z) : Prop :=
  match d with
  | CSum l _ _ => lit_true I l -> condition mb d nu
  | CMin _ _ => condition mb d nu
  | CNonlin _ _ _ _ cob _ _ => - 1 <= cob /\ condition mb d nu
  | CDistinct l _ | CDisjoint l _ => (guard = true -> lit_true I l) -> condition mb d nu
  end.
Definition demands (guard : bool) (s : state) (mb : option Z) (I : interp) (nu : var -> Z) : Prop :=
  forall c k, css s c = Some k -> demand guard mb (c_def k) I nu.

(** Constraints as they are posted (see C05 and C10 to C12): their literals are known, coefficients are not zero, variables of linear constraints are different, and the
    lengths of intervals are positive. *)
Definition posted (s : state) (d : constr) : Prop :=
  below (nxt s) (c_lit d) /\
  match d with
  | CSum _ _ es | CMin _ es => Forall (fun e => fst e <> 0) es /\ NoDup (map snd es)
  | CDistinct _ es => Forall (fun e => Forall (fun t => fst t <> 0) (snd e)) es
  | CDisjoint _ es => Forall (fun e => 0 < fst e) es
  | CNonlin _ coa _ _ cob z rhs => - 2^31 <= coa <= 2^31 - 1 /\ - 2^31 <= cob <= 2^31 - 1 /\ - 2^31 <= rhs <= 2^31 - 1 /\ (z = None <-> cob = 0)
  end.

Section Keep.
Context (srt : (ival -> Z) -> list ival -> list ival) (O : oracle) (cfg : config) (check_state check_solution : bool).

(** Fixed literals are assigned, and during a callback above the top level no literal becomes fixed, unless there is a conflict. *)
Definition steady : Prop := (forall lg l, o_fixed O lg l = true -> o_true O lg l = true \/ o_true O lg (- l) = true) /\
  forall lg e l, quiet O lg e -> (0 < o_level O lg)%nat -> o_fixed O (e :: lg) l = o_fixed O lg l.

(** [course guard s0 K going s]: a search that started in [s0] has come to [s], [K] are the literals reported to the solver on levels that
    were not left since, with these levels; they are true whenever propagate or check are called.  A conflict on the top level
    ends the search ([going] is false then).  If [guard] is true check is only called above the top level. *)
Inductive course (guard : bool) (s0 : state) : list (nat * lit) -> bool -> state -> Prop :=
| co_start : course guard s0 [] true s0
| co_call n K s : course guard s0 K true s -> course guard s0 K true (emit (ECall n) s)
| co_propagate ls ok K s s' : course guard s0 K true s -> in_order O s -> Forall (below (nxt s)) ls ->
    (forall l, In l ls \/ In l (map snd K) -> o_true O (log s) l = true) -> solver_propagate O cfg ls s = (ok, s') ->
    course guard s0 (map (pair (cur_level s')) ls ++ K) (ok || (0 <? cur_level s')%nat) s'
| co_check fuel m bound K s s' : course guard s0 K true s -> in_order O s -> (forall l, In l (map snd K) -> o_true O (log s) l = true) ->
    (guard = true -> (0 < dlevel O s)%nat) -> prop_check srt O cfg check_state check_solution fuel m bound s = Some (Ok tt, s') ->
    course guard s0 K ((0 <? cur_level s')%nat || is_nil (fmap s')) s'
| co_undo K s s' : course guard s0 K true s -> solver_undo s = Ok s' -> course guard s0 (filter (fun p => (fst p <=? cur_level s')%nat) K) true s'.
End Keep.
