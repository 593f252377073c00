(** The first step from the calls of the parser to the answers. *)
From Verif Require Import Base Util VarState Terms TermsSpec Solver OrderSpec Orders Sum Distinct PropProofs ConSpec Objective Search SearchSpec Builder BuilderSpec CheckSpec KeepSpec.
Open Scope Z_scope.

(** The part of [posted] that is about the constraint alone. *)
Definition shape (d : constr) : Prop :=
  match d with
  | CSum _ _ es | CMin _ es => Forall (fun e => fst e <> 0) es /\ NoDup (map snd es)
  | CDistinct _ es => Forall (fun e => Forall (fun t => fst t <> 0) (snd e) /\ NoDup (map snd (snd e))) es
  | CDisjoint _ es => Forall (fun e => 0 < fst e) es
  | CNonlin _ coa _ _ cob z rhs => - 2^31 <= coa <= 2^31 - 1 /\ - 2^31 <= cob <= 2^31 - 1 /\ - 2^31 <= rhs <= 2^31 - 1 /\ (z = None <-> cob = 0)
  end.
(** Calls with simplified terms, as the parser makes them (see C05, C10 to C12). *)
Definition call_tidy (c : bcall) : Prop :=
  match c with
  | BSum _ es _ _ => NoDup (map snd es)
  | BNonlin l ca va vb cc vc rhs _ => ca <> 0 -> - 2^31 <= ca <= 2^31 - 1 /\ - 2^31 <= cc <= 2^31 - 1 /\ - 2^31 <= rhs <= 2^31 - 1 /\ (vc = None <-> cc = 0)
  | BDistinct _ es => Forall (fun e => Forall (fun t => fst t <> 0) (fst e) /\ NoDup (map snd (fst e))) es
  | _ => True
  end.
(** The same for all that the parser does; variables get domains in the range of values (see C14), and the [m] variables known in the end include those of the objective function. *)
Definition op_tidy (m : nat) (o : bop) : Prop :=
  match o with
  | POp c => call_tidy c /\ match c with BMin _ (Some x) => (x < m)%nat | _ => True end
  | PLit => True
  | PVar mn mx => MIN_VAL <= mn /\ mx <= MAX_VAL
  end.

(** Distinct and disjoint constraints over more than two elements and products are propagated on the top level as if they were
    unconditional (see C19, C22, C24): [firm c] is what the call [c] demands then. *)
Definition firm (c : bcall) : bcall :=
  match c with
  | BDistinct _ es => if (2 <? length es)%nat then BDistinct TRUE_LIT es else c
  | BDisjoint _ es => if (2 <? length es)%nat then BDisjoint TRUE_LIT es else c
  | BNonlin _ ca va vb cc vc rhs strict => if ca =? 0 then c else BNonlin TRUE_LIT ca va vb cc vc rhs strict
  | c => c
  end.
(** Nothing is claimed about products whose third variable has a coefficient below -1 (see C24). *)
Definition third_ok (c : bcall) : Prop :=
  match c with BNonlin _ ca _ _ cc _ _ _ => ca <> 0 -> - 1 <= cc | _ => True end.
Definition firmly (ops : list bop) (I : interp) (nu : var -> Z) : Prop :=
  forall c, In (POp c) ops -> third_ok c /\ call_holds I nu (firm c).

Section Session.
Context (srt : (ival -> Z) -> list ival -> list ival) (O : oracle) (cfg : config) (check_state check_solution : bool).
(** [session s0 K p s]: a search that started in [s0] has come to [s], [K] are the literals reported to the solver in successful calls of
    propagate on levels that were not left since, with these levels.  They are true whenever propagate or check are called.  After a
    conflict during propagate clasp leaves the level, or ends the search if this is the top level. *)
Inductive phase := Going | Conflict | Over.
Inductive session (s0 : state) : list (nat * lit) -> phase -> state -> Prop :=
| ss_start : session s0 [] Going s0
| ss_call n K s : session s0 K Going s -> session s0 K Going (emit (ECall n) s)
| ss_propagate ls ok K s s' : session s0 K Going s -> in_order O s -> Forall (below (nxt s)) ls ->
    (forall l, In l ls \/ In l (map snd K) -> o_true O (log s) l = true) -> solver_propagate O cfg ls s = (ok, s') ->
    session s0 (if ok then map (pair (cur_level s')) ls ++ K else K) (if ok then Going else if (0 <? cur_level s')%nat then Conflict else Over) s'
| ss_check fuel m bound K s s' : session s0 K Going s -> in_order O s -> (forall l, In l (map snd K) -> o_true O (log s) l = true) ->
    prop_check srt O cfg check_state check_solution fuel m bound s = Some (Ok tt, s') ->
    session s0 K (if (0 <? cur_level s')%nat || is_nil (fmap s') then Going else Over) s'
| ss_undo p K s s' : session s0 K p s -> p <> Over -> solver_undo s = Ok s' -> session s0 (filter (fun q => (fst q <=? cur_level s')%nat) K) Going s'.
End Session.
