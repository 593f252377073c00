(** Searches, and what the final check of a total assignment promises. *)
From Verif Require Import Base Util VarState Terms TermsSpec Solver OrderSpec Orders Sum PropProofs ConSpec Objective Search SearchSpec.
Open Scope Z_scope.

(** News for clasp: a clause or a literal. *)
Definition news (e : event) : Prop := match e with EClause _ _ | ELit _ => True | _ => False end.
(** The decision level does not change within a callback. *)
Definition calm (O : oracle) : Prop := forall lg e, within e -> o_level O (e :: lg) = o_level O lg.

(** The condition a constraint stands for, without its literal. *)
Definition condition (mb : option Z) (d : constr) (nu : var -> Z) : Prop :=
  match d with
  | CSum _ rhs es => lval nu es <= rhs
  | CMin _ es => match mb with Some b => lval nu es <= b | None => True end
  | CDistinct _ es => ForallOrdPairs (fun e f => fst e + lval nu (snd e) <> fst f + lval nu (snd f)) es
  | CDisjoint _ es => ForallOrdPairs (fun e f => apart (nu (snd e)) (fst e) (nu (snd f)) (fst f)) es
  | CNonlin _ coa x y cob z rhs => coa * nu x * nu y + (match z with Some z => cob * nu z | None => 0 end) <= rhs
  end.

Section Search.
Context (srt : (ival -> Z) -> list ival -> list ival) (O : oracle) (cfg : config) (check_state check_solution : bool).

(** A solver with which a search can start; [W] are the literals watched so far. *)
Record started (W : lit -> Prop) (s : state) : Prop := {
  sd_reach : reachable srt check_state check_solution O cfg s;
  sd_level : cur_level s = 0%nat;
  sd_wf : wf s;
  sd_vars : forall x, (nvars s <= x)%nat -> lits (vst s x) = [] /\ ub (vst s x) <= lb (vst s x);
  sd_split : (slast s <= nvars s)%nat;
  sd_range : forall x, MIN_VAL <= lb (vst s x) /\ ub (vst s x) <= MAX_VAL;
  sd_watch : forall x w l, In (w, l) (lits (vst s x)) -> Z.abs l <> 1 -> W l /\ W (- l) }.

(** All changes have been integrated, as a successful check leaves the solver. *)
Definition quiescent (s : state) : Prop := settled s /\ fmap s = [].
(** Clasp undoes the levels it has left before it goes on, and calls check successfully on a level before it opens another one. *)
Definition in_order (s : state) : Prop := (cur_level s <= dlevel O s)%nat /\ ((cur_level s < dlevel O s)%nat -> quiescent s).

(** [search W K s]: a search has come to [s], and [K] are the literals reported to the solver in successful calls
    of propagate on levels that were not left since, with these levels. *)
Inductive search (W : lit -> Prop) : list (nat * lit) -> state -> Prop :=
| se_start s : started W s -> search W [] s
| se_call n K s : search W K s -> search W K (emit (ECall n) s)
| se_propagate ls ok K s s' : search W K s -> in_order s -> Forall (below (nxt s)) ls -> solver_propagate O cfg ls s = (ok, s') ->
    search W (if ok then map (pair (cur_level s')) ls ++ K else K) s'
| se_check fuel m bound K s s' : search W K s -> in_order s ->
    prop_check srt O cfg check_state check_solution fuel m bound s = Some (Ok tt, s') -> search W K s'
| se_undo K s s' : search W K s -> solver_undo s = Ok s' -> search W (filter (fun p => (fst p <=? cur_level s')%nat) K) s'.

(** The assignment of clasp is total, and clasp has reported what it was asked to watch. *)
Definition total (s : state) : Prop := o_true O (log s) 1 = true /\ forall l, below (nxt s) l -> o_true O (log s) l = negb (o_true O (log s) (- l)).
Definition reported (W : lit -> Prop) (K : list (nat * lit)) (s : state) : Prop :=
  forall l, W l \/ In (EWatch l) (log s) -> o_true O (log s) l = true -> In l (map snd K).

(** The values of the variables in an accepted state. *)
Definition value (s : state) (x : var) : Z := lb (vst s x).
Record solution (s : state) : Prop := {
  so_one : forall x, (x < nvars s)%nat -> lb (vst s x) = ub (vst s x);
  so_range : forall x, (x < nvars s)%nat -> minb (vst s x) <= value s x <= maxb (vst s x);
  so_order : forall x w l, (x < nvars s)%nat -> In (w, l) (lits (vst s x)) -> (o_true O (log s) l = true <-> value s x <= w) }.
Definition satisfied (s : state) : Prop := forall l c, In (l, c) (l2c s) -> o_true O (log s) l = true ->
  exists k, css s c = Some k /\ c_lit (c_def k) = l /\ condition (mbound s) (c_def k) (value s).
End Search.
