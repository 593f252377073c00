(** Model of what a user of the library observes besides constraints: shown
    variables (propagator.cc 275-295, 369-371, 548-580), iteration over an
    assignment (clingcon.cc 588-628) and statistics (base.hh 101-196,
    propagator.cc 297-355). *)
From Coq Require Import String.
From Verif Require Import Base Util Terms.
Open Scope Z_scope.

(** ** Shown variables *)

(** show_, show_variable_ and show_signature_ (propagator.hh 206-210). *)
Record shows := mkshows { sh_on : bool; sh_vars : list var; sh_sigs : list (string * Z) }.

(** A val_t or size_t converted to the uint32_t arity of Clingo::Signature. *)
Definition to_uint32 (n : Z) : Z := n mod 2^32.

(** Propagator::show (propagator.hh 77), show_variable and show_signature
    (propagator.cc 369-371) as called through ConstraintBuilder (propagator.cc
    48-50); the other builder calls do not touch these members. *)
Definition show_call (s : shows) (c : bcall) : shows :=
  match c with
  | BShow => mkshows true (sh_vars s) (sh_sigs s)
  | BShowVar v => mkshows (sh_on s) (v :: sh_vars s) (sh_sigs s)
  | BShowSig name n => mkshows (sh_on s) (sh_vars s) ((name, to_uint32 n) :: sh_sigs s)
  | _ => s
  end.
Definition shows0 : shows := mkshows false [] [].
Definition shows_of (log : list bcall) : shows := fold_left show_call log shows0.

(** Lookup in var_map_.  The two maps sym_map_ and var_map_ are only changed
    together (propagator.cc 357-367), so the model keeps one list. *)
Fixpoint var_find (v : var) (m : list (sym * var)) : option sym :=
  match m with [] => None | (s, w) :: r => if Nat.eqb v w then Some s else var_find v r end.
(** Propagator::get_index (propagator.cc 566-572) and get_symbol (574-580). *)
Definition get_index (t : symtab) (s : sym) : option var := sym_find s (st_map t).
Definition get_symbol (t : symtab) (v : var) : option sym := var_find v (st_map t).

Definition sig_eqb (a b : string * Z) : bool := String.eqb (fst a) (fst b) && (snd a =? snd b).

(** Propagator::shown (propagator.cc 548-564).  The signature of a symbol
    ignores its sign. *)
Definition shown (t : symtab) (h : shows) (v : var) : bool :=
  match get_symbol t v with
  | None => false
  | Some s =>
      if negb (sh_on h) then true
      else if existsb (Nat.eqb v) (sh_vars h) then true
      else match s with
           | SFun name args _ => existsb (sig_eqb (name, to_uint32 (Z.of_nat (List.length args)))) (sh_sigs h)
           | _ => false
           end
  end.

(** The loop of Propagator::on_model (propagator.cc 275-282): the pairs reported
    as __csp(symbol,value); [value] is get_value (582).  The order of the
    unordered_map is not modelled. *)
Definition reported (t : symtab) (h : shows) (value : var -> Z) : list (sym * Z) :=
  map (fun sv => (fst sv, value (snd sv))) (filter (fun sv => shown t h (snd sv)) (st_map t)).

(** ** Iteration over an assignment *)

(** clingcon_lookup_symbol (clingcon.cc 588-594): indices are one larger than variables. *)
Definition lookup_symbol (t : symtab) (s : sym) : option nat :=
  match get_index t s with Some v => Some (S v) | None => None end.
(** clingcon_get_symbol (clingcon.cc 596-600): without a symbol the empty
    optional is dereferenced.  Index 0 wraps to the largest var_t, which has no symbol. *)
Definition index_symbol (t : symtab) (i : nat) : option sym :=
  match i with O => None | S v => get_symbol t v end.
Definition c_get_symbol (t : symtab) (i : nat) : outcome sym :=
  match index_symbol t i with Some s => Ok s | None => UB end.
(** clingcon_assignment_begin (clingcon.cc 602-606). *)
Definition assignment_begin : nat := 0.
(** clingcon_assignment_next (clingcon.cc 608-617): map::lower_bound finds an
    element iff some key is at least the index. *)
Definition assignment_next (t : symtab) (i : nat) : option nat :=
  if existsb (fun sv => Nat.leb i (snd sv)) (st_map t) then Some (S i) else None.
(** clingcon_assignment_has_value (clingcon.cc 619-622). *)
Definition has_value (t : symtab) (i : nat) : bool :=
  match index_symbol t i with Some _ => true | None => false end.
(** clingcon_assignment_get_value (clingcon.cc 624-628). *)
Definition index_value (value : var -> Z) (i : nat) : outcome Z :=
  match i with O => UB | S v => Ok (value v) end.

(** ** Statistics *)

(** uint64_t addition. *)
Definition uadd (a b : Z) : Z := (a + b) mod 2^64.

(** SolverStatistics (base.hh 102-123).  Times are doubles in the code; the
    model uses exact numbers and ignores rounding. *)
Record sstat := mksstat { s_prop : Z; s_check : Z; s_undo : Z; s_refined : Z; s_introduced : Z; s_literals : Z }.
Definition sstat0 : sstat := mksstat 0 0 0 0 0 0.
(** SolverStatistics::accu (base.hh 107-114). *)
Definition saccu (a b : sstat) : sstat :=
  mksstat (s_prop a + s_prop b) (s_check a + s_check b) (s_undo a + s_undo b)
    (uadd (s_refined a) (s_refined b)) (uadd (s_introduced a) (s_introduced b)) (uadd (s_literals a) (s_literals b)).

(** Statistics (base.hh 126-196). *)
Record stat := mkstat {
  t_init : Z; t_translate : Z; t_simplify : Z;
  n_vars : Z; n_cons : Z; n_clauses : Z; n_lits : Z;
  tr_removed : Z; tr_added : Z; tr_clauses : Z; tr_wcs : Z; tr_lits : Z;
  st_cost : option Z; st_solvers : list sstat }.
Definition stat0 : stat := mkstat 0 0 0 0 0 0 0 0 0 0 0 0 None [].
(** Statistics::reset (base.hh 128-145). *)
Definition stat_reset (s : stat) : stat :=
  mkstat 0 0 0 0 0 0 0 0 0 0 0 0 None (map (fun _ => sstat0) (st_solvers s)).
(** The loop over the threads in Statistics::accu (base.hh 163-171). *)
Fixpoint accu_solvers (a b : list sstat) : list sstat :=
  match b with
  | [] => a
  | y :: b' => match a with [] => y :: accu_solvers [] b' | x :: a' => saccu x y :: accu_solvers a' b' end
  end.
(** Statistics::accu (base.hh 148-172). *)
Definition stat_accu (a b : stat) : stat :=
  mkstat (t_init a + t_init b) (t_translate a + t_translate b) (t_simplify a + t_simplify b)
    (uadd (n_vars a) (n_vars b)) (uadd (n_cons a) (n_cons b)) (uadd (n_clauses a) (n_clauses b)) (uadd (n_lits a) (n_lits b))
    (uadd (tr_removed a) (tr_removed b)) (uadd (tr_added a) (tr_added b)) (uadd (tr_clauses a) (tr_clauses b))
    (uadd (tr_wcs a) (tr_wcs b)) (uadd (tr_lits a) (tr_lits b))
    (st_cost b) (accu_solvers (st_solvers a) (st_solvers b)).
(** Statistics::solver_stats (base.hh 174-185): the list after the access. *)
Fixpoint solver_stats (l : list sstat) (thread : nat) : list sstat :=
  match l with
  | [] => sstat0 :: match thread with O => [] | S t => solver_stats [] t end
  | x :: l' => x :: match thread with O => l' | S t => solver_stats l' t end
  end.

(** Keys below "Clingcon" in the statistics tree; threads are an array. *)
Inductive skey := KCost | KKey (group name : string) | KThread (i : nat) (group name : string).

(** The part of add_statistics_ for one thread (propagator.cc 337-353). *)
Definition thread_entries (i : nat) (s : sstat) : list (skey * Z) :=
  [ (KThread i "Time in seconds" "Total", s_prop s + s_check s + s_undo s);
    (KThread i "Time in seconds" "Propagation", s_prop s);
    (KThread i "Time in seconds" "Check", s_check s);
    (KThread i "Time in seconds" "Undo", s_undo s);
    (KThread i "" "Refined reason", s_refined s);
    (KThread i "" "Introduced reason", s_introduced s);
    (KThread i "" "Literals introduced", s_literals s) ].
Fixpoint threads_entries (i : nat) (l : list sstat) : list (skey * Z) :=
  match l with [] => [] | s :: r => thread_entries i s ++ threads_entries (S i) r end.
(** Propagator::add_statistics_ (propagator.cc 304-355).  Counters are converted
    to double in the code, which rounds above 2^53; the model keeps them exact. *)
Definition add_statistics (s : stat) : list (skey * Z) :=
  match st_cost s with Some c => [(KCost, c)] | None => [] end ++
  [ (KKey "Init time in seconds" "Total", t_init s);
    (KKey "Init time in seconds" "Simplify", t_simplify s);
    (KKey "Init time in seconds" "Translate", t_translate s);
    (KKey "Problem" "Constraints", n_cons s);
    (KKey "Problem" "Variables", n_vars s);
    (KKey "Problem" "Clauses", n_clauses s);
    (KKey "Problem" "Literals", n_lits s);
    (KKey "Translate" "Constraints removed", tr_removed s);
    (KKey "Translate" "Constraints added", tr_added s);
    (KKey "Translate" "Clauses", tr_clauses s);
    (KKey "Translate" "Weight constraints", tr_wcs s);
    (KKey "Translate" "Literals", tr_lits s) ] ++
  threads_entries 0 (st_solvers s).

(** Propagator::on_statistics (propagator.cc 297-302): published step and
    accumulated statistics, new stats_accu_ and stats_step_. *)
Definition on_statistics (accu step : stat) : list (skey * Z) * list (skey * Z) * stat * stat :=
  let accu' := stat_accu accu step in
  (add_statistics step, add_statistics accu', accu', stat_reset step).
