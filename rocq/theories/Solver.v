(** Model of the solver state (clingcon/solver.hh 572-880, solver.cc) and of its
    handling of order literals and bounds.

    The state of the solver and the communication with clasp are one record.
    clasp itself is an oracle: the assignment, the decision level and the answers
    of add_clause and propagate are arbitrary functions of what was sent so far
    ([oracle]); what is assumed about them is stated where it is used.
    Values are unbounded integers here; ranges are the subject of separate theorems.
    The order literals of a variable are the sorted list of its entries; VarState.v and
    VarStateProofs.v justify this for both storages in the code. *)
From Verif Require Import Base Util IntervalSet VarState.
Open Scope Z_scope.

(** Constraints are identified by numbers instead of addresses. *)
Definition cid := nat.

(** ** Constraints and their states (constraints.hh, constraints.cc) *)

(** SumConstraint, MinimizeConstraint, DistinctConstraint (each element with its
    fixed part), DisjointConstraint (elements with weights) and NonlinearConstraint
    (co_a * x * y + co_b * z <= rhs). *)
Inductive constr :=
| CSum (l : lit) (rhs : Z) (es : list (Z * var))
| CMin (adjust : Z) (es : list (Z * var))
| CDistinct (l : lit) (es : list (Z * list (Z * var)))
| CDisjoint (l : lit) (es : list (Z * var))
| CNonlin (l : lit) (coa : Z) (x y : var) (cob : Z) (z : option var) (rhs : Z).
(** AbstractConstraint::literal; the literal of MinimizeConstraint is TRUE_LIT (constraints.hh). *)
Definition c_lit (c : constr) : lit :=
  match c with CSum l _ _ => l | CMin _ _ => TRUE_LIT | CDistinct l _ => l | CDisjoint l _ => l | CNonlin l _ _ _ _ _ _ => l end.
(** removable(): only minimize constraints are not (constraints.cc 48, 1036, 1574, 1874). *)
Definition c_removable (c : constr) : bool := match c with CMin _ _ => false | _ => true end.

(** Interval of DisjointConstraintState (constraints.cc 1594-1602). *)
Record ival := mkival { iv_var : var; iv_left : Z; iv_right : Z; iv_lleft : Z; iv_lright : Z; iv_weight : Z; iv_u : Z }.

(** The data of all constraint states in one record: inactive_level_ and todo_ are
    common; lower_bound_ and upper_bound_ belong to sums and minimize constraints;
    assigned_, dirty_, todo_upper_, todo_lower_ to distinct constraints (the flags
    in_dirty_, in_todo_upper_, in_todo_lower_ are membership in these lists and the
    sets lower_ and upper_ are determined by assigned_, so they are not stored);
    intervals_ and force_update_ to disjoint constraints. *)
Record cst := mkcst {
  c_def : constr; c_inact : nat; c_todo : bool;
  c_lo : Z; c_hi : Z;
  c_asg : list (Z * Z); c_dirty : list nat; c_tup : list nat; c_tlo : list nat;
  c_iv : list ival; c_force : bool }.
Definition set_inact (n : nat) (c : cst) := mkcst (c_def c) n (c_todo c) (c_lo c) (c_hi c) (c_asg c) (c_dirty c) (c_tup c) (c_tlo c) (c_iv c) (c_force c).
Definition set_todo (b : bool) (c : cst) := mkcst (c_def c) (c_inact c) b (c_lo c) (c_hi c) (c_asg c) (c_dirty c) (c_tup c) (c_tlo c) (c_iv c) (c_force c).
Definition set_bounds (lo hi : Z) (c : cst) := mkcst (c_def c) (c_inact c) (c_todo c) lo hi (c_asg c) (c_dirty c) (c_tup c) (c_tlo c) (c_iv c) (c_force c).
Definition set_dist (a : list (Z * Z)) (d u l : list nat) (c : cst) := mkcst (c_def c) (c_inact c) (c_todo c) (c_lo c) (c_hi c) a d u l (c_iv c) (c_force c).
Definition set_disj (iv : list ival) (f : bool) (c : cst) := mkcst (c_def c) (c_inact c) (c_todo c) (c_lo c) (c_hi c) (c_asg c) (c_dirty c) (c_tup c) (c_tlo c) iv f.

(** ** Variables *)

(** VarState (solver.hh 558-568): bounds, stacks of bounds of lower levels (top
    first), order literals in ascending order of their values. *)
Record vstate := mkvs { lb : Z; ub : Z; lbs : list (nat * Z); ubs : list (nat * Z); lits : list (Z * lit) }.
Definition set_lits (l : list (Z * lit)) (v : vstate) := mkvs (lb v) (ub v) (lbs v) (ubs v) l.
(** min_bound, max_bound (solver.hh 297-302, 326-331): the bottom of the stacks. *)
Definition minb (v : vstate) : Z := match lbs v with [] => lb v | _ => snd (last (lbs v) (0%nat, 0)) end.
Definition maxb (v : vstate) : Z := match ubs v with [] => ub v | _ => snd (last (ubs v) (0%nat, 0)) end.
Definition is_assigned (v : vstate) : bool := lb v =? ub v.
(** Traversals of the order literals. *)
Definition vwith_lt (v : vstate) (x : Z) := rev (filter (fun e => fst e <? x) (lits v)).
Definition vwith_le (v : vstate) (x : Z) := rev (filter (fun e => fst e <=? x) (lits v)).
Definition vwith_gt (v : vstate) (x : Z) := filter (fun e => x <? fst e) (lits v).
Definition vwith_ge (v : vstate) (x : Z) := filter (fun e => x <=? fst e) (lits v).
(** lit_lt, lit_gt, lit_prev, lit_succ, order_lit_ge, order_lit_le (solver.hh 440-512). *)
Definition vlit_lt v x : lit := first_lit (vwith_lt v x).
Definition vlit_gt v x : lit := first_lit (vwith_gt v x).
Definition vlit_ge v x : lit := first_lit (vwith_ge v x).
Definition vlit_prev v x : lit := let l := vlit_lt v x in if l =? 0 then - TRUE_LIT else l.
Definition vlit_succ v x : lit := let l := vlit_gt v x in if l =? 0 then TRUE_LIT else l.
Definition vfind (v : vstate) (x : Z) : option lit := m_find (lits v) x.

(** LitmapEntry (solver.cc 286-346); the key is the absolute value of the literal,
    [e_pos] its sign. *)
Record entry := mke { e_var : var; e_pos : bool; e_val : Z; e_prev : lit; e_succ : lit }.
(** factmap_ entries: literal (true or false), variable, value, neighbouring literal. *)
Record fact := mkf { f_lit : lit; f_var : var; f_val : Z; f_prec : lit }.
(** Solver::Level (solver.cc 276-281). *)
Record level := mkl { lv : nat; o_lo : nat; o_up : nat; o_ina : nat; o_rem : nat }.

(** Clause types; what is sent to clasp. *)
Inductive ctype := Learnt | Static | Volatile.
Inductive event :=
| EClause (t : ctype) (c : list lit)
| EWeight (l : lit) (wl : list (lit * Z)) (b : Z)   (* l implies that the sum of the weights is at most b *)
| EMin (l : lit) (w : Z) (p : Z)                    (* literal of clasp's objective function *)
| ELit (l : lit) | EWatch (l : lit)
| EProp                                             (* call of propagate *)
| ECall (n : nat).                                  (* a new callback of clasp starts *)

(** ** The state (solver.hh 826-880) *)
Record state := mkst {
  nvars : nat; (* number of variables, var2vs_.size() *)
  vst : var -> vstate; (* var2vs_ *)
  lmap : Z -> option entry; (* litmap_, indexed by the absolute value of the literal; None is an invalid entry *)
  fmap : list fact; (* factmap_ *)
  lvls : list level; (* levels_, the current level first *)
  ulo : list var; (* undo_lower_ *)
  uup : list var; (* undo_upper_ *)
  ldiff : var -> Z; (* ldiff_ *)
  udiff : var -> Z; (* udiff_ *)
  inl : list var; (* in_ldiff_ *)
  inu : list var; (* in_udiff_ *)
  wat : var -> list (Z * cid); (* var_watches_ *)
  remw : list (var * Z * cid); (* removed_var_watches_ *)
  ina : list cid; (* inactive_ *)
  tod : list cid; (* todo_ *)
  l2c : list (lit * cid); (* lit2cs_ *)
  css : cid -> option cst; (* c2cs_ *)
  mbound : option Z; (* minimize_bound_ *)
  mlevel : nat; (* minimize_level_ *)
  slast : nat; (* split_last_ *)
  toff : nat; (* trail_offset_ *)
  maxstat : Z; (* max_static_var_ *)
  tmin : bool; (* translate_minimize_ *)
  log : list event; (* what was sent to the solver so far, latest first *)
  nxt : Z (* the next unused solver variable *)
}.
Definition set_nvars (x : nat) (s : state) : state := mkst x (vst s) (lmap s) (fmap s) (lvls s) (ulo s) (uup s) (ldiff s) (udiff s) (inl s) (inu s) (wat s) (remw s) (ina s) (tod s) (l2c s) (css s) (mbound s) (mlevel s) (slast s) (toff s) (maxstat s) (tmin s) (log s) (nxt s).
Definition set_vst (x : var -> vstate) (s : state) : state := mkst (nvars s) x (lmap s) (fmap s) (lvls s) (ulo s) (uup s) (ldiff s) (udiff s) (inl s) (inu s) (wat s) (remw s) (ina s) (tod s) (l2c s) (css s) (mbound s) (mlevel s) (slast s) (toff s) (maxstat s) (tmin s) (log s) (nxt s).
Definition set_lmap (x : Z -> option entry) (s : state) : state := mkst (nvars s) (vst s) x (fmap s) (lvls s) (ulo s) (uup s) (ldiff s) (udiff s) (inl s) (inu s) (wat s) (remw s) (ina s) (tod s) (l2c s) (css s) (mbound s) (mlevel s) (slast s) (toff s) (maxstat s) (tmin s) (log s) (nxt s).
Definition set_fmap (x : list fact) (s : state) : state := mkst (nvars s) (vst s) (lmap s) x (lvls s) (ulo s) (uup s) (ldiff s) (udiff s) (inl s) (inu s) (wat s) (remw s) (ina s) (tod s) (l2c s) (css s) (mbound s) (mlevel s) (slast s) (toff s) (maxstat s) (tmin s) (log s) (nxt s).
Definition set_lvls (x : list level) (s : state) : state := mkst (nvars s) (vst s) (lmap s) (fmap s) x (ulo s) (uup s) (ldiff s) (udiff s) (inl s) (inu s) (wat s) (remw s) (ina s) (tod s) (l2c s) (css s) (mbound s) (mlevel s) (slast s) (toff s) (maxstat s) (tmin s) (log s) (nxt s).
Definition set_ulo (x : list var) (s : state) : state := mkst (nvars s) (vst s) (lmap s) (fmap s) (lvls s) x (uup s) (ldiff s) (udiff s) (inl s) (inu s) (wat s) (remw s) (ina s) (tod s) (l2c s) (css s) (mbound s) (mlevel s) (slast s) (toff s) (maxstat s) (tmin s) (log s) (nxt s).
Definition set_uup (x : list var) (s : state) : state := mkst (nvars s) (vst s) (lmap s) (fmap s) (lvls s) (ulo s) x (ldiff s) (udiff s) (inl s) (inu s) (wat s) (remw s) (ina s) (tod s) (l2c s) (css s) (mbound s) (mlevel s) (slast s) (toff s) (maxstat s) (tmin s) (log s) (nxt s).
Definition set_ldiff (x : var -> Z) (s : state) : state := mkst (nvars s) (vst s) (lmap s) (fmap s) (lvls s) (ulo s) (uup s) x (udiff s) (inl s) (inu s) (wat s) (remw s) (ina s) (tod s) (l2c s) (css s) (mbound s) (mlevel s) (slast s) (toff s) (maxstat s) (tmin s) (log s) (nxt s).
Definition set_udiff (x : var -> Z) (s : state) : state := mkst (nvars s) (vst s) (lmap s) (fmap s) (lvls s) (ulo s) (uup s) (ldiff s) x (inl s) (inu s) (wat s) (remw s) (ina s) (tod s) (l2c s) (css s) (mbound s) (mlevel s) (slast s) (toff s) (maxstat s) (tmin s) (log s) (nxt s).
Definition set_inl (x : list var) (s : state) : state := mkst (nvars s) (vst s) (lmap s) (fmap s) (lvls s) (ulo s) (uup s) (ldiff s) (udiff s) x (inu s) (wat s) (remw s) (ina s) (tod s) (l2c s) (css s) (mbound s) (mlevel s) (slast s) (toff s) (maxstat s) (tmin s) (log s) (nxt s).
Definition set_inu (x : list var) (s : state) : state := mkst (nvars s) (vst s) (lmap s) (fmap s) (lvls s) (ulo s) (uup s) (ldiff s) (udiff s) (inl s) x (wat s) (remw s) (ina s) (tod s) (l2c s) (css s) (mbound s) (mlevel s) (slast s) (toff s) (maxstat s) (tmin s) (log s) (nxt s).
Definition set_wat (x : var -> list (Z * cid)) (s : state) : state := mkst (nvars s) (vst s) (lmap s) (fmap s) (lvls s) (ulo s) (uup s) (ldiff s) (udiff s) (inl s) (inu s) x (remw s) (ina s) (tod s) (l2c s) (css s) (mbound s) (mlevel s) (slast s) (toff s) (maxstat s) (tmin s) (log s) (nxt s).
Definition set_remw (x : list (var * Z * cid)) (s : state) : state := mkst (nvars s) (vst s) (lmap s) (fmap s) (lvls s) (ulo s) (uup s) (ldiff s) (udiff s) (inl s) (inu s) (wat s) x (ina s) (tod s) (l2c s) (css s) (mbound s) (mlevel s) (slast s) (toff s) (maxstat s) (tmin s) (log s) (nxt s).
Definition set_ina (x : list cid) (s : state) : state := mkst (nvars s) (vst s) (lmap s) (fmap s) (lvls s) (ulo s) (uup s) (ldiff s) (udiff s) (inl s) (inu s) (wat s) (remw s) x (tod s) (l2c s) (css s) (mbound s) (mlevel s) (slast s) (toff s) (maxstat s) (tmin s) (log s) (nxt s).
Definition set_tod (x : list cid) (s : state) : state := mkst (nvars s) (vst s) (lmap s) (fmap s) (lvls s) (ulo s) (uup s) (ldiff s) (udiff s) (inl s) (inu s) (wat s) (remw s) (ina s) x (l2c s) (css s) (mbound s) (mlevel s) (slast s) (toff s) (maxstat s) (tmin s) (log s) (nxt s).
Definition set_l2c (x : list (lit * cid)) (s : state) : state := mkst (nvars s) (vst s) (lmap s) (fmap s) (lvls s) (ulo s) (uup s) (ldiff s) (udiff s) (inl s) (inu s) (wat s) (remw s) (ina s) (tod s) x (css s) (mbound s) (mlevel s) (slast s) (toff s) (maxstat s) (tmin s) (log s) (nxt s).
Definition set_css (x : cid -> option cst) (s : state) : state := mkst (nvars s) (vst s) (lmap s) (fmap s) (lvls s) (ulo s) (uup s) (ldiff s) (udiff s) (inl s) (inu s) (wat s) (remw s) (ina s) (tod s) (l2c s) x (mbound s) (mlevel s) (slast s) (toff s) (maxstat s) (tmin s) (log s) (nxt s).
Definition set_mbound (x : option Z) (s : state) : state := mkst (nvars s) (vst s) (lmap s) (fmap s) (lvls s) (ulo s) (uup s) (ldiff s) (udiff s) (inl s) (inu s) (wat s) (remw s) (ina s) (tod s) (l2c s) (css s) x (mlevel s) (slast s) (toff s) (maxstat s) (tmin s) (log s) (nxt s).
Definition set_mlevel (x : nat) (s : state) : state := mkst (nvars s) (vst s) (lmap s) (fmap s) (lvls s) (ulo s) (uup s) (ldiff s) (udiff s) (inl s) (inu s) (wat s) (remw s) (ina s) (tod s) (l2c s) (css s) (mbound s) x (slast s) (toff s) (maxstat s) (tmin s) (log s) (nxt s).
Definition set_slast (x : nat) (s : state) : state := mkst (nvars s) (vst s) (lmap s) (fmap s) (lvls s) (ulo s) (uup s) (ldiff s) (udiff s) (inl s) (inu s) (wat s) (remw s) (ina s) (tod s) (l2c s) (css s) (mbound s) (mlevel s) x (toff s) (maxstat s) (tmin s) (log s) (nxt s).
Definition set_toff (x : nat) (s : state) : state := mkst (nvars s) (vst s) (lmap s) (fmap s) (lvls s) (ulo s) (uup s) (ldiff s) (udiff s) (inl s) (inu s) (wat s) (remw s) (ina s) (tod s) (l2c s) (css s) (mbound s) (mlevel s) (slast s) x (maxstat s) (tmin s) (log s) (nxt s).
Definition set_maxstat (x : Z) (s : state) : state := mkst (nvars s) (vst s) (lmap s) (fmap s) (lvls s) (ulo s) (uup s) (ldiff s) (udiff s) (inl s) (inu s) (wat s) (remw s) (ina s) (tod s) (l2c s) (css s) (mbound s) (mlevel s) (slast s) (toff s) x (tmin s) (log s) (nxt s).
Definition set_tmin (x : bool) (s : state) : state := mkst (nvars s) (vst s) (lmap s) (fmap s) (lvls s) (ulo s) (uup s) (ldiff s) (udiff s) (inl s) (inu s) (wat s) (remw s) (ina s) (tod s) (l2c s) (css s) (mbound s) (mlevel s) (slast s) (toff s) (maxstat s) x (log s) (nxt s).
Definition set_log (x : list event) (s : state) : state := mkst (nvars s) (vst s) (lmap s) (fmap s) (lvls s) (ulo s) (uup s) (ldiff s) (udiff s) (inl s) (inu s) (wat s) (remw s) (ina s) (tod s) (l2c s) (css s) (mbound s) (mlevel s) (slast s) (toff s) (maxstat s) (tmin s) x (nxt s).
Definition set_nxt (x : Z) (s : state) : state := mkst (nvars s) (vst s) (lmap s) (fmap s) (lvls s) (ulo s) (uup s) (ldiff s) (udiff s) (inl s) (inu s) (wat s) (remw s) (ina s) (tod s) (l2c s) (css s) (mbound s) (mlevel s) (slast s) (toff s) (maxstat s) (tmin s) (log s) x.

Definition upd {A} (f : var -> A) (x : var) (a : A) : var -> A := fun y => if Nat.eqb y x then a else f y.
Definition updz {A} (f : Z -> A) (x : Z) (a : A) : Z -> A := fun y => if y =? x then a else f y.
Definition set_vs (x : var) (v : vstate) (s : state) : state := set_vst (upd (vst s) x v) s.
Definition set_cs (c : cid) (v : cst) (s : state) : state := set_css (upd (css s) c (Some v)) s.

(** SolverConfig (base.hh 203-210). *)
Record config := mkcfg { sign_value : Z; split_all : bool; propagate_chain : bool; refine_reasons : bool; refine_introduce : bool; max_chain : bool }.

(** clasp: assignment (is_true), literals fixed on level 0 (is_fixed), level of a literal,
    decision level, answers of add_clause and propagate, the trail and whether the
    assignment is total, as functions of what was sent so far. *)
Record oracle := mko {
  o_true : list event -> lit -> bool;
  o_fixed : list event -> lit -> bool;
  o_litlevel : list event -> lit -> nat;
  o_level : list event -> nat;
  o_answer : list event -> bool;
  o_trail : list event -> list lit;
  o_total : list event -> bool }.

Section Solver.
Context (O : oracle) (cfg : config).

Definition is_true (s : state) (l : lit) : bool := o_true O (log s) l.
Definition is_false (s : state) (l : lit) : bool := o_true O (log s) (- l).
Definition is_fixed (s : state) (l : lit) : bool := o_fixed O (log s) l.
Definition dlevel (s : state) : nat := o_level O (log s).
Inductive truth := TTrue | TFalse | TFree.
Definition truth_value (s : state) (l : lit) : truth := if is_true s l then TTrue else if is_false s l then TFalse else TFree.

Definition emit (e : event) (s : state) : state := set_log (e :: log s) s.
(** AbstractClauseCreator (base.hh 246-272). *)
Definition add_clause (t : ctype) (c : list lit) (s : state) : bool * state :=
  let s' := emit (EClause t c) s in (o_answer O (log s'), s').
Definition cc_propagate (s : state) : bool * state := let s' := emit EProp s in (o_answer O (log s'), s').
Definition add_literal (s : state) : lit * state := (nxt s, emit (ELit (nxt s)) (set_nxt (nxt s + 1) s)).
Definition add_watch (l : lit) (s : state) : state := emit (EWatch l) s.

(** ** Order literals *)

(** litmap_at_ and LitmapEntry::valid (solver.cc 297, 443-447). *)
Definition lookup (s : state) (l : lit) : option entry := lmap s (Z.abs l).
Definition valid_entry (s : state) (l : lit) : option entry :=
  match lookup s l with Some e => if Bool.eqb (e_pos e) (0 <? l) then Some e else None | None => None end.
Definition set_prev (p : lit) (e : entry) := mke (e_var e) (e_pos e) (e_val e) p (e_succ e).
Definition set_succ (n : lit) (e : entry) := mke (e_var e) (e_pos e) (e_val e) (e_prev e) n.

(** update_litmap_ (solver.cc 482-497): link the neighbours of [value] to [l], or
    to each other if [l] is 0. *)
Definition update_litmap (x : var) (l : lit) (value : Z) (s : state) : (lit * lit) * state :=
  let v := vst s x in
  let p := vlit_lt v value in
  let s1 :=
    if p =? 0 then s
    else match valid_entry s p with
         | Some e => set_lmap (updz (lmap s) (Z.abs p) (Some (set_succ (if l =? 0 then vlit_succ v value else l) e))) s
         | None => s end in
  let n := vlit_gt v value in
  let s2 :=
    if n =? 0 then s1
    else match valid_entry s1 n with
         | Some e => set_lmap (updz (lmap s1) (Z.abs n) (Some (set_prev (if l =? 0 then vlit_prev v value else l) e))) s1
         | None => s1 end in
  ((if p =? 0 then - TRUE_LIT else p, if n =? 0 then TRUE_LIT else n), s2).

(** litmap_add_ (solver.cc 449-456). *)
Definition litmap_add (x : var) (value : Z) (l : lit) (s : state) : state :=
  let '((p, n), s) := update_litmap x l value s in
  set_lmap (updz (lmap s) (Z.abs l) (Some (mke x (0 <? l) value p n))) s.

(** Writing the literal of a value (set_literal, or the reference returned by
    get_or_add_literal), removing it (unset_literal). *)
Definition store_lit (x : var) (value : Z) (l : lit) (s : state) : state :=
  set_vs x (set_lits (m_set (lits (vst s x)) value l) (vst s x)) s.
Definition erase_lit (x : var) (value : Z) (s : state) : state :=
  set_vs x (set_lits (m_erase (lits (vst s x)) value) (vst s x)) s.

(** get_literal (solver.cc 458-480). *)
Definition get_literal (x : var) (value : Z) (s : state) : lit * state :=
  let v := vst s x in
  if value <? minb v then (- TRUE_LIT, s)
  else if maxb v <=? value then (TRUE_LIT, s)
  else match vfind v value with
  | Some l => (l, s)
  | None =>
      let '(l0, s) := add_literal s in
      let l := if sign_value cfg <=? value then - l0 else l0 in
      let s := store_lit x value l s in
      let s := litmap_add x value l s in
      let s := add_watch l s in
      let s := add_watch (- l) s in
      (l, s)
  end.

(** factmap_.emplace_back *)
Definition push_fact (f : fact) (s : state) : state := set_fmap (fmap s ++ [f]) s.

(** update_literal (solver.cc 499-520). *)
Definition update_literal (x : var) (value : Z) (t : truth) (s : state) : lit * state :=
  let v := vst s x in
  match t with
  | TFree => get_literal x value s
  | _ =>
    if (0 <? dlevel s)%nat then get_literal x value s
    else if value <? minb v then (- TRUE_LIT, s)
    else if maxb v <=? value then (TRUE_LIT, s)
    else match vfind v value with
    | Some l => (l, s)
    | None =>
        let l := match t with TTrue => TRUE_LIT | _ => - TRUE_LIT end in
        let s := store_lit x value l s in
        let '((p, n), s) := update_litmap x l value s in
        (l, push_fact (mkf l x value (match t with TTrue => n | _ => p end)) s)
    end
  end.

(** ** Levels *)

(** Level::Level, push_level_, level_ (solver.cc 36-38, 431-441).  levels_ is never
    empty: the bottom level is created by the constructor and never popped. *)
Definition new_level (n : nat) (s : state) : level := mkl n (length (ulo s)) (length (uup s)) (length (ina s)) (length (remw s)).
Definition cur_level (s : state) : nat := match lvls s with l :: _ => lv l | [] => 0%nat end.
Definition push_level (n : nat) (s : state) : state :=
  if (cur_level s <? n)%nat then set_lvls (new_level n s :: lvls s) s else s.

Definition pushed (n : nat) (st : list (nat * Z)) : bool := match st with (k, _) :: _ => Nat.eqb k n | [] => false end.

(** Level::update_lower (solver.cc 43-55): the lower bound becomes [value + 1]. *)
Definition level_update_lower (x : var) (value : Z) (s : state) : state :=
  let n := cur_level s in
  let v := vst s x in
  let diff := value + 1 - lb v in
  let s :=
    if ((0 <? n)%nat && negb (pushed n (lbs v)))
    then set_ulo (ulo s ++ [x]) (set_vs x (mkvs (value + 1) (ub v) ((n, lb v) :: lbs v) (ubs v) (lits v)) s)
    else set_vs x (mkvs (value + 1) (ub v) (lbs v) (ubs v) (lits v)) s in
  let s := if ldiff s x =? 0 then set_inl (inl s ++ [x]) s else s in
  set_ldiff (upd (ldiff s) x (ldiff s x + diff)) s.
(** Level::update_upper (solver.cc 58-71). *)
Definition level_update_upper (x : var) (value : Z) (s : state) : state :=
  let n := cur_level s in
  let v := vst s x in
  let diff := value - ub v in
  let s :=
    if ((0 <? n)%nat && negb (pushed n (ubs v)))
    then set_uup (uup s ++ [x]) (set_vs x (mkvs (lb v) value (lbs v) ((n, ub v) :: ubs v) (lits v)) s)
    else set_vs x (mkvs (lb v) value (lbs v) (ubs v) (lits v)) s in
  let s := if udiff s x =? 0 then set_inu (inu s ++ [x]) s else s in
  set_udiff (upd (udiff s) x (udiff s x + diff)) s.

(** ** Propagation of order literals *)

(** propagate_variables_ (solver.cc 700-721); [ls] are the literals visited. *)
Fixpoint propagate_variables (sgn : Z) (r : lit) (ls : list lit) (s : state) : bool * state :=
  match ls with
  | [] => (true, s)
  | l0 :: ls =>
      let l := sgn * l0 in
      if is_true s l then (true, s)
      else
        let '(ok, s) := add_clause (if r =? TRUE_LIT then Static else Learnt) [- r; l] s in
        if ok then propagate_variables sgn (if propagate_chain cfg && (0 <? dlevel s)%nat then l else r) ls s
        else (false, s)
  end.

(** update_upper_ (solver.cc 723-741). *)
Definition update_upper (x : var) (l : lit) (value : Z) (succ : lit) (s : state) : bool * state :=
  let v := vst s x in
  if value <? lb v then
    let '(g, s) := get_literal x (lb v - 1) s in
    let '(ok, s) := add_clause Learnt [g; - l] s in
    (false, if ok then snd (cc_propagate s) else s)
  else
    let s := if value <? ub v then level_update_upper x value s else s in
    if is_true s succ then (true, s)
    else propagate_variables 1 l (map snd (vwith_gt (vst s x) value)) s.
(** update_lower_ (solver.cc 743-761). *)
Definition update_lower (x : var) (l : lit) (value : Z) (prev : lit) (s : state) : bool * state :=
  let v := vst s x in
  if ub v <? value + 1 then
    let '(g, s) := get_literal x (ub v) s in
    let '(ok, s) := add_clause Learnt [- g; - l] s in
    (false, if ok then snd (cc_propagate s) else s)
  else
    let s := if lb v <? value + 1 then level_update_lower x value s else s in
    if is_true s (- prev) then (true, s)
    else propagate_variables (- 1) l (map snd (vwith_lt (vst s x) value)) s.

(** One fact of the loop in update_domain_ (solver.cc 795-812). *)
Definition apply_fact (f : fact) (s : state) : bool * state :=
  let '(ok, s) :=
    if f_lit f =? TRUE_LIT then update_upper (f_var f) TRUE_LIT (f_val f) (f_prec f) s
    else update_lower (f_var f) TRUE_LIT (f_val f) (f_prec f) s in
  if ok then
    let s := snd (update_litmap (f_var f) 0 (f_val f) s) in
    (true, erase_lit (f_var f) (f_val f) s)
  else (false, s).
Fixpoint apply_facts (fs : list fact) (s : state) : bool * state :=
  match fs with
  | [] => (true, set_fmap [] s)
  | f :: fs => let '(ok, s) := apply_fact f s in if ok then apply_facts fs s else (false, s)
  end.

(** Replacing a fixed literal by the true or false literal (solver.cc 770-785);
    [l] is the literal as stored, [t] its replacement. *)
Definition fix_literal (l t : lit) (s : state) : state :=
  match valid_entry s l with
  | Some e =>
      let s := store_lit (e_var e) (e_val e) t s in
      let s := snd (update_litmap (e_var e) t (e_val e) s) in
      let s := push_fact (mkf t (e_var e) (e_val e) (if t =? TRUE_LIT then e_succ e else e_prev e)) s in
      set_lmap (updz (lmap s) (Z.abs l) None) s
  | None => s
  end.

(** update_domain_ (solver.cc 763-827). *)
Definition update_domain (l : lit) (s : state) : bool * state :=
  let '(l, s) :=
    if negb (l =? TRUE_LIT) && Nat.eqb (dlevel s) 0 && is_fixed s l
    then (TRUE_LIT, fix_literal (- l) (- TRUE_LIT) (fix_literal l TRUE_LIT s))
    else (l, s) in
  if l =? TRUE_LIT then apply_facts (fmap s) s
  else
    let '(ok, s) :=
      match valid_entry s l with
      | Some e => update_upper (e_var e) l (e_val e) (e_succ e) s
      | None => (true, s)
      end in
    if ok then
      match valid_entry s (- l) with
      | Some e => update_lower (e_var e) l (e_val e) (e_prev e) s
      | None => (true, s)
      end
    else (false, s).

(** ** Constraints over a single variable *)

(** add_simple (solver.cc 1070-1130); [floordiv] is the unbounded version (UtilProofs
    relates it to the code). *)
Definition simple_value (co rhs : Z) : Z := if 0 <? co then rhs / co else - (rhs / (- co)) - 1.
Definition add_simple (clit : lit) (co : Z) (x : var) (rhs : Z) (strict : bool) (s : state) : bool * state :=
  if negb strict && is_false s clit then (true, s)
  else
    let v := vst s x in
    let t := if 0 <? co then truth_value s clit else truth_value s (- clit) in
    let value := simple_value co rhs in
    if strict && (minb v <=? value) && (value <? maxb v) && (match vfind v value with Some _ => false | None => true end)
    then
      let l := if co <? 0 then - clit else clit in
      match t with
      | TFree =>
          let '(ok, (l, s)) :=
            match lookup s l with
            | Some _ =>
                let '(l', s) := add_literal s in
                let '(ok, s) := add_clause Learnt [- l; l'] s in
                if ok then let '(ok, s) := add_clause Learnt [- l'; l] s in (ok, (l', s)) else (false, (l', s))
            | None => (true, (l, s))
            end in
          if ok then
            let s := add_watch l s in
            let s := add_watch (- l) s in
            let s := litmap_add x value l s in
            (true, store_lit x value l s)
          else (false, s)
      | _ =>
          let l := match t with TTrue => TRUE_LIT | _ => - TRUE_LIT end in
          let '((p, n), s) := update_litmap x l value s in
          let s := push_fact (mkf l x value (match t with TTrue => n | _ => p end)) s in
          (true, store_lit x value l s)
      end
    else
      let '(l, s) := update_literal x value t s in
      let l := if co <? 0 then - l else l in
      let '(ok, s) := add_clause Learnt [- clit; l] s in
      if ok then if strict then add_clause Learnt [- l; clit] s else (true, s)
      else (false, s).

(** add_dom (solver.cc 1028-1068): first the intervals from left to right, then from
    right to left. *)
Fixpoint dom_up (l : lit) (x : var) (py : option Z) (dom : list (Z * Z)) (s : state) : bool * state :=
  match dom with
  | [] => (true, s)
  | (a, b) :: r =>
      let '(ly, s) := match py with
                      | Some p => let '(g, s) := get_literal x (p - 1) s in (- g, s)
                      | None => (TRUE_LIT, s) end in
      let t := if (l =? TRUE_LIT) && is_true s ly then TFalse else TFree in
      let '(lx, s) := update_literal x (a - 1) t s in
      let '(ok, s) := add_clause Learnt [- l; - ly; - lx] s in
      if ok then dom_up l x (Some b) r s else (false, s)
  end.
Fixpoint dom_down (l : lit) (x : var) (px : option Z) (dom : list (Z * Z)) (s : state) : bool * state :=
  match dom with
  | [] => (true, s)
  | (a, b) :: r =>
      let '(lx, s) := match px with Some p => get_literal x (p - 1) s | None => (TRUE_LIT, s) end in
      let t := if (l =? TRUE_LIT) && is_true s lx then TTrue else TFree in
      let '(ly, s) := update_literal x (b - 1) t s in
      let '(ok, s) := add_clause Learnt [- l; - lx; ly] s in
      if ok then dom_down l x (Some a) r s else (false, s)
  end.
Definition add_dom (l : lit) (x : var) (dom : list (Z * Z)) (s : state) : bool * state :=
  if is_false s l then (true, s)
  else
    let l := if is_true s l then TRUE_LIT else l in
    let '(ok, s) := dom_up l x None dom s in
    if ok then dom_down l x None (rev dom) s else (false, s).

(** add_variable (solver.cc 407-414). *)
Definition add_variable (mn mx : Z) (s : state) : var * state :=
  let x := nvars s in
  (x, set_udiff (upd (udiff s) x 0) (set_ldiff (upd (ldiff s) x 0) (set_wat (upd (wat s) x [])
      (set_vs x (mkvs mn mx [] [] []) (set_nvars (S x) s))))).

(** update (solver.cc 984-1000): at the end of a step the objective bound is reset and the
    literals above max_static_var_ are removed; [k] runs over the indices of litmap_ plus one. *)
Definition remove_entry (k : Z) (s : state) : state :=
  match lmap s k with
  | Some e =>
      if maxstat s <? k then
        let s := erase_lit (e_var e) (e_val e) s in
        let s := snd (update_litmap (e_var e) 0 (e_val e) s) in
        set_lmap (updz (lmap s) k None) s
      else s
  | None => s
  end.
Definition solver_update (s : state) : state :=
  fold_left (fun s k => remove_entry k s) (zseq 1 (Z.to_nat (nxt s - 1))) (set_mlevel 0 (set_mbound None s)).

(** decide (solver.cc 903-928). *)
Definition decide (fallback : lit) (s : state) : lit :=
  if max_chain cfg then
    match valid_entry s fallback with
    | Some e => vlit_ge (vst s (e_var e)) (lb (vst s (e_var e)))
    | None =>
        match valid_entry s (- fallback) with
        | Some e => - vlit_lt (vst s (e_var e)) (ub (vst s (e_var e)))
        | None => fallback
        end
    end
  else fallback.

End Solver.
