(** Model of the search: callbacks of clasp (propagator.cc 503-545) and the functions of the
    solver they use (solver.cc): propagation of literals, the queue of constraints, undoing of
    levels, the final check, adding and copying of constraint states.

    Pointers to constraint states are the numbers of constraints.  The code only follows
    pointers to existing states; where a watch, queue entry or table entry refers to a number
    without state the model leaves the state as it is (watches) or is undefined (queue and
    table), and SearchInv.v proves that this does not happen. *)
From Verif Require Import Base Util VarState Solver Sum Distinct Nonlin Disjoint Objective.
Open Scope Z_scope.

(** ** Constraint states: dispatch *)

(** AbstractConstraintState::update (constraints.cc 94-103, 935-942, 1370-1377, 1820-1824). *)
Definition cs_update (i diff : Z) (k : cst) : bool * cst :=
  match c_def k with
  | CSum _ _ _ | CMin _ _ => sum_update i diff k
  | CDistinct _ _ => dist_update i k
  | CDisjoint _ _ | CNonlin _ _ _ _ _ _ _ => (true, k)
  end.
(** AbstractConstraintState::undo (constraints.cc 85-92, 944-953, 1380-1383, 1826-1830). *)
Definition cs_undo (i diff : Z) (k : cst) : cst :=
  match c_def k with
  | CSum _ _ _ | CMin _ _ => sum_undo i diff k
  | CDistinct _ _ => dist_undo i k
  | CDisjoint _ _ => disj_undo k
  | CNonlin _ _ _ _ _ _ _ => k
  end.

(** create_state and the part of attach concerning the state (constraints.cc 64-77, 800-828,
    1781-1797, 1332-1339); todo_ and inactive_level_ are initially false and 0, force_update_ is
    initially true (1891). *)
Definition cs_init (s : state) (d : constr) : cst :=
  match d with
  | CSum _ _ es | CMin _ es => mkcst d 0 false (sum_lo s es) (sum_hi s es) [] [] [] [] [] true
  | CDistinct _ es => mkcst d 0 false 0 0 (map (dist_init s) es) [] [] [] [] true
  | CDisjoint _ es => mkcst d 0 false 0 0 [] [] [] [] (disj_init es) true
  | CNonlin _ _ _ _ _ _ _ => mkcst d 0 false 0 0 [] [] [] [] [] true
  end.
(** The watches added by attach: variable and value (constraints.cc 64-67, 817-828, 1333-1339,
    1795-1799). *)
Definition cs_watches (d : constr) : list (var * Z) :=
  match d with
  | CSum _ _ es | CMin _ es => map (fun e => (snd e, fst e)) es
  | CDisjoint _ es => map (fun e => (snd e, 1)) es
  | CDistinct _ es =>
      concat (map (fun p => map (fun t => (snd t, if 0 <? fst t then Z.of_nat (fst p) + 1 else - Z.of_nat (fst p) - 1)) (snd (snd p)))
                  (combine (seq 0 (length es)) es))
  | CNonlin _ _ x y _ z _ => (x, 0) :: (y, 1) :: match z with Some z => [(z, 2)] | None => [] end
  end.
(** add_var_watch (solver.cc 522-525), called for each watch. *)
Definition add_var_watch (c : cid) (s : state) (w : var * Z) : state :=
  set_wat (upd (wat s) (fst w) (wat s (fst w) ++ [(snd w, c)])) s.
(** add_constraint (solver.cc 535-546): [d] is the constraint with number [c]. *)
Definition add_constraint (c : cid) (d : constr) (s : state) : state :=
  match css s c with
  | Some _ => s
  | None =>
      let s := set_cs c (cs_init s d) s in
      let s := set_l2c (l2c s ++ [(c_lit d, c)]) s in
      let s := fold_left (add_var_watch c) (cs_watches d) s in
      mark_todo c s
  end.

(** remove_var_watch (solver.cc 527-532): the first matching watch (which exists for attached
    constraints); and the loop removing the entry of lit2cs_ or of a list of states. *)
Fixpoint remove1 {A} (p : A -> bool) (l : list A) : list A :=
  match l with [] => [] | a :: r => if p a then r else a :: remove1 p r end.
Definition remove_var_watch (c : cid) (s : state) (w : var * Z) : state :=
  set_wat (upd (wat s) (fst w) (remove1 (fun p => (fst p =? snd w) && Nat.eqb (snd p) c) (wat s (fst w)))) s.
(** remove_constraint (solver.cc 548-563) with Level::remove_constraint (182-194). *)
Definition remove_constraint (c : cid) (s : state) : outcome state :=
  match css s c with
  | None => UB
  | Some k =>
      let s := fold_left (remove_var_watch c) (cs_watches (c_def k)) s in
      let s := set_l2c (remove1 (fun p => (fst p =? c_lit (c_def k)) && Nat.eqb (snd p) c) (l2c s)) s in
      let s := if marked_inactive k then set_ina (remove1 (Nat.eqb c) (ina s)) s else s in
      let s := if c_todo k then set_tod (remove1 (Nat.eqb c) (tod s)) s else s in
      Ok (set_css (upd (css s) c None) s)
  end.

(** mark_active, mark_todo(false). *)
Definition activate (s : state) (c : cid) : state :=
  match css s c with Some k => set_cs c (set_inact 0 k) s | None => s end.
Definition clear_todo (s : state) (c : cid) : state :=
  match css s c with Some k => set_cs c (set_todo false k) s | None => s end.
(** The removal of the constraints [rm] at the end of translate (solver.cc 589-617) with
    Level::remove_constraints (197-219): the predicates passed to remove_if also mark the
    constraints that are not removed as active and not queued, although they stay in the lists. *)
Definition removed (rm : list cid) (c : cid) : bool := existsb (Nat.eqb c) rm.
Definition remove_constraints (rm : list cid) (s : state) : state :=
  let s := set_wat (fun x => filter (fun w => negb (removed rm (snd w))) (wat s x)) s in
  let s := fold_left activate (ina s) s in
  let s := set_ina (filter (fun c => negb (removed rm c)) (ina s)) s in
  let s := fold_left clear_todo (tod s) s in
  let s := set_tod (filter (fun c => negb (removed rm c)) (tod s)) s in
  let s := set_l2c (filter (fun p => negb (removed rm (snd p))) (l2c s)) s in
  set_css (fun c => if removed rm c then None else css s c) s.

(** ** Levels *)

(** update_constraints_ (solver.cc 77-93) for level [n]: the watches kept and the new state. *)
Fixpoint update_watches (n : nat) (x : var) (diff : Z) (ws : list (Z * cid)) (s : state) : list (Z * cid) * state :=
  match ws with
  | [] => ([], s)
  | (i, c) :: r =>
      match css s c with
      | None => let '(ws, s) := update_watches n x diff r s in ((i, c) :: ws, s)
      | Some k =>
          if removable_at n k then update_watches n x diff r (set_remw (remw s ++ [(x, i, c)]) s)
          else
            let '(b, k) := cs_update i diff k in
            let s := set_cs c k s in
            let s := if b then mark_todo c s else s in
            let '(ws, s) := update_watches n x diff r s in ((i, c) :: ws, s)
      end
  end.
Definition update_constraints (x : var) (diff : Z) (s : state) : state :=
  let '(ws, s) := update_watches (cur_level s) x diff (wat s x) s in set_wat (upd (wat s) x ws) s.

(** The loops over the watches in Level::undo (solver.cc 129-131, 148-150). *)
Definition undo_watch (diff : Z) (s : state) (w : Z * cid) : state :=
  match css s (snd w) with Some k => set_cs (snd w) (cs_undo (fst w) diff k) s | None => s end.
(** pop_lower and pop_upper (solver.hh 291-294, 320-323) on an empty stack are undefined. *)
Definition undo_lower1 (x : var) (s : state) : outcome state :=
  let v := vst s x in
  match lbs v with
  | [] => UB
  | (_, b) :: r =>
      let s' := set_vs x (mkvs b (ub v) r (ubs v) (lits v)) s in
      let diff := lb v - b - ldiff s x in
      let s' := if diff =? 0 then s' else fold_left (undo_watch diff) (wat s x) s' in
      Ok (set_ldiff (upd (ldiff s') x 0) s')
  end.
Definition undo_upper1 (x : var) (s : state) : outcome state :=
  let v := vst s x in
  match ubs v with
  | [] => UB
  | (_, b) :: r =>
      let s' := set_vs x (mkvs (lb v) b (lbs v) r (lits v)) s in
      let diff := ub v - b - udiff s x in
      let s' := if diff =? 0 then s' else fold_left (undo_watch diff) (wat s x) s' in
      Ok (set_udiff (upd (udiff s') x 0) s')
  end.
Fixpoint undo_each (f : var -> state -> outcome state) (xs : list var) (s : state) : outcome state :=
  match xs with [] => Ok s | x :: r => s <- f x s ;; undo_each f r s end.
Definition readd_watch (s : state) (w : var * Z * cid) : state :=
  let '(x, i, c) := w in set_wat (upd (wat s) x (wat s x ++ [(i, c)])) s.
(** Level::undo (solver.cc 118-179). *)
Definition level_undo (l : level) (s : state) : outcome state :=
  s <- undo_each undo_lower1 (skipn (o_lo l) (ulo s)) s ;;
  let s := set_inl [] (set_ulo (firstn (o_lo l) (ulo s)) s) in
  s <- undo_each undo_upper1 (skipn (o_up l) (uup s)) s ;;
  let s := set_inu [] (set_uup (firstn (o_up l) (uup s)) s) in
  let s := fold_left activate (skipn (o_ina l) (ina s)) s in
  let s := set_ina (firstn (o_ina l) (ina s)) s in
  let s := fold_left readd_watch (skipn (o_rem l) (remw s)) s in
  let s := set_remw (firstn (o_rem l) (remw s)) s in
  let s := fold_left clear_todo (tod s) s in
  Ok (set_tod [] s).
(** Solver::undo (solver.cc 891-901); the bottom level is never popped. *)
Definition solver_undo (s : state) : outcome state :=
  match lvls s with
  | l :: ((_ :: _) as r) => s <- level_undo l s ;; Ok (set_lvls r s)
  | _ => UB
  end.

(** ** Copying (solver.cc 222-267, 381-405) *)

(** The states of the constraints are copied field by field (constraints.cc 44-46, 929-931,
    1361-1364, 1816-1818); both tables of constraints are filled from c2cs_, which has the
    constraints of lit2cs_.  The solver and the master have only the bottom level.
    max_static_var_ and translate_minimize_ are not copied. *)
Definition copy_l2c (m : state) : list (lit * cid) :=
  map (fun p => match css m (snd p) with Some k => (c_lit (c_def k), snd p) | None => p end) (l2c m).
Definition copy_state (m s : state) : outcome state :=
  match lvls m, lvls s with
  | [lm], [l] =>
      Ok (mkst (nvars m) (vst m) (lmap m) (fmap m) [mkl (lv l) (o_lo lm) (o_up lm) (o_ina lm) (o_rem lm)]
               (ulo m) (uup m) (ldiff m) (udiff m) (inl m) (inu m) (wat m) (remw m) (ina m) (tod m) (copy_l2c m) (css m)
               (mbound m) (mlevel m) (slast m) (toff m) (maxstat s) (tmin s) (log s) (nxt s))
  | _, _ => UB
  end.

Section Search.
Context (srt : (ival -> Z) -> list ival -> list ival) (O : oracle) (cfg : config).
(** check_state and check_solution of the configuration (config.hh). *)
Context (check_state check_solution : bool).

(** AbstractConstraintState::propagate and check_full: dispatch. *)
Definition prop_con (c : cid) (s : state) : outcome bool * state :=
  match css s c with
  | None => (UB, s)
  | Some k =>
      match c_def k with
      | CSum _ _ _ | CMin _ _ => prop_sum O cfg check_state c s
      | CDistinct _ _ => prop_distinct O cfg c s
      | CDisjoint _ _ => prop_disjoint srt O cfg c s
      | CNonlin _ _ _ _ _ _ _ => prop_nonlin O cfg c s
      end
  end.
Definition check_full_con (c : cid) (s : state) : outcome unit :=
  match css s c with
  | None => UB
  | Some k =>
      match c_def k with
      | CSum _ _ _ | CMin _ _ => check_full_sum c s
      | CDistinct _ _ => check_full_distinct c s
      | CDisjoint _ _ => check_full_disjoint c s
      | CNonlin _ _ _ _ _ _ _ => check_full_nonlin c s
      end
  end.

(** propagate_ (solver.cc 675-698). *)
Definition propagate_lit (l : lit) (s : state) : bool * state :=
  let s := fold_left (fun s p => if fst p =? l then mark_todo (snd p) s else s) (l2c s) s in
  update_domain O cfg l s.
Fixpoint propagate_lits (ls : list lit) (s : state) : bool * state :=
  match ls with
  | [] => (true, s)
  | l :: ls => let '(ok, s) := propagate_lit l s in if ok then propagate_lits ls s else (false, s)
  end.
Definition solver_propagate (changes : list lit) (s : state) : bool * state :=
  propagate_lits changes (push_level (dlevel O s) s).

(** The parts of check (solver.cc 829-889): changed bounds are passed to constraints ... *)
Definition integrate_upper (s : state) (x : var) : state :=
  let s' := update_constraints x (udiff s x) s in set_udiff (upd (udiff s') x 0) s'.
Definition integrate_lower (s : state) (x : var) : state :=
  let s' := update_constraints x (ldiff s x) s in set_ldiff (upd (ldiff s') x 0) s'.
Definition integrate (s : state) : state :=
  let s := fold_left integrate_upper (inu s) s in
  let s := set_inu [] s in
  let s := fold_left integrate_lower (inl s) s in
  set_inl [] s.
(** ... and the constraints in the queue are propagated (866-881). *)
Fixpoint run_todo (cs : list cid) (ret : bool) (s : state) : outcome bool * state :=
  match cs with
  | [] => (Ok ret, s)
  | c :: cs =>
      let s := clear_todo s c in
      if negb ret then run_todo cs false s
      else match css s c with
           | None => (UB, s)
           | Some k =>
               if is_false O s (c_lit (c_def k)) then run_todo cs true (mark_inactive c s)
               else
                 let '(o, s) := prop_con c s in
                 match o with Ok b => run_todo cs b s | o => (o, s) end
           end
  end.
(** The loop; [None] if it is not finished after [fuel] rounds. *)
Fixpoint check_loop (fuel : nat) (s : state) : option (outcome bool * state) :=
  match fuel with
  | 0%nat => None
  | S fuel =>
      let '(ok, s) := if is_nil (fmap s) then (true, s) else update_domain O cfg TRUE_LIT s in
      if negb ok then Some (Ok false, s)
      else
        let s := integrate s in
        let '(o, s) := run_todo (tod s) true s in
        match o with
        | Ok ret =>
            let s := set_tod [] s in
            if negb ret || is_nil (fmap s) then Some (Ok ret, s) else check_loop fuel s
        | o => Some (o, s)
        end
  end.
Definition solver_check (fuel : nat) (s : state) : option (outcome bool * state) :=
  if negb (Nat.eqb (dlevel O s) (cur_level s)) && (mlevel s <=? cur_level s)%nat then Some (Ok true, s)
  else check_loop fuel s.

(** simplify (solver.cc 643-669). *)
Fixpoint solver_simplify (fuel : nat) (s : state) : option (outcome bool * state) :=
  match fuel with
  | 0%nat => None
  | S n =>
      let '(ok, s) := cc_propagate O s in
      if negb ok then Some (Ok false, s)
      else
        let trail := o_trail O (log s) in
        if Nat.eqb (toff s) (length trail) && is_nil (tod s) then Some (Ok true, s)
        else
          let '(ok, s) := solver_propagate (skipn (toff s) trail) s in
          if negb ok then Some (Ok false, s)
          else
            let s := set_toff (length trail) s in
            match solver_check fuel s with
            | Some (Ok true, s) => solver_simplify n s
            | r => r
            end
  end.

(** update_bounds (solver.cc 1002-1026): bounds of the variables of another solver. *)
Fixpoint take_bounds (other : state) (xs : list var) (s : state) : bool * state :=
  match xs with
  | [] => (true, s)
  | x :: xs =>
      let v := vst other x in
      let '(ok, s) :=
        if ub v <? ub (vst s x)
        then let '(l, s) := update_literal O cfg x (ub v) TTrue s in add_clause O Learnt [l] s else (true, s) in
      if negb ok then (false, s)
      else
        let '(ok, s) :=
          if lb (vst s x) <? lb v
          then let '(l, s) := update_literal O cfg x (lb v - 1) TFalse s in add_clause O Learnt [- l] s else (true, s) in
        if ok then take_bounds other xs s else (false, s)
  end.
Definition update_bounds (fuel : nat) (other s : state) : option (outcome bool * state) :=
  let '(ok, s) := take_bounds other (seq 0 (nvars other)) s in
  if ok then solver_check fuel s else Some (Ok false, s).

(** check_full (solver.cc 930-982): [split] (931-938) ... *)
Definition split (x : var) (s : state) : bool * state :=
  let v := vst s x in
  if is_assigned v then (false, s) else (true, snd (get_literal cfg x (midpoint 32 (lb v) (ub v)) s)).
Fixpoint split_every (xs : list var) (res : bool) (s : state) : bool * state :=
  match xs with [] => (res, s) | x :: xs => let '(b, s) := split x s in split_every xs (b || res) s end.
Fixpoint split_first (xs : list var) (s : state) : bool * state :=
  match xs with
  | [] => (false, s)
  | x :: xs => let '(b, s) := split x s in if b then (true, set_slast x s) else split_first xs s
  end.
(** ... and the check of all constraints that are true (974-981). *)
Fixpoint check_all (ps : list (lit * cid)) (s : state) : outcome unit :=
  match ps with
  | [] => Ok tt
  | (l, c) :: ps => if is_true O s l then (_ <- check_full_con c s ;; check_all ps s) else check_all ps s
  end.
Definition solver_check_full (s : state) : outcome unit * state :=
  let n := nvars s in
  let '(b, s) :=
    if split_all cfg then split_every (seq 0 n) false s
    else split_first (seq (slast s) (n - slast s) ++ seq 0 (slast s)) s in
  if b then (Ok tt, s)
  else if check_solution then (check_all (l2c s) s, s) else (Ok tt, s).

(** ** Callbacks of clasp *)

(** Propagator::check (propagator.cc 509-537); [m] is the objective function with its constraint and
    [bound] its bound.  ass.size() is the number of solver variables clasp knows, so it is
    unchanged iff no literal was added. *)
Definition prop_check (fuel : nat) (m : option (cid * mincon)) (bound : Z) (s : state) : option (outcome unit * state) :=
  let size := nxt s in
  match (match m with Some (c, m) => check_minimize c m bound (dlevel O s) s | None => Ok s end) with
  | Ok s =>
      match solver_check fuel s with
      | None => None
      | Some (Ok false, s) => Some (Ok tt, s)
      | Some (Ok true, s) =>
          if (size =? nxt s) && o_total O (log s) then Some (solver_check_full s) else Some (Ok tt, s)
      | Some (Throw e, s) => Some (Throw e, s)
      | Some (UB, s) => Some (UB, s)
      end
  | Throw e => Some (Throw e, s)
  | UB => Some (UB, s)
  end.

End Search.
