(** The arithmetic of linear constraints in the machine types of the code: SumConstraintStateImpl (constraints.cc 35-407) with 32 bit
    coefficients and bounds and 64 bit sums, and the parts of the solver that pass changed bounds to constraints.  An operation whose
    result does not fit is undefined ([UB]).  These are the functions of Sum.v and Search.v, which compute with unbounded
    integers; other kinds of constraints are as there. *)
From Verif Require Import Base Util VarState Solver Sum Distinct Disjoint Nonlin Objective Search.
Open Scope Z_scope.

(** Conversions to val_t (static_cast and implicit ones). *)
Definition to32 (z : Z) : Z := wrap_s 32 z.

(** attach (constraints.cc 64-77) and check_state_ (290-303): the sums of the bounds, in the order of the elements. *)
Fixpoint msums (s : state) (es : list (Z * var)) (lo hi : Z) : outcome (Z * Z) :=
  match es with
  | [] => Ok (lo, hi)
  | (co, x) :: r =>
      let v := vst s x in
      a <- imul int64 (if 0 <? co then lb v else ub v) co ;; lo <- iadd int64 lo a ;;
      b <- imul int64 (if 0 <? co then ub v else lb v) co ;; hi <- iadd int64 hi b ;;
      msums s r lo hi
  end.
(** undo and update (constraints.cc 85-103). *)
Definition msum_undo (i diff : Z) (k : cst) : outcome cst :=
  x <- imul int64 i diff ;;
  if 0 <? x then l <- isub int64 (c_lo k) x ;; Ok (set_bounds l (c_hi k) k) else h <- isub int64 (c_hi k) x ;; Ok (set_bounds (c_lo k) h k).
Definition msum_update (i diff : Z) (k : cst) : outcome (bool * cst) :=
  x <- imul int64 i diff ;;
  if x <? 0 then h <- iadd int64 (c_hi k) x ;; Ok (false, set_bounds (c_lo k) h k) else l <- iadd int64 (c_lo k) x ;; Ok (true, set_bounds l (c_hi k) k).
Definition mcs_update (i diff : Z) (k : cst) : outcome (bool * cst) :=
  match c_def k with CSum _ _ _ | CMin _ _ => msum_update i diff k | _ => Ok (cs_update i diff k) end.
Definition mcs_undo (i diff : Z) (k : cst) : outcome cst :=
  match c_def k with CSum _ _ _ | CMin _ _ => msum_undo i diff k | _ => Ok (cs_undo i diff k) end.

Section Machine.
Context (O : oracle) (cfg : config).

(** calculate_reason_ (constraints.cc 314-406). *)
Definition mcalc_reason (x : var) (co slack : Z) (s : state) : outcome ((bool * lit * Z) * state) :=
  if 0 <? co then
    let current := lb (vst s x) in
    a <- isub int64 current 1 ;;
    let '(lr, s) := get_literal cfg x (to32 a) s in
    refine <- (if refine_reasons cfg then p <- iadd int64 slack co ;; Ok ((p <? 0) && (0 <? dlevel O s)%nat) else Ok false) ;;
    if refine : bool then
      p <- iadd int64 slack 1 ;; n <- ineg int32 co ;; f <- floordiv_t int64 p n ;; delta <- ineg int64 f ;;
      q <- iadd int64 current delta ;;
      let value := Z.max q (minb (vst s x)) in
      if value <? current then
        a <- isub int64 value 1 ;;
        '((ret, l, slack, current), s) <-
          (match order_ge (vst s x) (to32 a) with
           | Some (w, l) =>
               w1 <- iadd int32 w 1 ;;
               if w1 <? current then
                 d <- isub int64 w1 current ;; m <- imul int64 co d ;; slack <- isub int64 slack m ;;
                 let '(ret, s) := if is_false O s l then (true, s) else add_clause O Learnt [lr; - l] s in
                 Ok ((ret, l, slack, w1), s)
               else Ok ((true, lr, slack, current), s)
           | None => Ok ((true, lr, slack, current), s)
           end) ;;
        if ret && refine_introduce cfg && Nat.eqb (litlevel O s l) (dlevel O s) && (value <? current) then
          d <- isub int64 value current ;; m <- imul int64 co d ;; slack <- isub int64 slack m ;;
          a <- isub int64 value 1 ;;
          let '(g, s) := get_literal cfg x (to32 a) s in
          let '(ret, s) := if is_false O s g then (true, s) else add_clause O Learnt [l; - g] s in
          Ok ((ret, g, slack), s)
        else Ok ((ret, l, slack), s)
      else Ok ((true, lr, slack), s)
    else Ok ((true, lr, slack), s)
  else
    let current := ub (vst s x) in
    let '(lr, s) := get_literal cfg x (to32 current) s in
    let lr := - lr in
    refine <- (if refine_reasons cfg then p <- isub int64 slack co ;; Ok ((p <? 0) && (0 <? dlevel O s)%nat) else Ok false) ;;
    if refine : bool then
      p <- iadd int64 slack 1 ;; delta <- floordiv_t int64 p co ;;
      q <- iadd int64 current delta ;;
      let value := Z.min q (maxb (vst s x)) in
      if current <? value then
        '((ret, l, slack, current), s) <-
          (match order_le (vst s x) (to32 value) with
           | Some (w, l) =>
               if current <? w then
                 d <- isub int64 w current ;; m <- imul int64 co d ;; slack <- isub int64 slack m ;;
                 let '(ret, s) := if is_false O s (- l) then (true, s) else add_clause O Learnt [lr; l] s in
                 Ok ((ret, - l, slack, w), s)
               else Ok ((true, lr, slack, current), s)
           | None => Ok ((true, lr, slack, current), s)
           end) ;;
        if ret && refine_introduce cfg && Nat.eqb (litlevel O s l) (dlevel O s) && (current <? value) then
          d <- isub int64 value current ;; m <- imul int64 co d ;; slack <- isub int64 slack m ;;
          let '(g, s) := get_literal cfg x (to32 value) s in
          let g := - g in
          let '(ret, s) := if is_false O s g then (true, s) else add_clause O Learnt [l; - g] s in
          Ok ((ret, g, slack), s)
        else Ok ((ret, l, slack), s)
      else Ok ((true, lr, slack), s)
    else Ok ((true, lr, slack), s).

(** The loops collecting the reason (constraints.cc 181-194, 252-268). *)
Fixpoint mreasons (skip : option var) (es : list (Z * var)) (slack : Z) (s : state) : outcome (option (list lit) * state) :=
  match es with
  | [] => Ok (Some [], s)
  | (co, x) :: r =>
      if match skip with Some y => Nat.eqb x y | None => false end then mreasons skip r slack s
      else
        '((ret, l, slack), s) <- mcalc_reason x co slack s ;;
        if ret : bool then
          let fixed := is_fixed O s l in
          '(o, s) <- mreasons skip r slack s ;;
          Ok (match o with Some ls => Some (if fixed then ls else l :: ls) | None => None end, s)
        else Ok (None, s)
  end.

(** The body of the second loop of propagate (constraints.cc 207-283), without the assertions. *)
Definition mprop_elem (tag : bool) (clit : lit) (es : list (Z * var)) (slack co : Z) (x : var) (s : state) : outcome (bool * state) :=
  let v := vst s x in
  p <- iadd int64 slack 1 ;;
  delta <- (if 0 <? co then n <- ineg int32 co ;; f <- floordiv_t int64 p n ;; ineg int64 f else floordiv_t int64 p co) ;;
  value <- iadd int64 (if 0 <? co then lb v else ub v) delta ;;
  if (if 0 <? co then ub v <=? value else value <? lb v) then Ok (true, s)
  else
    w <- (if 0 <? co then isub int64 value 1 else Ok value) ;;
    let w := to32 w in
    let '(l, s) :=
      if has_lit v w then let '(g, s) := get_literal cfg x w s in (if 0 <? co then g else - g, s) else (0, s) in
    if (l =? 0) || negb (is_true O s l) then
      m <- imul int64 co delta ;; slack <- isub int64 slack m ;;
      let pre := if is_fixed O s (- clit) then [] else [- clit] in
      '(o, s) <- mreasons (Some x) es slack s ;;
      match o with
      | None => Ok (false, s)
      | Some ls =>
          let reason := pre ++ ls in
          let guess := negb (match reason with [] => true | _ => false end) || tag in
          let '(g, s) := update_literal O cfg x w (if guess then TFree else if 0 <? co then TTrue else TFalse) s in
          Ok (add_clause O (if tag then Volatile else Learnt) (reason ++ [if 0 <? co then g else - g]) s)
      end
    else Ok (true, s).
Fixpoint mprop_elems (tag : bool) (clit : lit) (es : list (Z * var)) (slack : Z) (todo : list (Z * var)) (s : state) : outcome (bool * state) :=
  match todo with
  | [] => Ok (true, s)
  | (co, x) :: r =>
      '(ok, s) <- mprop_elem tag clit es slack co x s ;;
      if ok : bool then mprop_elems tag clit es slack r s else Ok (false, s)
  end.

(** An operation that may be undefined, in the form of [prop_sum]. *)
Definition lift {A} (m : outcome (A * state)) (s : state) : outcome A * state :=
  match m with Ok (a, s) => (Ok a, s) | Throw e => (Throw e, s) | UB => (UB, s) end.

(** propagate (constraints.cc 151-285). *)
Definition mprop_sum (chk : bool) (c : cid) (s : state) : outcome bool * state :=
  match css s c with
  | None => (UB, s)
  | Some k =>
      match sum_es (c_def k), sum_rhs s (c_def k) with
      | Some es, Ok (Some rhs) =>
          let clit := c_lit (c_def k) in
          let tag := sum_tag (c_def k) in
          match (if chk then '(lo, hi) <- msums s es 0 0 ;; Ok ((c_lo k =? lo) && (c_hi k =? hi) && (lo <=? hi)) else Ok true) with
          | Throw e => (Throw e, s)
          | UB => (UB, s)
          | Ok false => (Throw Logic, s)
          | Ok true =>
              if c_hi k <=? rhs then (Ok true, mark_inactive c s)
              else
                match isub int64 rhs (c_lo k) with
                | Ok slack =>
                    if slack <? 0 then
                      match mreasons None es slack s with
                      | Ok (None, s) => (Ok false, s)
                      | Ok (Some ls, s) =>
                          let s := mark_inactive c s in
                          let '(b, s) := add_clause O (if tag then Volatile else Learnt) (ls ++ [- clit]) s in
                          (Ok b, s)
                      | Throw e => (Throw e, s)
                      | UB => (UB, s)
                      end
                    else if negb (is_true O s clit) then (Ok true, s)
                    else lift (mprop_elems tag clit es slack es s) s
                | Throw e => (Throw e, s)
                | UB => (UB, s)
                end
          end
      | Some es, Ok None => (Ok true, s)
      | Some _, Throw e => (Throw e, s)
      | _, _ => (UB, s)
      end
  end.

(** check_full (constraints.cc 105-136). *)
Fixpoint mlhs (s : state) (es : list (Z * var)) (lhs : Z) : outcome Z :=
  match es with
  | [] => Ok lhs
  | (co, x) :: r =>
      if is_assigned (vst s x) then a <- imul int64 co (lb (vst s x)) ;; lhs <- iadd int64 lhs a ;; mlhs s r lhs
      else Throw Logic
  end.
Definition mcheck_full_sum (c : cid) (s : state) : outcome unit :=
  match css s c with
  | None => UB
  | Some k =>
      match sum_es (c_def k), sum_rhs s (c_def k) with
      | Some es, Ok (Some rhs) =>
          lhs <- mlhs s es 0 ;;
          if marked_inactive k then
            if c_hi k <? lhs then Throw Logic else if rhs <? lhs then Throw Logic else Ok tt
          else if negb (lhs =? c_hi k) then Throw Logic
          else if c_lo k <? lhs then Throw Logic
          else if rhs <? lhs then Throw Logic else Ok tt
      | Some es, Ok None => Ok tt
      | Some _, Throw e => Throw e
      | _, _ => UB
      end
  end.

(** ** Passing on changed bounds (solver.cc 77-93, 855-865) *)
Fixpoint mupdate_watches (n : nat) (x : var) (diff : Z) (ws : list (Z * cid)) (s : state) : outcome (list (Z * cid) * state) :=
  match ws with
  | [] => Ok ([], s)
  | (i, c) :: r =>
      match css s c with
      | None => '(ws, s) <- mupdate_watches n x diff r s ;; Ok ((i, c) :: ws, s)
      | Some k =>
          if removable_at n k then mupdate_watches n x diff r (set_remw (remw s ++ [(x, i, c)]) s)
          else
            '(b, k) <- mcs_update i diff k ;;
            let s := set_cs c k s in
            let s := if b : bool then mark_todo c s else s in
            '(ws, s) <- mupdate_watches n x diff r s ;; Ok ((i, c) :: ws, s)
      end
  end.
Definition mupdate_constraints (x : var) (diff : Z) (s : state) : outcome state :=
  '(ws, s) <- mupdate_watches (cur_level s) x diff (wat s x) s ;; Ok (set_wat (upd (wat s) x ws) s).
Fixpoint mintegrate_upper (xs : list var) (s : state) : outcome state :=
  match xs with
  | [] => Ok s
  | x :: xs => s <- mupdate_constraints x (udiff s x) s ;; mintegrate_upper xs (set_udiff (upd (udiff s) x 0) s)
  end.
Fixpoint mintegrate_lower (xs : list var) (s : state) : outcome state :=
  match xs with
  | [] => Ok s
  | x :: xs => s <- mupdate_constraints x (ldiff s x) s ;; mintegrate_lower xs (set_ldiff (upd (ldiff s) x 0) s)
  end.
Definition mintegrate (s : state) : outcome state :=
  s <- mintegrate_upper (inu s) s ;; let s := set_inu [] s in
  s <- mintegrate_lower (inl s) s ;; Ok (set_inl [] s).

(** ** Backtracking (solver.cc 123-179): differences have the type val_t *)
Fixpoint mundo_watches (diff : Z) (ws : list (Z * cid)) (s : state) : outcome state :=
  match ws with
  | [] => Ok s
  | (i, c) :: ws =>
      match css s c with
      | Some k => k <- mcs_undo i diff k ;; mundo_watches diff ws (set_cs c k s)
      | None => mundo_watches diff ws s
      end
  end.
Definition mundo_lower1 (x : var) (s : state) : outcome state :=
  let v := vst s x in
  match lbs v with
  | [] => UB
  | (_, b) :: r =>
      let s' := set_vs x (mkvs b (ub v) r (ubs v) (lits v)) s in
      d <- isub int32 (lb v) b ;; diff <- isub int32 d (ldiff s x) ;;
      s' <- (if diff =? 0 then Ok s' else mundo_watches diff (wat s x) s') ;;
      Ok (set_ldiff (upd (ldiff s') x 0) s')
  end.
Definition mundo_upper1 (x : var) (s : state) : outcome state :=
  let v := vst s x in
  match ubs v with
  | [] => UB
  | (_, b) :: r =>
      let s' := set_vs x (mkvs (lb v) b (lbs v) r (lits v)) s in
      d <- isub int32 (ub v) b ;; diff <- isub int32 d (udiff s x) ;;
      s' <- (if diff =? 0 then Ok s' else mundo_watches diff (wat s x) s') ;;
      Ok (set_udiff (upd (udiff s') x 0) s')
  end.
Definition mlevel_undo (l : level) (s : state) : outcome state :=
  s <- undo_each mundo_lower1 (skipn (o_lo l) (ulo s)) s ;;
  let s := set_inl [] (set_ulo (firstn (o_lo l) (ulo s)) s) in
  s <- undo_each mundo_upper1 (skipn (o_up l) (uup s)) s ;;
  let s := set_inu [] (set_uup (firstn (o_up l) (uup s)) s) in
  let s := fold_left activate (skipn (o_ina l) (ina s)) s in
  let s := set_ina (firstn (o_ina l) (ina s)) s in
  let s := fold_left readd_watch (skipn (o_rem l) (remw s)) s in
  let s := set_remw (firstn (o_rem l) (remw s)) s in
  let s := fold_left clear_todo (tod s) s in
  Ok (set_tod [] s).
Definition msolver_undo (s : state) : outcome state :=
  match lvls s with
  | l :: ((_ :: _) as r) => s <- mlevel_undo l s ;; Ok (set_lvls r s)
  | _ => UB
  end.

(** ** The check (solver.cc 829-889, 955-982 and propagator.cc 509-537) *)
Section Check.
Context (srt : (ival -> Z) -> list ival -> list ival) (check_state check_solution : bool).

Definition mprop_con (c : cid) (s : state) : outcome bool * state :=
  match css s c with
  | Some k => match c_def k with CSum _ _ _ | CMin _ _ => mprop_sum check_state c s | _ => prop_con srt O cfg check_state c s end
  | None => (UB, s)
  end.
Definition mcheck_full_con (c : cid) (s : state) : outcome unit :=
  match css s c with
  | Some k => match c_def k with CSum _ _ _ | CMin _ _ => mcheck_full_sum c s | _ => check_full_con c s end
  | None => UB
  end.
Fixpoint mrun_todo (cs : list cid) (ret : bool) (s : state) : outcome bool * state :=
  match cs with
  | [] => (Ok ret, s)
  | c :: cs =>
      let s := clear_todo s c in
      if negb ret then mrun_todo cs false s
      else match css s c with
           | None => (UB, s)
           | Some k =>
               if is_false O s (c_lit (c_def k)) then mrun_todo cs true (mark_inactive c s)
               else
                 let '(o, s) := mprop_con c s in
                 match o with Ok b => mrun_todo cs b s | o => (o, s) end
           end
  end.
Fixpoint mcheck_loop (fuel : nat) (s : state) : option (outcome bool * state) :=
  match fuel with
  | 0%nat => None
  | S fuel =>
      let '(ok, s) := if is_nil (fmap s) then (true, s) else update_domain O cfg TRUE_LIT s in
      if negb ok then Some (Ok false, s)
      else
        match mintegrate s with
        | Throw e => Some (Throw e, s)
        | UB => Some (UB, s)
        | Ok s =>
            let '(o, s) := mrun_todo (tod s) true s in
            match o with
            | Ok ret =>
                let s := set_tod [] s in
                if negb ret || is_nil (fmap s) then Some (Ok ret, s) else mcheck_loop fuel s
            | o => Some (o, s)
            end
        end
  end.
Definition msolver_check (fuel : nat) (s : state) : option (outcome bool * state) :=
  if negb (Nat.eqb (dlevel O s) (cur_level s)) && (mlevel s <=? cur_level s)%nat then Some (Ok true, s)
  else mcheck_loop fuel s.
Fixpoint mcheck_all (ps : list (lit * cid)) (s : state) : outcome unit :=
  match ps with
  | [] => Ok tt
  | (l, c) :: r => if is_true O s l then _ <- mcheck_full_con c s ;; mcheck_all r s else mcheck_all r s
  end.
Definition msolver_check_full (s : state) : outcome unit * state :=
  let n := nvars s in
  let '(b, s) :=
    if split_all cfg then split_every cfg (seq 0 n) false s
    else split_first cfg (seq (slast s) (n - slast s) ++ seq 0 (slast s)) s in
  if b then (Ok tt, s)
  else if check_solution then (mcheck_all (l2c s) s, s) else (Ok tt, s).
(** Propagator::check (propagator.cc 509-537). *)
Definition mprop_check (fuel : nat) (m : option (cid * mincon)) (bound : Z) (s : state) : option (outcome unit * state) :=
  let size := nxt s in
  match (match m with Some (c, m) => check_minimize c m bound (dlevel O s) s | None => Ok s end) with
  | Ok s =>
      match msolver_check fuel s with
      | None => None
      | Some (Ok false, s) => Some (Ok tt, s)
      | Some (Ok true, s) =>
          if (size =? nxt s) && o_total O (log s) then Some (msolver_check_full s) else Some (Ok tt, s)
      | Some (Throw e, s) => Some (Throw e, s)
      | Some (UB, s) => Some (UB, s)
      end
  | Throw e => Some (Throw e, s)
  | UB => Some (UB, s)
  end.
End Check.
End Machine.
