(** Model of the propagation of linear constraints and of the objective bound:
    SumConstraintStateImpl (constraints.cc 35-407).  Values are unbounded integers. *)
From Verif Require Import Base Util VarState Solver.
Open Scope Z_scope.

(** ** Inactive constraints and the queue (solver.hh 125-138, solver.cc 96-117) *)
Definition marked_inactive (k : cst) : bool := (0 <? c_inact k)%nat.
(** removable(level) (solver.hh 138). *)
Definition removable_at (n : nat) (k : cst) : bool := marked_inactive k && (c_inact k <=? n)%nat.
(** Level::mark_inactive. *)
Definition mark_inactive (c : cid) (s : state) : state :=
  match css s c with
  | Some k =>
      if c_removable (c_def k) && negb (marked_inactive k)
      then set_cs c (set_inact (S (cur_level s)) k) (set_ina (ina s ++ [c]) s)
      else s
  | None => s
  end.
(** Level::mark_todo. *)
Definition mark_todo (c : cid) (s : state) : state :=
  match css s c with
  | Some k =>
      if negb (marked_inactive k)
      then let s' := set_cs c (set_todo true k) s in if c_todo k then s' else set_tod (tod s ++ [c]) s'
      else s
  | None => s
  end.

(** ** Elements and right-hand sides *)

(** The elements of linear and minimize constraints. *)
Definition sum_es (d : constr) : option (list (Z * var)) :=
  match d with CSum _ _ es => Some es | CMin _ es => Some es | _ => None end.
Definition sum_tag (d : constr) : bool := match d with CMin _ _ => true | _ => false end.
(** has_rhs, rhs (constraints.cc 460-468, 777-785): the bound of a minimize constraint is
    the current bound of the objective, if any, and it has to be in the range of values. *)
Definition sum_rhs (s : state) (d : constr) : outcome (option Z) :=
  match d with
  | CSum _ rhs _ => Ok (Some rhs)
  | CMin _ _ =>
      match mbound s with
      | Some b => if (b <? MIN_VAL) || (MAX_VAL <? b) then Throw Overflow else Ok (Some b)
      | None => Ok None
      end
  | _ => UB
  end.

(** The sums of the bounds (attach, constraints.cc 64-77, and check_state_, 290-311). *)
Definition lo_of (s : state) (e : Z * var) : Z := fst e * (if 0 <? fst e then lb (vst s (snd e)) else ub (vst s (snd e))).
Definition hi_of (s : state) (e : Z * var) : Z := fst e * (if 0 <? fst e then ub (vst s (snd e)) else lb (vst s (snd e))).
Definition zsum (l : list Z) : Z := fold_right Z.add 0 l.
Definition sum_lo (s : state) (es : list (Z * var)) : Z := zsum (map (lo_of s) es).
Definition sum_hi (s : state) (es : list (Z * var)) : Z := zsum (map (hi_of s) es).

(** undo and update (constraints.cc 85-103). *)
Definition sum_undo (i diff : Z) (k : cst) : cst :=
  if 0 <? i * diff then set_bounds (c_lo k - i * diff) (c_hi k) k else set_bounds (c_lo k) (c_hi k - i * diff) k.
Definition sum_update (i diff : Z) (k : cst) : bool * cst :=
  if i * diff <? 0 then (false, set_bounds (c_lo k) (c_hi k + i * diff) k) else (true, set_bounds (c_lo k + i * diff) (c_hi k) k).

Section Sum.
Context (O : oracle) (cfg : config).

(** order_lit_ge, order_lit_le, has_literal (solver.hh 353-358, 482-512). *)
Definition order_ge (v : vstate) (x : Z) : option (Z * lit) := hd_error (vwith_ge v x).
Definition order_le (v : vstate) (x : Z) : option (Z * lit) := hd_error (vwith_le v x).
Definition has_lit (v : vstate) (x : Z) : bool := match vfind v x with Some _ => true | None => false end.
Definition litlevel (s : state) (l : lit) : nat := o_litlevel O (log s) l.

(** calculate_reason_ (constraints.cc 314-406): a literal that is false because of the
    current bound of the variable, possibly of a weaker bound using up some of the slack. *)
Definition calc_reason (x : var) (co slack : Z) (s : state) : (bool * lit * Z) * state :=
  if 0 <? co then
    let current := lb (vst s x) in
    let '(lr, s) := get_literal cfg x (current - 1) s in
    if refine_reasons cfg && (slack + co <? 0) && (0 <? dlevel O s)%nat then
      let value := Z.max (current - (slack + 1) / (- co)) (minb (vst s x)) in
      if value <? current then
        let '((ret, l, slack, current), s) :=
          match order_ge (vst s x) (value - 1) with
          | Some (w, l) =>
              if w + 1 <? current then
                let '(ret, s) := if is_false O s l then (true, s) else add_clause O Learnt [lr; - l] s in
                ((ret, l, slack - co * (w + 1 - current), w + 1), s)
              else ((true, lr, slack, current), s)
          | None => ((true, lr, slack, current), s)
          end in
        if ret && refine_introduce cfg && Nat.eqb (litlevel s l) (dlevel O s) && (value <? current) then
          let '(g, s) := get_literal cfg x (value - 1) s in
          let '(ret, s) := if is_false O s g then (true, s) else add_clause O Learnt [l; - g] s in
          ((ret, g, slack - co * (value - current)), s)
        else ((ret, l, slack), s)
      else ((true, lr, slack), s)
    else ((true, lr, slack), s)
  else
    let current := ub (vst s x) in
    let '(lr, s) := get_literal cfg x current s in
    let lr := - lr in
    if refine_reasons cfg && (slack - co <? 0) && (0 <? dlevel O s)%nat then
      let value := Z.min (current + (slack + 1) / co) (maxb (vst s x)) in
      if current <? value then
        let '((ret, l, slack, current), s) :=
          match order_le (vst s x) value with
          | Some (w, l) =>
              if current <? w then
                let '(ret, s) := if is_false O s (- l) then (true, s) else add_clause O Learnt [lr; l] s in
                ((ret, - l, slack - co * (w - current), w), s)
              else ((true, lr, slack, current), s)
          | None => ((true, lr, slack, current), s)
          end in
        if ret && refine_introduce cfg && Nat.eqb (litlevel s l) (dlevel O s) && (current <? value) then
          let '(g, s) := get_literal cfg x value s in
          let g := - g in
          let '(ret, s) := if is_false O s g then (true, s) else add_clause O Learnt [l; - g] s in
          ((ret, g, slack - co * (value - current)), s)
        else ((ret, l, slack), s)
      else ((true, lr, slack), s)
    else ((true, lr, slack), s).

(** The loops collecting the reason (constraints.cc 181-194, 252-268); literals fixed on
    the top level are dropped, the variable [skip] is left out. *)
Fixpoint reasons (skip : option var) (es : list (Z * var)) (slack : Z) (s : state) : option (list lit) * state :=
  match es with
  | [] => (Some [], s)
  | (co, x) :: r =>
      if match skip with Some y => Nat.eqb x y | None => false end then reasons skip r slack s
      else
        let '((ret, l, slack), s) := calc_reason x co slack s in
        if ret then
          let fixed := is_fixed O s l in
          let '(o, s) := reasons skip r slack s in
          (match o with Some ls => Some (if fixed then ls else l :: ls) | None => None end, s)
        else (None, s)
  end.

(** The body of the second loop of propagate (constraints.cc 207-283). *)
Definition prop_elem (tag : bool) (clit : lit) (es : list (Z * var)) (slack co : Z) (x : var) (s : state) : bool * state :=
  let v := vst s x in
  let delta := if 0 <? co then - ((slack + 1) / (- co)) else (slack + 1) / co in
  let value := (if 0 <? co then lb v else ub v) + delta in
  if (if 0 <? co then ub v <=? value else value <? lb v) then (true, s)
  else
    let w := if 0 <? co then value - 1 else value in
    let '(l, s) :=
      if has_lit v w then let '(g, s) := get_literal cfg x w s in (if 0 <? co then g else - g, s) else (0, s) in
    if (l =? 0) || negb (is_true O s l) then
      let pre := if is_fixed O s (- clit) then [] else [- clit] in
      let '(o, s) := reasons (Some x) es (slack - co * delta) s in
      match o with
      | None => (false, s)
      | Some ls =>
          let reason := pre ++ ls in
          let guess := negb (match reason with [] => true | _ => false end) || tag in
          let '(g, s) := update_literal O cfg x w (if guess then TFree else if 0 <? co then TTrue else TFalse) s in
          add_clause O (if tag then Volatile else Learnt) (reason ++ [if 0 <? co then g else - g]) s
      end
    else (true, s).
Fixpoint prop_elems (tag : bool) (clit : lit) (es : list (Z * var)) (slack : Z) (todo : list (Z * var)) (s : state) : bool * state :=
  match todo with
  | [] => (true, s)
  | (co, x) :: r =>
      let '(ok, s) := prop_elem tag clit es slack co x s in
      if ok then prop_elems tag clit es slack r s else (false, s)
  end.

(** propagate (constraints.cc 151-285); with [chk] the state is checked first
    (check_state_). *)
Definition prop_sum (chk : bool) (c : cid) (s : state) : outcome bool * state :=
  match css s c with
  | None => (UB, s)
  | Some k =>
      match sum_es (c_def k), sum_rhs s (c_def k) with
      | Some es, Ok (Some rhs) =>
          let clit := c_lit (c_def k) in
          let tag := sum_tag (c_def k) in
          if chk && negb ((c_lo k =? sum_lo s es) && (c_hi k =? sum_hi s es) && (sum_lo s es <=? sum_hi s es)) then (Throw Logic, s)
          else if c_hi k <=? rhs then (Ok true, mark_inactive c s)
          else
            let slack := rhs - c_lo k in
            if slack <? 0 then
              let '(o, s) := reasons None es slack s in
              match o with
              | None => (Ok false, s)
              | Some ls =>
                  let s := mark_inactive c s in
                  let '(b, s) := add_clause O (if tag then Volatile else Learnt) (ls ++ [- clit]) s in
                  (Ok b, s)
              end
            else if negb (is_true O s clit) then (Ok true, s)
            else let '(b, s) := prop_elems tag clit es slack es s in (Ok b, s)
      | Some es, Ok None => (Ok true, s)
      | Some _, Throw e => (Throw e, s)
      | _, _ => (UB, s)
      end
  end.

(** check_full (constraints.cc 105-136). *)
Definition check_full_sum (c : cid) (s : state) : outcome unit :=
  match css s c with
  | None => UB
  | Some k =>
      match sum_es (c_def k), sum_rhs s (c_def k) with
      | Some es, Ok (Some rhs) =>
          if negb (forallb (fun e => is_assigned (vst s (snd e))) es) then Throw Logic
          else
            let lhs := zsum (map (fun e => fst e * lb (vst s (snd e))) es) in
            if marked_inactive k then
              if c_hi k <? lhs then Throw Logic else if rhs <? lhs then Throw Logic else Ok tt
            else if negb (lhs =? c_hi k) then Throw Logic
            else if c_lo k <? lhs then Throw Logic
            else if rhs <? lhs then Throw Logic else Ok tt
      | Some es, Ok None => Ok tt
      | Some _, Throw e => Throw e
      | _, _ => UB
      end
  end.

End Sum.
