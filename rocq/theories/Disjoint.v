(** Model of disjoint constraints: DisjointConstraintState (constraints.cc 1593-1893).
    [up] stands for the template parameter PropagateType::Upper.  Sums of the type val_t are checked to be
    in the range of the type.  The negations in [dlower] and [dupper] are not: the numbers they are applied to
    are left ends of intervals or the (checked) right ends of non-empty intervals.
    std::sort does not fix the order of elements with the same key; [srt] is any function that
    sorts the intervals for a key. *)
From Verif Require Import Base Util IntervalSet VarState Solver Sum Distinct.
Open Scope Z_scope.

(** lower and upper of an interval (constraints.cc 1608-1622), changed (1632-1634). *)
Definition dlower (up : bool) (i : ival) : Z := if up then - iv_right i else iv_left i.
Definition dupper (up : bool) (i : ival) : Z := if up then - iv_left i else iv_right i.
Definition dchanged (i : ival) : bool := negb (iv_left i =? iv_lleft i) || negb (iv_right i =? iv_lright i).
Definition set_last (i : ival) (l r : Z) : ival := mkival (iv_var i) (iv_left i) (iv_right i) l r (iv_weight i) (iv_u i).
Definition set_u (i : ival) (u : Z) : ival := mkival (iv_var i) (iv_left i) (iv_right i) (iv_lleft i) (iv_lright i) (iv_weight i) u.

(** Result of a propagation step together with the intervals and the state. *)
Definition dres := (outcome bool * list ival * state)%type.

Section Disjoint.
Context (srt : (ival -> Z) -> list ival -> list ival) (O : oracle) (cfg : config).

(** update_bound (constraints.cc 1636-1665); the reason is never empty when update_literal is called. *)
Definition dj_update_bound (up : bool) (r : list lit) (i : ival) (b : Z) (s : state) : outcome bool * ival * state :=
  let x := iv_var i in
  if up then
    let '(g, s) := get_literal cfg x (ub (vst s x)) s in
    let r := r ++ [- g] in
    match (nb <- ineg int32 b ;; w <- isub int32 nb (iv_weight i) ;; iadd int32 w 1) with
    | Ok w =>
        let '(l, s) := update_literal O cfg x (Z.max w (lb (vst s x) - 1)) (if is_nil r then TTrue else TFree) s in
        let '(ok, s) := add_clause O Learnt (r ++ [l]) s in
        (Ok ok, set_last i (iv_lleft i) (- b), s)
    | _ => (UB, i, s)
    end
  else
    let '(g, s) := get_literal cfg x (lb (vst s x) - 1) s in
    let r := r ++ [g] in
    match isub int32 b 1 with
    | Ok w =>
        let '(l, s) := update_literal O cfg x (Z.min w (ub (vst s x))) (if is_nil r then TFalse else TFree) s in
        let '(ok, s) := add_clause O Learnt (r ++ [- l]) s in
        (Ok ok, set_last i b (iv_lright i), s)
    | _ => (UB, i, s)
    end.

(** calculate_reason (constraints.cc 1667-1691) for the intervals [is] up to the current one. *)
Fixpoint dj_reason_loop (up : bool) (a : Z) (is : list ival) (r : list lit) (s : state) : list lit * state :=
  match is with
  | [] => (r, s)
  | i :: t =>
      if a <=? dlower up i then
        let x := iv_var i in
        let '(l, s) := get_literal cfg x (lb (vst s x) - 1) s in
        let '(u, s) := get_literal cfg x (ub (vst s x)) s in
        let r := push_reason O s l r in
        dj_reason_loop up a t (push_reason O s (- u) r) s
      else dj_reason_loop up a t r s
  end.
Definition dj_reason (up : bool) (clit a : Z) (is : list ival) (s : state) : list lit * state :=
  dj_reason_loop up a is (if is_fixed O s clit then [] else [- clit]) s.

(** propagate(a, b, i) (constraints.cc 1694-1710): [pre] are the intervals up to the current one, the
    reason is calculated when it is first needed. *)
Fixpoint dj_hall (up : bool) (clit a b : Z) (pre : list ival) (reason : option (list lit)) (post : list ival) (s : state) : dres :=
  match post with
  | [] => (Ok true, [], s)
  | j :: t =>
      if (a <=? dlower up j) && (dlower up j <=? b) then
        let '(r, s) := match reason with Some r => (r, s) | None => dj_reason up clit a pre s end in
        match iadd int32 b 1 with
        | Ok b1 =>
            let '(o, j, s) := dj_update_bound up r j b1 s in
            match o with
            | Ok true => let '(o, t, s) := dj_hall up clit a b pre (Some r) t s in (o, j :: t, s)
            | _ => (o, j :: t, s)
            end
        | _ => (UB, j :: t, s)
        end
      else let '(o, t, s) := dj_hall up clit a b pre reason t s in (o, j :: t, s)
  end.

(** The loop over the intervals before the current one in insert (constraints.cc 1720-1732): the intervals with
    updated sums, the current interval, the left end of the largest Hall interval ending
    with the current interval, and the left end of an overfull interval if there is one. *)
Fixpoint dj_insert_loop (up : bool) (x : ival) (k : option Z) (pre : list ival) : outcome (list ival * ival * option Z * option Z) :=
  match pre with
  | [] => Ok ([], x, k, None)
  | j :: t =>
      if dlower up j <? dlower up x then
        u <- iadd int32 (iv_u j) (iv_weight x) ;;
        let j := set_u j u in
        if dupper up x <? u then Ok (j :: t, x, k, Some (dlower up j))
        else
          let k := if (u =? dupper up x) && (match k with None => true | Some l => dlower up j <? l end) then Some (dlower up j) else k in
          '(t, x, k, c) <- dj_insert_loop up x k t ;; Ok (j :: t, x, k, c)
      else
        u <- iadd int32 (iv_u x) (iv_weight j) ;;
        '(t, x, k, c) <- dj_insert_loop up (set_u x u) k t ;; Ok (j :: t, x, k, c)
  end.
(** insert (constraints.cc 1712-1742): [pre] are the intervals before and [post] those after the current one. *)
Definition dj_insert (up : bool) (clit : Z) (pre : list ival) (x : ival) (post : list ival) (s : state) : outcome bool * (list ival * ival * list ival) * state :=
  let x := set_last x (iv_left x) (iv_right x) in
  match (w <- iadd int32 (dlower up x) (iv_weight x) ;; isub int32 w 1) with
  | Ok u =>
      match dj_insert_loop up (set_u x u) None pre with
      | Ok (pre, x, k, Some a) =>
          let '(r, s) := dj_reason up clit a (pre ++ [x]) s in
          let '(b, s) := add_clause O Learnt r s in (Ok b, (pre, x, post), s)
      | Ok (pre, x, k, None) =>
          if dupper up x <? iv_u x then
            let '(r, s) := dj_reason up clit (dlower up x) (pre ++ [x]) s in
            let '(b, s) := add_clause O Learnt r s in (Ok b, (pre, x, post), s)
          else
            let k := if (iv_u x =? dupper up x) && (match k with None => true | Some l => dlower up x <? l end) then Some (dlower up x) else k in
            match k with
            | None => (Ok true, (pre, x, post), s)
            | Some a => let '(o, post, s) := dj_hall up clit a (dupper up x) (pre ++ [x]) None post s in (o, (pre, x, post), s)
            end
      | Throw e => (Throw e, (pre, x, post), s)
      | UB => (UB, (pre, x, post), s)
      end
  | Throw e => (Throw e, (pre, x, post), s)
  | UB => (UB, (pre, x, post), s)
  end.
(** propagate() (constraints.cc 1744-1751); [n] is the number of intervals left. *)
Fixpoint dj_items (n : nat) (up : bool) (clit : Z) (pre post : list ival) (s : state) : dres :=
  match n, post with
  | S n, x :: post =>
      let '(o, (pre, x, post), s) := dj_insert up clit pre x post s in
      match o with
      | Ok true => dj_items n up clit (pre ++ [x]) post s
      | _ => (o, pre ++ x :: post, s)
      end
  | _, _ => (Ok true, pre ++ post, s)
  end.

(** The loop of run (constraints.cc 1753-1774) goes over the sorted intervals from the last to the first; [rl]
    is the part left in reverse order.  dj_group collects intervals as long as they overlap with the range of the group. *)
Fixpoint dj_group (up : bool) (mn : Z) (chg : bool) (g : list ival) (rl : list ival) : list ival * bool * list ival :=
  match rl with
  | y :: r => if mn <=? dupper up y then dj_group up (Z.min (dlower up y) mn) (chg || dchanged y) (y :: g) r else (g, chg, rl)
  | [] => (g, chg, [])
  end.
Fixpoint dj_groups (n : nat) (up : bool) (clit : Z) (force : bool) (rl done : list ival) (s : state) : dres :=
  match n, rl with
  | S n, y :: r =>
      let '(g, chg, r) := dj_group up (dlower up y) (force || dchanged y) [y] r in
      if chg then
        let '(o, g, s) := dj_items (length g) up clit [] g s in
        match o with
        | Ok true => dj_groups n up clit force r (g ++ done) s
        | _ => (o, rev r ++ g ++ done, s)
        end
      else dj_groups n up clit force r (g ++ done) s
  | _, _ => (Ok true, rev rl ++ done, s)
  end.
Definition dj_run (up : bool) (clit : Z) (force : bool) (iv : list ival) (s : state) : dres :=
  let iv := srt (dupper up) iv in
  dj_groups (length iv) up clit force (rev iv) [] s.

(** The bounds of the intervals (constraints.cc 1841-1845). *)
Fixpoint dj_refresh (s : state) (iv : list ival) : outcome (list ival) :=
  match iv with
  | [] => Ok []
  | i :: t =>
      w <- iadd int32 (ub (vst s (iv_var i))) (iv_weight i) ;; r <- isub int32 w 1 ;;
      t <- dj_refresh s t ;;
      Ok (mkival (iv_var i) (lb (vst s (iv_var i))) r (iv_lleft i) (iv_lright i) (iv_weight i) (iv_u i) :: t)
  end.
(** propagate (constraints.cc 1832-1851). *)
Definition prop_disjoint (c : cid) (s : state) : outcome bool * state :=
  match css s c with
  | Some k =>
      match c_def k with
      | CDisjoint clit _ =>
          match dj_refresh s (c_iv k) with
          | Ok iv =>
              let '(o, iv, s) := dj_run false clit (c_force k) iv s in
              match o with
              | Ok true =>
                  let '(o, iv, s) := dj_run true clit (c_force k) iv s in
                  (o, set_cs c (set_disj iv false k) s)
              | _ => (o, set_cs c (set_disj iv false k) s)
              end
          | _ => (UB, s)
          end
      | _ => (UB, s)
      end
  | None => (UB, s)
  end.
End Disjoint.

(** The initial intervals (constraints.cc 1781-1786). *)
Definition disj_init (es : list (Z * var)) : list ival := map (fun e => mkival (snd e) 0 0 0 0 (fst e) 0) es.
(** undo (constraints.cc 1826-1830); update (1820-1824) only asks for propagation. *)
Definition disj_undo (k : cst) : cst := set_disj (c_iv k) true k.

(** check_full (constraints.cc 1853-1864). *)
Fixpoint check_disjoint (s : state) (es : list (Z * var)) (m : iset) : outcome unit :=
  match es with
  | [] => Ok tt
  | (w, x) :: t =>
      u <- iadd int32 (ub (vst s x)) w ;;
      if intersects m (lb (vst s x)) u then Throw Logic else check_disjoint s t (add m (lb (vst s x)) u)
  end.
Definition check_full_disjoint (c : cid) (s : state) : outcome unit :=
  match css s c with
  | Some k => match c_def k with CDisjoint _ es => check_disjoint s es [] | _ => UB end
  | None => UB
  end.
