(** Model of distinct constraints: DistinctConstraintState (constraints.cc 795-1315).
    Values are unbounded integers.  The sets lower_ and upper_ contain the pairs of the lower
    (upper) bound of each element and its index, so walking over the entries of a value in
    them is walking over the indices of assigned_ with this bound in ascending order. *)
From Verif Require Import Base Util IntervalSet VarState Solver Sum Translate.
Open Scope Z_scope.

(** An element: its fixed part and its linear terms. *)
Definition delem := (Z * list (Z * var))%type.

(** init_ (constraints.cc 1252-1272): lower and upper bound of an element. *)
Definition dist_init (s : state) (e : delem) : Z * Z := (fst e + sum_lo s (snd e), fst e + sum_hi s (snd e)).

Definition memb (i : nat) (l : list nat) : bool := existsb (Nat.eqb i) l.
Definition add_once (i : nat) (l : list nat) : list nat := if memb i l then l else l ++ [i].

(** update and undo (constraints.cc 935-953) with mark_dirty_, mark_todo_, clear_todo_
    (1219-1250); watches of element [idx] are registered with the value [idx + 1] or
    [- idx - 1] depending on the sign of the coefficient. *)
Definition dist_update (i : Z) (k : cst) : bool * cst :=
  let idx := Z.to_nat (Z.abs i - 1) in
  let d := add_once idx (c_dirty k) in
  (true, if 0 <? i then set_dist (c_asg k) d (c_tup k) (add_once idx (c_tlo k)) k
         else set_dist (c_asg k) d (add_once idx (c_tup k)) (c_tlo k) k).
Definition dist_undo (i : Z) (k : cst) : cst :=
  set_dist (c_asg k) (add_once (Z.to_nat (Z.abs i - 1)) (c_dirty k)) [] [] k.

(** update_ (constraints.cc 1274-1288): recalculate the dirty elements. *)
Definition dist_refresh (s : state) (es : list delem) (dirty : list nat) (asg : list (Z * Z)) : list (Z * Z) :=
  map (fun p => let '(i, (e, a)) := p in if memb i dirty then dist_init s e else a) (combine (seq 0 (length es)) (combine es asg)).

Section Distinct.
Context (O : oracle) (cfg : config).

Definition push_reason (s : state) (l : lit) (r : list lit) : list lit := if is_fixed O s l then r else r ++ [l].

(** The literals explaining that all variables of an element are assigned (constraints.cc 1163-1179). *)
Fixpoint reason_assigned (es : list (Z * var)) (r : list lit) (s : state) : list lit * state :=
  match es with
  | [] => (r, s)
  | (_, x) :: t =>
      let '(u, s) := get_literal cfg x (ub (vst s x)) s in
      let r := push_reason s (- u) r in
      let '(l, s) := get_literal cfg x (lb (vst s x) - 1) s in
      reason_assigned t (push_reason s l r) s
  end.
Definition is_nil {A} (l : list A) : bool := match l with [] => true | _ => false end.
(** The literals for the bounded element and the consequences (constraints.cc 1182-1214);
    no clause is needed if a consequence is already true. *)
Fixpoint reason_bounded (sgn : Z) (fact : bool) (es : list (Z * var)) (r : list lit) (s : state) : option (list lit) * state :=
  match es with
  | [] => (Some r, s)
  | (co, x) :: t =>
      if 0 <? sgn * co then
        let '(u, s) := get_literal cfg x (ub (vst s x)) s in
        let r := push_reason s (- u) r in
        let '(l, s) := update_literal O cfg x (ub (vst s x) - 1) (if fact && is_nil r then TTrue else TFree) s in
        if is_true O s l then (None, s) else reason_bounded sgn fact t (r ++ [l]) s
      else
        let '(l, s) := get_literal cfg x (lb (vst s x) - 1) s in
        let r := push_reason s l r in
        let '(u, s) := update_literal O cfg x (lb (vst s x)) (if fact && is_nil r then TFalse else TFree) s in
        if is_true O s (- u) then (None, s) else reason_bounded sgn fact t (r ++ [- u]) s
  end.
(** propagate_ (constraints.cc 1149-1217) for the assigned element [ei] and the element [ej]
    whose upper ([sgn > 0]) or lower bound has the same value. *)
Definition dist_pair (clit sgn : Z) (ei ej : delem) (s : state) : bool * state :=
  let r := push_reason s (- clit) [] in
  let '(r, s) := reason_assigned (snd ei) r s in
  match reason_bounded sgn (Nat.eqb (length (snd ej)) 1) (snd ej) r s with
  | (None, s) => (true, s)
  | (Some r, s) => add_clause O Learnt r s
  end.

(** The indices of the elements with the given lower or upper bound in ascending order. *)
Definition with_value (f : Z * Z -> Z) (asg : list (Z * Z)) (v : Z) : list nat :=
  map fst (filter (fun p => f (snd p) =? v) (combine (seq 0 (length asg)) asg)).
Definition fixed_at (asg : list (Z * Z)) (i : nat) : bool :=
  match nth_error asg i with Some (a, b) => a =? b | None => false end.

(** The loops of propagate_assigned_ (constraints.cc 1110-1124). *)
Fixpoint dist_others (clit sgn : Z) (es : list delem) (i : nat) (js : list nat) (s : state) : outcome bool * state :=
  match js with
  | [] => (Ok true, s)
  | j :: js =>
      if Nat.eqb j i then dist_others clit sgn es i js s
      else match nth_error es i, nth_error es j with
           | Some ei, Some ej =>
               let '(ok, s) := dist_pair clit sgn ei ej s in
               if ok then dist_others clit sgn es i js s else (Ok false, s)
           | _, _ => (UB, s)
           end
  end.
Definition andthen (r : outcome bool * state) (f : state -> outcome bool * state) : outcome bool * state :=
  match r with (Ok true, s) => f s | r => r end.
Definition dist_assigned (clit : Z) (es : list delem) (asg : list (Z * Z)) (v : Z) (i : nat) (s : state) : outcome bool * state :=
  andthen (dist_others clit 1 es i (with_value snd asg v) s) (dist_others clit (-1) es i (with_value fst asg v)).

(** One entry of the todo lists (constraints.cc 961-980 with [f] the lower bound and
    [sgn = -1], 984-1004 with the upper bound and [sgn = 1]). *)
Definition dist_item (clit sgn : Z) (f : Z * Z -> Z) (es : list delem) (asg : list (Z * Z)) (tlo tup : list nat) (i : nat) (s : state) : outcome bool * state :=
  match nth_error asg i with
  | None => (UB, s)
  | Some (lo, hi) =>
      if lo =? hi then dist_assigned clit es asg lo i s
      else match find (fixed_at asg) (with_value f asg (f (lo, hi))) with
           | None => (Ok true, s)
           | Some j =>
               if memb j tlo || memb j tup then (Ok true, s)
               else match nth_error es j, nth_error es i with
                    | Some ej, Some ei => let '(ok, s) := dist_pair clit sgn ej ei s in (Ok ok, s)
                    | _, _ => (UB, s)
                    end
           end
  end.
Fixpoint dist_items (clit sgn : Z) (f : Z * Z -> Z) (es : list delem) (asg : list (Z * Z)) (tlo tup : list nat) (is : list nat) (s : state) : outcome bool * state :=
  match is with
  | [] => (Ok true, s)
  | i :: is => andthen (dist_item clit sgn f es asg tlo tup i s) (dist_items clit sgn f es asg tlo tup is)
  end.

(** propagate (constraints.cc 956-1009). *)
Definition prop_distinct (c : cid) (s : state) : outcome bool * state :=
  match css s c with
  | Some k =>
      match c_def k with
      | CDistinct clit es =>
          let asg := dist_refresh s es (c_dirty k) (c_asg k) in
          let s := set_cs c (set_dist asg [] (c_tup k) (c_tlo k) k) s in
          andthen (dist_items clit (-1) fst es asg (c_tlo k) (c_tup k) (c_tlo k) s) (fun s =>
          andthen (dist_items clit 1 snd es asg (c_tlo k) (c_tup k) (c_tup k) s) (fun s =>
          (Ok true, set_cs c (set_dist asg [] [] [] k) s)))
      | _ => (UB, s)
      end
  | None => (UB, s)
  end.

(** check_full (constraints.cc 1011-1026). *)
Fixpoint check_values (s : state) (es : list delem) (seen : list Z) : outcome unit :=
  match es with
  | [] => Ok tt
  | (fixed, ts) :: r =>
      if negb (forallb (fun e => is_assigned (vst s (snd e))) ts) then Throw Logic
      else
        let v := fixed + zsum (map (fun e => fst e * lb (vst s (snd e))) ts) in
        if existsb (Z.eqb v) seen then Throw Logic else check_values s r (v :: seen)
  end.
Definition check_full_distinct (c : cid) (s : state) : outcome unit :=
  match css s c with
  | Some k => match c_def k with CDistinct _ es => check_values s es [] | _ => UB end
  | None => UB
  end.

(** ** Translation (constraints.cc 841-927, 1044-1108) *)

(** estimate_ (constraints.cc 1072-1087). *)
Definition dist_estimate (maximum : Z) (asg : list (Z * Z)) : bool :=
  forallb (fun a => (MIN_VAL <=? fst a) && (snd a <=? MAX_VAL)) asg &&
  (zsum (map (fun p => snd p - fst p) (fold_left (fun m a => add m (fst a) (snd a)) asg [])) <? maximum).

(** domain_ (constraints.cc 1090-1108). *)
Fixpoint dist_shifts (current : iset) (co : Z) (n : nat) (d : Z) (values : iset) : iset :=
  match n with
  | 0%nat => values
  | S n => dist_shifts current co n (d + co) (fold_left (fun m p => add m (fst p + d) (snd p + d)) current values)
  end.
Fixpoint dist_domain (s : state) (ts : list (Z * var)) (values : iset) : iset :=
  match ts with
  | [] => values
  | (co, x) :: r =>
      let v := vst s x in
      dist_domain s r (dist_shifts values (Z.abs co) (Z.to_nat (ub v - lb v)) (Z.abs co) values)
  end.

(** The table of the numbers of elements that can have a value, in ascending order of
    values (constraints.cc 847-856). *)
Fixpoint bump (v : Z) (m : list (Z * nat)) : list (Z * nat) :=
  match m with
  | [] => [(v, 1%nat)]
  | (w, n) :: r => if v <? w then (v, 1%nat) :: m else if w =? v then (w, S n) :: r else (w, n) :: bump v r
  end.
Definition dist_counts (doms : list iset) : list (Z * nat) :=
  fold_left (fun m d => fold_left (fun m v => bump v m) (values d) m) doms [].
Definition count_of (m : list (Z * nat)) (v : Z) : nat :=
  match find (fun p => fst p =? v) m with Some (_, n) => n | None => 0%nat end.

(** var_ (constraints.cc 1045-1065): the fixed part, coefficient and variable standing for an
    element, and the constraints added for a new variable. *)
Definition dist_var (e : delem) (a : Z * Z) (s : state) : (Z * Z * option var) * list constr * state :=
  match snd e with
  | [(co, x)] => ((fst e, co, Some x), [], s)
  | ts =>
      let '(x, s) := add_variable (fst a) (snd a) s in
      ((0, 1, Some x),
       [CSum TRUE_LIT (- fst e) ((-1, x) :: ts);
        CSum TRUE_LIT (fst e) (map (fun t => (- fst t, snd t)) ((-1, x) :: ts))], s)
  end.
(** The loop choosing the variables (constraints.cc 860-873). *)
Fixpoint dist_vars (cnt : list (Z * nat)) (l : list (delem * (Z * Z) * iset)) (s : state) : list (Z * Z * option var) * list constr * state :=
  match l with
  | [] => ([], [], s)
  | (e, a, d) :: r =>
      let '(de, cs, s) :=
        if negb (is_nil (snd e)) && existsb (fun v => (1 <? count_of cnt v)%nat) (values d)
        then dist_var e a s else ((fst e, 1, None), [], s) in
      let '(des, css, s) := dist_vars cnt r s in
      (de :: des, cs ++ css, s)
  end.
(** The literal for an element having a value (constraints.cc 888-916). *)
Definition dist_lit (v : Z) (de : Z * Z * option var) (s : state) : (bool * lit) * state :=
  let '(fixed, co, x) := de in
  match x with
  | None => ((true, TRUE_LIT), s)
  | Some x =>
      let adjust := Z.quot (v - fixed) co in
      let '(a, s) := get_literal cfg x adjust s in
      let '(b, s) := get_literal cfg x (adjust - 1) s in
      let b := - b in
      if a =? TRUE_LIT then ((true, b), s)
      else if b =? - TRUE_LIT then ((true, a), s)
      else
        let '(l, s) := add_literal s in
        let '(ok, s) := add_clause O Learnt [- a; - b; l] s in
        if ok then
          let '(ok, s) := add_clause O Learnt [a; - l] s in
          if ok then let '(ok, s) := add_clause O Learnt [b; - l] s in ((ok, l), s) else ((false, l), s)
        else ((false, l), s)
  end.
Fixpoint dist_wlits (v : Z) (l : list (iset * (Z * Z * option var))) (s : state) : (bool * list (lit * Z)) * state :=
  match l with
  | [] => ((true, []), s)
  | (d, de) :: r =>
      if contains d v then
        let '((ok, l), s) := dist_lit v de s in
        if ok then let '((ok, wl), s) := dist_wlits v r s in ((ok, (l, 1) :: wl), s) else ((false, []), s)
      else dist_wlits v r s
  end.
(** The loop over the values (constraints.cc 875-924). *)
Fixpoint dist_weights (clit : Z) (cnt : list (Z * nat)) (l : list (iset * (Z * Z * option var))) (s : state) : bool * state :=
  match cnt with
  | [] => (true, s)
  | (v, n) :: r =>
      if (n <=? 1)%nat then dist_weights clit r l s
      else
        let '((ok, wl), s) := dist_wlits v l s in
        if ok then let '(ok, s) := add_weight O clit wl 1 s in if ok then dist_weights clit r l s else (false, s)
        else (false, s)
  end.
(** translate (constraints.cc 841-927): success, whether the constraint is to be removed, and
    the constraints added. *)
Definition translate_distinct (limit : Z) (k : cst) (s : state) : outcome (bool * bool * list constr) * state :=
  match c_def k with
  | CDistinct clit es =>
      if negb (dist_estimate limit (c_asg k)) then (Ok (true, false, []), s)
      else
        let doms := map (fun p => dist_domain s (snd (fst p)) (add [] (fst (snd p)) (fst (snd p) + 1))) (combine es (c_asg k)) in
        let cnt := dist_counts doms in
        let '(des, cs, s) := dist_vars cnt (combine (combine es (c_asg k)) doms) s in
        let '(ok, s) := dist_weights clit cnt (combine doms des) s in
        (Ok (ok, ok, cs), s)
  | _ => (UB, s)
  end.
End Distinct.
