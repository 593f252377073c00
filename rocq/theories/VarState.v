(** Model of VarState (clingcon/solver.hh 159-570): the bounds of a variable with
    their stacks and its order literals, stored either sparsely (a sorted map from
    values to literals) or densely (a vector with an offset). *)
From Verif Require Import Base.
From Coq Require Import Sorting.Sorted.
Open Scope Z_scope.

Notation lit := Z (only parsing).
Notation val := Z (only parsing).

(** ** Order literal storage *)

(** litmap_ / litvec_ and offset_ (solver.hh 560-568).  The map is its sorted list
    of entries; the offset [unused] is the sparse case. *)
Inductive store := SMap (m : list (val * lit)) | SVec (off : val) (vec : list lit).

(** std::map operations: find, emplace (keeps an existing entry), operator[] =, erase. *)
Fixpoint m_find (m : list (val * lit)) (v : val) : option lit :=
  match m with [] => None | (k, l) :: r => if k =? v then Some l else m_find r v end.
Fixpoint m_emplace (m : list (val * lit)) (v : val) (l : lit) : list (val * lit) :=
  match m with
  | [] => [(v, l)]
  | (k, l') :: r => if v <? k then (v, l) :: m else if k =? v then m else (k, l') :: m_emplace r v l
  end.
Fixpoint m_set (m : list (val * lit)) (v : val) (l : lit) : list (val * lit) :=
  match m with
  | [] => [(v, l)]
  | (k, l') :: r => if v <? k then (v, l) :: m else if k =? v then (v, l) :: r else (k, l') :: m_set r v l
  end.
Fixpoint m_erase (m : list (val * lit)) (v : val) : list (val * lit) :=
  match m with [] => [] | (k, l) :: r => if k =? v then r else (k, l) :: m_erase r v end.

(** litvec_[i]; an index outside the vector is undefined behaviour. *)
Definition v_get (vec : list lit) (i : Z) : outcome lit :=
  if i <? 0 then UB else match nth_error vec (Z.to_nat i) with Some l => Ok l | None => UB end.
Fixpoint upd_nth (vec : list lit) (i : nat) (l : lit) : list lit :=
  match vec, i with [], _ => [] | _ :: r, O => l :: r | x :: r, S i => x :: upd_nth r i l end.
Definition v_set (vec : list lit) (i : Z) (l : lit) : outcome (list lit) :=
  if (0 <=? i) && (i <? Z.of_nat (length vec)) then Ok (upd_nth vec (Z.to_nat i) l) else UB.

Definition MOGRIFY_FACTOR := 10.

(** mogrify_ (solver.hh 515-534): switch to the vector if the map is dense enough
    and all its values are inside the current top level bounds. *)
Fixpoint fill (off : val) (m : list (val * lit)) (vec : list lit) : outcome (list lit) :=
  match m with [] => Ok vec | (v, l) :: r => vec' <- v_set vec (v - off) l ;; fill off r vec' end.
Definition mogrify (mn mx : val) (m : list (val * lit)) : outcome (option store) :=
  if Z.quot (mx - mn) MOGRIFY_FACTOR <? Z.of_nat (length m) then
    match m with
    | [] => UB
    | (f, _) :: _ =>
        if (mn <=? f) && (fst (last m (0, 0)) <? mx) then
          vec <- fill mn m (repeat 0 (Z.to_nat (mx - mn))) ;; Ok (Some (SVec mn vec))
        else Ok None
    end
  else Ok None.

(** get_or_add_literal (solver.hh 345-351): the current literal, 0 if there was
    none; the caller writes the new literal through the returned reference
    ([assign_ref]). *)
Definition get_or_add (mn mx : val) (st : store) (v : val) : outcome (lit * store) :=
  match st with
  | SMap m =>
      o <- mogrify mn mx m ;;
      match o with
      | Some (SVec off vec) => l <- v_get vec (v - off) ;; Ok (l, SVec off vec)
      | Some st' => Ok (0, st')
      | None =>
          let m' := m_emplace m v 0 in
          match m_find m' v with Some l => Ok (l, SMap m') | None => UB end
      end
  | SVec off vec => l <- v_get vec (v - off) ;; Ok (l, st)
  end.
Definition assign_ref (st : store) (v : val) (l : lit) : outcome store :=
  match st with
  | SMap m => Ok (SMap (m_set m v l))
  | SVec off vec => vec' <- v_set vec (v - off) l ;; Ok (SVec off vec')
  end.

(** has_literal (solver.hh 353-358). *)
Definition has_literal (st : store) (v : val) : outcome bool :=
  match st with
  | SMap m => Ok (match m_find m v with Some _ => true | None => false end)
  | SVec off vec => l <- v_get vec (v - off) ;; Ok (negb (l =? 0))
  end.
(** get_literal (solver.hh 360-373). *)
Definition find_literal (st : store) (v : val) : outcome (option lit) :=
  match st with
  | SMap m => Ok (m_find m v)
  | SVec off vec => l <- v_get vec (v - off) ;; Ok (if l =? 0 then None else Some l)
  end.
(** set_literal (solver.hh 376-382). *)
Definition set_literal (mn mx : val) (st : store) (v : val) (l : lit) : outcome store :=
  match st with
  | SMap m =>
      o <- mogrify mn mx m ;;
      match o with
      | Some (SVec off vec) => vec' <- v_set vec (v - off) l ;; Ok (SVec off vec')
      | Some st' => Ok st'
      | None => Ok (SMap (m_set m v l))
      end
  | SVec off vec => vec' <- v_set vec (v - off) l ;; Ok (SVec off vec')
  end.
(** unset_literal (solver.hh 384-390). *)
Definition unset_literal (st : store) (v : val) : outcome store :=
  match st with
  | SMap m => Ok (SMap (m_erase m v))
  | SVec off vec => vec' <- v_set vec (v - off) 0 ;; Ok (SVec off vec')
  end.

(** Traversals (solver.hh 398-437, 536-556): the values and literals visited, in
    the order of the traversal.  For the vector the first index is clamped into
    the vector and zero literals are skipped. *)
Fixpoint indexed (off : val) (vec : list lit) : list (val * lit) :=
  match vec with [] => [] | l :: r => (off, l) :: indexed (off + 1) r end.
Definition nonzero (e : val * lit) : bool := negb (snd e =? 0).
Definition clamp (vec : list lit) (i : Z) : nat := Z.to_nat (Z.min (Z.max 0 i) (Z.of_nat (length vec))).

Definition with_all (st : store) : list (val * lit) :=
  match st with SMap m => m | SVec off vec => filter nonzero (indexed off vec) end.
Definition with_lt (st : store) (v : val) : list (val * lit) :=
  match st with
  | SMap m => rev (filter (fun e => fst e <? v) m)
  | SVec off vec => filter nonzero (rev (firstn (clamp vec (v - off)) (indexed off vec)))
  end.
Definition with_le (st : store) (v : val) : list (val * lit) :=
  match st with
  | SMap m => rev (filter (fun e => fst e <=? v) m)
  | SVec off vec => filter nonzero (rev (firstn (clamp vec (v - off + 1)) (indexed off vec)))
  end.
Definition with_gt (st : store) (v : val) : list (val * lit) :=
  match st with
  | SMap m => filter (fun e => v <? fst e) m
  | SVec off vec => filter nonzero (skipn (clamp vec (v - off + 1)) (indexed off vec))
  end.
Definition with_ge (st : store) (v : val) : list (val * lit) :=
  match st with
  | SMap m => filter (fun e => v <=? fst e) m
  | SVec off vec => filter nonzero (skipn (clamp vec (v - off)) (indexed off vec))
  end.
(** lit_lt .. lit_ge, order_lit_lt .. order_lit_ge (solver.hh 440-499): first entry visited. *)
Definition first_lit (l : list (val * lit)) : lit := match l with (_, x) :: _ => x | [] => 0 end.
Definition first_olit (l : list (val * lit)) : option (lit * val) := match l with (v, x) :: _ => Some (x, v) | [] => None end.
Definition lit_lt st v := first_lit (with_lt st v).
Definition lit_le st v := first_lit (with_le st v).
Definition lit_gt st v := first_lit (with_gt st v).
Definition lit_ge st v := first_lit (with_ge st v).
Definition order_lit_lt st v := first_olit (with_lt st v).
Definition order_lit_le st v := first_olit (with_le st v).
Definition order_lit_gt st v := first_olit (with_gt st v).
Definition order_lit_ge st v := first_olit (with_ge st v).
(** lit_prev, lit_succ (solver.hh 502-512). *)
Definition lit_prev st v : lit := let l := lit_lt st v in if l =? 0 then - 1 else l.
Definition lit_succ st v : lit := let l := lit_gt st v in if l =? 0 then 1 else l.

(** Lists of entries in strictly ascending order of their values. *)
Definition klt (a b : Z * Z) := fst a < fst b.
Definition sorted (m : list (Z * Z)) := StronglySorted klt m.
