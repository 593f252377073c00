(** Model of IntervalSet<T> (util.hh 230-384).  The [std::map<T,T>] from left
    to right end is a list of pairs sorted by left end; iterators become the
    split of the list at their position. *)
From Verif Require Import Base.

Definition iset := list (Z * Z).

(** The part of the map strictly before [lower_bound(b)] (keys < b), latest first. *)
Fixpoint before_lt (b : Z) (acc : iset) (m : iset) : iset :=
  match m with
  | [] => acc
  | (x, y) :: r => if x <? b then before_lt b ((x, y) :: acc) r else acc
  end.

(** The part before [upper_bound(b)] (keys <= b), latest first, and the rest. *)
Fixpoint split_le (b : Z) (acc : iset) (m : iset) : iset * iset :=
  match m with
  | [] => (acc, [])
  | (x, y) :: r => if x <=? b then split_le b ((x, y) :: acc) r else (acc, m)
  end.

(** empty (util.hh 258). *)
Definition is_empty (m : iset) : bool := match m with [] => true | _ => false end.

(** contains(a, b) (util.hh 261-276). *)
Definition contains_range (m : iset) (a b : Z) : bool :=
  match before_lt b [] m with
  | [] => false
  | (x, y) :: _ => negb (a <? x) && negb (y <? b)
  end.

(** intersects(a, b) (util.hh 279-297). *)
Definition intersects (m : iset) (a b : Z) : bool :=
  if b <=? a then false else
  match before_lt b [] m with
  | [] => false
  | (x, y) :: _ => a <? y
  end.

(** contains(a) (util.hh 300-315). *)
Definition contains (m : iset) (a : Z) : bool :=
  match fst (split_le a [] m) with
  | [] => false
  | (x, y) :: _ => a <? y
  end.

(** The loop of add (util.hh 332-356) walking backwards over [prev]
    (latest first); [next] is the part of the map after the iterator. *)
Fixpoint add_loop (prev : iset) (a b : Z) (next : iset) : iset :=
  match prev with
  | [] => (a, b) :: next
  | (x, y) :: rest =>
      if y <? a then rev prev ++ (a, b) :: next
      else
        let b' := if b <? y then y else b in
        if x <? a then rev rest ++ (x, b') :: next
        else add_loop rest a b' next
  end.

(** add (util.hh 318-357). *)
Definition add (m : iset) (a b : Z) : iset :=
  if negb (a <? b) then m else
  let '(prev, next) := split_le b [] m in add_loop prev a b next.

(** extend (util.hh 360-364). *)
Definition extend (m other : iset) : iset :=
  fold_left (fun m p => add m (fst p) (snd p)) other m.

(** clear (util.hh 367). *)
Definition clear (m : iset) : iset := [].

(** The values x, x+1, ..., x+n-1 of the inner loop of enumerate. *)
Fixpoint zseq (x : Z) (n : nat) : list Z :=
  match n with O => [] | S k => x :: zseq (x + 1) k end.

(** All values in the order in which enumerate (util.hh 372-380) offers them
    to the callback. *)
Definition values (m : iset) : list Z :=
  flat_map (fun p => zseq (fst p) (Z.to_nat (snd p - fst p))) m.

(** enumerate (util.hh 372-380) with a callback that has a state and says
    whether to go on. *)
Fixpoint run_callback {S} (f : S -> Z -> S * bool) (s : S) (vs : list Z) : S :=
  match vs with
  | [] => s
  | v :: r => let '(s', go) := f s v in if go then run_callback f s' r else s'
  end.
Definition enumerate {S} (f : S -> Z -> S * bool) (s : S) (m : iset) : S :=
  run_callback f s (values m).

(** Sequences of modifications. *)
Inductive iop := OpAdd (a b : Z) | OpExtend (other : iset) | OpClear.
Definition istep (m : iset) (o : iop) : iset :=
  match o with
  | OpAdd a b => add m a b
  | OpExtend other => extend m other
  | OpClear => clear m
  end.
Definition irun (ops : list iop) : iset := fold_left istep ops [].
