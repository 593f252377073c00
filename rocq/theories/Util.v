(** Model of util.hh (arithmetic) and check_valid_value (base.hh). *)
From Verif Require Import Base.

(** safe_add (util.hh 393-404). *)
Definition safe_add (t : ity) (a b : Z) : outcome Z :=
  if 0 <? b then
    m <- isub t (imax t) b ;;
    if m <? a then Throw Overflow else iadd t a b
  else if b <? 0 then
    m <- isub t (imin t) b ;;
    if a <? m then Throw Underflow else iadd t a b
  else iadd t a b.

(** safe_sub (util.hh 408-419). *)
Definition safe_sub (t : ity) (a b : Z) : outcome Z :=
  if 0 <? b then
    m <- iadd t (imin t) b ;;
    if a <? m then Throw Underflow else isub t a b
  else if b <? 0 then
    m <- iadd t (imax t) b ;;
    if m <? a then Throw Overflow else isub t a b
  else isub t a b.

(** safe_mul (util.hh 423-442). *)
Definition safe_mul (t : ity) (a b : Z) : outcome Z :=
  if 0 <? a then
    if 0 <? b then
      q <- idiv t (imax t) b ;;
      if q <? a then Throw Overflow else imul t a b
    else
      q <- idiv t (imin t) a ;;
      if b <? q then Throw Underflow else imul t a b
  else
    if 0 <? b then
      q <- idiv t (imin t) b ;;
      if a <? q then Throw Underflow else imul t a b
    else if a <? 0 then
      q <- idiv t (imax t) a ;;
      if b <? q then Throw Overflow else imul t a b
    else imul t a b.

(** safe_div (util.hh 445-456). *)
Definition safe_div (t : ity) (a b : Z) : outcome Z :=
  if (a =? imin t) && (b =? -1) then Throw Overflow
  else if b =? 0 then (if a <? 0 then Throw Underflow else Throw Overflow)
  else idiv t a b.

(** safe_mod (util.hh 460-471). *)
Definition safe_mod (t : ity) (a b : Z) : outcome Z :=
  if (a =? imin t) && (b =? -1) then Throw Overflow
  else if b =? 0 then (if a <? 0 then Throw Underflow else Throw Overflow)
  else irem t a b.

(** safe_inv (util.hh 474-479). *)
Definition safe_inv (t : ity) (a : Z) : outcome Z :=
  if a =? imin t then Throw Overflow else ineg t a.

(** sc_check / safe_cast between two different signed types (util.hh 44-49, 66-71);
    between equal types the test is skipped. *)
Definition safe_cast_ss (t s : ity) (same : bool) (x : Z) : outcome Z :=
  if negb same && ((x <? imin t) || (imax t <? x)) then Throw Overflow else Ok x.

(** Unsigned types are [0, 2^w-1]; conversions to them reduce modulo 2^w. *)
Definition wrap_u (w : Z) (x : Z) : Z := x mod 2^w.
(** Conversion to a signed type of width [w] (two's complement, as on every
    supported compiler; implementation defined before C++20). *)
Definition wrap_s (w : Z) (x : Z) : Z :=
  let r := x mod 2^w in if r <? 2^(w-1) then r else r - 2^w.

(** signed (width [ws]) to unsigned (width [wt]) cast (util.hh 50-55). *)
Definition safe_cast_su (wt ws : Z) (x : Z) : outcome Z :=
  if (x <? 0) || negb (wrap_s ws (wrap_u wt x) =? x) then Throw Overflow
  else Ok (wrap_u wt x).

(** unsigned (width [ws]) to signed (width [wt]) cast (util.hh 56-61).  The
    comparison is done in the wider unsigned type. *)
Definition safe_cast_us (wt ws : Z) (x : Z) : outcome Z :=
  if 2^(wt-1) - 1 <? x then Throw Overflow else Ok (wrap_s wt x).

(** midpoint (util.hh 74-77) on 32 bit values: unsigned wrap-around
    arithmetic and conversion back. *)
Definition midpoint (w a b : Z) : Z :=
  wrap_s w (wrap_u w (wrap_u w a + wrap_u w (wrap_u w b - wrap_u w a) / 2)).

(** floordiv (util.hh 79-86); [std::div] gives truncated quotient and remainder. *)
Definition floordiv (n m : Z) : Z :=
  let q := Z.quot n m in
  if xorb (n <? 0) (m <? 0) && negb (Z.rem n m =? 0) then q - 1 else q.

(** ceildiv (util.hh 88-95), as written: the quotient is incremented when the
    signs differ. *)
Definition ceildiv (n m : Z) : Z :=
  let q := Z.quot n m in
  if xorb (n <? 0) (m <? 0) && negb (Z.rem n m =? 0) then q + 1 else q.

(** floordiv with the machine range made explicit. *)
Definition floordiv_t (t : ity) (n m : Z) : outcome Z :=
  if m =? 0 then UB else
  _ <- ck t (Z.quot n m) ;; ck t (floordiv n m).

(** check_valid_value (base.hh 90-98); both branches throw underflow_error. *)
Definition check_valid_value (v : Z) : outcome Z :=
  if v <? MIN_VAL then Throw Underflow
  else if MAX_VAL <? v then Throw Underflow
  else Ok v.

(** The splitting loop of Solver::check_full (solver.cc 930-950, via midpoint):
    given lower and upper bound and the answers of the search ([true] = take the
    lower half), the values at which the domain is split. *)
Fixpoint split_run (answers : list bool) (lo hi : Z) : Z * Z :=
  match answers with
  | [] => (lo, hi)
  | b :: rest =>
      if lo <? hi then
        let m := midpoint 32 lo hi in
        if b then split_run rest lo m else split_run rest (m + 1) hi
      else (lo, hi)
  end.
