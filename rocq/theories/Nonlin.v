(** Model of non-linear constraints: NonlinearConstraintState (constraints.cc 1318-1590).
    The fields of NonlinearConstraint are val_t (constraints.hh 107-152); all computations of
    the propagator are carried out in nsum_t, a type with 128 bits.  The final part of the
    propagator (constraints.cc 1522-1541) computes a bound for x*y and does nothing with it;
    it is kept for the range of the computation. *)
From Verif Require Import Base Util IntervalSet VarState Solver Sum.
Open Scope Z_scope.

(** co * x * y (constraints.cc 1392-1395). *)
Definition prod128 (co x y : Z) : outcome Z := a <- imul int128 co x ;; imul int128 a y.
(** get_bound (constraints.cc 1385-1410): bounds of the product; the choice of the bounds of the
    factors is only used in the part without effect and left out. *)
Definition nonlin_bound (coa : Z) (vx vy : vstate) : outcome (Z * Z) :=
  ll <- prod128 coa (lb vx) (lb vy) ;; lu <- prod128 coa (lb vx) (ub vy) ;;
  ul <- prod128 coa (ub vx) (lb vy) ;; uu <- prod128 coa (ub vx) (ub vy) ;;
  Ok (Z.min ll (Z.min lu (Z.min ul uu)), Z.max ll (Z.max lu (Z.max ul uu))).

(** ceildiv with the machine range made explicit. *)
Definition ceildiv_t (t : ity) (n m : Z) : outcome Z :=
  if m =? 0 then UB else
  _ <- ck t (Z.quot n m) ;; ck t (ceildiv n m).
(** static_cast from nsum_t to val_t wraps around. *)
Definition cast32 (x : Z) : Z := (x + 2^31) mod 2^32 - 2^31.

(** What the propagator decides to do: nothing is left to do, the constraint is violated, there
    is a new upper or lower bound for z, or nothing follows. *)
Inductive nstep := NDone | NClash | NUpper (w : Z) | NLower (w : Z) | NNone.

(** The computations of propagate (constraints.cc 1413-1520). *)
Definition nonlin_step (coa : Z) (vx vy : vstate) (cob : Z) (vz : option vstate) (rhs : Z) : outcome nstep :=
  'p <- nonlin_bound coa vx vy ;;
  let '(lo_t, hi_t) := (p : Z * Z) in
  let '(lo_z, hi_z) := match vz with
                       | None => (0, 0)
                       | Some v => if cob <? 0 then (ub v, lb v) else (lb v, ub v)
                       end in
  lo_u <- imul int128 cob lo_z ;; hi_u <- imul int128 cob hi_z ;;
  lo <- iadd int128 lo_t lo_u ;; hi <- iadd int128 hi_t hi_u ;;
  if hi <=? rhs then Ok NDone
  else if rhs <? lo then Ok NClash
  else
    _ <- (if 0 <? coa then (n <- isub int128 rhs lo_u ;; floordiv_t int128 n coa) else Ok 0) ;;
    match vz with
    | None => Ok NNone
    | Some _ =>
        n <- isub int128 rhs lo_t ;;
        if 0 <? cob then
          w <- floordiv_t int128 n cob ;; Ok (if w <? hi_z then NUpper (cast32 w) else NNone)
        else
          w <- ceildiv_t int128 n cob ;;
          if hi_z <? w then (w1 <- isub int32 (cast32 w) 1 ;; Ok (NLower w1)) else Ok NNone
    end.

Section Nonlin.
Context (O : oracle) (cfg : config).

(** The literals for the bounds of the factors (constraints.cc 1462-1465, 1493-1496, 1509-1512). *)
Definition range_reason (x : var) (s : state) : list lit * state :=
  let '(u, s) := get_literal cfg x (ub (vst s x)) s in
  let '(l, s) := get_literal cfg x (lb (vst s x) - 1) s in
  ([- u; l], s).
Definition factor_reason (x y : var) (s : state) : list lit * state :=
  let '(r, s) := range_reason x s in
  let '(q, s) := range_reason y s in
  (r ++ q, s).

(** propagate (constraints.cc 1413-1544). *)
Definition prop_nonlin (c : cid) (s : state) : outcome bool * state :=
  match css s c with
  | Some k =>
      match c_def k with
      | CNonlin _ coa x y cob z rhs =>
          match nonlin_step coa (vst s x) (vst s y) cob (option_map (vst s) z) rhs with
          | Throw e => (Throw e, s)
          | UB => (UB, s)
          | Ok NDone => (Ok true, mark_inactive c s)
          | Ok NNone => (Ok true, s)
          | Ok NClash =>
              let '(r, s) := factor_reason x y s in
              match z with
              | None => let '(b, s) := add_clause O Learnt r s in (Ok b, s)
              | Some z =>
                  let '(q, s) := if cob <? 0 then let '(u, s) := get_literal cfg z (ub (vst s z)) s in (- u, s)
                                 else get_literal cfg z (lb (vst s z) - 1) s in
                  let '(b, s) := add_clause O Learnt (r ++ [q]) s in (Ok b, s)
              end
          | Ok (NUpper w) =>
              match z with
              | None => (UB, s)
              | Some z =>
                  let '(r, s) := factor_reason x y s in
                  let '(q, s) := get_literal cfg z w s in
                  let '(b, s) := add_clause O Learnt (r ++ [q]) s in (Ok b, s)
              end
          | Ok (NLower w) =>
              match z with
              | None => (UB, s)
              | Some z =>
                  let '(r, s) := factor_reason x y s in
                  let '(q, s) := get_literal cfg z w s in
                  let '(b, s) := add_clause O Learnt (r ++ [- q]) s in (Ok b, s)
              end
          end
      | _ => (UB, s)
      end
  | None => (UB, s)
  end.
End Nonlin.

(** check_full (constraints.cc 1546-1562). *)
Definition check_full_nonlin (c : cid) (s : state) : outcome unit :=
  match css s c with
  | Some k =>
      match c_def k with
      | CNonlin _ coa x y cob z rhs =>
          a <- prod128 coa (lb (vst s x)) (lb (vst s y)) ;;
          l <- match z with
               | None => Ok a
               | Some z => u <- imul int128 cob (lb (vst s z)) ;; iadd int128 a u
               end ;;
          if rhs <? l then Throw Logic else Ok tt
      | _ => UB
      end
  | None => UB
  end.
