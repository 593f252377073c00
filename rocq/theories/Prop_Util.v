(** Property theorems C01-C04: checked arithmetic, rounding, interval sets, splitting. *)
From Verif Require Import Base Util UtilProofs IntervalSet IntervalSetProofs.
From Coq Require Import Sorting.Sorted.

(** ** C01 Checked arithmetic is exact or raises *)

(** For every two's complement type (int32, int64, int128 below) and all
    operands of that type: exact result or exception, never undefined
    behaviour, and an exception only if the exact result does not fit. *)
Theorem C01_add_exact : forall t a b, twos t -> fits t a -> fits t b ->
  (fits t (a + b) /\ safe_add t a b = Ok (a + b)) \/
  (~ fits t (a + b) /\ exists e, safe_add t a b = Throw e).
Proof. exact safe_add_exact. Qed.
Print Assumptions C01_add_exact.

Theorem C01_sub_exact : forall t a b, twos t -> fits t a -> fits t b ->
  (fits t (a - b) /\ safe_sub t a b = Ok (a - b)) \/
  (~ fits t (a - b) /\ exists e, safe_sub t a b = Throw e).
Proof. exact safe_sub_exact. Qed.
Print Assumptions C01_sub_exact.

Theorem C01_mul_exact : forall t a b, twos t -> fits t a -> fits t b ->
  (fits t (a * b) /\ safe_mul t a b = Ok (a * b)) \/
  (~ fits t (a * b) /\ exists e, safe_mul t a b = Throw e).
Proof. exact safe_mul_exact. Qed.
Print Assumptions C01_mul_exact.

Theorem C01_inv_exact : forall t a, twos t -> fits t a ->
  (fits t (- a) /\ safe_inv t a = Ok (- a)) \/
  (~ fits t (- a) /\ exists e, safe_inv t a = Throw e).
Proof. exact safe_inv_exact. Qed.
Print Assumptions C01_inv_exact.

Theorem C01_div_exact : forall t a b, twos t -> fits t a -> fits t b ->
  (b <> 0 /\ fits t (Z.quot a b) /\ safe_div t a b = Ok (Z.quot a b)) \/
  ((b = 0 \/ ~ fits t (Z.quot a b)) /\ exists e, safe_div t a b = Throw e).
Proof. exact safe_div_exact. Qed.
Print Assumptions C01_div_exact.

Theorem C01_mod_exact : forall t a b, twos t -> fits t a -> fits t b ->
  (b <> 0 /\ fits t (Z.quot a b) /\ safe_mod t a b = Ok (Z.rem a b)) \/
  ((b = 0 \/ ~ fits t (Z.quot a b)) /\ exists e, safe_mod t a b = Throw e).
Proof. exact safe_mod_exact. Qed.
Print Assumptions C01_mod_exact.

Theorem C01_cast_signed : forall t s x, fits s x ->
  (fits t x /\ safe_cast_ss t s false x = Ok x) \/
  (~ fits t x /\ exists e, safe_cast_ss t s false x = Throw e).
Proof. exact safe_cast_ss_exact. Qed.
Print Assumptions C01_cast_signed.

Theorem C01_cast_to_unsigned : forall wt ws x, 1 <= wt -> 1 <= ws -> - 2^(ws-1) <= x < 2^(ws-1) ->
  (0 <= x < 2^wt /\ safe_cast_su wt ws x = Ok x) \/
  (~ (0 <= x < 2^wt) /\ exists e, safe_cast_su wt ws x = Throw e).
Proof. exact safe_cast_su_exact. Qed.
Print Assumptions C01_cast_to_unsigned.

Theorem C01_cast_to_signed : forall wt ws x, 1 <= wt -> 0 <= x < 2^ws ->
  (x <= 2^(wt-1) - 1 /\ safe_cast_us wt ws x = Ok x) \/
  (~ (x <= 2^(wt-1) - 1) /\ exists e, safe_cast_us wt ws x = Throw e).
Proof. exact safe_cast_us_exact. Qed.
Print Assumptions C01_cast_to_signed.

Theorem C01_valid_value : forall v,
  (- (2^30 - 1) <= v <= 2^30 - 1 /\ check_valid_value v = Ok v) \/
  (~ (- (2^30 - 1) <= v <= 2^30 - 1) /\ exists e, check_valid_value v = Throw e).
Proof. exact check_valid_value_spec. Qed.
Print Assumptions C01_valid_value.

Example C01_types : twos int32 /\ twos int64 /\ twos int128.
Proof. unfold twos; cbn; lia. Qed.
Example C01_cases :
  fits int32 (2^31 - 1) /\ fits int32 1 /\
  safe_add int32 (2^31 - 1) 1 = Throw Overflow /\ safe_add int32 (2^31 - 2) 1 = Ok (2^31 - 1) /\
  safe_mul int32 (-(2^31)) (-1) = Throw Overflow /\ safe_mul int32 65536 (-32768) = Ok (-(2^31)) /\
  safe_mod int32 (-7) 2 = Ok (-1) /\ safe_mod int32 (-(2^31)) (-1) = Throw Overflow.
Proof. unfold fits; cbn; repeat split; lia. Qed.

(** ** C02 Rounding of bound computations *)

Theorem C02_floordiv_floor : forall n m, m <> 0 -> floordiv n m = n / m.
Proof. exact floordiv_floor. Qed.
Print Assumptions C02_floordiv_floor.

(** Solution preserving: a*x <= b iff x <= floordiv b a (a > 0); and for a < 0
    a*x >= b iff x <= floordiv b a. *)
Theorem C02_floordiv_pos : forall n m x, 0 < m -> (m * x <= n <-> x <= floordiv n m).
Proof. exact floordiv_pos. Qed.
Print Assumptions C02_floordiv_pos.

Theorem C02_floordiv_neg : forall n m x, m < 0 -> (n <= m * x <-> x <= floordiv n m).
Proof. exact floordiv_neg. Qed.
Print Assumptions C02_floordiv_neg.

(** No overflow in any signed type, except for min / -1 as usual. *)
Theorem C02_floordiv_range : forall t n m, twos t -> fits t n -> m <> 0 -> (n <> imin t \/ m <> -1) ->
  floordiv_t t n m = Ok (n / m).
Proof. exact floordiv_t_ok. Qed.
Print Assumptions C02_floordiv_range.

Example C02_cases : floordiv (-7) 2 = -4 /\ floordiv 7 (-2) = -4 /\ floordiv 7 2 = 3 /\ floordiv (-8) 2 = -4.
Proof. repeat split; reflexivity. Qed.

(** The ceiling division of the code is not the ceiling: ceildiv 7 2 = 3 < 7/2. *)
Theorem C02_ceildiv_refuted : exists n m, m <> 0 /\ 0 < m /\ ~ n <= m * ceildiv n m.
Proof. exists 7, 2. cbn. lia. Qed.
Print Assumptions C02_ceildiv_refuted.

(** ... and for opposite signs it is not the smallest such integer either:
    ceildiv 7 (-2) = -2 but -3 is the ceiling of -7/2. *)
Theorem C02_ceildiv_neg_refuted : exists n m q, m < 0 /\ q < ceildiv n m /\ m * q <= n.
Proof. exists 7, (-2), (-3). cbn. lia. Qed.
Print Assumptions C02_ceildiv_neg_refuted.

(** ** C03 Domain sets behave like sets of integers *)

(** For every sequence of insertions, unions and clears the stored intervals
    denote the specified set of integers and are in canonical form. *)
Theorem C03_contents : forall ops z, mem (irun ops) z <-> spec_run ops z.
Proof. exact (fun ops => proj2 (irun_spec ops)). Qed.
Print Assumptions C03_contents.

Theorem C03_contains : forall ops a, contains (irun ops) a = true <-> spec_run ops a.
Proof. exact (fun ops a => iff_trans (contains_spec _ a (proj1 (irun_spec ops))) (proj2 (irun_spec ops) a)). Qed.
Print Assumptions C03_contains.

Theorem C03_contains_range : forall ops a b, a < b ->
  (contains_range (irun ops) a b = true <-> forall z, a <= z < b -> mem (irun ops) z).
Proof. exact (fun ops a b => contains_range_spec _ a b (proj1 (irun_spec ops))). Qed.
Print Assumptions C03_contains_range.

Theorem C03_intersects : forall ops a b,
  intersects (irun ops) a b = true <-> exists z, a <= z < b /\ mem (irun ops) z.
Proof. exact (fun ops a b => intersects_spec _ a b (proj1 (irun_spec ops))). Qed.
Print Assumptions C03_intersects.

Theorem C03_empty : forall ops, is_empty (irun ops) = true <-> forall z, ~ mem (irun ops) z.
Proof. exact (fun ops => is_empty_spec _ (proj1 (irun_spec ops))). Qed.
Print Assumptions C03_empty.

(** Enumeration offers the members in strictly ascending order. *)
Theorem C03_enumerate : forall ops,
  StronglySorted Z.lt (values (irun ops)) /\ forall z, In z (values (irun ops)) <-> mem (irun ops) z.
Proof. exact (fun ops => conj (values_sorted _ _ (proj1 (irun_spec ops))) (values_in (irun ops))). Qed.
Print Assumptions C03_enumerate.

(** Two histories with the same set give the same representation. *)
Theorem C03_order_independent : forall ops1 ops2,
  (forall z, spec_run ops1 z <-> spec_run ops2 z) -> irun ops1 = irun ops2.
Proof.
  exact (fun ops1 ops2 H => wf_canonical _ _ None None (proj1 (irun_spec ops1)) (proj1 (irun_spec ops2))
    (fun z => iff_trans (proj2 (irun_spec ops1) z) (iff_trans (H z) (iff_sym (proj2 (irun_spec ops2) z))))).
Qed.
Print Assumptions C03_order_independent.

Example C03_case :
  irun [OpAdd 5 7; OpAdd 1 3; OpAdd 3 4; OpExtend [(6, 9); (20, 22)]] = [(1, 4); (5, 9); (20, 22)] /\
  irun [OpAdd 20 22; OpAdd 3 4; OpAdd 5 9; OpAdd 1 3] = [(1, 4); (5, 9); (20, 22)] /\
  irun [OpAdd 1 3; OpAdd 5 7; OpAdd 2 6] = [(1, 7)].
Proof. repeat split; reflexivity. Qed.

(** ** C04 Domain splitting always makes progress *)

Theorem C04_progress : forall lo hi, fits int32 lo -> fits int32 hi -> lo < hi ->
  lo <= midpoint 32 lo hi < hi /\
  midpoint 32 lo hi - lo <= (hi - lo) / 2 /\ hi - (midpoint 32 lo hi + 1) <= (hi - lo) / 2.
Proof. exact midpoint_progress. Qed.
Print Assumptions C04_progress.

(** Whichever half is taken each time, 32 splits reach a single value of the domain. *)
Theorem C04_terminates : forall answers lo hi,
  fits int32 lo -> fits int32 hi -> lo <= hi -> (32 <= length answers)%nat ->
  exists v, split_run answers lo hi = (v, v) /\ lo <= v <= hi.
Proof. exact split_run_terminates. Qed.
Print Assumptions C04_terminates.

(** No value is lost: every value of the domain is the outcome of some choices. *)
Theorem C04_complete : forall k lo hi v, fits int32 lo -> fits int32 hi -> lo <= v <= hi ->
  hi - lo < 2 ^ Z.of_nat k -> exists answers, length answers = k /\ split_run answers lo hi = (v, v).
Proof. exact split_run_complete. Qed.
Print Assumptions C04_complete.

Example C04_case : fits int32 (-(2^31)) /\ fits int32 (2^31 - 1) /\
  midpoint 32 (-(2^31)) (2^31 - 1) = -1 /\ midpoint 32 (-3) (-2) = -3 /\
  split_run [true; false; true; false] 0 10 = (4, 4).
Proof. unfold fits; cbn; repeat split; lia. Qed.
