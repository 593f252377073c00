(** Proofs about [Util.v]. *)
From Verif Require Import Base Util.

Ltac ifs := repeat (match goal with |- context [if ?b then _ else _] => destruct b eqn:? end; cbn [bind]).

(** [exact t z r]: the checked operation with exact result [z] returned [r]:
    the exact result if it is representable, an exception otherwise. *)
Definition exact_or_throws (t : ity) (z : Z) (r : outcome Z) : Prop :=
  (imin t <= z <= imax t /\ r = Ok z) \/
  (~ (imin t <= z <= imax t) /\ exists e, r = Throw e).

Definition fits (t : ity) (z : Z) : Prop := imin t <= z <= imax t.

Lemma ck_ok t z : fits t z -> ck t z = Ok z.
Proof. unfold fits, ck, in_range. intros H. destruct (_ && _) eqn:E; [reflexivity|lia]. Qed.

Lemma in_range_fits t z : in_range t z = true <-> fits t z.
Proof. unfold in_range, fits. lia. Qed.

Ltac ok := match goal with
  | |- context [ck ?t ?z] => rewrite (ck_ok t z) by (unfold fits; lia); cbn [bind]
  end.

Lemma safe_add_exact t a b : twos t -> fits t a -> fits t b ->
  exact_or_throws t (a + b) (safe_add t a b).
Proof.
  unfold twos, fits, exact_or_throws, safe_add, isub, iadd. intros [H1 H2] Ha Hb.
  destruct (0 <? b) eqn:E1; [|destruct (b <? 0) eqn:E2].
  - ok. destruct (_ <? a) eqn:E3; [right; split; [lia|eauto]|].
    ok. left; split; [lia|reflexivity].
  - ok. destruct (a <? _) eqn:E3; [right; split; [lia|eauto]|].
    ok. left; split; [lia|reflexivity].
  - ok. left; split; [lia|reflexivity].
Qed.

Lemma safe_sub_exact t a b : twos t -> fits t a -> fits t b ->
  exact_or_throws t (a - b) (safe_sub t a b).
Proof.
  unfold twos, fits, exact_or_throws, safe_sub, isub, iadd. intros [H1 H2] Ha Hb.
  destruct (0 <? b) eqn:E1; [|destruct (b <? 0) eqn:E2].
  - ok. destruct (a <? _) eqn:E3; [right; split; [lia|eauto]|].
    ok. left; split; [lia|reflexivity].
  - ok. destruct (_ <? a) eqn:E3; [right; split; [lia|eauto]|].
    ok. left; split; [lia|reflexivity].
  - ok. left; split; [lia|reflexivity].
Qed.

Lemma safe_inv_exact t a : twos t -> fits t a ->
  exact_or_throws t (- a) (safe_inv t a).
Proof.
  unfold twos, fits, exact_or_throws, safe_inv, ineg. intros [H1 H2] Ha.
  destruct (_ =? _) eqn:E1; [right; split; [lia|eauto]|].
  ok. left; split; [lia|reflexivity].
Qed.


(** Quotient facts used for the multiplication guards. *)
Lemma quot_max_pos M b : 0 < b -> 0 <= M -> forall a, Z.quot M b < a <-> M < a * b.
Proof. intros Hb HM a. rewrite Z.quot_div_nonneg by lia.
  pose proof (Z.div_mod M b ltac:(lia)). pose proof (Z.mod_pos_bound M b Hb). nia. Qed.

Lemma quot_min_pos M a : 0 < a -> 0 <= M -> forall b, b < Z.quot (- M) a <-> a * b < - M.
Proof. intros Ha HM b. rewrite Z.quot_opp_l, Z.quot_div_nonneg by lia.
  pose proof (Z.div_mod M a ltac:(lia)). pose proof (Z.mod_pos_bound M a Ha). nia. Qed.

Lemma quot_max_neg M a : a < 0 -> 0 <= M -> forall b, b < Z.quot M a <-> M < a * b.
Proof. intros Ha HM b. replace a with (- (- a)) at 1 by lia.
  rewrite Z.quot_opp_r, Z.quot_div_nonneg by lia.
  pose proof (Z.div_mod M (-a) ltac:(lia)). pose proof (Z.mod_pos_bound M (-a) ltac:(lia)). nia. Qed.

Lemma quot_fits t a b : twos t -> fits t a -> b <> 0 -> (a <> imin t \/ b <> -1) -> fits t (Z.quot a b).
Proof.
  unfold twos, fits. intros [H1 H2] Ha Hb Hm.
  assert (Q : Z.abs (Z.quot a b) <= Z.abs a).
  { rewrite <- Z.quot_abs by lia. 
    rewrite Z.quot_div_nonneg by lia.
    apply Z.div_le_upper_bound; nia. }
  destruct (Z.eq_dec a (imin t)) as [->|Ea]; [|lia].
  destruct (Z.eq_dec b 1) as [->|Eb]; [rewrite Z.quot_1_r; lia|].
  assert (Z.abs (Z.quot (imin t) b) <= imax t); [|lia].
  rewrite <- Z.quot_abs by lia. rewrite Z.quot_div_nonneg by lia.
  assert (2 <= Z.abs b) by lia.
  apply Z.div_le_upper_bound; nia.
Qed.

Lemma idiv_ok t a b : twos t -> fits t a -> b <> 0 -> (a <> imin t \/ b <> -1) ->
  idiv t a b = Ok (Z.quot a b).
Proof. intros. unfold idiv. destruct (b =? 0) eqn:E; [lia|]. apply ck_ok, quot_fits; assumption. Qed.

Lemma safe_mul_exact t a b : twos t -> fits t a -> fits t b ->
  exact_or_throws t (a * b) (safe_mul t a b).
Proof.
  intros HT Ha Hb. pose proof HT as [H1 H2]. unfold exact_or_throws, safe_mul, imul.
  assert (FM : fits t (imax t)) by (unfold fits; lia).
  assert (Fm : fits t (imin t)) by (unfold fits; lia).
  destruct (0 <? a) eqn:E1.
  - destruct (0 <? b) eqn:E2.
    + rewrite idiv_ok by (auto; lia). cbn [bind].
      pose proof (quot_max_pos (imax t) b ltac:(lia) ltac:(lia) a) as Q.
      destruct (Z.quot _ _ <? a) eqn:E3.
      * right. split; [|eauto]. assert (imax t < a * b) by (apply Q; lia). lia.
      * left. assert (~ imax t < a * b) by (rewrite <- Q; lia).
        split; [nia|apply ck_ok; unfold fits; nia].
    + rewrite idiv_ok by (auto; lia). cbn [bind].
      replace (imin t) with (- (- imin t)) by lia.
      pose proof (quot_min_pos (- imin t) a ltac:(lia) ltac:(lia) b) as Q.
      destruct (b <? Z.quot _ _) eqn:E3.
      * right. split; [|eauto]. assert (a * b < - - imin t) by (apply Q; lia). lia.
      * left. assert (~ a * b < - - imin t) by (rewrite <- Q; lia).
        split; [nia|apply ck_ok; unfold fits; nia].
  - destruct (0 <? b) eqn:E2.
    + rewrite idiv_ok by (auto; lia). cbn [bind].
      replace (imin t) with (- (- imin t)) by lia.
      pose proof (quot_min_pos (- imin t) b ltac:(lia) ltac:(lia) a) as Q.
      destruct (a <? Z.quot _ _) eqn:E3.
      * right. split; [|eauto]. assert (b * a < - - imin t) by (apply Q; lia). lia.
      * left. assert (~ b * a < - - imin t) by (rewrite <- Q; lia).
        split; [nia|apply ck_ok; unfold fits; nia].
    + destruct (a <? 0) eqn:E3.
      * rewrite idiv_ok by (auto; lia). cbn [bind].
        pose proof (quot_max_neg (imax t) a ltac:(lia) ltac:(lia) b) as Q.
        destruct (b <? Z.quot _ _) eqn:E4.
        -- right. split; [|eauto]. assert (imax t < a * b) by (apply Q; lia). lia.
        -- left. assert (~ imax t < a * b) by (rewrite <- Q; lia).
           split; [nia|apply ck_ok; unfold fits; nia].
      * assert (a = 0) by lia. subst a. left. split; [lia|apply ck_ok; unfold fits; lia].
Qed.

(** Division: raises iff the divisor is zero or the quotient does not fit. *)
Definition div_spec (t : ity) (a b res : Z) (r : outcome Z) : Prop :=
  (b <> 0 /\ fits t (Z.quot a b) /\ r = Ok res) \/
  ((b = 0 \/ ~ fits t (Z.quot a b)) /\ exists e, r = Throw e).

Lemma quot_min_m1 t : twos t -> ~ fits t (Z.quot (imin t) (-1)).
Proof. intros [H1 H2]. change (-1) with (- (1)). rewrite Z.quot_opp_r, Z.quot_1_r by lia. unfold fits. lia. Qed.

Lemma safe_div_exact t a b : twos t -> fits t a -> fits t b ->
  div_spec t a b (Z.quot a b) (safe_div t a b).
Proof.
  intros HT Ha Hb. pose proof HT as [H1 H2]. unfold div_spec, safe_div.
  destruct (_ && _) eqn:E1.
  - right. split; [right|eauto].
    replace a with (imin t) by lia. replace b with (-1) by lia. apply quot_min_m1; exact HT.
  - destruct (b =? 0) eqn:E2.
    + right. split; [lia|]. destruct (a <? 0); eauto.
    + left. split; [lia|]. split; [apply quot_fits; auto; lia|]. apply idiv_ok; auto; lia.
Qed.

Lemma safe_mod_exact t a b : twos t -> fits t a -> fits t b ->
  div_spec t a b (Z.rem a b) (safe_mod t a b).
Proof.
  intros HT Ha Hb. pose proof HT as [H1 H2]. unfold div_spec, safe_mod.
  destruct (_ && _) eqn:E1.
  - right. split; [right|eauto].
    replace a with (imin t) by lia. replace b with (-1) by lia. apply quot_min_m1; exact HT.
  - destruct (b =? 0) eqn:E2.
    + right. split; [lia|]. destruct (a <? 0); eauto.
    + left. split; [lia|].
      assert (F : fits t (Z.quot a b)) by (apply quot_fits; auto; lia).
      split; [exact F|]. unfold irem. rewrite E2.
      apply in_range_fits in F. rewrite F. reflexivity.
Qed.

(** Casts. *)
Lemma safe_cast_ss_exact t s x : fits s x ->
  exact_or_throws t x (safe_cast_ss t s false x).
Proof.
  unfold fits, exact_or_throws, safe_cast_ss. intros H. cbn [negb andb].
  destruct (_ || _) eqn:E; [right; split; [lia|eauto]|left; split; [lia|reflexivity]].
Qed.

Lemma safe_cast_same t x : fits t x -> safe_cast_ss t t true x = Ok x.
Proof. reflexivity. Qed.

Lemma wrap_s_small w x : 1 <= w -> 0 <= x < 2^(w-1) -> wrap_s w x = x.
Proof.
  intros Hw Hx. unfold wrap_s.
  assert (2^w = 2 * 2^(w-1)) by (rewrite <- Z.pow_succ_r by lia; f_equal; lia).
  rewrite Z.mod_small by lia. destruct (_ <? _) eqn:E; lia.
Qed.

(** Signed (width ws) to unsigned (width wt). *)
Lemma safe_cast_su_exact wt ws x : 1 <= wt -> 1 <= ws ->
  - 2^(ws-1) <= x < 2^(ws-1) ->
  (0 <= x < 2^wt /\ safe_cast_su wt ws x = Ok x) \/
  (~ (0 <= x < 2^wt) /\ exists e, safe_cast_su wt ws x = Throw e).
Proof.
  intros Ht Hs Hx. unfold safe_cast_su.
  destruct (x <? 0) eqn:E0; cbn [orb]; [right; split; [lia|eauto]|].
  destruct (Z_lt_ge_dec x (2^wt)) as [L|G].
  - left. split; [lia|]. unfold wrap_u. rewrite Z.mod_small by lia.
    rewrite wrap_s_small by lia. rewrite Z.eqb_refl. reflexivity.
  - right. split; [lia|]. 
    assert (B : 0 <= wrap_u wt x < 2^wt) by (apply Z.mod_pos_bound; lia).
    rewrite wrap_s_small by lia.
    destruct (_ =? _) eqn:E; cbn [negb]; [lia|eauto].
Qed.

Lemma safe_cast_us_exact wt ws x : 1 <= wt -> 0 <= x < 2^ws ->
  (x <= 2^(wt-1) - 1 /\ safe_cast_us wt ws x = Ok x) \/
  (~ (x <= 2^(wt-1) - 1) /\ exists e, safe_cast_us wt ws x = Throw e).
Proof.
  intros Ht Hx. unfold safe_cast_us. destruct (_ <? _) eqn:E.
  - right. split; [lia|eauto].
  - left. split; [lia|]. rewrite wrap_s_small by lia. reflexivity.
Qed.

Lemma check_valid_value_spec v :
  (MIN_VAL <= v <= MAX_VAL /\ check_valid_value v = Ok v) \/
  (~ (MIN_VAL <= v <= MAX_VAL) /\ exists e, check_valid_value v = Throw e).
Proof.
  unfold check_valid_value. destruct (_ <? _) eqn:E1; [right; split; [lia|eauto]|].
  destruct (MAX_VAL <? v) eqn:E2; [right; split; [lia|eauto]|].
  left; split; [lia|reflexivity].
Qed.

(** Rounding. *)
Lemma floordiv_floor n m : m <> 0 -> floordiv n m = n / m.
Proof.
  intros Hm. unfold floordiv.
  pose proof (Z.quot_rem' n m) as Q.
  pose proof (Z.div_mod n m Hm) as D.
  assert (U : forall q d k e, - Z.abs m < e < Z.abs m -> m * (q - d - k) = e -> q - k = d).
  { intros q d k e He HE. assert (q - d - k = 0); [|lia]. nia. }
  destruct (n <? 0) eqn:En, (m <? 0) eqn:Em; cbn [xorb andb].
  - rewrite <- (Z.quot_opp_opp n m) by lia. rewrite Z.quot_div_nonneg by lia.
    rewrite Z.div_opp_opp by lia. reflexivity.
  - pose proof (Z.rem_bound_pos_neg n m ltac:(lia) ltac:(lia)).
    pose proof (Z.mod_pos_bound n m ltac:(lia)).
    destruct (Z.rem n m =? 0) eqn:E; cbn [negb].
    + rewrite <- (Z.sub_0_r (n ÷ m)). apply (U _ _ 0 (n mod m)); lia.
    + apply (U _ _ 1 (n mod m - Z.rem n m - m)); lia.
  - pose proof (Z.rem_bound_neg_pos n m ltac:(lia) ltac:(lia)).
    pose proof (Z.mod_neg_bound n m ltac:(lia)).
    destruct (Z.rem n m =? 0) eqn:E; cbn [negb].
    + rewrite <- (Z.sub_0_r (n ÷ m)). apply (U _ _ 0 (n mod m)); lia.
    + apply (U _ _ 1 (n mod m - Z.rem n m - m)); lia.
  - apply Z.quot_div_nonneg; lia.
Qed.

(** The largest integer x with m*x <= n (m > 0), the smallest with m*x <= n (m < 0). *)
Lemma floordiv_pos n m x : 0 < m -> (m * x <= n <-> x <= floordiv n m).
Proof.
  intros Hm. rewrite floordiv_floor by lia.
  pose proof (Z.div_mod n m ltac:(lia)). pose proof (Z.mod_pos_bound n m Hm). nia.
Qed.

Lemma floordiv_neg n m x : m < 0 -> (n <= m * x <-> x <= floordiv n m).
Proof.
  intros Hm. rewrite floordiv_floor by lia.
  pose proof (Z.div_mod n m ltac:(lia)). pose proof (Z.mod_neg_bound n m Hm). nia.
Qed.

(** Range: the quotient of two values fits unless min / -1. *)
Lemma floordiv_t_ok t n m : twos t -> fits t n -> m <> 0 -> (n <> imin t \/ m <> -1) ->
  floordiv_t t n m = Ok (n / m).
Proof.
  intros HT Hn Hm Hx. unfold floordiv_t.
  destruct (m =? 0) eqn:E; [lia|].
  rewrite (ck_ok t (Z.quot n m)) by (apply quot_fits; assumption). cbn [bind].
  rewrite floordiv_floor by exact Hm. apply ck_ok.
  pose proof (quot_fits t n m HT Hn Hm Hx) as F. unfold fits in *. destruct HT as [H1 H2].
  pose proof (floordiv_floor n m Hm) as FF. unfold floordiv in FF.
  pose proof (Z.quot_rem' n m) as Q.
  destruct (_ && _) eqn:E2; [|lia].
  assert (Z.rem n m <> 0) by lia.
  (* a non-zero remainder keeps the quotient away from the minimum *)
  assert (Z.abs (Z.quot n m) * Z.abs m <= Z.abs n).
  { rewrite <- Z.quot_abs by exact Hm. rewrite Z.quot_div_nonneg by lia.
    pose proof (Z.div_mod (Z.abs n) (Z.abs m) ltac:(lia)).
    pose proof (Z.mod_pos_bound (Z.abs n) (Z.abs m) ltac:(lia)). nia. }
  assert (Z.abs m <> 1).
  { intros A. assert (M : m = 1 \/ m = -1) by lia. destruct M; subst m.
    - rewrite Z.rem_1_r in *. lia.
    - change (-1) with (- (1)) in *. rewrite Z.rem_opp_r, Z.rem_1_r in * by lia. lia. }
  nia.
Qed.

Lemma ceildiv_wrong : ceildiv 7 2 = 3 /\ ceildiv 7 (-2) = -2.
Proof. split; reflexivity. Qed.

(** ceildiv is right exactly when the division is exact or the signs differ
    and ... it is never the ceiling for inexact division with equal signs. *)
Lemma ceildiv_exact n m : m <> 0 -> Z.rem n m = 0 -> ceildiv n m * m = n.
Proof.
  intros Hm R. unfold ceildiv. rewrite R. cbn [Z.eqb negb]. rewrite andb_false_r.
  pose proof (Z.quot_rem' n m). nia.
Qed.

(** Midpoint and splitting. *)
Local Ltac Zify.zify_post_hook ::= Z.to_euclidean_division_equations.
Lemma wrap_s_id w x : 1 <= w -> - 2^(w-1) <= x < 2^(w-1) -> wrap_s w x = x.
Proof.
  intros Hw Hx. unfold wrap_s.
  assert (P : 2^w = 2 * 2^(w-1)) by (rewrite <- Z.pow_succ_r by lia; f_equal; lia).
  destruct (Z_lt_ge_dec x 0).
  - assert (x mod 2^w = x + 2^w).
    { symmetry. apply (Z.mod_unique x (2^w) (-1)); lia. }
    rewrite H. destruct (_ <? _) eqn:E; lia.
  - rewrite Z.mod_small by lia. destruct (_ <? _) eqn:E; lia.
Qed.

Lemma midpoint_eq w a b : 1 <= w -> - 2^(w-1) <= a -> a <= b -> b < 2^(w-1) ->
  midpoint w a b = a + (b - a) / 2.
Proof.
  intros Hw Ha Hab Hb. unfold midpoint, wrap_u.
  assert (P : 2^w = 2 * 2^(w-1)) by (rewrite <- Z.pow_succ_r by lia; f_equal; lia).
  rewrite <- Zminus_mod. rewrite (Z.mod_small (b - a)) by lia.
  rewrite Zplus_mod_idemp_l.
  assert (0 <= (b - a) / 2 <= b - a) by lia.
  assert (W : forall x, wrap_s w (x mod 2^w) = wrap_s w x).
  { intros x. unfold wrap_s. rewrite Z.mod_mod by lia. reflexivity. }
  rewrite W. apply wrap_s_id; lia.
Qed.

Lemma midpoint_progress a b : fits int32 a -> fits int32 b -> a < b ->
  a <= midpoint 32 a b < b /\
  midpoint 32 a b - a <= (b - a) / 2 /\ b - (midpoint 32 a b + 1) <= (b - a) / 2.
Proof.
  unfold fits. cbn [imin imax int32]. intros Ha Hb Hab.
  rewrite midpoint_eq by (cbn; lia). lia.
Qed.

Lemma split_run_inside answers : forall lo hi lo' hi',
  fits int32 lo -> fits int32 hi -> lo <= hi ->
  split_run answers lo hi = (lo', hi') -> lo <= lo' /\ lo' <= hi' /\ hi' <= hi.
Proof.
  induction answers as [|b rest IH]; cbn [split_run]; intros lo hi lo' hi' Hlo Hhi Hle E.
  - injection E as <- <-. lia.
  - destruct (lo <? hi) eqn:L.
    + pose proof (midpoint_progress lo hi Hlo Hhi ltac:(lia)) as [M1 M2].
      unfold fits in *. destruct b; apply IH in E; unfold fits in *; lia.
    + injection E as <- <-. lia.
Qed.

Lemma split_run_done answers : forall lo hi k,
  fits int32 lo -> fits int32 hi -> lo <= hi -> hi - lo < 2 ^ Z.of_nat k ->
  (k <= length answers)%nat ->
  exists v, split_run answers lo hi = (v, v).
Proof.
  induction answers as [|b rest IH]; cbn [split_run length]; intros lo hi k Hlo Hhi Hle Hk Hlen.
  - destruct k; [|lia]. cbn in Hk. exists lo. f_equal. lia.
  - destruct (lo <? hi) eqn:L; [|exists lo; f_equal; lia].
    destruct k as [|k]; [cbn in Hk; lia|].
    rewrite Nat2Z.inj_succ, Z.pow_succ_r in Hk by lia.
    pose proof (midpoint_progress lo hi Hlo Hhi ltac:(lia)) as [M1 [M2 M3]].
    unfold fits in *.
    destruct b; apply (IH _ _ k); unfold fits in *; lia.
Qed.

(** 32 splits always suffice for 32 bit bounds. *)
Lemma split_run_terminates answers lo hi :
  fits int32 lo -> fits int32 hi -> lo <= hi -> (32 <= length answers)%nat ->
  exists v, split_run answers lo hi = (v, v) /\ lo <= v <= hi.
Proof.
  intros Hlo Hhi Hle Hlen.
  destruct (split_run_done answers lo hi 32 Hlo Hhi Hle) as [v Hv]; [|exact Hlen|].
  - unfold fits in *. cbn [imin imax int32] in *. change (Z.of_nat 32) with 32. lia.
  - exists v. split; [exact Hv|]. pose proof (split_run_inside _ _ _ _ _ Hlo Hhi Hle Hv). lia.
Qed.

(** Every value of the domain is reached by some answers. *)
Lemma split_run_complete : forall k lo hi v,
  fits int32 lo -> fits int32 hi -> lo <= v <= hi -> hi - lo < 2 ^ Z.of_nat k ->
  exists answers, length answers = k /\ split_run answers lo hi = (v, v).
Proof.
  induction k as [|k IH]; intros lo hi v Hlo Hhi Hv Hk.
  - exists []. cbn in Hk. split; [reflexivity|]. cbn. f_equal; lia.
  - rewrite Nat2Z.inj_succ, Z.pow_succ_r in Hk by lia.
    destruct (lo <? hi) eqn:L.
    + pose proof (midpoint_progress lo hi Hlo Hhi ltac:(lia)) as [M1 [M2 M3]].
      unfold fits in *.
      destruct (v <=? midpoint 32 lo hi) eqn:E.
      * destruct (IH lo (midpoint 32 lo hi) v) as [an [A1 A2]]; unfold fits; try lia.
        exists (true :: an). cbn [split_run length]. rewrite L, A1. auto.
      * destruct (IH (midpoint 32 lo hi + 1) hi v) as [an [A1 A2]]; unfold fits; try lia.
        exists (false :: an). cbn [split_run length]. rewrite L, A1. auto.
    + exists (repeat true (S k)). rewrite repeat_length. split; [reflexivity|].
      cbn [repeat split_run]. rewrite L. f_equal; lia.
Qed.
