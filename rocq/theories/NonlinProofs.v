(** Propagation of non-linear constraints. *)
From Verif Require Import Base Util UtilProofs IntervalSet VarState VarStateProofs Terms TermsSpec Solver OrderSpec OrderProofs1 OrderProofs2 OrderProofs5
  OrderProofs6 OrderProofs7 Orders OrderProofs8 Sum PropProofs ConSpec SumProofs SumProofs2 Nonlin.
Open Scope Z_scope.
Local Notation lit := Z (only parsing).

(** ** Computation of bounds *)

Definition v32 (z : Z) : Prop := - 2^31 <= z <= 2^31 - 1.
(** Bounds of variables are supported values. *)
Definition vok (v : vstate) : Prop := MIN_VAL <= lb v /\ lb v <= ub v /\ ub v <= MAX_VAL.
Definition within (v : vstate) (p : Z) : Prop := lb v <= p <= ub v.

(** [t] is the least value of co * x * y for values within the bounds. *)
Definition least (co : Z) (vx vy : vstate) (t : Z) : Prop :=
  (exists p q, within vx p /\ within vy q /\ co * p * q = t) /\ forall p q, within vx p -> within vy q -> t <= co * p * q.
Definition greatest (co : Z) (vx vy : vstate) (t : Z) : Prop :=
  (exists p q, within vx p /\ within vy q /\ co * p * q = t) /\ forall p q, within vx p -> within vy q -> co * p * q <= t.
Lemma least_unique co vx vy t t' : least co vx vy t -> least co vx vy t' -> t = t'.
Proof.
  intros ((p & q & A1 & A2 & A3) & B) ((p' & q' & C1 & C2 & C3) & D). specialize (B p' q' C1 C2). specialize (D p q A1 A2). lia.
Qed.

Lemma linear_lo c a b p : a <= p <= b -> Z.min (c * a) (c * b) <= c * p.
Proof. intros H. destruct (Z.le_gt_cases 0 c); nia. Qed.
Lemma linear_hi c a b p : a <= p <= b -> c * p <= Z.max (c * a) (c * b).
Proof. intros H. destruct (Z.le_gt_cases 0 c); nia. Qed.
Lemma corners_lo c a b a' b' p q : a <= p <= b -> a' <= q <= b' ->
  Z.min (c * a * a') (Z.min (c * a * b') (Z.min (c * b * a') (c * b * b'))) <= c * p * q.
Proof.
  intros H H'. pose proof (linear_lo (c * q) a b p H). pose proof (linear_lo (c * a) a' b' q H'). pose proof (linear_lo (c * b) a' b' q H').
  replace (c * p * q) with (c * q * p) by ring. replace (c * q * a) with (c * a * q) in * by ring. replace (c * q * b) with (c * b * q) in * by ring. lia.
Qed.
Lemma corners_hi c a b a' b' p q : a <= p <= b -> a' <= q <= b' ->
  c * p * q <= Z.max (c * a * a') (Z.max (c * a * b') (Z.max (c * b * a') (c * b * b'))).
Proof.
  intros H H'. pose proof (linear_hi (c * q) a b p H). pose proof (linear_hi (c * a) a' b' q H'). pose proof (linear_hi (c * b) a' b' q H').
  replace (c * p * q) with (c * q * p) by ring. replace (c * q * a) with (c * a * q) in * by ring. replace (c * q * b) with (c * b * q) in * by ring. lia.
Qed.

Definition B2 : Z := 2^61.
Definition B3 : Z := 2^91.
Lemma prod_small a b : v32 a -> MIN_VAL <= b <= MAX_VAL -> - B2 <= a * b <= B2.
Proof. intros H K. unfold v32, MIN_VAL, MAX_VAL, B2 in *. nia. Qed.
Lemma prod_small3 a b : - B2 <= a <= B2 -> MIN_VAL <= b <= MAX_VAL -> - B3 <= a * b <= B3.
Proof. intros H K. unfold MIN_VAL, MAX_VAL, B2, B3 in *. nia. Qed.
Lemma ck128 z : - 2^100 <= z <= 2^100 -> ck int128 z = Ok z.
Proof. intros H. unfold ck, in_range. cbn [imin imax int128]. replace (_ && _) with true by lia. easy. Qed.
Lemma prod128_ok co p q : v32 co -> MIN_VAL <= p <= MAX_VAL -> MIN_VAL <= q <= MAX_VAL -> prod128 co p q = Ok (co * p * q) /\ - B3 <= co * p * q <= B3.
Proof.
  intros H1 H2 H3. pose proof (prod_small co p H1 H2). pose proof (prod_small3 (co * p) q H H3). unfold B2, B3 in *.
  split; [|lia]. unfold prod128, imul. rewrite ck128 by lia. cbn [bind]. now rewrite ck128 by lia.
Qed.
Lemma nonlin_bound_ok co vx vy : v32 co -> vok vx -> vok vy ->
  exists lo hi, nonlin_bound co vx vy = Ok (lo, hi) /\ least co vx vy lo /\ greatest co vx vy hi /\ - B3 <= lo <= B3 /\ - B3 <= hi <= B3.
Proof.
  intros H (X1 & X2 & X3) (Y1 & Y2 & Y3). unfold nonlin_bound.
  destruct (prod128_ok co (lb vx) (lb vy)) as (-> & R1); [easy|lia|lia|]. destruct (prod128_ok co (lb vx) (ub vy)) as (-> & R2); [easy|lia|lia|].
  destruct (prod128_ok co (ub vx) (lb vy)) as (-> & R3); [easy|lia|lia|]. destruct (prod128_ok co (ub vx) (ub vy)) as (-> & R4); [easy|lia|lia|].
  cbn [bind]. eexists. eexists. split; [reflexivity|].
  assert (W : within vx (lb vx) /\ within vx (ub vx) /\ within vy (lb vy) /\ within vy (ub vy)) by (unfold within; lia). destruct W as (W1 & W2 & W3 & W4).
  split; [split|split; [split|lia]].
  - set (a := co * lb vx * lb vy) in *. set (b := co * lb vx * ub vy) in *. set (c := co * ub vx * lb vy) in *. set (d := co * ub vx * ub vy) in *.
    assert (E : Z.min a (Z.min b (Z.min c d)) = a \/ Z.min a (Z.min b (Z.min c d)) = b \/ Z.min a (Z.min b (Z.min c d)) = c \/ Z.min a (Z.min b (Z.min c d)) = d) by lia.
    destruct E as [E|[E|[E|E]]]; rewrite E; eexists; eexists; (split; [|split; [|reflexivity]]); easy.
  - intros p q Hp Hq. now apply corners_lo.
  - set (a := co * lb vx * lb vy) in *. set (b := co * lb vx * ub vy) in *. set (c := co * ub vx * lb vy) in *. set (d := co * ub vx * ub vy) in *.
    assert (E : Z.max a (Z.max b (Z.max c d)) = a \/ Z.max a (Z.max b (Z.max c d)) = b \/ Z.max a (Z.max b (Z.max c d)) = c \/ Z.max a (Z.max b (Z.max c d)) = d) by lia.
    destruct E as [E|[E|[E|E]]]; rewrite E; eexists; eexists; (split; [|split; [|reflexivity]]); easy.
  - intros p q Hp Hq. now apply corners_hi.
Qed.

Lemma quot_small n m : m <> 0 -> - 2^99 <= n <= 2^99 -> - 2^99 <= Z.quot n m <= 2^99.
Proof.
  intros Hm H. assert (A : Z.abs (Z.quot n m) <= Z.abs n); [|lia]. rewrite <- Z.quot_abs by easy.
  apply Z.quot_le_upper_bound; [lia|]. nia.
Qed.
Lemma floordiv128 n m : m <> 0 -> - 2^99 <= n <= 2^99 -> floordiv_t int128 n m = Ok (n / m).
Proof.
  intros Hm H. apply floordiv_t_ok; [split; cbn; lia| |easy|left; cbn; lia]. unfold fits. cbn. lia.
Qed.
Lemma ceildiv128 n m : m <> 0 -> - 2^99 <= n <= 2^99 -> ceildiv_t int128 n m = Ok (ceildiv n m).
Proof.
  intros Hm H. unfold ceildiv_t. destruct (m =? 0) eqn:E; [lia|]. pose proof (quot_small n m Hm H). rewrite ck128 by lia. cbn [bind].
  unfold ceildiv. destruct (_ && _); now rewrite ck128 by lia.
Qed.
Lemma cast32_id x : v32 x -> cast32 x = x.
Proof. intros H. unfold cast32, v32 in *. rewrite Z.mod_small; lia. Qed.

(** For negative divisors ceildiv is at most one more than the ceiling. *)
Lemma ceildiv_near n m x : m < 0 -> m * x <= n -> ceildiv n m <= x + 1.
Proof.
  intros Hm Hx. unfold ceildiv. pose proof (Z.quot_rem n m ltac:(lia)) as E. pose proof (Z.rem_bound_abs n m ltac:(lia)) as A. pose proof (Z.rem_sign_nz n m ltac:(lia)) as B.
  set (q := Z.quot n m) in *. set (r := Z.rem n m) in *.
  destruct (xorb (n <? 0) (m <? 0) && negb (r =? 0)) eqn:X; [|nia].
  assert (Z.sgn r = Z.sgn n) by (apply B; lia). assert (0 <= r) by lia. nia.
Qed.
(** It never exceeds the ceiling if the division is exact or both numbers are not positive. *)
Lemma ceildiv_sound n m x : m < 0 -> (n <= 0 \/ (m | n)) -> m * x <= n -> ceildiv n m <= x.
Proof.
  intros Hm H Hx. unfold ceildiv. pose proof (Z.quot_rem n m ltac:(lia)) as E. pose proof (Z.rem_bound_abs n m ltac:(lia)). pose proof (Z.rem_sign_nz n m).
  set (q := Z.quot n m) in *. set (r := Z.rem n m) in *. destruct H as [H|H].
  - destruct (Z.eq_dec r 0) as [R0|R0].
    + rewrite R0, andb_false_r. nia.
    + assert (Z.sgn r = -1 \/ n = 0) by (specialize (H1 ltac:(lia) R0); lia). assert (n <> 0). { intros ->. apply R0. unfold r. now rewrite Z.rem_0_l by lia. }
      replace (xorb (n <? 0) (m <? 0)) with false by lia. cbn [andb]. assert (r < 0) by lia. nia.
  - assert (R0 : r = 0) by (apply Z.rem_divide; [lia|easy]). rewrite R0, andb_false_r. nia.
Qed.

(** ** What the propagator decides to do *)

Definition zterm (cob : Z) (oz : option Z) : Z := match oz with Some p => cob * p | None => 0 end.
(** [oz] is a value for z if there is a z. *)
Definition zwithin (vz : option vstate) (oz : option Z) : Prop :=
  match vz, oz with Some v, Some p => within v p | None, None => True | _, _ => False end.
Definition zok (cob : Z) (vz : option vstate) : Prop := match vz with Some v => vok v /\ cob <> 0 | None => cob = 0 end.

(** Some (not all) values within the bounds satisfy the inequality. *)
Definition possible (coa : Z) (vx vy : vstate) (cob : Z) (vz : option vstate) (rhs : Z) : Prop :=
  exists p q oz, within vx p /\ within vy q /\ zwithin vz oz /\ coa * p * q + zterm cob oz <= rhs.
Definition avoidable (coa : Z) (vx vy : vstate) (cob : Z) (vz : option vstate) (rhs : Z) : Prop :=
  exists p q oz, within vx p /\ within vy q /\ zwithin vz oz /\ rhs < coa * p * q + zterm cob oz.
Definition step_spec (coa : Z) (vx vy : vstate) (cob : Z) (vz : option vstate) (rhs : Z) (st : nstep) : Prop :=
  match st with
  | NDone => forall p q oz, within vx p -> within vy q -> zwithin vz oz -> coa * p * q + zterm cob oz <= rhs
  | NClash => forall p q oz, within vx p -> within vy q -> match oz with Some p => exists v, vz = Some v /\ if cob <? 0 then p <= ub v else lb v <= p | None => vz = None end -> rhs < coa * p * q + zterm cob oz
  | NUpper w => exists v, vz = Some v /\ 0 < cob /\ lb v <= w < ub v /\ (forall p q z, within vx p -> within vy q -> coa * p * q + cob * z <= rhs -> z <= w) /\ possible coa vx vy cob vz rhs
  | NLower w => exists v, vz = Some v /\ cob < 0 /\ lb v <= w <= ub v /\
      ((forall t, least coa vx vy t -> rhs <= t \/ (cob | rhs - t)) -> forall p q z, within vx p -> within vy q -> coa * p * q + cob * z <= rhs -> w < z) /\ possible coa vx vy cob vz rhs
  | NNone => possible coa vx vy cob vz rhs /\ avoidable coa vx vy cob vz rhs
  end.
Lemma nonlin_step_ok coa vx vy cob vz rhs : v32 coa -> v32 cob -> v32 rhs -> vok vx -> vok vy -> zok cob vz ->
  exists st, nonlin_step coa vx vy cob vz rhs = Ok st /\ step_spec coa vx vy cob vz rhs st.
Proof.
  intros HA HB HR HX HY HZ. unfold nonlin_step. destruct (nonlin_bound_ok coa vx vy HA HX HY) as (lo & hi & -> & L & G & L1 & G1).
  cbn [bind].
  assert (Z : exists loz hiz, match vz with None => (0, 0) | Some v => if cob <? 0 then (ub v, lb v) else (lb v, ub v) end = (loz, hiz) /\
    MIN_VAL <= loz <= MAX_VAL /\ MIN_VAL <= hiz <= MAX_VAL).
  { destruct vz as [v|]; [|exists 0, 0; unfold MIN_VAL, MAX_VAL; split; [easy|lia]]. destruct HZ as ((V1 & V2 & V3) & _). destruct (cob <? 0); eexists; eexists; (split; [reflexivity|lia]). }
  destruct Z as (loz & hiz & EZ & Z1 & Z2). rewrite EZ.
  pose proof (prod_small cob loz HB Z1) as P1. pose proof (prod_small cob hiz HB Z2) as P2. unfold imul, iadd, isub, v32 in *. unfold B2, B3 in *.
  rewrite (ck128 (cob * loz)) by lia. cbn [bind]. rewrite (ck128 (cob * hiz)) by lia. cbn [bind]. rewrite (ck128 (lo + cob * loz)) by lia. cbn [bind].
  rewrite (ck128 (hi + cob * hiz)) by lia. cbn [bind].
  assert (ZT : forall oz, zwithin vz oz -> cob * loz <= zterm cob oz <= cob * hiz).
  { intros oz H. destruct vz as [v|], oz as [p|]; cbn in *; try easy; [|subst cob; lia]. unfold within in H. destruct (cob <? 0) eqn:C; injection EZ as <- <-; nia. }
  destruct (hi + cob * hiz <=? rhs) eqn:C1.
  { eexists. split; [reflexivity|]. intros p q oz Hp Hq Hz. specialize (ZT oz Hz). pose proof (proj2 G p q Hp Hq). lia. }
  destruct (rhs <? lo + cob * loz) eqn:C2.
  { eexists. split; [reflexivity|]. intros p q oz Hp Hq Hz. pose proof (proj2 L p q Hp Hq). destruct oz as [z|]; cbn.
    - destruct Hz as (v & -> & Hz). cbn in HZ. destruct (cob <? 0) eqn:C; injection EZ as <- <-; nia.
    - subst vz. cbn in *. subst cob. lia. }
  assert (F : exists z, (if 0 <? coa then bind (ck int128 (rhs - cob * loz)) (fun n => floordiv_t int128 n coa) else Ok 0) = Ok z).
  { destruct (0 <? coa) eqn:C; [|now exists 0]. rewrite ck128 by lia. cbn [bind]. rewrite floordiv128 by lia. now eexists. }
  destruct F as (z0 & ->). cbn [bind].
  assert (NONE : step_spec coa vx vy cob vz rhs NNone).
  { cbn. unfold possible, avoidable. destruct L as ((p & q & A1 & A2 & A3) & _). destruct G as ((p' & q' & C4 & C5 & C3) & _).
    assert (Z : exists o1 o2, zwithin vz o1 /\ zwithin vz o2 /\ zterm cob o1 = cob * loz /\ zterm cob o2 = cob * hiz).
    { destruct vz as [v|]; [|exists None, None; injection EZ as <- <-; cbn; lia]. destruct HZ as ((V1 & V2 & V3) & _). exists (Some loz), (Some hiz). cbn. unfold within.
      destruct (cob <? 0); injection EZ as <- <-; lia. }
    destruct Z as (o1 & o2 & O1 & O2 & O3 & O4). split; [exists p, q, o1|exists p', q', o2]; (split; [easy|split; [easy|split; [easy|lia]]]). }
  destruct vz as [v|]; [|eexists; split; [reflexivity|exact NONE]].
  rewrite ck128 by lia. cbn [bind]. cbn in HZ. destruct HZ as ((V1 & V2 & V3) & NZ).
  assert (VR : MIN_VAL = - (2^30 - 1) /\ MAX_VAL = 2^30 - 1) by (unfold MIN_VAL, MAX_VAL; lia).
  destruct (0 <? cob) eqn:C3.
  - rewrite floordiv128 by lia. cbn [bind]. replace (cob <? 0) with false in EZ by lia. injection EZ as <- <-.
    assert (W : lb v <= (rhs - lo) / cob) by (apply Z.div_le_lower_bound; lia).
    destruct ((rhs - lo) / cob <? ub v) eqn:C4; (eexists; split; [reflexivity|]); [|exact NONE].
    exists v. rewrite cast32_id by (unfold v32; lia). split; [easy|]. split; [lia|]. split; [lia|]. split; [|apply NONE]. intros p q z Hp Hq H.
    pose proof (proj2 L p q Hp Hq). apply Z.div_le_lower_bound; nia.
  - rewrite ceildiv128 by lia. cbn [bind]. replace (cob <? 0) with true in EZ by lia. injection EZ as <- <-.
    destruct (lb v <? ceildiv (rhs - lo) cob) eqn:C4; [|eexists; split; [reflexivity|exact NONE]].
    pose proof (ceildiv_near (rhs - lo) cob (ub v) ltac:(lia) ltac:(lia)) as CN.
    rewrite cast32_id by (unfold v32; lia). unfold ck, in_range. cbn [imin imax int32]. replace (_ && _) with true by lia. cbn [bind].
    eexists. split; [reflexivity|]. exists v. split; [easy|]. split; [lia|]. split; [lia|]. split; [|apply NONE]. intros S p q z Hp Hq H.
    assert (ceildiv (rhs - lo) cob <= z); [|lia]. apply ceildiv_sound; [lia| |pose proof (proj2 L p q Hp Hq); lia].
    destruct (S lo L); [left; lia|now right].
Qed.

Section Nonlin.
Context (O : oracle) (cfg : config) (Base : interp -> Prop) (n0 : Z).
Context (BO : base_ok Base n0) (CO : clasp_ok O Base).
Notation wf := OrderSpec.wf.
Notation pstep := (PropProofs.pstep O Base).
Notation ready := (SumProofs2.ready O n0).
Notation holds := (PropProofs.holds Base).

(** The literals of the current bounds exist and are false in reasons. *)
Lemma up_lit x s l s' : ready s -> (x < nvars s)%nat -> get_literal cfg x (ub (vst s x)) s = (l, s') ->
  s' = s /\ is_false O s (- l) = true /\ below (nxt s) (- l) /\ holds s (fun I nu => lit_true I (- l) <-> ub (vst s x) < nu x).
Proof.
  intros [W J B N] Hx E. destruct (upper_true O cfg Base CO x s l s' W J B Hx E) as (-> & T).
  destruct (pstep_get O cfg Base n0 BO T2 x (ub (vst s x)) s l s W Hx N E) as (_ & M & _).
  assert (BL : below (nxt s) l) by (apply lit_means_below with x (ub (vst s x)); auto; apply W).
  split; [easy|]. split; [unfold is_false; now rewrite Z.opp_involutive|]. split; [now apply below_neg|].
  intros I nu Gd Od. pose proof (means_holds Base s l x (ub (vst s x)) Hx M I nu Gd Od) as H. rewrite lit_true_neg by apply BL. rewrite H. lia.
Qed.
Lemma lo_lit x s l s' : ready s -> (x < nvars s)%nat -> get_literal cfg x (lb (vst s x) - 1) s = (l, s') ->
  s' = s /\ is_false O s l = true /\ below (nxt s) l /\ holds s (fun I nu => lit_true I l <-> nu x < lb (vst s x)).
Proof.
  intros [W J B N] Hx E. destruct (lower_false O cfg Base CO x s l s' W J B Hx E) as (-> & T).
  destruct (pstep_get O cfg Base n0 BO T2 x (lb (vst s x) - 1) s l s W Hx N E) as (_ & M & _).
  assert (BL : below (nxt s) l) by (apply lit_means_below with x (lb (vst s x) - 1); auto; apply W).
  split; [easy|]. split; [easy|]. split; [easy|].
  intros I nu Gd Od. pose proof (means_holds Base s l x (lb (vst s x) - 1) Hx M I nu Gd Od) as H. rewrite H. lia.
Qed.
Lemma range_reason_ok x s r s' : ready s -> (x < nvars s)%nat -> range_reason cfg x s = (r, s') ->
  s' = s /\ r <> [] /\ Forall (fun l => is_false O s l = true) r /\ Forall (below (nxt s)) r /\
  holds s (fun I nu => (forall l, In l r -> ~ lit_true I l) -> within (vst s x) (nu x)).
Proof.
  intros R Hx E. unfold range_reason in E. destruct (get_literal cfg x (ub (vst s x)) s) as [u s1] eqn:E1.
  destruct (up_lit x s u s1 R Hx E1) as (-> & A1 & A2 & A3). destruct (get_literal cfg x (lb (vst s x) - 1) s) as [l s2] eqn:E2.
  destruct (lo_lit x s l s2 R Hx E2) as (-> & B1 & B2 & B3). injection E as <- <-. split; [easy|]. split; [easy|].
  split; [now apply Forall_cons; [|apply Forall_cons; [|apply Forall_nil]]|]. split; [now apply Forall_cons; [|apply Forall_cons; [|apply Forall_nil]]|].
  intros I nu Gd Od H. specialize (A3 I nu Gd Od). specialize (B3 I nu Gd Od). cbn beta in *. unfold within.
  assert (H1 := H (- u) (or_introl eq_refl)). assert (H2 := H l (or_intror (or_introl eq_refl))). rewrite A3 in H1. rewrite B3 in H2. lia.
Qed.
Lemma factor_reason_ok x y s r s' : ready s -> (x < nvars s)%nat -> (y < nvars s)%nat -> factor_reason cfg x y s = (r, s') ->
  s' = s /\ r <> [] /\ Forall (fun l => is_false O s l = true) r /\ Forall (below (nxt s)) r /\
  holds s (fun I nu => (forall l, In l r -> ~ lit_true I l) -> within (vst s x) (nu x) /\ within (vst s y) (nu y)).
Proof.
  intros R Hx Hy E. unfold factor_reason in E. destruct (range_reason cfg x s) as [a s1] eqn:E1.
  destruct (range_reason_ok x s a s1 R Hx E1) as (-> & A0 & A1 & A2 & A3). destruct (range_reason cfg y s) as [b s2] eqn:E2.
  destruct (range_reason_ok y s b s2 R Hy E2) as (-> & B0 & B1 & B2 & B3). injection E as <- <-. split; [easy|].
  split; [now destruct a|]. split; [now apply Forall_app|]. split; [now apply Forall_app|].
  intros I nu Gd Od H. split; [apply (A3 I nu Gd Od)|apply (B3 I nu Gd Od)]; intros l Hl; apply H, in_or_app; [now left|now right].
Qed.

(** The constraint is in order: the variables exist and have supported bounds, the numbers are val_t; there
    is a variable z exactly if its coefficient is not zero. *)
Record nonlin_ok (s : state) (c : cid) (k : cst) (l : lit) (coa : Z) (x y : var) (cob : Z) (z : option var) (rhs : Z) : Prop := {
  nk_css : css s c = Some k;
  nk_def : c_def k = CNonlin l coa x y cob z rhs;
  nk_lit : below (nxt s) l;
  nk_x : (x < nvars s)%nat /\ vok (vst s x);
  nk_y : (y < nvars s)%nat /\ vok (vst s y);
  nk_z : match z with Some z => (z < nvars s)%nat /\ vok (vst s z) /\ cob <> 0 | None => cob = 0 end;
  nk_a : v32 coa; nk_b : v32 cob; nk_r : v32 rhs }.
Definition nsem (coa : Z) (x y : var) (cob : Z) (z : option var) (rhs : Z) (nu : var -> Z) : Prop :=
  coa * nu x * nu y + (match z with Some z => cob * nu z | None => 0 end) <= rhs.
(** The cases in which ceildiv does not exceed the ceiling. *)
Definition exact (coa : Z) (vx vy : vstate) (cob rhs : Z) : Prop := cob < 0 -> forall t, least coa vx vy t -> rhs <= t \/ (cob | rhs - t).

Lemma nsem_dep s c k l coa x y cob z rhs : nonlin_ok s c k l coa x y cob z rhs -> dep (nxt s) (nvars s) (fun _ nu => nsem coa x y cob z rhs nu).
Proof.
  intros [_ _ _ [K1 _] [K2 _] K3 _ _ _] I J nu mu _ N H. unfold nsem in *. rewrite (N x K1), (N y K2). destruct z as [z|]; [|easy]. now rewrite (N z (proj1 K3)).
Qed.

Lemma prop_nonlin_gen (ok : Prop) c k l coa x y cob z rhs s r s' : ready s -> nonlin_ok s c k l coa x y cob z rhs -> (ok -> exact coa (vst s x) (vst s y) cob rhs) ->
  prop_nonlin O cfg c s = (r, s') ->
  (exists b, r = Ok b /\ pstep (fun _ nu => ok /\ nsem coa x y cob z rhs nu) s s' b) /\ marks c s s'.
Proof.
  intros R K X E. assert (D : dep (nxt s) (nvars s) (fun _ nu => ok /\ nsem coa x y cob z rhs nu)).
  { intros I1 I2 n1 n2 A B [Y1 Y2]. split; [exact Y1|]. exact (nsem_dep _ _ _ _ _ _ _ _ _ _ K I1 I2 n1 n2 A B Y2). }
  destruct K as [K1 K2 K3 [K4 K5] [K6 K7] K8 K9 K10 K11]. unfold prop_nonlin in E. rewrite K1, K2 in E.
  destruct (nonlin_step_ok coa (vst s x) (vst s y) cob (option_map (vst s) z) rhs K9 K10 K11 K5 K7) as (st & ES & SP).
  { destruct z as [z|]; cbn; [tauto|easy]. }
  rewrite ES in E. destruct (R) as [W J B N].
  destruct st as [| |w|w|]; cbn in SP.
  - injection E as <- <-. split; [exists true; split; [easy|now apply mark_inactive_ok]|apply marks_inactive].
  - destruct (factor_reason cfg x y s) as [q s1] eqn:E1. destruct (factor_reason_ok x y s q s1 R K4 K6 E1) as (-> & A0 & A1 & A2 & A3).
    destruct z as [z|].
    + cbn in K8. destruct K8 as (Z1 & Z2 & Z3).
      destruct (if cob <? 0 then let '(u, s0) := get_literal cfg z (ub (vst s z)) s in (- u, s0) else get_literal cfg z (lb (vst s z) - 1) s) as [g s2] eqn:E2.
      assert (G : s2 = s /\ below (nxt s) g /\ holds s (fun I nu => ~ lit_true I g -> if cob <? 0 then nu z <= ub (vst s z) else lb (vst s z) <= nu z)).
      { destruct (cob <? 0).
        - destruct (get_literal cfg z (ub (vst s z)) s) as [u s3] eqn:E3. injection E2 as <- <-. destruct (up_lit z s u s3 R Z1 E3) as (-> & _ & B1 & B2).
          split; [easy|]. split; [easy|]. intros I nu Gd Od H. specialize (B2 I nu Gd Od). cbn beta in *. rewrite B2 in H. lia.
        - destruct (lo_lit z s g s2 R Z1 E2) as (-> & _ & B1 & B2).
          split; [easy|]. split; [easy|]. intros I nu Gd Od H. specialize (B2 I nu Gd Od). cbn beta in *. rewrite B2 in H. lia. }
      destruct G as (-> & G1 & G2). destruct (add_clause O Learnt (q ++ [g]) s) as [b s3] eqn:E3. injection E as <- <-.
      destruct (pstep_clause O Base (fun _ nu => ok /\ nsem coa x y cob (Some z) rhs nu) Learnt (q ++ [g]) s b s3 W) as (P1 & P2 & _); [| |easy|].
      * apply Forall_app. now split; [|apply Forall_cons; [|apply Forall_nil]].
      * intros I nu Gd Od [Hk H]. destruct (clause_dec I (q ++ [g])) as [Y|Y]; [easy|]. exfalso.
        destruct (A3 I nu Gd Od) as (V1 & V2); [intros a Ha; apply Y, in_or_app; now left|].
        assert (V3 := G2 I nu Gd Od (Y g (in_elt g q []))).
        specialize (SP (nu x) (nu y) (Some (nu z)) V1 V2). cbn in SP. unfold nsem in H. enough (rhs < coa * nu x * nu y + cob * nu z) by lia. apply SP. now exists (vst s z).
      * split; [exists b; now split|]. apply marks_same; [now apply (same_get css)|now apply (same_get ina)].
    + destruct (add_clause O Learnt q s) as [b s3] eqn:E3. injection E as <- <-.
      destruct (pstep_clause O Base (fun _ nu => ok /\ nsem coa x y cob None rhs nu) Learnt q s b s3 W) as (P1 & P2 & _); [easy| |easy|].
      * intros I nu Gd Od [Hk H]. destruct (clause_dec I q) as [Y|Y]; [easy|]. exfalso.
        destruct (A3 I nu Gd Od) as (V1 & V2); [intros a Ha; now apply Y|].
        specialize (SP (nu x) (nu y) None V1 V2). cbn in SP. unfold nsem in H. enough (rhs < coa * nu x * nu y + 0) by lia. now apply SP.
      * split; [exists b; now split|]. apply marks_same; [now apply (same_get css)|now apply (same_get ina)].
  - destruct SP as (v & V0 & V1 & V2 & V3 & _). destruct z as [z|]; [|discriminate]. cbn in V0. injection V0 as <-. destruct K8 as (Z1 & Z2 & Z3).
    destruct (factor_reason cfg x y s) as [q s1] eqn:E1. destruct (factor_reason_ok x y s q s1 R K4 K6 E1) as (-> & A0 & A1 & A2 & A3).
    destruct (get_literal cfg z w s) as [g s2] eqn:E2. destruct (pstep_get O cfg Base n0 BO (fun _ nu => ok /\ nsem coa x y cob (Some z) rhs nu) z w s g s2 W Z1 N E2) as (Q1 & Q2 & Q3).
    destruct (add_clause O Learnt (q ++ [g]) s2) as [b s3] eqn:E3. injection E as <- <-.
    assert (Z1' := nvars_pstep _ _ _ _ _ _ _ Q1 Z1).
    destruct (pstep_clause O Base (fun _ nu => ok /\ nsem coa x y cob (Some z) rhs nu) Learnt (q ++ [g]) s2 b s3 (ps_wf _ _ _ _ _ _ Q1)) as (P1 & P2 & _); [| |easy|].
    + apply Forall_app. split; [eapply Forall_impl; [|exact A2]; intros a; now apply below_pstep with (1 := Q1)|].
      apply Forall_cons; [|apply Forall_nil]. apply lit_means_below with z w; auto. apply (ps_wf _ _ _ _ _ _ Q1).
    + intros I nu Gd Od [Hk H]. destruct (clause_dec I (q ++ [g])) as [Y|Y]; [easy|]. exfalso.
      destruct (holds_pstep _ _ _ _ _ _ _ Q1 A3 I nu Gd Od) as (U1 & U2); [intros a Ha; apply Y, in_or_app; now left|].
      apply (Y g (in_elt g q [])). apply (means_holds Base s2 g z w Z1' Q2 I nu Gd Od).
      apply (V3 (nu x) (nu y) (nu z) U1 U2 H).
    + split; [exists b; split; [easy|now apply pstep_trans with s2]|]. apply marks_same; [transitivity (css s2); now apply (same_get css)|transitivity (ina s2); now apply (same_get ina)].
  - destruct SP as (v & V0 & V1 & V2 & V3 & _). destruct z as [z|]; [|discriminate]. cbn in V0. injection V0 as <-. destruct K8 as (Z1 & Z2 & Z3).
    destruct (factor_reason cfg x y s) as [q s1] eqn:E1. destruct (factor_reason_ok x y s q s1 R K4 K6 E1) as (-> & A0 & A1 & A2 & A3).
    destruct (get_literal cfg z w s) as [g s2] eqn:E2. destruct (pstep_get O cfg Base n0 BO (fun _ nu => ok /\ nsem coa x y cob (Some z) rhs nu) z w s g s2 W Z1 N E2) as (Q1 & Q2 & Q3).
    destruct (add_clause O Learnt (q ++ [- g]) s2) as [b s3] eqn:E3. injection E as <- <-.
    assert (Z1' := nvars_pstep _ _ _ _ _ _ _ Q1 Z1). assert (BG : below (nxt s2) g) by (apply lit_means_below with z w; auto; apply (ps_wf _ _ _ _ _ _ Q1)).
    destruct (pstep_clause O Base (fun _ nu => ok /\ nsem coa x y cob (Some z) rhs nu) Learnt (q ++ [- g]) s2 b s3 (ps_wf _ _ _ _ _ _ Q1)) as (P1 & P2 & _); [| |easy|].
    + apply Forall_app. split; [eapply Forall_impl; [|exact A2]; intros a; now apply below_pstep with (1 := Q1)|].
      apply Forall_cons; [|apply Forall_nil]. now apply below_neg.
    + intros I nu Gd Od [Hk H]. destruct (clause_dec I (q ++ [- g])) as [Y|Y]; [easy|]. exfalso.
      destruct (holds_pstep _ _ _ _ _ _ _ Q1 A3 I nu Gd Od) as (U1 & U2); [intros a Ha; apply Y, in_or_app; now left|].
      apply (Y (- g) (in_elt (- g) q [])). rewrite lit_true_neg by apply BG. rewrite (means_holds Base s2 g z w Z1' Q2 I nu Gd Od).
      specialize (V3 (X Hk V1) (nu x) (nu y) (nu z) U1 U2 H). lia.
    + split; [exists b; split; [easy|now apply pstep_trans with s2]|]. apply marks_same; [transitivity (css s2); now apply (same_get css)|transitivity (ina s2); now apply (same_get ina)].
  - injection E as <- <-. split; [exists true; split; [easy|now apply pstep_refl]|now apply marks_same].
Qed.

Lemma prop_nonlin_ok c k l coa x y cob z rhs s r s' : ready s -> nonlin_ok s c k l coa x y cob z rhs -> exact coa (vst s x) (vst s y) cob rhs ->
  prop_nonlin O cfg c s = (r, s') ->
  (exists b, r = Ok b /\ pstep (fun _ nu => nsem coa x y cob z rhs nu) s s' b) /\ marks c s s'.
Proof.
  intros R K X E. destruct (prop_nonlin_gen True c k l coa x y cob z rhs s r s' R K (fun _ => X) E) as [(b & -> & P) M]. split; [|exact M].
  exists b. split; [easy|]. apply pstep_weaken with (2 := P). easy.
Qed.

(** If no values within the bounds satisfy the inequality then there is a conflict. *)
Lemma prop_nonlin_conflict (UU : units O) c k l coa x y cob z rhs s r s' : ready s -> nonlin_ok s c k l coa x y cob z rhs ->
  (forall p q oz, within (vst s x) p -> within (vst s y) q -> zwithin (option_map (vst s) z) oz -> rhs < coa * p * q + zterm cob oz) ->
  prop_nonlin O cfg c s = (r, s') -> r = Ok false.
Proof.
  intros R [K1 K2 K3 [K4 K5] [K6 K7] K8 K9 K10 K11] V E. unfold prop_nonlin in E. rewrite K1, K2 in E.
  destruct (nonlin_step_ok coa (vst s x) (vst s y) cob (option_map (vst s) z) rhs K9 K10 K11 K5 K7) as (st & ES & SP).
  { destruct z as [z|]; cbn; [tauto|easy]. }
  assert (ZW : exists oz, zwithin (option_map (vst s) z) oz).
  { destruct z as [z|]; [|now exists None]. exists (Some (lb (vst s z))). cbn. unfold within. destruct K8 as (_ & (? & ? & ?) & _). lia. }
  destruct ZW as (oz & ZW). assert (WX : within (vst s x) (lb (vst s x))) by (unfold vok, within in *; lia). assert (WY : within (vst s y) (lb (vst s y))) by (unfold vok, within in *; lia).
  assert (st = NClash) as ->.
  { destruct st as [| |w|w|]; [|easy| | |]; exfalso; cbn in SP.
    - specialize (SP _ _ _ WX WY ZW). specialize (V _ _ _ WX WY ZW). lia.
    - destruct SP as (v & _ & _ & _ & _ & (p & q & oz' & A1 & A2 & A3 & A4)). specialize (V _ _ _ A1 A2 A3). lia.
    - destruct SP as (v & _ & _ & _ & _ & (p & q & oz' & A1 & A2 & A3 & A4)). specialize (V _ _ _ A1 A2 A3). lia.
    - destruct SP as ((p & q & oz' & A1 & A2 & A3 & A4) & _). specialize (V _ _ _ A1 A2 A3). lia. }
  rewrite ES in E. destruct (factor_reason cfg x y s) as [q s1] eqn:E1. destruct (factor_reason_ok x y s q s1 R K4 K6 E1) as (-> & A0 & A1 & A2 & A3).
  destruct z as [z|].
  - destruct K8 as (Z1 & Z2 & Z3).
    destruct (if cob <? 0 then let '(u, s0) := get_literal cfg z (ub (vst s z)) s in (- u, s0) else get_literal cfg z (lb (vst s z) - 1) s) as [g s2] eqn:E2.
    assert (G : s2 = s /\ is_false O s g = true).
    { destruct (cob <? 0).
      - destruct (get_literal cfg z (ub (vst s z)) s) as [u s3] eqn:E3. injection E2 as <- <-. destruct (up_lit z s u s3 R Z1 E3) as (-> & B1 & _). now split.
      - destruct (lo_lit z s g s2 R Z1 E2) as (-> & B1 & _). now split. }
    destruct G as (-> & G). destruct (add_clause O Learnt (q ++ [g]) s) as [b s3] eqn:E3. injection E as <- <-. f_equal.
    apply (all_false O Base CO UU Learnt (q ++ [g]) s s3); [now destruct q| |easy]. apply Forall_app. now split; [|apply Forall_cons; [|apply Forall_nil]].
  - destruct (add_clause O Learnt q s) as [b s3] eqn:E3. injection E as <- <-. f_equal. now apply (all_false O Base CO UU Learnt q s s3).
Qed.
End Nonlin.
