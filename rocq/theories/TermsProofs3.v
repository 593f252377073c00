(** Simplification and division by the gcd. *)
From Coq Require Import String Permutation.
From Verif Require Import Base Util UtilProofs Terms TermsSpec TermsProofs TermsProofs2.
Open Scope Z_scope.

(** ** Collecting *)
Section Collect.
Context {K : Type} (eqb : K -> K -> bool) (is_const : K -> bool).
Hypothesis eqb_eq : forall a b, eqb a b = true <-> a = b.

Lemma add_seen_none co k acc : add_seen eqb co k acc = None <-> ~ In k (map snd acc).
Proof.
  induction acc as [|[c k'] r IH]; cbn [add_seen map snd]; [cbn; tauto|].
  destruct (eqb k k') eqn:E.
  - apply eqb_eq in E. subst. split; [discriminate|]. intros H. exfalso. apply H. cbn. auto.
  - assert (k <> k') by (intros ->; rewrite (proj2 (eqb_eq k' k') eq_refl) in E; discriminate).
    destruct (add_seen eqb co k r) eqn:F.
    + split; [discriminate|]. intros N. exfalso. apply N. right. apply Decidable.not_not; [|intros A; apply IH in A; discriminate].
      unfold Decidable.decidable. destruct IH as [I1 I2].
      clear -eqb_eq. induction (map snd r) as [|x l IHl]; [right; auto|]. destruct (eqb k x) eqn:E.
      * apply eqb_eq in E. subst. cbn. auto.
      * destruct IHl as [A|A]; [cbn; auto|]. right. intros [B|B]; [subst; rewrite (proj2 (eqb_eq k k) eq_refl) in E; discriminate|auto].
    + split; [|reflexivity]. intros _ [A|A]; [congruence|]. apply IH in A; auto.
Qed.

Lemma add_seen_some co k acc o : add_seen eqb co k acc = Some o -> forall acc', o = Ok acc' ->
  map snd acc' = map snd acc /\ forall kv, terms_val kv acc' = terms_val kv acc + co * kv k.
Proof.
  revert o. induction acc as [|[c k'] r IH]; cbn [add_seen]; intros o H acc' E; [discriminate|].
  destruct (eqb k k') eqn:Q.
  - apply eqb_eq in Q. subst k'. injection H as H; subst o. apply bind_ok in E. destruct E as (c' & E1 & E). injection E as <-. apply safe_add_val in E1. subst. split; [reflexivity|].
    intros kv. cbn [terms_val]. lia.
  - destruct (add_seen eqb co k r) as [o'|]; [|discriminate]. injection H as H; subst o. apply bind_ok in E. destruct E as (a & E1 & E). injection E as <-.
    destruct (IH _ eq_refl _ E1) as [A B]. cbn [map snd terms_val]. split; [f_equal; exact A|]. intros kv. rewrite (B kv). lia.
Qed.

Lemma collect_spec dz ts : forall acc rhs acc' rhs', collect eqb is_const dz ts acc rhs = Ok (acc', rhs') ->
  (forall kv, (forall k, is_const k = true -> kv k = 1) ->
     terms_val kv acc' - rhs' = terms_val kv acc - rhs + terms_val kv ts) /\
  (NoDup (map snd acc) -> NoDup (map snd acc')) /\
  (Forall (fun k => is_const k = false) (map snd acc) -> Forall (fun k => is_const k = false) (map snd acc')).
Proof.
  induction ts as [|[co k] ts IH]; cbn [collect]; intros acc rhs acc' rhs' H.
  - injection H as <- <-. split; [|auto]. intros. cbn [terms_val]. lia.
  - destruct (dz && (co =? 0)) eqn:Z0.
    + destruct (IH _ _ _ _ H) as (A & B & C). split; [|auto]. intros kv Hk. rewrite (A kv Hk). cbn [terms_val].
      assert (co = 0) by lia. subst. lia.
    + destruct (is_const k) eqn:Kc.
      * inv_ok. destruct (IH _ _ _ _ H) as (A & B & C). split; [|auto]. intros kv Hk. rewrite (A kv Hk). cbn [terms_val].
        apply safe_sub_val in H0. rewrite (Hk _ Kc). lia.
      * destruct (add_seen eqb co k acc) as [o|] eqn:S.
        -- inv_ok. destruct (add_seen_some _ _ _ _ S _ H0) as [M V]. destruct (IH _ _ _ _ H) as (A & B & C).
           rewrite M in B, C. split; [|auto]. intros kv Hk. rewrite (A kv Hk), V. cbn [terms_val]. lia.
        -- apply add_seen_none in S. destruct (IH _ _ _ _ H) as (A & B & C). rewrite map_app in B, C. cbn [map snd] in B, C.
           split; [|split].
           ++ intros kv Hk. rewrite (A kv Hk), terms_val_app. cbn [terms_val]. lia.
           ++ intros N. apply B. apply NoDup_rev in N. rewrite <- (rev_involutive (_ ++ _)). apply NoDup_rev. rewrite rev_app_distr. cbn. constructor; [|exact N].
              rewrite <- in_rev. exact S.
           ++ intros N. apply C. apply Forall_app. split; [exact N|]. repeat constructor. exact Kc.
Qed.

End Collect.

Lemma drop_zeros_spec {K} dz (acc : list (Z * K)) :
  (forall kv, terms_val kv (drop_zeros dz acc) = terms_val kv acc) /\
  (NoDup (map snd acc) -> NoDup (map snd (drop_zeros dz acc))) /\
  (forall P, Forall P (map snd acc) -> Forall P (map snd (drop_zeros dz acc))) /\
  (dz = true -> Forall (fun t => fst t <> 0) (drop_zeros dz acc)).
Proof.
  unfold drop_zeros. destruct dz; [|repeat split; auto; discriminate].
  induction acc as [|[c k] r (A & B & C & D)]; [cbn; repeat split; auto; constructor|].
  cbn [filter fst]. destruct (c =? 0) eqn:E; cbn [negb].
  - split; [|split; [|split]].
    + intros kv. rewrite A. cbn [terms_val]. assert (c = 0) by lia. subst. lia.
    + cbn [map snd]. intros N. inversion_clear N. auto.
    + intros P F. inversion_clear F. auto.
    + exact D.
  - split; [|split; [|split]].
    + intros kv. cbn [terms_val]. rewrite A. reflexivity.
    + cbn [map snd]. intros N. inversion_clear N. constructor; [|auto].
      intros I. apply H. apply in_map_iff in I. destruct I as (x & X1 & X2). apply filter_In in X2. apply in_map_iff. exists x. tauto.
    + intros P F. inversion_clear F. constructor; auto.
    + intros _. constructor; [cbn; lia|auto].
Qed.

Fixpoint abs_sum {K} (ts : list (Z * K)) : Z := match ts with [] => 0 | (c, _) :: r => Z.abs c + abs_sum r end.
Fixpoint abs_sum_if {K} (use : K -> bool) (ts : list (Z * K)) : Z :=
  match ts with [] => 0 | (c, k) :: r => (if use k then Z.abs c else 0) + abs_sum_if use r end.

Definition valid (x : Z) : Prop := MIN_VAL <= x <= MAX_VAL.
Lemma check_valid_val x r : check_valid_value x = Ok r -> r = x /\ valid x.
Proof. unfold check_valid_value, valid. destruct (x <? MIN_VAL) eqn:A; [discriminate|]. destruct (MAX_VAL <? x) eqn:B; [discriminate|].
  intros H. injection H as <-. lia. Qed.
Lemma check_valid_ok x : valid x -> check_valid_value x = Ok x.
Proof. unfold check_valid_value, valid. destruct (x <? MIN_VAL) eqn:A; [lia|]. destruct (MAX_VAL <? x) eqn:B; [lia|]. reflexivity. Qed.

Lemma check_bounds_val {K} t use (ts : list (Z * K)) : forall mn mx r, check_bounds t use ts mn mx = Ok r ->
  r = (mn - abs_sum_if use ts * MAX_VAL, mx + abs_sum_if use ts * MAX_VAL) /\
  Forall (fun x => valid (fst x)) ts /\ (fits t mn -> fits t mx -> fits t (fst r) /\ fits t (snd r)).
Proof.
  induction ts as [|[c k] ts IH]; cbn [check_bounds abs_sum_if]; intros mn mx r H.
  - inv_ok. split; [f_equal; lia|]. auto.
  - inv_ok. apply check_valid_val in H0. destruct H0 as [_ V]. destruct (use k).
    + inv_ok. destruct (IH _ _ _ H) as (A & B & C). pose proof (safe_add_fits _ _ _ _ H1). pose proof (safe_add_fits _ _ _ _ H3).
      apply safe_mul_val in H0, H2. apply safe_add_val in H1, H3.
      split; [|split; [constructor; assumption|auto]]. rewrite A. subst. unfold MIN_VAL, MAX_VAL.
      destruct (0 <? c) eqn:S; f_equal; lia.
    + destruct (IH _ _ _ H) as (A & B & C). split; [|split; [constructor; assumption|auto]]. rewrite A. f_equal.
Qed.

Lemma abs_sum_if_true {K} (ts : list (Z * K)) : abs_sum_if (fun _ => true) ts = abs_sum ts.
Proof. induction ts as [|[c k] r IH]; cbn; [reflexivity|]. rewrite IH. reflexivity. Qed.

Lemma valid32 x : valid x -> fits int32 x.
Proof. unfold valid, fits, MIN_VAL, MAX_VAL. cbn. lia. Qed.
Lemma valid64 x : valid x -> fits int64 x.
Proof. unfold valid, fits, MIN_VAL, MAX_VAL. cbn. lia. Qed.

Lemma ovar_eqb_eq a b : ovar_eqb a b = true <-> a = b.
Proof. destruct a, b; cbn; try (split; congruence). rewrite Nat.eqb_eq. split; congruence. Qed.
Lemma vars_eqb_eq a : forall b, vars_eqb a b = true <-> a = b.
Proof. induction a as [|x r IH]; intros [|y s]; cbn; try (split; congruence). rewrite andb_true_iff, Nat.eqb_eq, IH. split; [intros [-> ->]; reflexivity|]. intros E. injection E. auto. Qed.

(** The result of simplification. *)
Theorem simplify_spec dz ts vec rhs : simplify dz ts = Ok (vec, rhs) ->
  (forall nu, terms_val (key_val nu) ts = terms_val (key_val nu) vec - rhs) /\
  NoDup (map snd vec) /\ Forall (fun k => k <> None) (map snd vec) /\
  (dz = true -> Forall (fun t => fst t <> 0) vec) /\
  valid rhs /\ Forall (fun t => valid (fst t)) vec /\
  fits int64 (rhs - abs_sum vec * MAX_VAL) /\ fits int64 (rhs + abs_sum vec * MAX_VAL).
Proof.
  intros H. unfold simplify in H. inv_ok. destruct a as [acc r]. inv_ok.
  destruct (collect_spec _ _ ovar_eqb_eq _ _ _ _ _ _ H0) as (A & B & C).
  destruct (drop_zeros_spec dz acc) as (D1 & D2 & D3 & D4).
  apply check_valid_val in H1. destruct H1 as [_ V]. apply check_bounds_val in H2. destruct H2 as (E & F & G).
  rewrite abs_sum_if_true in E.
  split; [|split; [|split; [|split; [|split; [|split]]]]]; auto.
  - intros nu. rewrite D1, (A (key_val nu)); [cbn [terms_val]; lia|]. intros [v|] Hk; [discriminate|reflexivity].
  - apply D2, B. constructor.
  - eapply Forall_impl; [|apply D3, C; constructor]. cbn. intros [v|]; cbn; congruence.
  - destruct G as [G1 G2]; [apply valid64, V..|]. rewrite E in G1, G2. cbn in G1, G2. split; assumption.
Qed.

Lemma insert_var_perm v l : Permutation (v :: l) (insert_var v l).
Proof. induction l as [|x r IH]; cbn; [reflexivity|]. destruct (Nat.leb v x); [reflexivity|]. rewrite perm_swap, IH. reflexivity. Qed.
Lemma sort_vars_perm l : Permutation l (sort_vars l).
Proof. induction l as [|x r IH]; cbn; [reflexivity|]. rewrite <- insert_var_perm, <- IH. reflexivity. Qed.
Lemma prod_val_perm nu a b : Permutation a b -> prod_val nu a = prod_val nu b.
Proof. induction 1; cbn [prod_val]; try lia. Qed.

(** Two products over the same variables are collected. *)
Definition same_product (a b : list var) : Prop := Permutation a b.

Theorem simplify_n_spec dz ts vec rhs : simplify_n dz ts = Ok (vec, rhs) ->
  (forall nu, terms_val (prod_val nu) ts = terms_val (prod_val nu) vec - rhs) /\
  NoDup (map snd vec) /\ Forall (fun k => k <> []) (map snd vec) /\
  (dz = true -> Forall (fun t => fst t <> 0) vec) /\
  valid rhs /\ Forall (fun t => valid (fst t)) vec.
Proof.
  intros H. unfold simplify_n in H. inv_ok. destruct a as [acc r]. inv_ok. destruct a0 as [mn mx]. inv_ok.
  destruct (collect_spec _ _ vars_eqb_eq _ _ _ _ _ _ H0) as (A & B & C).
  destruct (drop_zeros_spec dz acc) as (D1 & D2 & D3 & D4).
  apply check_valid_val in H1. destruct H1 as [_ V]. apply check_bounds_val in H2. destruct H2 as (E & F & G).
  split; [|split; [|split; [|split; [|split]]]]; auto.
  - intros nu. rewrite D1, (A (prod_val nu)).
    + cbn [terms_val]. rewrite Z.sub_diag, Z.add_0_l. clear. induction ts as [|[c k] r IH]; [reflexivity|]. cbn [map terms_val fst snd].
      rewrite IH, (prod_val_perm nu _ _ (sort_vars_perm k)). reflexivity.
    + intros [|v k] Hk; [reflexivity|discriminate].
  - apply D2, B. constructor.
  - eapply Forall_impl; [|apply D3, C; constructor]. cbn. intros [|v k]; cbn; congruence.
Qed.

(** *** Errors: none if the coefficients are small in total *)
Lemma add_seen_small {K} (eqb : K -> K -> bool) co k acc o N :
  add_seen eqb co k acc = Some o -> abs_sum acc + Z.abs co <= N -> N <= MAX_VAL ->
  exists acc', o = Ok acc' /\ abs_sum acc' <= abs_sum acc + Z.abs co.
Proof.
  assert (P : forall l : list (Z * K), 0 <= abs_sum l) by (induction l as [|[c x] r IH]; cbn [abs_sum]; lia).
  revert o N. induction acc as [|[c k'] r IH]; cbn [add_seen]; intros o N H L M; [discriminate|]. cbn [abs_sum] in *.
  destruct (eqb k k').
  - injection H as <-. pose proof (P r).
    destruct (safe_add_exact int32 c co twos32) as [[A ->]|[A _]]; unfold fits in *; cbn [imin imax int32] in *; unfold MAX_VAL in *; try lia.
    cbn [bind]. eexists. split; [reflexivity|]. cbn [abs_sum]. lia.
  - destruct (add_seen eqb co k r) as [o'|]; [|discriminate]. injection H as <-.
    destruct (IH _ (N - Z.abs c) eq_refl) as (acc' & -> & A); [lia..|]. cbn [bind]. eexists. split; [reflexivity|]. cbn [abs_sum]. lia.
Qed.
Lemma abs_sum_app {K} (a b : list (Z * K)) : abs_sum (a ++ b) = abs_sum a + abs_sum b.
Proof. induction a as [|[c k] r IH]; cbn [abs_sum app]; lia. Qed.
Lemma abs_sum_nonneg {K} (a : list (Z * K)) : 0 <= abs_sum a.
Proof. induction a as [|[c k] r IH]; cbn [abs_sum]; lia. Qed.
Lemma collect_small {K} (eqb : K -> K -> bool) isc dz ts : forall acc rhs,
  abs_sum acc + Z.abs rhs + abs_sum ts <= MAX_VAL ->
  exists acc' rhs', collect eqb isc dz ts acc rhs = Ok (acc', rhs') /\ abs_sum acc' + Z.abs rhs' <= MAX_VAL.
Proof.
  induction ts as [|[co k] ts IH]; cbn [collect abs_sum]; intros acc rhs L.
  - exists acc, rhs. split; [reflexivity|lia].
  - destruct (_ && _); [apply IH; lia|]. pose proof (abs_sum_nonneg acc). pose proof (abs_sum_nonneg ts).
    destruct (isc k).
    + destruct (safe_sub_exact int32 rhs co twos32) as [[A ->]|[A _]]; unfold fits in *; cbn [imin imax int32] in *; unfold MAX_VAL in *; try lia.
      cbn [bind]. apply IH. lia.
    + destruct (add_seen eqb co k acc) as [o|] eqn:S.
      * destruct (add_seen_small _ _ _ _ _ _ S (Z.le_refl _)) as (acc' & -> & A); [lia|]. cbn [bind]. apply IH. lia.
      * apply IH. rewrite abs_sum_app. cbn [abs_sum]. lia.
Qed.
Lemma drop_zeros_abs {K} dz (l : list (Z * K)) : abs_sum (drop_zeros dz l) = abs_sum l.
Proof. unfold drop_zeros. destruct dz; [|reflexivity]. induction l as [|[c k] r IH]; [reflexivity|]. cbn [filter fst abs_sum].
  destruct (c =? 0) eqn:E; cbn [negb abs_sum]; lia. Qed.
Lemma check_bounds_small {K} t use (ts : list (Z * K)) : forall mn mx, twos t -> 2^63 - 1 <= imax t ->
  abs_sum ts <= MAX_VAL ->
  (- 2^62 <= mn - abs_sum ts * MAX_VAL /\ mn <= 2^62) -> (- 2^62 <= mx /\ mx + abs_sum ts * MAX_VAL <= 2^62) ->
  exists r, check_bounds t use ts mn mx = Ok r.
Proof.
  induction ts as [|[c k] ts IH]; cbn [check_bounds abs_sum]; intros mn mx T B L M1 M2; [eauto|].
  pose proof (abs_sum_nonneg ts).
  rewrite check_valid_ok by (unfold valid, MIN_VAL; lia). cbn [bind].
  assert (I : imin t = - imax t - 1) by apply T.
  destruct (use k).
  - destruct (safe_mul_exact t c (if 0 <? c then MIN_VAL else MAX_VAL) T) as [[A ->]|[A _]];
      [unfold fits, MIN_VAL, MAX_VAL in *; lia | unfold fits, MIN_VAL, MAX_VAL in *; destruct (0 <? c); lia | |
       exfalso; apply A; unfold fits, MIN_VAL, MAX_VAL in *; destruct (0 <? c); lia].
    cbn [bind].
    destruct (safe_mul_exact t c (if 0 <? c then MAX_VAL else MIN_VAL) T) as [[A' E']|[A' _]];
      [unfold fits, MIN_VAL, MAX_VAL in *; lia | unfold fits, MIN_VAL, MAX_VAL in *; destruct (0 <? c); lia | |
       exfalso; apply A'; unfold fits, MIN_VAL, MAX_VAL in *; destruct (0 <? c); lia].
    destruct (safe_add_exact t mn (c * (if 0 <? c then MIN_VAL else MAX_VAL)) T) as [[C ->]|[C _]];
      [unfold fits, MIN_VAL, MAX_VAL in *; lia | exact A | |
       exfalso; apply C; unfold fits, MIN_VAL, MAX_VAL in *; destruct (0 <? c) eqn:?; lia].
    cbn [bind]. rewrite E'. cbn [bind].
    destruct (safe_add_exact t mx (c * (if 0 <? c then MAX_VAL else MIN_VAL)) T) as [[C' ->]|[C' _]];
      [unfold fits, MIN_VAL, MAX_VAL in *; lia | exact A' | |
       exfalso; apply C'; unfold fits, MIN_VAL, MAX_VAL in *; destruct (0 <? c) eqn:?; lia].
    cbn [bind]. apply IH; auto; unfold MIN_VAL, MAX_VAL in *; destruct (0 <? c) eqn:?; lia.
  - apply IH; auto; unfold MIN_VAL, MAX_VAL in *; lia.
Qed.

(** If the absolute values of all numbers sum up to at most MAX_VAL there is no error. *)
Theorem simplify_small dz ts : abs_sum ts <= MAX_VAL -> exists r, simplify dz ts = Ok r.
Proof.
  intros L. unfold simplify. destruct (collect_small ovar_eqb is_const_l dz ts [] 0) as (acc & rhs & -> & A); [cbn [abs_sum]; lia|].
  cbn [bind]. pose proof (abs_sum_nonneg acc).
  rewrite check_valid_ok by (unfold valid, MIN_VAL; lia). cbn [bind].
  destruct (check_bounds_small int64 (fun _ => true) (drop_zeros dz acc) rhs rhs twos64) as [r ->]; [cbn; lia|rewrite drop_zeros_abs; lia|rewrite drop_zeros_abs; unfold MAX_VAL in *; nia..|].
  cbn [bind]. eauto.
Qed.

(** No undefined behaviour. *)
Lemma add_seen_no_ub {K} (eqb : K -> K -> bool) co k acc : fits int32 co -> coefs_fit acc ->
  match add_seen eqb co k acc with Some o => safe_terms o | None => True end.
Proof.
  intros Hc. induction 1 as [|[c k'] r H F IH]; cbn [add_seen]; [exact I|].
  destruct (eqb k k').
  - pose proof (safe_z_add c co H Hc) as S. destruct (safe_add int32 c co); cbn in *; try easy. constructor; assumption.
  - destruct (add_seen eqb co k r) as [o|]; [|exact I]. destruct o; cbn in *; try easy. constructor; assumption.
Qed.
Lemma collect_no_ub {K} (eqb : K -> K -> bool) isc dz ts : coefs_fit ts -> forall acc rhs, coefs_fit acc -> fits int32 rhs ->
  match collect eqb isc dz ts acc rhs with Ok (a, r) => coefs_fit a /\ fits int32 r | Throw _ => True | UB => False end.
Proof.
  induction 1 as [|[co k] ts H F IH]; intros acc rhs Ha Hr; cbn [collect]; [auto|]. cbn [fst] in H.
  destruct (_ && _); [apply IH; assumption|]. destruct (isc k).
  - pose proof (safe_z_sub rhs co Hr H) as S. destruct (safe_sub int32 rhs co); cbn [bind safe_z] in *; try easy. apply IH; assumption.
  - pose proof (add_seen_no_ub eqb co k acc H Ha) as S. destruct (add_seen eqb co k acc) as [o|].
    + destruct o; cbn [bind safe_terms] in *; try easy. apply IH; assumption.
    + apply IH; [|assumption]. apply Forall_app. split; [assumption|]. constructor; [exact H|constructor].
Qed.
Lemma check_bounds_no_ub {K} t use (ts : list (Z * K)) : twos t -> imax t >= 2^31 - 1 -> forall mn mx, fits t mn -> fits t mx ->
  match check_bounds t use ts mn mx with Ok (a, b) => fits t a /\ fits t b | Throw _ => True | UB => False end.
Proof.
  intros T B. induction ts as [|[c k] ts IH]; intros mn mx H1 H2; cbn [check_bounds]; [auto|].
  unfold check_valid_value. destruct (c <? MIN_VAL) eqn:V1; [exact I|]. destruct (MAX_VAL <? c) eqn:V2; [exact I|]. cbn [bind].
  assert (Im : imin t = - imax t - 1) by apply T.
  assert (Fc : fits t c) by (unfold fits, MIN_VAL, MAX_VAL in *; lia).
  assert (Fm : forall b : bool, fits t (if b then MIN_VAL else MAX_VAL)) by (intros []; unfold fits, MIN_VAL, MAX_VAL in *; lia).
  assert (FM : forall b : bool, fits t (if b then MAX_VAL else MIN_VAL)) by (intros []; unfold fits, MIN_VAL, MAX_VAL in *; lia).
  destruct (use k); [|apply IH; assumption].
  destruct (safe_mul_exact t c _ T Fc (Fm (0 <? c))) as [[A ->]|[A [e ->]]]; cbn [bind]; [|exact I].
  destruct (safe_add_exact t mn _ T H1 A) as [[A2 ->]|[A2 [e ->]]]; cbn [bind]; [|exact I].
  destruct (safe_mul_exact t c _ T Fc (FM (0 <? c))) as [[A3 ->]|[A3 [e ->]]]; cbn [bind]; [|exact I].
  destruct (safe_add_exact t mx _ T H2 A3) as [[A4 ->]|[A4 [e ->]]]; cbn [bind]; [|exact I].
  apply IH; assumption.
Qed.
Theorem simplify_no_ub dz ts : coefs_fit ts -> simplify dz ts <> UB.
Proof.
  intros F. unfold simplify. pose proof (collect_no_ub ovar_eqb is_const_l dz ts F [] 0) as C.
  destruct (collect _ _ _ _ _ _) as [[acc rhs]| |]; cbn [bind]; try easy.
  - unfold check_valid_value. destruct (rhs <? MIN_VAL) eqn:V1; [discriminate|]. destruct (MAX_VAL <? rhs) eqn:V2; [discriminate|]. cbn [bind].
    assert (Fr : fits int64 rhs) by (unfold fits, MIN_VAL, MAX_VAL in *; cbn; lia).
    pose proof (check_bounds_no_ub int64 (fun _ => true) (drop_zeros dz acc) twos64 ltac:(cbn; lia) rhs rhs Fr Fr) as B.
    destruct (check_bounds _ _ _ _ _); cbn [bind]; easy.
  - intros _. apply C; [constructor|unfold fits; cbn; lia].
Qed.
Theorem simplify_n_no_ub dz ts : coefs_fit ts -> simplify_n dz ts <> UB.
Proof.
  intros F. unfold simplify_n.
  assert (F' : coefs_fit (map (fun t : nterm => (fst t, sort_vars (snd t))) ts)).
  { unfold coefs_fit in *. induction F as [|[c k] r H F IH]; cbn; constructor; assumption. }
  pose proof (collect_no_ub vars_eqb is_const_n dz _ F' [] 0) as C.
  destruct (collect _ _ _ _ _ _) as [[acc rhs]| |]; cbn [bind]; try easy.
  - unfold check_valid_value. destruct (rhs <? MIN_VAL) eqn:V1; [discriminate|]. destruct (MAX_VAL <? rhs) eqn:V2; [discriminate|]. cbn [bind].
    assert (Fr : fits int128 rhs) by (unfold fits, MIN_VAL, MAX_VAL in *; cbn; lia).
    pose proof (check_bounds_no_ub int128 (fun k => Nat.eqb (List.length k) 1) (drop_zeros dz acc) twos128 ltac:(cbn; lia) rhs rhs Fr Fr) as B.
    destruct (check_bounds _ _ _ _ _) as [[mn mx]| |]; cbn [bind]; try easy. destruct B as [B1 B2].
    destruct (safe_inv_exact int128 mn twos128 B1) as [[A ->]|[A [e ->]]]; cbn [bind]; [|discriminate].
    destruct (safe_inv_exact int128 mx twos128 B2) as [[A' ->]|[A' [e ->]]]; cbn [bind]; discriminate.
  - intros _. apply C; [constructor|unfold fits; cbn; lia].
Qed.

(** ** Division by the gcd *)
Lemma gcd_fold {K} (ts : list (Z * K)) : forall d0, let d := fold_left (fun d t => Z.gcd d (fst t)) ts d0 in
  (d | d0) /\ Forall (fun t => (d | fst t)) ts.
Proof.
  induction ts as [|[c k] r IH]; cbn [fold_left fst]; intros d0; [split; [reflexivity|constructor]|].
  destruct (IH (Z.gcd d0 c)) as [A B]. cbv zeta. split.
  - eapply Z.divide_trans; [exact A|apply Z.gcd_divide_l].
  - constructor; [|exact B]. cbn [fst]. eapply Z.divide_trans; [exact A|apply Z.gcd_divide_r].
Qed.

Lemma quot_div d x : 0 < d -> (d | x) -> d * Z.quot x d = x.
Proof. intros H [q ->]. rewrite Z.quot_mul by lia. lia. Qed.

Theorem gcd_reduce_spec {K} (ts : list (Z * K)) rhs ts' rhs' : gcd_reduce ts rhs = (ts', rhs') ->
  map snd ts' = map snd ts /\
  (forall kv op, holds op (terms_val kv ts') rhs' <-> holds op (terms_val kv ts) rhs) /\
  (Forall (fun t => valid (fst t)) ts -> Forall (fun t => valid (fst t)) ts') /\ (valid rhs -> valid rhs') /\
  abs_sum ts' <= abs_sum ts /\ (Forall (fun t => fst t <> 0) ts -> Forall (fun t => fst t <> 0) ts').
Proof.
  unfold gcd_reduce. destruct (gcd_fold ts rhs) as [D F]. set (d := fold_left _ ts rhs) in *. clearbody d.
  destruct (1 <? d) eqn:E; intros H; injection H as <- <-; [|split; [reflexivity|split; [reflexivity|split; [auto|split; [auto|split; [lia|auto]]]]]].
  assert (Hd : 0 < d) by lia.
  assert (V : forall kv, d * terms_val kv (map (fun t => (Z.quot (fst t) d, snd t)) ts) = terms_val kv ts).
  { intros kv. clear E. induction F as [|[c k] r H F IH]; [cbn; lia|]. cbn [map terms_val fst snd] in *. rewrite <- IH.
    rewrite <- (quot_div d c Hd H) at 2. ring. }
  pose proof (quot_div d rhs Hd D) as R.
  assert (Q : forall x, (d | x) -> valid x -> valid (Z.quot x d)).
  { intros x Hx Hv. pose proof (quot_div d x Hd Hx). unfold valid, MIN_VAL in *. nia. }
  split; [|split; [|split; [|split; [|split]]]].
  - rewrite map_map. cbn. reflexivity.
  - intros kv op.
    assert (G : forall x y, holds op x y <-> holds op (d * x) (d * y)) by (clear - Hd; intros; destruct op; cbn [holds]; nia).
    rewrite G, V, R. reflexivity.
  - intros G. clear V. induction F as [|[c k] r H F IH]; cbn; [constructor|]. inversion_clear G. constructor; [apply Q; assumption|auto].
  - intros Hv. apply Q; assumption.
  - clear V. induction F as [|[c k] r H F IH]; cbn [map abs_sum fst snd]; [lia|]. pose proof (quot_div d c Hd H). cbn [fst] in *. nia.
  - intros G. clear V. induction F as [|[c k] r H F IH]; cbn; [constructor|]. inversion_clear G. constructor; [|auto].
    cbn [fst] in *. pose proof (quot_div d c Hd H). lia.
Qed.
