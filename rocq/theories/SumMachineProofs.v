(** Linear constraints in machine arithmetic: the results are those with unbounded integers as long as the constraint has room. *)
From Verif Require Import Base Util UtilProofs VarState VarStateProofs Terms TermsSpec TermsProofs3 Solver OrderSpec OrderProofs1 OrderProofs2 Orders Sum SumProofs PropProofs ConSpec
  Distinct Disjoint Objective Search SearchSpec SearchFrame CheckSpec CheckFrame CheckSays SumMachine MachineSpec.
Open Scope Z_scope.

Lemma ok64 z : - 2^63 <= z <= 2^63 - 1 -> ck int64 z = Ok z.
Proof. intros H. apply ck_ok. unfold fits. cbn [imin imax int64]. lia. Qed.
Lemma ok32 z : - 2^31 <= z <= 2^31 - 1 -> ck int32 z = Ok z.
Proof. intros H. apply ck_ok. unfold fits. cbn [imin imax int32]. lia. Qed.
Lemma to32_id z : - 2^31 <= z <= 2^31 - 1 -> to32 z = z.
Proof. intros H. apply wrap_s_id; [lia|]. change (2 ^ (32 - 1)) with (2 ^ 31). lia. Qed.
Lemma div64 n m : m <> 0 -> - 2^63 < n <= 2^63 - 1 -> floordiv_t int64 n m = Ok (n / m).
Proof.
  intros M N. apply floordiv_t_ok; auto.
  - split; cbn; lia.
  - unfold fits. cbn [imin imax int64]. lia.
  - left. cbn [imin int64]. lia.
Qed.

(** ** Bounds of the variables *)

(** The bounds of a variable are in the range of values. *)
Definition rng (s : state) (x : var) : Prop :=
  MIN_VAL <= minb (vst s x) /\ minb (vst s x) <= lb (vst s x) /\ lb (vst s x) <= ub (vst s x) /\ ub (vst s x) <= maxb (vst s x) /\ maxb (vst s x) <= MAX_VAL.
Lemma rng_same s s' x : same3 s s' -> rng s x -> rng s' x.
Proof. intros [_ B] R. specialize (B x). unfold vbounds in B. unfold rng, minb, maxb in *. injection B as -> -> -> ->. exact R. Qed.

Lemma get_has cfg x v s l s' : get_literal cfg x v s = (l, s') -> sorted (lits (vst s x)) -> minb (vst s x) <= v < maxb (vst s x) ->
  exists k, In (v, k) (lits (vst s' x)).
Proof.
  intros E So H. unfold get_literal in E. destruct (v <? _) eqn:E1; [lia|]. destruct (_ <=? v) eqn:E2; [lia|]. unfold vfind in E. destruct (m_find _ _) as [k|] eqn:F.
  - injection E as <- <-. exists k. now apply m_find_in in F.
  - unfold add_literal in E. injection E as _ <-. eexists. unfold add_watch, emit. cbn [vst set_log]. rewrite litmap_add_vst. unfold store_lit, set_vs. cbn [vst set_vst set_nxt set_log emit]. unfold upd.
    rewrite Nat.eqb_refl. cbn [lits set_lits]. apply in_m_set; auto.
Qed.
Lemma order_ge_least v x w l u k : sorted (lits v) -> order_ge v x = Some (w, l) -> In (u, k) (lits v) -> x <= u -> w <= u.
Proof.
  unfold order_ge, vwith_ge. induction (lits v) as [|[a b] m IH]; intros So E I X; [easy|]. cbn [filter fst] in E. inversion So as [|? ? So' F]; subst.
  destruct (x <=? a) eqn:A.
  - injection E as <- <-. destruct I as [I|I]; [injection I as <- <-; lia|]. rewrite Forall_forall in F. specialize (F _ I). unfold klt in F. cbn in F. lia.
  - destruct I as [I|I]; [injection I as <- <-; lia|]. now apply IH.
Qed.

Section Machine.
Context (O : oracle) (cfg : config).

(** ** Reasons *)
(** The slack of a conflict leaves room for an element. *)
Definition spare (s : state) (e : Z * var) (slack : Z) : Prop := - 2^63 + (Z.abs (fst e) * MAX_VAL - lo_of s e) <= slack.
Lemma lo_small s co x : rng s x -> co <> 0 -> - (Z.abs co * MAX_VAL) <= lo_of s (co, x) <= Z.abs co * MAX_VAL.
Proof. intros R N. unfold rng, lo_of in *. cbn [fst snd]. destruct (0 <? co) eqn:C; [rewrite Z.abs_eq by lia|rewrite Z.abs_neq by lia]; unfold MIN_VAL in *; nia. Qed.

Lemma div_facts a b : 0 < b -> let q := a / b in b * q <= a /\ a < b * (q + 1).
Proof. intros H q. unfold q. pose proof (Z.mul_div_le a b H). pose proof (Z.mul_succ_div_gt a b H). lia. Qed.
Lemma div_opp_opp a b : b <> 0 -> a / b = (- a) / (- b).
Proof. intros H. symmetry. now apply Z.div_opp_opp. Qed.

Lemma used c d q slack : 0 < c -> c * q <= - (slack + 1) -> 0 <= d <= q -> 0 <= c * d <= - slack - 1.
Proof. intros A B D. assert (c * d <= c * q) by (apply Z.mul_le_mono_nonneg_l; lia). assert (0 <= c * d) by (apply Z.mul_nonneg_nonneg; lia). lia. Qed.
Lemma quot_room c q a b : 0 < c -> 0 <= q -> 0 <= a -> c * q <= b - c * a -> q + a <= b.
Proof. intros A B D E. assert (1 * (q + a) <= c * (q + a)) by (apply Z.mul_le_mono_nonneg_r; lia). lia. Qed.

Lemma mcalc_ok x co slack s : tab s -> rng s x -> co <> 0 -> MIN_VAL <= co <= MAX_VAL -> slack <= -1 -> spare s (co, x) slack ->
  mcalc_reason O cfg x co slack s = Ok (calc_reason O cfg x co slack s) /\
  slack <= snd (fst (calc_reason O cfg x co slack s)) <= -1.
Proof.
  intros T R N C S P. unfold spare in P. cbn [fst] in P. pose proof (lo_small s co x R N) as L. unfold lo_of in *. cbn [fst snd] in *.
  assert (M : MAX_VAL = 1073741823) by reflexivity. assert (M' : MIN_VAL = -1073741823) by reflexivity.
  unfold mcalc_reason, calc_reason. destruct (0 <? co) eqn:Cp.
  - pose proof R as (R1 & R2 & R3 & R4 & R5). rewrite Z.abs_eq in * by lia. unfold isub at 1. rewrite ok64 by lia. cbn [bind]. rewrite to32_id by lia.
    destruct (get_literal cfg x (lb (vst s x) - 1) s) as [lr s1] eqn:G.
    assert (K1 : comm O cfg (eq x) s s1) by now apply comm_get1 with (1 := G).
    assert (R' : rng s1 x) by (apply rng_same with s; [apply (comm_frame _ _ _ _ _ K1)|easy]).
    assert (T1 : tab s1) by (apply (tg_tab _ _ _ (comm_tg O cfg _ _ _ K1)); easy).
    assert (Bb : lb (vst s1 x) = lb (vst s x) /\ minb (vst s1 x) = minb (vst s x)).
    { destruct (comm_frame _ _ _ _ _ K1) as ((_ & B) & _). specialize (B x). unfold vbounds, minb in *. injection B as -> _ -> _. auto. }
    destruct Bb as (Bl & Bm). rewrite Bm.
    destruct (refine_reasons cfg); [|now cbn [bind andb fst snd]; split; [|lia]]. unfold iadd at 1. rewrite ok64 by lia. cbn [bind andb].
    destruct ((slack + co <? 0) && (0 <? dlevel O s1)%nat) eqn:RF; [|now cbn [fst snd]; split; [|lia]].
    unfold iadd, ineg. rewrite (ok64 (slack + 1)) by lia. rewrite (ok32 (- co)) by lia. cbn [bind]. rewrite div64 by lia. cbn [bind].
    rewrite (div_opp_opp (slack + 1) (- co)) by lia. rewrite Z.opp_involutive. pose proof (div_facts (- (slack + 1)) co ltac:(lia)) as D. cbv zeta in D.
    set (q := - (slack + 1) / co) in *. assert (Q0 : 0 <= q) by (apply Z.div_pos; lia).
    assert (Q1 : q + (MAX_VAL - lb (vst s x)) <= 2^63 - 1) by (apply quot_room with co; lia).
    rewrite (ok64 (- q)) by lia. cbn [bind]. rewrite (ok64 (lb (vst s x) + - q)) by lia. cbn [bind].
    replace (lb (vst s x) + - q) with (lb (vst s x) - q) by lia. set (value := Z.max (lb (vst s x) - q) (minb (vst s x))).
    destruct (value <? lb (vst s x)) eqn:VL; [|now cbn [fst snd]; split; [|lia]].
    assert (V1 : minb (vst s x) <= value < lb (vst s x)) by lia. assert (V2 : lb (vst s x) - value <= q) by lia.
    unfold isub. rewrite (ok64 (value - 1)) by lia. cbn [bind]. rewrite to32_id by lia.
    assert (HL : exists k, In (lb (vst s x) - 1, k) (lits (vst s1 x))).
    { apply get_has with (1 := G); [apply (tb_sorted _ T)|lia]. }
    destruct HL as [k HL].
    match goal with |- bind ?m ?f = Ok (let '(_, _) := ?c in _) /\ _ => set (mm := m); set (cc := c); assert (ST : mm = Ok cc /\ slack <= snd (fst (fst cc)) <= -1 /\
      value <= snd (fst cc) <= lb (vst s x) /\ snd (fst (fst cc)) + co * (snd (fst cc)) = slack + co * lb (vst s x)) end.
    { subst mm cc. destruct (order_ge (vst s1 x) (value - 1)) as [[w l]|] eqn:OG; [|cbn [fst snd]; split; [easy|lia]].
      pose proof (order_ge_least _ _ _ _ _ _ (tb_sorted _ T1 x) OG HL ltac:(lia)) as W1. pose proof (proj2 (order_ge_in _ _ _ _ OG)) as W2.
      rewrite (ok32 (w + 1)) by lia. cbn [bind]. destruct (w + 1 <? lb (vst s x)) eqn:W3; [|cbn [fst snd]; split; [easy|lia]].
      pose proof (used co (lb (vst s x) - (w + 1)) q slack ltac:(lia) (proj1 D) ltac:(lia)) as U.
      rewrite (ok64 (w + 1 - lb (vst s x))) by lia. cbn [bind]. unfold imul. rewrite (ok64 (co * (w + 1 - lb (vst s x)))) by lia. cbn [bind].
      rewrite (ok64 (slack - co * (w + 1 - lb (vst s x)))) by lia. cbn [bind].
      destruct (if is_false O s1 l then (true, s1) else _) as [ret s2]. cbn [fst snd]. split; [easy|]. lia. }
    destruct ST as (-> & ST). cbn [bind]. destruct cc as [[[[ret l] sl] cur] s2]. cbn [fst snd] in ST.
    destruct (ret && refine_introduce cfg && (litlevel O s2 l =? dlevel O s2)%nat && (value <? cur)) eqn:RI; [|cbn [fst snd]; split; [easy|lia]].
    pose proof (used co (lb (vst s x) - value) q slack ltac:(lia) (proj1 D) ltac:(lia)) as U.
    assert (U' : 0 <= co * (cur - value)) by (apply Z.mul_nonneg_nonneg; lia).
    rewrite (ok64 (value - cur)) by lia. cbn [bind]. unfold imul. rewrite (ok64 (co * (value - cur))) by lia. cbn [bind].
    rewrite (ok64 (sl - co * (value - cur))) by lia. cbn [bind]. destruct (get_literal cfg x (value - 1) s2) as [g s3].
    destruct (if is_false O s3 g then (true, s3) else _) as [ret' s4]. cbn [fst snd]. split; [easy|]. lia.
  - pose proof R as (R1 & R2 & R3 & R4 & R5). rewrite Z.abs_neq in * by lia. rewrite to32_id by lia.
    destruct (get_literal cfg x (ub (vst s x)) s) as [lr s1] eqn:G.
    assert (K1 : comm O cfg (eq x) s s1) by now apply comm_get1 with (1 := G).
    assert (R' : rng s1 x) by (apply rng_same with s; [apply (comm_frame _ _ _ _ _ K1)|easy]).
    assert (Bm : maxb (vst s1 x) = maxb (vst s x)).
    { destruct (comm_frame _ _ _ _ _ K1) as ((_ & B) & _). specialize (B x). unfold vbounds, maxb in *. injection B as _ -> _ ->. auto. }
    rewrite Bm.
    destruct (refine_reasons cfg); [|now cbn [bind andb fst snd]; split; [|lia]]. unfold isub at 1. rewrite ok64 by lia. cbn [bind andb].
    destruct ((slack - co <? 0) && (0 <? dlevel O s1)%nat) eqn:RF; [|now cbn [fst snd]; split; [|lia]].
    unfold iadd. rewrite (ok64 (slack + 1)) by lia. cbn [bind]. rewrite div64 by lia. cbn [bind].
    rewrite (div_opp_opp (slack + 1) co) by lia. pose proof (div_facts (- (slack + 1)) (- co) ltac:(lia)) as D. cbv zeta in D.
    set (q := - (slack + 1) / - co) in *. assert (Q0 : 0 <= q) by (apply Z.div_pos; lia).
    assert (Q1 : q + (MAX_VAL + ub (vst s x)) <= 2^63 - 1) by (apply quot_room with (- co); lia).
    rewrite (ok64 (ub (vst s x) + q)) by lia. cbn [bind]. set (value := Z.min (ub (vst s x) + q) (maxb (vst s x))).
    destruct (ub (vst s x) <? value) eqn:VL; [|now cbn [fst snd]; split; [|lia]].
    assert (V1 : ub (vst s x) < value <= maxb (vst s x)) by lia. assert (V2 : value - ub (vst s x) <= q) by lia.
    unfold isub, imul. rewrite to32_id by lia.
    match goal with |- bind ?m ?f = Ok (let '(_, _) := ?c in _) /\ _ => set (mm := m); set (cc := c); assert (ST : mm = Ok cc /\ slack <= snd (fst (fst cc)) <= -1 /\
      ub (vst s x) <= snd (fst cc) <= value /\ snd (fst (fst cc)) + co * (snd (fst cc)) = slack + co * ub (vst s x)) end.
    { subst mm cc. destruct (order_le (vst s1 x) value) as [[w l]|] eqn:OG; [|cbn [fst snd]; split; [easy|lia]].
      pose proof (proj2 (order_le_in _ _ _ _ OG)) as W2.
      destruct (ub (vst s x) <? w) eqn:W3; [|cbn [fst snd]; split; [easy|lia]].
      pose proof (used (- co) (w - ub (vst s x)) q slack ltac:(lia) (proj1 D) ltac:(lia)) as U.
      rewrite (ok64 (w - ub (vst s x))) by lia. cbn [bind]. rewrite (ok64 (co * (w - ub (vst s x)))) by lia. cbn [bind].
      rewrite (ok64 (slack - co * (w - ub (vst s x)))) by lia. cbn [bind].
      destruct (if is_false O s1 (- l) then (true, s1) else _) as [ret s2]. cbn [fst snd]. split; [easy|]. lia. }
    destruct ST as (-> & ST). cbn [bind]. destruct cc as [[[[ret l] sl] cur] s2]. cbn [fst snd] in ST.
    destruct (ret && refine_introduce cfg && (litlevel O s2 l =? dlevel O s2)%nat && (cur <? value)) eqn:RI; [|cbn [fst snd]; split; [easy|lia]].
    pose proof (used (- co) (value - ub (vst s x)) q slack ltac:(lia) (proj1 D) ltac:(lia)) as U.
    assert (U' : 0 <= - co * (value - cur)) by (apply Z.mul_nonneg_nonneg; lia).
    rewrite (ok64 (value - cur)) by lia. cbn [bind]. rewrite (ok64 (co * (value - cur))) by lia. cbn [bind].
    rewrite (ok64 (sl - co * (value - cur))) by lia. cbn [bind]. destruct (get_literal cfg x value s2) as [g s3].
    destruct (if is_false O s3 (- g) then (true, s3) else _) as [ret' s4]. cbn [fst snd]. split; [easy|]. lia.
Qed.
(** *** Frames *)
Lemma comm_tab V s s' : comm O cfg V s s' -> tab s -> tab s'.
Proof. intros C T. apply (tg_tab _ _ _ (comm_tg O cfg _ _ _ C)). easy. Qed.
Lemma comm_rng V s s' x : comm O cfg V s s' -> rng s x -> rng s' x.
Proof. intros C. apply rng_same. apply (comm_frame _ _ _ _ _ C). Qed.
Lemma same_lo s s' e : same3 s s' -> lo_of s' e = lo_of s e.
Proof. intros [_ B]. specialize (B (snd e)). unfold vbounds in B. unfold lo_of. injection B as -> -> _ _. reflexivity. Qed.
Lemma comm_lo V s s' e : comm O cfg V s s' -> lo_of s' e = lo_of s e.
Proof. intros C. apply same_lo. apply (comm_frame _ _ _ _ _ C). Qed.

(** Elements with coefficients other than zero whose variables are in range. *)
Definition elems (s : state) (es : list (Z * var)) : Prop := forall co x, In (co, x) es -> co <> 0 /\ MIN_VAL <= co <= MAX_VAL /\ rng s x.
Lemma comm_elems V s s' es : comm O cfg V s s' -> elems s es -> elems s' es.
Proof. intros C H co x I. destruct (H co x I) as (A & B & D). repeat split; auto; try lia; now apply (comm_rng V s s' x C). Qed.

Lemma mreasons_ok skip es : forall slack s, tab s -> elems s es -> slack <= -1 -> (forall e, In e es -> spare s e slack) ->
  mreasons O cfg skip es slack s = Ok (reasons O cfg skip es slack s).
Proof.
  induction es as [|[co x] r IH]; intros slack s T E S P; cbn [mreasons reasons]; [easy|].
  assert (Er : elems s r) by (intros c y I; apply E; now right).
  destruct (match skip with Some y => Nat.eqb x y | None => false end); [apply IH; auto; intros; apply P; now right|].
  destruct (E co x (or_introl eq_refl)) as (N & C & R). destruct (mcalc_ok x co slack s T R N C S (P _ (or_introl eq_refl))) as (-> & Sl).
  cbn [bind]. destruct (calc_reason O cfg x co slack s) as [[[ret l] sl] s1] eqn:CR. cbn [fst snd] in Sl.
  assert (K : comm O cfg (eq x) s s1) by now apply calc_reason_comm with (2 := CR).
  destruct ret; [|easy]. rewrite IH; [|now apply comm_tab with (eq x) s|now apply comm_elems with (eq x) s|lia|].
  - cbn [bind]. now destruct (reasons O cfg skip r sl s1) as [o s2].
  - intros e I. unfold spare in *. rewrite (comm_lo _ _ _ e K). specialize (P e (or_intror I)). lia.
Qed.

(** ** Propagation *)
(** The slack leaves room for the element. *)
Definition wide (s : state) (e : Z * var) (slack : Z) : Prop := slack + (Z.abs (fst e) * MAX_VAL + lo_of s e) <= 2^63 - 2.
Lemma small_spare s es slack : elems s es -> - MAX_VAL <= slack -> forall e, In e es -> spare s e slack.
Proof.
  intros E S [co x] I. destruct (E _ _ I) as (N & C & R). pose proof (lo_small s co x R N) as L. unfold spare. cbn [fst].
  assert (Z.abs co * MAX_VAL <= MAX_VAL * MAX_VAL). { apply Z.mul_le_mono_nonneg_r; [unfold MAX_VAL; lia|]. unfold MIN_VAL, MAX_VAL in *. lia. }
  unfold MIN_VAL, MAX_VAL in *. lia.
Qed.
Lemma mprop_elem_ok tag clit es slack co x s : tab s -> elems s es -> In (co, x) es -> 0 <= slack -> wide s (co, x) slack ->
  mprop_elem O cfg tag clit es slack co x s = Ok (prop_elem O cfg tag clit es slack co x s).
Proof.
  intros T E I S W. destruct (E _ _ I) as (N & C & R). unfold wide in W. cbn [fst] in W. pose proof (lo_small s co x R N) as L. unfold lo_of in *. cbn [fst snd] in *.
  assert (M : MAX_VAL = 1073741823) by reflexivity. assert (M' : MIN_VAL = -1073741823) by reflexivity. pose proof R as (R1 & R2 & R3 & R4 & R5).
  unfold mprop_elem, prop_elem. unfold iadd at 1. rewrite ok64 by lia. cbn [bind].
  set (delta := if 0 <? co then - ((slack + 1) / - co) else (slack + 1) / co). set (base := if 0 <? co then lb (vst s x) else ub (vst s x)) in *.
  assert (DF : (if 0 <? co then n <- ineg int32 co ;; f <- floordiv_t int64 (slack + 1) n ;; ineg int64 f else floordiv_t int64 (slack + 1) co) = Ok delta /\
    - 2^63 <= base + delta <= 2^63 - 1 /\ 1 <= co * delta - slack <= Z.abs co).
  { subst delta base. destruct (0 <? co) eqn:Cp.
    - rewrite Z.abs_eq in * by lia. unfold ineg. rewrite ok32 by lia. cbn [bind]. rewrite div64 by lia. cbn [bind].
      rewrite (div_opp_opp (slack + 1) (- co)) by lia. rewrite Z.opp_involutive. pose proof (div_facts (- (slack + 1)) co ltac:(lia)) as D. cbv zeta in D.
      set (q := - (slack + 1) / co) in *. assert (Q0 : q <= -1) by (assert (q < 0) by (apply Z.div_lt_upper_bound; lia); lia).
      assert (Q1 : (- q - 1) + (MAX_VAL + lb (vst s x)) <= 2^63 - 2) by (apply quot_room with co; lia).
      rewrite ok64 by lia. split; [easy|]. lia.
    - rewrite Z.abs_neq in * by lia. rewrite div64 by lia.
      rewrite (div_opp_opp (slack + 1) co) by lia. pose proof (div_facts (- (slack + 1)) (- co) ltac:(lia)) as D. cbv zeta in D.
      set (q := - (slack + 1) / - co) in *. assert (Q0 : q <= -1) by (assert (q < 0) by (apply Z.div_lt_upper_bound; lia); lia).
      assert (Q1 : (- q - 1) + (MAX_VAL - ub (vst s x)) <= 2^63 - 2) by (apply quot_room with (- co); lia).
      split; [easy|]. lia. }
  destruct DF as (-> & DV & DC). cbn [bind]. unfold iadd. rewrite ok64 by lia. cbn [bind].
  destruct (if 0 <? co then ub (vst s x) <=? base + delta else base + delta <? lb (vst s x)) eqn:CN; [easy|].
  assert (VR : MIN_VAL - 1 <= base + delta <= MAX_VAL /\ (0 < co -> MIN_VAL <= base + delta) /\ Z.abs delta <= 2 * MAX_VAL).
  { subst base. destruct (0 <? co) eqn:Cp; [assert (0 < delta) by (apply Z.mul_pos_cancel_l with co; lia); lia|].
    assert (0 < - delta) by (apply Z.mul_pos_cancel_l with (- co); lia). lia. }
  assert (WV : (if 0 <? co then isub int64 (base + delta) 1 else Ok (base + delta)) = Ok (if 0 <? co then base + delta - 1 else base + delta)).
  { destruct (0 <? co); [|easy]. unfold isub. apply ok64. lia. }
  rewrite WV. cbn [bind]. set (w := if 0 <? co then base + delta - 1 else base + delta). rewrite to32_id by (subst w; destruct (0 <? co); lia).
  destruct (if has_lit (vst s x) w then _ else _) as [l s1] eqn:HS.
  assert (K : comm O cfg (eq x) s s1).
  { destruct (has_lit (vst s x) w); [|injection HS as _ <-; auto using comm_refl]. destruct (get_literal cfg x w s) as [g s'] eqn:G. injection HS as _ <-. now apply comm_get1 with (1 := G). }
  destruct ((l =? 0) || negb (is_true O s1 l)); [|easy].
  assert (CS : - 2^62 <= co * delta - slack <= 2^62) by lia.
  assert (CB : Z.abs (co * delta) <= MAX_VAL * (2 * MAX_VAL)) by (rewrite Z.abs_mul; apply Z.mul_le_mono_nonneg; lia).
  unfold imul, isub. rewrite (ok64 (co * delta)) by lia. cbn [bind]. rewrite ok64 by lia. cbn [bind].
  rewrite mreasons_ok; [|now apply comm_tab with (eq x) s|now apply comm_elems with (eq x) s|lia|].
  - cbn [bind]. destruct (reasons O cfg (Some x) es (slack - co * delta) s1) as [[ls|] s2]; [|easy]. destruct (update_literal _ _ _ _ _ s2) as [g s3]. easy.
  - apply small_spare; [now apply comm_elems with (eq x) s|]. lia.
Qed.
Lemma mprop_elems_ok tag clit es slack todo : forall s, tab s -> elems s es -> incl todo es -> 0 <= slack -> (forall e, In e todo -> wide s e slack) ->
  mprop_elems O cfg tag clit es slack todo s = Ok (prop_elems O cfg tag clit es slack todo s).
Proof.
  induction todo as [|[co x] r IH]; intros s T E I S W; cbn [mprop_elems prop_elems]; [easy|].
  rewrite mprop_elem_ok; auto; [|apply I; now left|apply W; now left]. cbn [bind].
  destruct (prop_elem O cfg tag clit es slack co x s) as [ok s1] eqn:PE. destruct ok; [|easy].
  assert (K : comm O cfg (fun _ => True) s s1) by (apply prop_elem_comm with (3 := PE); auto).
  apply IH; [now apply comm_tab with (1 := K)|now apply comm_elems with (1 := K)|intros e He; apply I; now right|easy|].
  intros e He. unfold wide. rewrite (comm_lo _ _ _ e K). apply W. now right.
Qed.

(** *** The sums of a constraint *)
Lemma weight_pos (es : list (Z * var)) : 0 <= weight es.
Proof. induction es as [|[co x] r IH]; cbn [weight]; [lia|]. assert (0 <= Z.abs co * MAX_VAL) by (apply Z.mul_nonneg_nonneg; unfold MAX_VAL; lia). lia. Qed.
Lemma lo_weight s es : elems s es -> - weight es <= sum_lo s es <= weight es /\
  forall e, In e es -> sum_lo s es - lo_of s e <= weight es - Z.abs (fst e) * MAX_VAL /\ - (weight es - Z.abs (fst e) * MAX_VAL) <= sum_lo s es - lo_of s e.
Proof.
  unfold sum_lo. induction es as [|[co x] r IH]; intros E; cbn [map zsum fold_right weight]; [split; [lia|easy]|].
  assert (Er : elems s r) by (intros c y I; apply E; now right). specialize (IH Er). destruct IH as (A & B). unfold zsum in *.
  destruct (E co x (or_introl eq_refl)) as (N & C & R). pose proof (lo_small s co x R N) as L. split; [lia|].
  intros e [<-|I]; [cbn [fst]; lia|]. specialize (B e I). lia.
Qed.
Lemma hi_small s co x : rng s x -> co <> 0 -> lo_of s (co, x) <= hi_of s (co, x) /\ - (Z.abs co * MAX_VAL) <= hi_of s (co, x) <= Z.abs co * MAX_VAL.
Proof.
  intros R N. unfold rng, lo_of, hi_of in *. cbn [fst snd]. destruct (0 <? co) eqn:C; [rewrite Z.abs_eq by lia|rewrite Z.abs_neq by lia]; unfold MIN_VAL in *; nia.
Qed.
Lemma msums_ok s es : forall lo hi, elems s es -> Z.abs lo + weight es <= 2^63 - 1 -> Z.abs hi + weight es <= 2^63 - 1 ->
  msums s es lo hi = Ok (lo + sum_lo s es, hi + sum_hi s es).
Proof.
  unfold sum_lo, sum_hi. induction es as [|[co x] r IH]; intros lo hi E L H; cbn [msums map zsum fold_right weight] in *; [now rewrite !Z.add_0_r|].
  destruct (E co x (or_introl eq_refl)) as (N & C & R). pose proof (lo_small s co x R N) as A. pose proof (proj2 (hi_small s co x R N)) as B. pose proof (weight_pos r) as W.
  unfold lo_of, hi_of in *. cbn [fst snd] in *. unfold imul, iadd.
  assert (P : (if 0 <? co then lb (vst s x) else ub (vst s x)) * co = co * (if 0 <? co then lb (vst s x) else ub (vst s x))) by apply Z.mul_comm.
  assert (Q : (if 0 <? co then ub (vst s x) else lb (vst s x)) * co = co * (if 0 <? co then ub (vst s x) else lb (vst s x))) by apply Z.mul_comm.
  rewrite P, Q. set (a := co * (if 0 <? co then lb (vst s x) else ub (vst s x))) in *. set (b := co * (if 0 <? co then ub (vst s x) else lb (vst s x))) in *.
  rewrite (ok64 a) by lia. cbn [bind]. rewrite (ok64 (lo + a)) by lia. cbn [bind]. rewrite (ok64 b) by lia. cbn [bind]. rewrite (ok64 (hi + b)) by lia. cbn [bind].
  rewrite IH; [|intros c y I; apply E; now right|lia|lia]. unfold zsum. now rewrite !Z.add_assoc.
Qed.

Lemma room_rhs s d es rhs : roomy d -> sum_es d = Some es -> sum_rhs s d = Ok (Some rhs) -> room es rhs.
Proof.
  destruct d as [l r es'|a es'|l es'|l es'|l ca x y cb z r]; cbn [roomy sum_es sum_rhs]; intros R E H; try discriminate.
  - injection E as <-. injection H as <-. exact R.
  - injection E as <-. destruct (mbound s) as [b|]; [|discriminate]. destruct ((b <? MIN_VAL) || (MAX_VAL <? b)) eqn:B; [discriminate|]. injection H as <-.
    destruct R as ((C & A1 & A2) & (_ & B1 & B2)). split; [exact C|]. lia.
Qed.
Lemma room_abs es rhs : room es rhs -> weight es <= 2^63 - 1.
Proof. intros (_ & A & B). lia. Qed.

(** Propagation of a linear constraint whose sums are those of the bounds. *)
Theorem mprop_sum_ok chk c s k : tab s -> css s c = Some k -> roomy (c_def k) ->
  (forall es, sum_es (c_def k) = Some es -> (forall co x, In (co, x) es -> rng s x) /\ c_lo k = sum_lo s es) ->
  mprop_sum O cfg chk c s = prop_sum O cfg chk c s.
Proof.
  intros T Ck Ro H. unfold mprop_sum, prop_sum. rewrite Ck. destruct (sum_es (c_def k)) as [es|] eqn:Es; [|easy]. destruct (H _ eq_refl) as (Rg & Lo).
  destruct (sum_rhs s (c_def k)) as [[rhs|]| |] eqn:Rh; try easy. pose proof (room_rhs s _ _ _ Ro Es Rh) as Rm.
  assert (E : elems s es) by (intros co x I; destruct (proj1 Rm co x I); repeat split; try lia; now apply Rg with co).
  pose proof (room_abs _ _ Rm) as Wa. destruct Rm as (_ & Ra & Rb). destruct (lo_weight s es E) as (La & Lb).
  assert (Mid : (if chk then '(lo, hi) <- msums s es 0 0 ;; Ok ((c_lo k =? lo) && (c_hi k =? hi) && (lo <=? hi)) else Ok true) =
    Ok (negb (chk && negb ((c_lo k =? sum_lo s es) && (c_hi k =? sum_hi s es) && (sum_lo s es <=? sum_hi s es))))).
  { destruct chk; [|easy]. rewrite msums_ok by (auto; lia). cbn [bind andb]. now rewrite negb_involutive. }
  rewrite Mid. destruct (chk && _); cbn [negb]; [easy|]. destruct (c_hi k <=? rhs); [easy|].
  unfold isub. rewrite ok64 by lia. destruct (rhs - c_lo k <? 0) eqn:Sl.
  - rewrite mreasons_ok; [|exact T|exact E|lia|].
    + now destruct (reasons O cfg None es (rhs - c_lo k) s) as [[ls|] s1].
    + intros e I. specialize (Lb e I). unfold spare. lia.
  - destruct (is_true O s (c_lit (c_def k))); cbn [negb]; [|easy]. rewrite mprop_elems_ok; [|exact T|exact E|apply incl_refl|lia|].
    + unfold lift. now destruct (prop_elems O cfg _ _ es _ es s) as [b s1].
    + intros e I. specialize (Lb e I). unfold wide. lia.
Qed.

(** Checking a solution. *)
Lemma mlhs_ok s es : forall a, elems s es -> Z.abs a + weight es <= 2^63 - 1 ->
  mlhs s es a = if forallb (fun e => is_assigned (vst s (snd e))) es then Ok (a + zsum (map (fun e => fst e * lb (vst s (snd e))) es)) else Throw Logic.
Proof.
  induction es as [|[co x] r IH]; intros a E W; cbn [mlhs forallb map zsum fold_right fst snd weight] in *; [now rewrite Z.add_0_r|].
  destruct (E co x (or_introl eq_refl)) as (N & C & R). destruct (is_assigned (vst s x)); cbn [andb]; [|easy]. pose proof (weight_pos r) as Wp.
  assert (B : Z.abs (co * lb (vst s x)) <= Z.abs co * MAX_VAL). { rewrite Z.abs_mul. apply Z.mul_le_mono_nonneg_l; [lia|]. unfold rng, MIN_VAL in *. lia. }
  unfold imul, iadd. rewrite ok64 by lia. cbn [bind]. rewrite ok64 by lia. cbn [bind]. rewrite IH; [|intros c y I; apply E; now right|lia].
  unfold zsum. destruct (forallb _ r); [|easy]. now rewrite Z.add_assoc.
Qed.
Theorem mcheck_full_sum_ok c s k : css s c = Some k -> roomy (c_def k) ->
  (forall es, sum_es (c_def k) = Some es -> (forall co x, In (co, x) es -> rng s x)) ->
  mcheck_full_sum c s = check_full_sum c s.
Proof.
  intros Ck Ro H. unfold mcheck_full_sum, check_full_sum. rewrite Ck. destruct (sum_es (c_def k)) as [es|] eqn:Es; [|easy]. pose proof (H _ eq_refl) as Rg.
  destruct (sum_rhs s (c_def k)) as [[rhs|]| |] eqn:Rh; try easy. pose proof (room_rhs s _ _ _ Ro Es Rh) as Rm.
  assert (E : elems s es) by (intros co x I; destruct (proj1 Rm co x I); repeat split; try lia; now apply Rg with co).
  pose proof (room_abs _ _ Rm) as Wa. rewrite mlhs_ok by (auto; lia). destruct (forallb _ es); [|easy]. reflexivity.
Qed.
End Machine.
