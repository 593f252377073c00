(** The estimates are exact. *)
From Verif Require Import Base Util IntervalSet VarState Solver OrderProofs1 Sum PropProofs Translate Translation Estimate EstimateSpec.
Open Scope Z_scope.

(** ** The tree of cases *)

Section Tree.
Context (L U : var -> Z).
(** As clause_translate_: the number of values of the next variable and the bounds for the first of them. *)
Definition kids (co : Z) (x : var) (lower upper : Z) : Z * Z * Z :=
  if 0 <? co then
    let vl := Z.max (L x - 1) ((upper + co * U x) / co) in
    let vu := Z.min (U x - 1) ((lower + co * L x) / co) in
    (vu - vl + 1, lower - co * (vu - L x + 1), upper + co * (U x - vu - 1))
  else
    let vl := Z.max (L x) (- ((lower + co * U x) / (- co)) - 1) in
    let vu := Z.min (U x) (- ((upper + co * L x) / (- co)) - 1) in
    (vu - vl + 1, lower - co * (vl - U x), upper + co * (L x - vl)).
Fixpoint vsum (f : Z -> Z -> Z) (c : Z) (n : nat) (lower upper : Z) : Z := match n with 0%nat => 0 | S n => f lower upper + vsum f c n (lower + c) (upper + c) end.
(** The number of leaves. *)
Fixpoint leaves (es : list (Z * var)) (lower upper : Z) : Z :=
  if lower <? 0 then 1
  else match es with
       | [] => 0
       | (co, x) :: r => let '(n, lower, upper) := kids co x lower upper in vsum (leaves r) (Z.abs co) (Z.to_nat n) lower upper
       end.
Fixpoint width (es : list (Z * var)) : Z := match es with [] => 0 | (co, x) :: r => Z.abs co * (U x - L x) + width r end.
Definition fine (es : list (Z * var)) : Prop := Forall (fun e => fst e <> 0 /\ L (snd e) <= U (snd e)) es.
Definition node (es : list (Z * var)) (lower upper : Z) : Prop := upper < 0 /\ lower - upper = width es.
Definition entry (es : list (Z * var)) (c n lower upper : Z) : Prop := upper + c * (n - 1) < 0 /\ lower - upper = width es.

Lemma width_pos es : fine es -> 0 <= width es.
Proof. induction 1 as [|[co x] r [A B] F IH]; cbn [width fst snd] in *; [lia|]. assert (0 <= Z.abs co * (U x - L x)) by nia. lia. Qed.
Lemma kids_ok co x r lower upper n l' u' : fine ((co, x) :: r) -> node ((co, x) :: r) lower upper -> 0 <= lower -> kids co x lower upper = (n, l', u') ->
  1 <= n /\ entry r (Z.abs co) n l' u'.
Proof.
  intros F [N1 N2] P E. inversion F as [|? ? [C B] FR]; subst. cbn [fst snd width] in *. pose proof (width_pos r FR) as W. unfold kids in E.
  set (l := L x) in *. set (u := U x) in *. destruct (0 <? co) eqn:S.
  - rewrite Z.abs_eq in * by lia. set (q1 := (upper + co * u) / co) in *. set (q2 := (lower + co * l) / co) in *.
    assert (D1 := Z.mul_div_le (upper + co * u) co ltac:(lia)). assert (D2 := Z.mul_succ_div_gt (upper + co * u) co ltac:(lia)). fold q1 in D1, D2.
    assert (D3 := Z.mul_div_le (lower + co * l) co ltac:(lia)). assert (D4 := Z.mul_succ_div_gt (lower + co * l) co ltac:(lia)). fold q2 in D3, D4.
    assert (A1 : q1 <= q2) by (apply Z.div_le_mono; nia). assert (A2 : q1 < u) by nia. assert (A3 : l <= q2) by nia. clearbody q1 q2.
    injection E as <- <- <-. split; [lia|]. split; [|nia]. assert (co * (Z.max (l - 1) q1 + 1) > upper + co * u) by nia. nia.
  - rewrite Z.abs_neq in * by lia. assert (exists k, k = - co) as [k K] by eauto. assert (co = - k) by lia. subst co. rewrite Z.opp_involutive in *.
    set (q1 := (lower + - k * u) / k) in *. set (q2 := (upper + - k * l) / k) in *.
    assert (D1 := Z.mul_div_le (lower + - k * u) k ltac:(lia)). assert (D2 := Z.mul_succ_div_gt (lower + - k * u) k ltac:(lia)). fold q1 in D1, D2.
    assert (D3 := Z.mul_div_le (upper + - k * l) k ltac:(lia)). assert (D4 := Z.mul_succ_div_gt (upper + - k * l) k ltac:(lia)). fold q2 in D3, D4.
    assert (A1 : q2 <= q1) by (apply Z.div_le_mono; nia). assert (A2 : - q2 - 1 >= l) by nia. assert (A3 : - q1 <= u) by nia. clearbody q1 q2.
    injection E as <- <- <-. split; [lia|]. split; [|nia]. assert (k * Z.min u (- q2 - 1) < - upper + k * l) by nia. nia.
Qed.
Lemma entry_node es c n lower upper : entry es c n lower upper -> 1 <= n -> 0 <= c -> node es lower upper.
Proof. intros [A B] N C. split; nia. Qed.
Lemma entry_next es c n lower upper : entry es c n lower upper -> entry es c (n - 1) (lower + c) (upper + c).
Proof. intros [A B]. split; nia. Qed.
Lemma vsum_ge es c : (forall lower upper, node es lower upper -> 1 <= leaves es lower upper) -> 0 <= c -> forall n lower upper, entry es c (Z.of_nat n) lower upper -> Z.of_nat n <= vsum (leaves es) c n lower upper.
Proof.
  intros IH C. induction n as [|n IHn]; intros lower upper E; cbn [vsum]; [lia|]. assert (1 <= leaves es lower upper) by (apply IH; apply entry_node with c (Z.of_nat (S n)); auto; lia).
  apply entry_next in E. replace (Z.of_nat (S n) - 1) with (Z.of_nat n) in E by lia. apply IHn in E. lia.
Qed.
Lemma leaves_pos es : fine es -> forall lower upper, node es lower upper -> 1 <= leaves es lower upper.
Proof.
  induction es as [|[co x] r IH]; intros F lower upper N; cbn [leaves]; destruct (lower <? 0) eqn:S; try lia.
  - destruct N as [N1 N2]. cbn in N2. lia.
  - destruct (kids co x lower upper) as [[n l'] u'] eqn:K. destruct (kids_ok co x r lower upper n l' u' F N ltac:(lia) K) as [A B].
    inversion F as [|? ? _ FR]; subst. assert (Q : entry r (Z.abs co) (Z.of_nat (Z.to_nat n)) l' u') by now rewrite Z2Nat.id by lia.
    apply vsum_ge in Q; [lia|auto|lia].
Qed.

(** ** The loop *)

Context (es : list (Z * var)) (s : state) (HB : forall x, lb (vst s x) = L x /\ ub (vst s x) = U x) (F : fine es) (maximum : Z).
Notation loop := (estimate_loop es s maximum).
Lemma vals_kids co x lower upper : estimate_vals co (vst s x) lower upper = kids co x lower upper.
Proof.
  unfold estimate_vals, kids. destruct (HB x) as [-> ->]. destruct (0 <? co); [|reflexivity]. set (a := (upper + co * U x) / co). set (b := (lower + co * L x) / co).
  replace (Z.max (L x) (a + 1)) with (Z.max (L x - 1) a + 1) by lia. replace (Z.min (U x) (b + 1)) with (Z.min (U x - 1) b + 1) by lia.
  set (p := Z.max _ _). set (q := Z.min _ _). f_equal; [f_equal|]; try lia; f_equal; f_equal; lia.
Qed.
Lemma fine_skip i : fine (skipn i es).
Proof. unfold fine in *. rewrite Forall_forall in *. intros e H. apply F. rewrite <- (firstn_skipn i es). apply in_or_app. now right. Qed.
Lemma nth_skip {A} (l : list A) : forall i x r, skipn i l = x :: r -> nth_error l i = Some x /\ skipn (S i) l = r.
Proof. induction l as [|a l IH]; intros [|i] x r H; cbn in *; try discriminate; [now injection H as -> ->|]. apply IH in H. exact H. Qed.

(** An entry of the stack is worked off, or the maximum is reached on the way. *)
Lemma entry_done r : forall j co y, skipn j es = (co, y) :: r -> forall n lower upper, entry r (Z.abs co) (Z.of_nat n) lower upper ->
  forall rest e, e < maximum -> exists k, forall fuel, loop (k + fuel)%nat ((S j, Z.of_nat n, lower, upper) :: rest) e =
    let e' := e - Z.of_nat n + vsum (leaves r) (Z.abs co) n lower upper in if maximum <=? e' then Some (Ok false) else loop fuel rest e'.
Proof.
  induction r as [|[co2 x] r IH]; intros j co y SK; pose proof (nth_skip es j _ _ SK) as [NJ SK2]; pose proof (fine_skip (S j)) as FR; rewrite SK2 in FR;
    (induction n as [|n IHn]; intros lower upper EN rest e EM;
     [exists 1%nat; intros fuel; cbn; replace (e - 0 + 0) with e by lia; now replace (maximum <=? e) with false by lia|]).
  all: pose proof (entry_node _ _ _ _ _ EN ltac:(lia) ltac:(lia)) as ND; pose proof (entry_next _ _ _ _ _ EN) as EN1; replace (Z.of_nat (S n) - 1) with (Z.of_nat n) in EN1 by lia.
  all: assert (GE := vsum_ge _ (Z.abs co) (leaves_pos _ FR) ltac:(lia) n _ _ EN1).
  all: assert (ST : forall q : Z, (if 0 <? co then q + co else q - co) = q + Z.abs co) by (intros q; destruct (0 <? co) eqn:?; lia).
  - destruct ND as [N1 N2]. cbn [width] in N2. destruct (IHn _ _ EN1 rest e EM) as (k & K). exists (S k). intros fuel. cbn [estimate_loop plus].
    replace (Z.of_nat (S n) <=? 0) with false by lia. rewrite NJ, !ST. replace (lower <? 0) with true by lia. replace (e - 1 + 1) with e by lia. replace (maximum <=? e) with false by lia.
    replace (Z.of_nat (S n) - 1) with (Z.of_nat n) by lia. rewrite K. cbn [vsum]. cbv zeta. assert (LV : leaves [] lower upper = 1) by (cbn [leaves]; now replace (lower <? 0) with true by lia). rewrite LV.
    set (v := vsum _ _ _ _ _). now replace (e - Z.of_nat (S n) + (1 + v)) with (e - Z.of_nat n + v) by lia.
  - destruct (lower <? 0) eqn:S.
    + destruct (IHn _ _ EN1 rest e EM) as (k & K). exists (Datatypes.S k). intros fuel. cbn [estimate_loop plus].
      replace (Z.of_nat (Datatypes.S n) <=? 0) with false by lia. rewrite NJ, !ST, S. replace (e - 1 + 1) with e by lia. replace (maximum <=? e) with false by lia.
      replace (Z.of_nat (Datatypes.S n) - 1) with (Z.of_nat n) by lia. rewrite K. cbn [vsum]. cbv zeta. assert (LV : leaves ((co2, x) :: r) lower upper = 1) by (cbn [leaves]; now rewrite S). rewrite LV.
      set (v := vsum _ _ _ _ _). now replace (e - Z.of_nat (Datatypes.S n) + (1 + v)) with (e - Z.of_nat n + v) by lia.
    + destruct (kids co2 x lower upper) as [[m l'] u'] eqn:KI. destruct (kids_ok co2 x r lower upper m l' u' FR ND ltac:(lia) KI) as [M1 M2].
      assert (M3 : entry r (Z.abs co2) (Z.of_nat (Z.to_nat m)) l' u') by now rewrite Z2Nat.id by lia.
      assert (FR2 : fine r) by (inversion FR; assumption). assert (GE2 := vsum_ge r (Z.abs co2) (leaves_pos _ FR2) ltac:(lia) _ _ _ M3).
      assert (LV : leaves ((co2, x) :: r) lower upper = vsum (leaves r) (Z.abs co2) (Z.to_nat m) l' u') by (cbn [leaves]; rewrite S, KI; reflexivity).
      pose proof (nth_skip es (Datatypes.S j) _ _ SK2) as [NX SK3]. set (v2 := vsum (leaves r) (Z.abs co2) (Z.to_nat m) l' u') in *. set (v := vsum (leaves ((co2, x) :: r)) (Z.abs co) n (lower + Z.abs co) (upper + Z.abs co)) in *.
      assert (ONE : forall fuel, loop (Datatypes.S fuel) ((Datatypes.S j, Z.of_nat (Datatypes.S n), lower, upper) :: rest) e =
        if maximum <=? e - 1 + m then Some (Ok false) else loop fuel ((Datatypes.S (Datatypes.S j), m, l', u') :: (Datatypes.S j, Z.of_nat n, lower + Z.abs co, upper + Z.abs co) :: rest) (e - 1 + m)).
      { intros fuel. cbn [estimate_loop]. replace (Z.of_nat (Datatypes.S n) <=? 0) with false by lia. rewrite NJ, !ST, S, NX, vals_kids, KI. now replace (Z.of_nat (Datatypes.S n) - 1) with (Z.of_nat n) by lia. }
      assert (TOT : e - Z.of_nat (Datatypes.S n) + vsum (leaves ((co2, x) :: r)) (Z.abs co) (Datatypes.S n) lower upper = e - 1 + v2 - Z.of_nat n + v) by (cbn [vsum]; rewrite LV; fold v; lia).
      destruct (maximum <=? e - 1 + m) eqn:Q1.
      { exists 1%nat. intros fuel. cbn [plus]. rewrite ONE, TOT. cbv zeta. rewrite Z2Nat.id in GE2 by lia. now replace (maximum <=? e - 1 + v2 - Z.of_nat n + v) with true by lia. }
      destruct (IH (Datatypes.S j) co2 x SK2 (Z.to_nat m) l' u' M3 ((Datatypes.S j, Z.of_nat n, lower + Z.abs co, upper + Z.abs co) :: rest) (e - 1 + m) ltac:(lia)) as (k1 & K1).
      rewrite Z2Nat.id in K1, GE2 by lia. fold v2 in K1. cbv zeta in K1. replace (e - 1 + m - m + v2) with (e - 1 + v2) in K1 by lia.
      destruct (maximum <=? e - 1 + v2) eqn:Q2.
      { exists (Datatypes.S k1). intros fuel. cbn [plus]. rewrite ONE, K1, TOT. cbv zeta. now replace (maximum <=? e - 1 + v2 - Z.of_nat n + v) with true by lia. }
      destruct (IHn _ _ EN1 rest (e - 1 + v2) ltac:(lia)) as (k2 & K2). fold v in K2. cbv zeta in K2.
      exists (Datatypes.S (k1 + k2)). intros fuel. cbn [plus]. rewrite ONE, <- Nat.add_assoc, K1, K2, TOT. reflexivity.
Qed.
Lemma estimate_exact lower upper : node es lower upper -> exists k, forall fuel, clause_estimate es s lower upper maximum (k + fuel) = Some (Ok (leaves es lower upper <? maximum)).
Proof.
  intros ND. assert (P := leaves_pos es F lower upper ND). unfold clause_estimate. destruct (lower <? 0) eqn:S.
  - assert (LV : leaves es lower upper = 1) by (destruct es as [|[]]; cbn [leaves]; now rewrite S). rewrite LV. exists 1%nat. intros fuel. cbn [plus estimate_loop]. rewrite S. cbn.
    destruct (maximum <=? 1) eqn:Q; [now replace (1 <? maximum) with false by lia|]. replace (1 <? maximum) with true by lia. destruct fuel; reflexivity.
  - destruct es as [|[co x] r] eqn:EE; [destruct ND as [N1 N2]; cbn in N2; lia|]. rewrite <- EE in *. assert (F1 := F). rewrite EE in F1, ND.
    destruct (kids co x lower upper) as [[m l'] u'] eqn:KI. destruct (kids_ok co x r lower upper m l' u' F1 ND ltac:(lia) KI) as [M1 M2].
    assert (M3 : entry r (Z.abs co) (Z.of_nat (Z.to_nat m)) l' u') by now rewrite Z2Nat.id by lia.
    assert (FR2 : fine r) by (inversion F1; assumption). assert (GE2 := vsum_ge r (Z.abs co) (leaves_pos _ FR2) ltac:(lia) _ _ _ M3). rewrite Z2Nat.id in GE2 by lia.
    assert (LV : leaves es lower upper = vsum (leaves r) (Z.abs co) (Z.to_nat m) l' u') by (rewrite EE; cbn [leaves]; rewrite S, KI; reflexivity).
    assert (NX : nth_error es 0 = Some (co, x)) by now rewrite EE.
    assert (ONE : forall fuel, loop (Datatypes.S fuel) [(0%nat, 1, lower, upper)] 0 = if maximum <=? m then Some (Ok false) else loop fuel [(1%nat, m, l', u')] m).
    { intros fuel. cbn [estimate_loop]. change (1 <=? 0) with false. cbv beta iota. rewrite S, NX, vals_kids, KI. now rewrite Z.add_0_l. }
    rewrite LV. set (v2 := vsum _ _ _ _ _) in *. destruct (maximum <=? m) eqn:Q1.
    { exists 1%nat. intros fuel. cbn [plus]. rewrite ONE. now replace (v2 <? maximum) with false by lia. }
    destruct (entry_done r 0 co x) with (n := Z.to_nat m) (lower := l') (upper := u') (rest := @nil (nat * Z * Z * Z)) (e := m) as (k1 & K1); [now rewrite EE|exact M3|lia|].
    rewrite Z2Nat.id in K1 by lia. fold v2 in K1. cbv zeta in K1. replace (m - m + v2) with v2 in K1 by lia.
    exists (Datatypes.S k1). intros fuel. cbn [plus]. rewrite ONE, K1. destruct (maximum <=? v2) eqn:Q2; [now replace (v2 <? maximum) with false by lia|].
    replace (v2 <? maximum) with true by lia. destruct fuel; reflexivity.
Qed.
End Tree.

(** ** What the translation sends *)

Section Sent.
Context (O : oracle) (cfg : config).
Definition plain (e : event) : Prop := match e with ELit _ | EWatch _ => True | _ => False end.
(** Bounds stay, and only events satisfying [P] are added. *)
Definition quiet (P : event -> Prop) (s s' : state) (n : nat) : Prop :=
  (forall x, lb (vst s' x) = lb (vst s x) /\ ub (vst s' x) = ub (vst s x)) /\ exists new, log s' = new ++ log s /\ Forall P new /\ clauses_sent new = n.
Lemma sent_app a b : clauses_sent (a ++ b) = (clauses_sent a + clauses_sent b)%nat.
Proof. induction a as [|e a IH]; cbn; auto. destruct e; auto. cbn. now rewrite IH. Qed.
Lemma quiet_refl P s : quiet P s s 0.
Proof. split; auto. exists []. auto. Qed.
Lemma quiet_trans P s1 s2 s3 n m : quiet P s1 s2 n -> quiet P s2 s3 m -> quiet P s1 s3 (m + n).
Proof.
  intros [A (n1 & A1 & A2 & A3)] [B (n2 & B1 & B2 & B3)]. split; [intros x; destruct (A x) as [<- <-]; apply B|]. exists (n2 ++ n1). rewrite B1, A1, app_assoc. csplit; auto; [now apply Forall_app|]. now rewrite sent_app, A3, B3.
Qed.
Lemma quiet_imp (P Q : event -> Prop) s s' n : (forall e, P e -> Q e) -> quiet P s s' n -> quiet Q s s' n.
Proof. intros H [A (new & B & C & D)]. split; auto. exists new. csplit; auto. eapply Forall_impl; [exact H|exact C]. Qed.
Lemma litmap_add_log x v l s : log (litmap_add x v l s) = log s.
Proof.
  unfold litmap_add. assert (H : log (snd (update_litmap x l v s)) = log s); [|destruct (update_litmap x l v s) as [[p n] s1]; exact H].
  unfold update_litmap. cbn [snd]. destruct (vlit_lt _ _ =? 0), (vlit_gt _ _ =? 0); cbn; auto.
  - now destruct (valid_entry _ _).
  - now destruct (valid_entry _ _).
  - destruct (valid_entry s _); cbn; now destruct (valid_entry _ _).
Qed.
Lemma get_quiet x v s : quiet plain s (snd (get_literal cfg x v s)) 0.
Proof.
  unfold get_literal. destruct (v <? _); [apply quiet_refl|]. destruct (_ <=? v); [apply quiet_refl|]. destruct (vfind _ _); [apply quiet_refl|].
  cbn [add_literal]. set (s1 := emit _ _). set (g := if _ <=? v then _ else _). cbn [snd]. unfold add_watch, quiet. cbn [emit set_log vst log]. rewrite litmap_add_vst. split.
  - intros y. unfold store_lit, set_vs. cbn [vst set_vst]. unfold upd. destruct (Nat.eqb _ _) eqn:E; auto. apply Nat.eqb_eq in E. subst. auto.
  - exists [EWatch (- g); EWatch g; ELit (nxt s)]. rewrite litmap_add_log. csplit; auto. repeat constructor.
Qed.
Lemma vals_quiet co x vs : forall s, quiet plain s (snd (weight_vals cfg co x vs s)) 0 /\ length (fst (weight_vals cfg co x vs s)) = length vs.
Proof.
  induction vs as [|i r IH]; intros s; cbn [weight_vals]; [split; [apply quiet_refl|reflexivity]|].
  pose proof (get_quiet x i s) as Q. destruct (get_literal cfg x i s) as [g s1]. destruct (IH s1) as [A B]. destruct (weight_vals cfg co x r s1) as [wl s2]. cbn in *. split; [|now rewrite B].
  exact (quiet_trans _ _ _ _ _ _ Q A).
Qed.
Lemma zseq_length x n : length (zseq x n) = n.
Proof. revert x. induction n; intros x; cbn; auto. Qed.
Lemma parts_same slack es s s' : (forall x, lb (vst s' x) = lb (vst s x) /\ ub (vst s' x) = ub (vst s x)) -> ratio_parts slack es s' = ratio_parts slack es s.
Proof. intros H. induction es as [|[co x] r IH]; cbn [ratio_parts]; auto. rewrite IH. now destruct (H x) as [-> ->]. Qed.
(** The number of literals of the weight constraint is the estimated one. *)
Lemma lits_quiet slack es : 0 <= slack -> forall s, Forall (fun e => fst e <> 0 /\ lb (vst s (snd e)) <= ub (vst s (snd e))) es ->
  quiet plain s (snd (weight_lits cfg slack es s)) 0 /\ Z.of_nat (length (fst (weight_lits cfg slack es s))) = snd (ratio_parts slack es s).
Proof.
  intros P. induction es as [|[co x] r IH]; intros s F; cbn [weight_lits ratio_parts]; [split; [apply quiet_refl|reflexivity]|].
  inversion F as [|? ? [C B] FR]; subst. cbn [fst snd] in *. set (vs := if 0 <? co then _ else _).
  destruct (vals_quiet co x vs s) as [Q1 Q2]. destruct (weight_vals cfg co x vs s) as [w1 s1]. cbn [fst snd] in *.
  assert (F1 : Forall (fun e => fst e <> 0 /\ lb (vst s1 (snd e)) <= ub (vst s1 (snd e))) r). { eapply Forall_impl; [|exact FR]. intros e. cbn. now destruct (proj1 Q1 (snd e)) as [-> ->]. }
  destruct (IH s1 F1) as [A1 A2]. rewrite (parts_same slack r s s1 (proj1 Q1)) in A2. destruct (weight_lits cfg slack r s1) as [w2 s2]. destruct (ratio_parts slack r s) as [n e]. cbn [fst snd] in *.
  split; [exact (quiet_trans _ _ _ _ _ _ Q1 A1)|]. rewrite app_length, Nat2Z.inj_add, A2, Q2. unfold vs. clear - P C B. destruct (0 <? co) eqn:S; cbv zeta; rewrite zseq_length.
  - set (q := _ / co). assert (lb (vst s x) <= q) by (unfold q; apply Z.div_le_lower_bound; nia). clearbody q. lia.
  - set (q := _ / - co). assert (- ub (vst s x) <= q) by (unfold q; apply Z.div_le_lower_bound; nia). clearbody q. lia.
Qed.
Lemma parts_open slack es s : fst (ratio_parts slack es s) = Z.of_nat (open_vars s es).
Proof.
  unfold open_vars. induction es as [|[co x] r IH]; cbn [ratio_parts filter]; auto. destruct (ratio_parts slack r s) as [n e]. cbn [fst snd] in *. destruct (_ =? _); cbn [negb length]; lia.
Qed.
Lemma parts_zero slack es s : 0 <= slack -> Forall (fun e => fst e <> 0 /\ lb (vst s (snd e)) <= ub (vst s (snd e))) es -> open_vars s es = 0%nat -> snd (ratio_parts slack es s) = 0.
Proof.
  intros P F. unfold open_vars. induction F as [|[co x] r [C B] F IH]; cbn [ratio_parts filter]; auto. destruct (ratio_parts slack r s) as [n e]. cbn [fst snd] in *.
  destruct (_ =? _) eqn:E; cbn [negb length]; [|discriminate]. intros H. rewrite (IH H). apply Z.eqb_eq in E. destruct (0 <? co) eqn:S; cbv zeta.
  - set (q := _ / co). assert (lb (vst s x) <= q) by (unfold q; apply Z.div_le_lower_bound; nia). clearbody q. lia.
  - set (q := _ / - co). assert (- ub (vst s x) <= q) by (unfold q; apply Z.div_le_lower_bound; nia). clearbody q. lia.
Qed.

(** Clauses. *)
Definition cplain (e : event) : Prop := match e with ELit _ | EWatch _ | EClause _ _ => True | _ => False end.
Section Bounds.
Context (L U : var -> Z).
Definition has (s : state) : Prop := forall x, lb (vst s x) = L x /\ ub (vst s x) = U x.
Lemma has_quiet P s s' n : has s -> quiet P s s' n -> has s'.
Proof. intros H [A _] x. destruct (A x) as [-> ->]. apply H. Qed.
(** Either all [m] clauses are sent, or a conflict is reported after some of them. *)
Definition sends (lo : bool) (m : Z) (s : state) (r : outcome bool * state) : Prop :=
  exists n, quiet cplain s (snd r) n /\ Z.of_nat n <= m /\ (lo = true -> n = 0%nat) /\ (lo = false -> fst r = Ok true -> Z.of_nat n = m).
Lemma vloop_sends lo f g co x d : (forall l lower upper s, has s -> 0 <= g lower upper /\ sends lo (g lower upper) s (f l lower upper s)) ->
  forall n w lower upper s, has s -> 0 <= vsum g (Z.abs co) n lower upper /\ sends lo (vsum g (Z.abs co) n lower upper) s (vloop cfg f co x d n w lower upper s).
Proof.
  intros HF. induction n as [|n IH]; intros w lower upper s H; cbn [vsum vloop].
  - split; [lia|]. exists 0%nat. csplit; auto. apply quiet_refl. lia.
  - pose proof (get_quiet x w s) as Q. destruct (get_literal cfg x w s) as [a s1]. cbn [snd] in Q. apply (quiet_imp _ cplain) in Q; [|intros []; cbn; auto].
    pose proof (has_quiet _ _ _ _ H Q) as H1. destruct (HF (if 0 <? co then a else - a) lower upper s1 H1) as [G0 (m & M1 & M2 & M3 & M4)].
    destruct (f _ lower upper s1) as [r s2]. cbn [fst snd] in *. pose proof (has_quiet _ _ _ _ H1 M1) as H2. destruct (IH (w + d) (lower + Z.abs co) (upper + Z.abs co) s2 H2) as [V0 (k & K1 & K2 & K3 & K4)].
    split; [lia|]. assert (Q12 := quiet_trans _ _ _ _ _ _ Q M1). rewrite Nat.add_0_r in Q12. assert (DN : forall r', r' <> Ok true -> sends lo (g lower upper + vsum g (Z.abs co) n (lower + Z.abs co) (upper + Z.abs co)) s (r', s2)).
    { intros r' N. exists m. cbn [fst snd]. csplit; auto; [lia|]. intros _ X. now elim N. }
    destruct r as [[|]|e|]; try (apply DN; discriminate). exists (k + m)%nat. csplit; [exact (quiet_trans _ _ _ _ _ _ Q12 K1)|lia|intros X; specialize (M3 X); specialize (K3 X); lia|].
    intros X Y. specialize (M4 X eq_refl). specialize (K4 X Y). lia.
Qed.
Lemma elems_sends lo es : forall cl lower upper s, has s -> 0 <= leaves L U es lower upper /\ sends lo (leaves L U es lower upper) s (clause_elems O cfg lo es cl lower upper s).
Proof.
  assert (LEAF : forall cl s, sends lo 1 s (if lo then (Ok true, s) else let '(b, s) := add_clause O Learnt cl s in (Ok b, s))).
  { intros cl s. destruct lo; [exists 0%nat; csplit; auto; [apply quiet_refl|lia|discriminate]|]. unfold add_clause. exists 1%nat. cbn. csplit; auto; [|lia|discriminate]. split; [auto|]. exists [EClause Learnt cl]. cbn. csplit; auto. now constructor. }
  induction es as [|[co x] r IH]; intros cl lower upper s H; cbn [leaves clause_elems]; destruct (lower <? 0) eqn:S; try (split; [lia|apply LEAF]).
  - split; [lia|]. exists 0%nat. csplit; auto; [apply quiet_refl|lia].
  - unfold kids. destruct (H x) as [-> ->]. destruct (0 <? co); cbv zeta; apply vloop_sends; auto; intros l a b s1 H1; now apply IH.
Qed.
End Bounds.

(** ** The decision *)

Lemma width_sums s es : width (fun x => lb (vst s x)) (fun x => ub (vst s x)) es = sum_hi s es - sum_lo s es.
Proof.
  unfold sum_hi, sum_lo. induction es as [|[co x] r IH]; cbn [width map zsum fold_right]; [reflexivity|]. fold (zsum (map (hi_of s) r)). fold (zsum (map (lo_of s) r)). rewrite IH.
  unfold hi_of, lo_of. cbn [fst snd]. destruct (0 <? co) eqn:S; [rewrite Z.abs_eq by lia|rewrite Z.abs_neq by lia]; nia.
Qed.
Lemma propagated_node s k l rhs es : propagated s k l rhs es -> rhs < c_hi k -> node (fun x => lb (vst s x)) (fun x => ub (vst s x)) es (rhs - c_lo k) (rhs - c_hi k).
Proof. intros (_ & _ & A & B & _) H. split; [lia|]. rewrite width_sums. lia. Qed.
Notation tree s es lower upper := (leaves (fun x => lb (vst s x)) (fun x => ub (vst s x)) es lower upper).

Lemma estimate_ends s k l rhs es maximum : propagated s k l rhs es -> rhs < c_hi k ->
  exists N, forall fuel, (N <= fuel)%nat -> clause_estimate es s (rhs - c_lo k) (rhs - c_hi k) maximum fuel = Some (Ok (tree s es (rhs - c_lo k) (rhs - c_hi k) <? maximum)).
Proof.
  intros P H. destruct (estimate_exact (fun x => lb (vst s x)) (fun x => ub (vst s x)) es s (fun x => conj eq_refl eq_refl) (proj1 (proj2 P)) maximum _ _ (propagated_node s k l rhs es P H)) as (N & E).
  exists N. intros fuel F. replace fuel with (N + (fuel - N))%nat by lia. apply E.
Qed.
Lemma loop_more es s maximum n : forall m todo e r, estimate_loop es s maximum n todo e = Some r -> (n <= m)%nat -> estimate_loop es s maximum m todo e = Some r.
Proof.
  induction n as [|n IH]; intros m todo e r E L; destruct m as [|m]; try lia; auto; cbn [estimate_loop] in E |- *; destruct todo as [|[[[i k] lower] upper] rest]; auto; [discriminate|].
  destruct (k <=? 0); [apply IH; auto; lia|]. destruct (match i with 0%nat => _ | S j => _ end) as [[t2 e2]|]; auto. destruct (lower <? 0).
  - destruct (maximum <=? e2 + 1); auto. apply IH; auto; lia.
  - destruct (nth_error es i) as [[co x]|]; auto. destruct (estimate_vals co (vst s x) lower upper) as [[a b] c]. destruct (maximum <=? e2 + a); auto. apply IH; auto; lia.
Qed.
Lemma estimate_result s k l rhs es maximum fuel r : propagated s k l rhs es -> rhs < c_hi k ->
  clause_estimate es s (rhs - c_lo k) (rhs - c_hi k) maximum fuel = Some r -> r = Ok (tree s es (rhs - c_lo k) (rhs - c_hi k) <? maximum).
Proof.
  intros P H E. destruct (estimate_ends s k l rhs es maximum P H) as (N & K). specialize (K (Nat.max N fuel) (Nat.le_max_l _ _)). unfold clause_estimate in *.
  rewrite (loop_more es s maximum fuel (Nat.max N fuel) _ _ r E (Nat.le_max_r _ _)) in K. congruence.
Qed.

Lemma translate_within t made fuel l rhs es k s ch r s' : 0 < tc_den t -> propagated s k l rhs es -> decide t made fuel k s = Some (Ok ch) ->
  translate_sum O cfg (ch_weight ch) (ch_clauses ch) (ch_literals ch) k s = (r, s') ->
  exists new, log s' = new ++ log s /\
    ((0 < clauses_sent new)%nat -> made < tc_total t /\ Z.of_nat (clauses_sent new) < tc_limit t /\ tc_literals t = false) /\
    (forall l' wl b, In (EWeight l' wl b) new -> Z.of_nat (length wl) * tc_den t <= tc_num t * Z.of_nat (open_vars s es)).
Proof.
  intros DP P D E. pose proof P as (KD & F & KL & KH & KR). unfold decide in D. unfold translate_sum in E. rewrite KD in D, E. cbv zeta in D.
  assert (NO : s' = s -> exists new, log s' = new ++ log s /\ ((0 < clauses_sent new)%nat -> made < tc_total t /\ Z.of_nat (clauses_sent new) < tc_limit t /\ tc_literals t = false) /\
    (forall l' wl b, In (EWeight l' wl b) new -> Z.of_nat (length wl) * tc_den t <= tc_num t * Z.of_nat (open_vars s es))).
  { intros ->. exists []. csplit; auto; [cbn; lia|intros l' wl b []]. }
  destruct (is_false O s l || (c_hi k <=? rhs)) eqn:T; [injection E as _ <-; auto|]. apply Bool.orb_false_iff in T as [_ T]. apply Z.leb_gt in T.
  destruct (ratio_within _ _ _) eqn:RW.
  - injection D as <-. cbn [ch_weight ch_clauses ch_literals] in E. unfold weight_translate in E. destruct (lits_quiet (rhs - c_lo k) es ltac:(lia) s F) as [[_ (new & A1 & A2 & A3)] B].
    destruct (weight_lits cfg (rhs - c_lo k) es s) as [wl s1]. cbn [fst snd] in *.
    assert (NW : forall l' w b, ~ In (EWeight l' w b) new) by (intros l' w b H; rewrite Forall_forall in A2; apply (A2 _ H)).
    assert (Q : s' = s1 \/ s' = emit (EWeight l wl (rhs - c_lo k)) s1). { destruct (_ && _); [|left; congruence]. unfold add_weight in E. destruct (is_false O s1 l); [left|right]; congruence. }
    destruct Q as [->| ->].
    + exists new. csplit; auto; [rewrite A3; lia|]. intros l' w b H. now apply NW in H.
    + exists (EWeight l wl (rhs - c_lo k) :: new). cbn [emit set_log log clauses_sent]. rewrite A1, A3. csplit; auto; [lia|]. intros l' w b [H|H]; [|now apply NW in H]. injection H as _ <- _.
      pose proof (parts_open (rhs - c_lo k) es s) as PO. pose proof (parts_zero (rhs - c_lo k) es s ltac:(lia) F) as PZ. destruct (ratio_parts (rhs - c_lo k) es s) as [n e]. cbn [fst snd] in *. unfold ratio_within in RW. subst n.
      destruct (0 <? Z.of_nat (open_vars s es)) eqn:Z0; [lia|]. assert (Z1 : open_vars s es = 0%nat) by lia. rewrite (PZ Z1) in B. rewrite B, Z1. lia.
  - destruct (made <? tc_total t) eqn:MT; [|injection D as <-; cbn [ch_weight ch_clauses] in E; injection E as _ <-; auto].
    destruct (clause_estimate es s (rhs - c_lo k) (rhs - c_hi k) (tc_limit t) fuel) as [q|] eqn:CE; [|discriminate]. apply (estimate_result s k l rhs es _ _ _ P T) in CE. subst q. injection D as <-. cbn [ch_weight ch_clauses ch_literals] in E.
    destruct (tree s es _ _ <? tc_limit t) eqn:LT; [|injection E as _ <-; auto]. unfold clause_translate in E.
    destruct (elems_sends (fun x => lb (vst s x)) (fun x => ub (vst s x)) (tc_literals t) es (push_lit (if is_true O s l then - TRUE_LIT else - l) []) (rhs - c_lo k) (rhs - c_hi k) s (fun x => conj eq_refl eq_refl)) as [_ (n & (_ & new & A1 & A2 & A3) & B & C & _)].
    destruct (clause_elems O cfg _ es _ _ _ s) as [r1 s1]. cbn [fst snd] in *. assert (Q : s' = s1) by (destruct r1; congruence). subst s'. exists new. rewrite A3. csplit; auto.
    + intros N. split; [lia|]. split; [lia|]. destruct (tc_literals t); auto. specialize (C eq_refl). lia.
    + intros l' w b H. rewrite Forall_forall in A2. now apply A2 in H.
Qed.
Lemma decide_exact t made l rhs es k s : propagated s k l rhs es -> rhs < c_hi k -> ratio_within (tc_num t) (tc_den t) (ratio_parts (rhs - c_lo k) es s) = false -> made < tc_total t ->
  exists b N, (forall fuel, (N <= fuel)%nat -> decide t made fuel k s = Some (Ok (mkch false b (tc_literals t)))) /\
    forall cl s', clause_elems O cfg false es cl (rhs - c_lo k) (rhs - c_hi k) s = (Ok true, s') ->
      exists new, log s' = new ++ log s /\ (b = true <-> Z.of_nat (clauses_sent new) < tc_limit t).
Proof.
  intros P T RW MT. destruct (estimate_ends s k l rhs es (tc_limit t) P T) as (N & EN). exists (tree s es (rhs - c_lo k) (rhs - c_hi k) <? tc_limit t), N. split.
  - intros fuel L. unfold decide. rewrite (proj1 P). cbv zeta. rewrite RW. replace (made <? tc_total t) with true by lia. now rewrite EN.
  - intros cl s' E. destruct (elems_sends (fun x => lb (vst s x)) (fun x => ub (vst s x)) false es cl (rhs - c_lo k) (rhs - c_hi k) s (fun x => conj eq_refl eq_refl)) as [_ (n & (_ & new & A1 & A2 & A3) & B & _ & C)].
    rewrite E in *. cbn [fst snd] in *. specialize (C eq_refl eq_refl). exists new. split; auto. rewrite A3, C, Z.ltb_lt. reflexivity.
Qed.
End Sent.
