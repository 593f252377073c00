From Verif Require Import Base Util UtilProofs IntervalSet IntervalSetProofs VarState Terms TermsSpec TermsProofs TermsProofs3 StatementsProofs Solver OrderSpec OrderProofs1 OrderProofs2 OrderProofs3 OrderProofs5 OrderProofs6 OrderProofs7
  Sum PropProofs ConSpec Search SearchSpec SearchFrame SearchGrow SearchInv5 SearchSetup Builder BuilderSpec BuilderProofs BuilderProofs2.
From Coq Require Import Permutation.
Open Scope Z_scope.

Section Steps.
Context (O : oracle) (cfg : config) (srt : list (Z * var) -> list (Z * var)) (Base : interp -> Prop) (n0 : Z).
Context (BO : base_ok Base n0) (CO : clasp_ok O Base) (PS : forall es, Permutation (srt es) es).
Notation models := (models Base).
Notation Pr := (interp -> (var -> Z) -> Prop).
Notation top := (top O n0).
Notation gstep := (gstep O Base n0).

(** ** A call *)
Lemma lit_true_at I J l : l <> 0 -> I (Z.abs l) = J (Z.abs l) -> (lit_true I l <-> lit_true J l).
Proof.
  intros N E. unfold lit_true. destruct (0 <? l) eqn:P.
  - rewrite Z.abs_eq in E by lia. now rewrite E.
  - rewrite Z.abs_neq in E by lia. now rewrite E.
Qed.
Lemma call_agree (K : Z -> Prop) m c I J nu nu' : call_ok K m c -> (forall i, K i -> 0 < i) -> (forall i, K i -> I i = J i) -> ext_nu m nu nu' ->
  call_holds I nu c -> call_holds J nu' c.
Proof.
  intros C P A E.
  assert (L : forall l, K (Z.abs l) -> (lit_true I l <-> lit_true J l)) by (intros l Hl; apply lit_true_at; [specialize (P _ Hl); lia|auto]).
  destruct c as [c|l es rhs st|l ca va vb cc vc rhs st|l es|l es|l x dom| | | |]; cbn [call_ok call_holds] in *; auto.
  - intros (l & Hl & T). exists l. split; [easy|]. rewrite Forall_forall in C. apply L; auto.
  - destruct C as [C1 C2]. rewrite (L l C1), (lin_ext m nu nu'); auto. eapply Forall_impl; [|exact C2]. cbn. tauto.
  - destruct C as (C1 & C2 & _ & C4 & _). rewrite (L l C1).
    assert (EV : nonlin_val nu' ca va vb cc vc = nonlin_val nu ca va vb cc vc).
    { unfold nonlin_val. f_equal; [f_equal; f_equal|].
      - destruct va as [x|]; cbn; auto. - destruct vb as [x|]; cbn; auto. - destruct vc as [x|]; cbn; auto. f_equal. auto. }
    now rewrite EV.
  - destruct C as [C1 C2]. rewrite (L l C1). intros H T i j e1 e2 Lt H1 H2. rewrite Forall_forall in C2.
    rewrite (lin_ext m nu nu' (fst e1)), (lin_ext m nu nu' (fst e2)); eauto using nth_error_In.
  - destruct C as [C1 C2]. rewrite (L l C1). intros H T i j e1 e2 Lt H1 H2. rewrite Forall_forall in C2. specialize (H T i j e1 e2 Lt H1 H2).
    rewrite (E (snd e1)), (E (snd e2)) by (apply C2; eauto using nth_error_In). exact H.
  - destruct C as (C1 & C2 & _). rewrite (L l C1), (E x C2). auto.
Qed.
Lemma build1_ok (K : Z -> Prop) c b ok b' (Q : Pr) : top b -> (forall i, K i -> 0 < i < nxt (b_s b)) -> call_ok K (nvars (b_s b)) c ->
  build1 O cfg srt c b = Ok (ok, b') -> dep (nxt (b_s b)) (nvars (b_s b)) Q ->
  (forall I nu, models b I nu -> Q I nu -> call_holds I nu c) ->
  gstep Q Q (fun I nu => ok = true -> call_holds I nu c) b b'.
Proof.
  intros T KB C E D H.
  assert (B : forall l, K (Z.abs l) -> below (nxt (b_s b)) l) by (intros l Hl; specialize (KB _ Hl); split; lia).
  assert (ID : Ok (true, b) = Ok (ok, b') -> (forall I nu, call_holds I nu c) -> gstep Q Q (fun I nu => ok = true -> call_holds I nu c) b b').
  { intros X Y. injection X as <- <-. apply g_refl; auto. }
  destruct c as [c|l es rhs st|l ca va vb cc vc rhs st|l es|l es|l x dom|co v| |nm ar|v]; cbn [build1] in E; try (apply ID; [exact E|intros; exact Logic.I]); cbn [call_ok] in C.
  - assert (E' : b_clause O c b = (ok, b')) by congruence. eapply g_weaken; [eapply g_clause with (2 := E') (P := Q); auto|auto..].
    + rewrite Forall_forall in *. auto.
  - destruct C as [C1 C2]. eapply b_sum_ok with (7 := E); auto.
  - destruct C as (C1 & C2 & C3 & C4 & C5). eapply b_nonlinear_ok with (9 := E); auto.
  - destruct C as [C1 C2]. eapply b_distinct_ok with (7 := E); auto.
  - destruct C as [C1 C2]. eapply b_disjoint_ok with (7 := E); auto.
  - destruct C as (C1 & C2 & C3 & C4). assert (E' : b_dom O cfg l x dom b = (ok, b')) by congruence. eapply b_dom_ok with (8 := E'); auto.
Qed.
Theorem build1_built (K : Z -> Prop) c b ok b' : top b -> (forall i, K i -> 0 < i < nxt (b_s b)) -> call_ok K (nvars (b_s b)) c ->
  build1 O cfg srt c b = Ok (ok, b') -> built Base (fun I nu => call_holds I nu c) b b' ok /\ top b'.
Proof.
  intros T KB C E.
  assert (G : gstep (fun I nu => call_holds I nu c) (fun I nu => call_holds I nu c) (fun I nu => ok = true -> call_holds I nu c) b b').
  { apply build1_ok with K; auto. intros I J nu nu' A Ex. apply call_agree with K (nvars (b_s b)); auto; [intros i Hi; now apply KB|]. intros i Hi. apply A. now apply KB. }
  split; [eapply g_built; exact G|apply G].
Qed.

(** ** Runs *)
Lemma var_step mn mx b : top b -> mn <= mx -> let b' := snd (on_s (add_variable mn mx) b) in
  top b' /\ nxt (b_s b') = nxt (b_s b) /\ nvars (b_s b') = S (nvars (b_s b)) /\
  forall I nu, models b' I nu <-> models b I nu /\ mn <= nu (nvars (b_s b)) <= mx.
Proof.
  intros [[W C Ids Rg ND] N L ST TP] LE. unfold on_s. destruct (add_variable mn mx (b_s b)) as [x s] eqn:A. cbn [snd b_s b_cs b_id]. cbv zeta.
  destruct (add_variable_ok Base mn mx (b_s b) x s W A L) as (W' & _ & V & _). injection A as _ <-.
  csplit; auto.
  - constructor; cbn [b_s]; auto.
    + constructor; cbn [b_s b_cs b_id]; auto. eapply Forall_impl; [|exact C]. intros p. apply con_ok_mono; cbn; lia.
    + destruct ST as (S1 & S2 & S3). split; [exact S1|]. split; [exact S2|]. intros y. cbn. unfold upd. destruct (Nat.eqb y (nvars (b_s b))); [now split|apply S3].
  - intros I nu. split.
    + intros (G & HO & F). split; [split; [exact G|split; [|exact F]]|].
      * intros y Hy. specialize (HO y). cbn [b_s] in HO. rewrite V in HO. specialize (HO ltac:(lia)). cbn in HO. rewrite upd_other in HO by lia. exact HO.
      * specialize (HO (nvars (b_s b))). cbn [b_s] in HO. rewrite V in HO. specialize (HO ltac:(lia)). cbn in HO. rewrite upd_same in HO. exact (proj1 HO).
    + intros ((G & HO & F) & R). split; [exact G|]. split; [|exact F]. intros y Hy. cbn [b_s] in *. rewrite V in Hy. cbn.
      destruct (Nat.eq_dec y (nvars (b_s b))) as [->|Ne]; [rewrite upd_same; split; [exact R|intros w k []]|]. rewrite upd_other by auto. apply HO. lia.
Qed.

Lemma run_known K b ops K' b' P : run O cfg srt K b ops K' b' P -> top b -> (forall i, K i -> 0 < i < nxt (b_s b)) ->
  (forall i, K i -> K' i) /\ (forall i, K' i -> K i \/ nxt (b_s b) <= i) /\ (forall i, K' i -> 0 < i) /\
  (forall I J nu, (forall i, K' i -> I i = J i) -> P I nu -> P J nu) /\
  top b' /\ nxt (b_s b) <= nxt (b_s b') /\ (forall i, K' i -> i < nxt (b_s b')) /\
  (forall I nu, models b' I nu -> models b I nu /\ P I nu) /\
  (forall I nu, models b I nu -> P I nu -> exists J, (forall i, K' i \/ nxt (b_s b') <= i -> J i = I i) /\ models b' J nu).
Proof.
  induction 1 as [K b|K b o ops b1 K' b' P OK E R IH]; intros T KB.
  { csplit; auto; try lia.
    all: try (intros i Hi; apply KB in Hi; lia). intros I nu M _. exists I. auto. }
  destruct o as [c| |mn mx]; cbn [knows op_ok op_holds] in *.
  - (* a call *)
    cbn [build] in E. apply bind_ok in E as ([ok b1'] & E & E'). destruct ok; cbn [negb] in E'; [|discriminate]. injection E' as ->.
    destruct (build1_built K c b true b1 T KB OK E) as ([U1 U2 U3 U4 U5] & T1).
    destruct IH as (I1 & I2 & I3 & I4 & I5 & I6 & I7 & I8 & I9); auto; [intros i Hi; specialize (KB i Hi); lia|].
    csplit; auto; try lia.
    + intros i Hi. apply I2 in Hi as [Hi|Hi]; [auto|]. right. lia.
    + intros I J nu A [p q]. split; [|now apply (I4 I J nu)]. apply call_agree with K (nvars (b_s b)) I nu; auto; try easy; intros i Hi; now apply KB.
    + intros I nu M. destruct (I8 I nu M) as [M1 p]. destruct (U5 I nu M1) as [M0 q]. auto.
    + intros I nu M [p q]. destruct (U4 I nu M p) as (J0 & A0 & M1). set (J := fun i => if i <? nxt (b_s b1) then J0 i else I i).
      assert (MJ : models b1 J nu). { apply (models_dep O Base n0 BO b1 T1 J0 J nu nu); [|easy|exact M1]. intros i Hi. unfold J. replace (i <? nxt (b_s b1)) with true by lia. reflexivity. }
      assert (AJ : forall i, K' i -> I i = J i).
      { intros i Hi. unfold J. destruct (i <? nxt (b_s b1)) eqn:Li; [|easy]. apply A0. apply I2 in Hi as [Hi|Hi]; [now apply KB|lia]. }
      destruct (I9 J nu MJ (I4 I J nu AJ q)) as (J' & A' & M'). exists J'. split; [|exact M']. intros i Hi. rewrite A' by exact Hi.
      destruct Hi as [Hi|Hi]; [symmetry; auto|]. unfold J. replace (i <? nxt (b_s b1)) with false by lia. reflexivity.
  - (* a literal *)
    cbn [build] in E. assert (E' : snd (b_literal b) = b1) by congruence. destruct (b_literal b) as [x b2] eqn:L. cbn [snd] in E'. subst b2. clear E.
    destruct (g_literal O Base n0 BO b x b1 (fun _ _ => True) (fun _ _ => True) T L ltac:(intros; now exists true)) as (-> & N & LG & CS & G).
    pose proof (wf_nxt _ (proj1 (bo_wf _ (t_ok _ T)))) as Nx.
    assert (MM : forall I nu, models b I nu -> models b1 I nu).
    { intros I nu ((G1 & G2 & G3) & HO & F). unfold b_literal, on_s in L. cbn in L. injection L as <-. split; [|now split]. split; [easy|]. split; [easy|]. cbn. now constructor. }
    destruct IH as (I1 & I2 & I3 & I4 & I5 & I6 & I7 & I8 & I9); [apply G|intros i [Hi| ->]; [specialize (KB i Hi)|]; lia|].
    csplit; auto; try lia.
    + intros i Hi. apply I2 in Hi as [[Hi| ->]|Hi]; [auto|right; lia..].
    + intros I J nu A [_ q]. split; [easy|]. now apply (I4 I J nu).
    + intros I nu M. destruct (I8 I nu M) as [M1 p]. destruct (g_bwd _ _ _ _ _ _ _ _ G I nu M1). auto.
    + intros I nu M [_ q]. apply I9; auto.
  - (* a variable *)
    cbn [build] in E. assert (E' : snd (on_s (add_variable mn mx) b) = b1) by congruence. destruct (var_step mn mx b T OK) as (T1 & N1 & V1 & M1). rewrite E' in *.
    destruct IH as (I1 & I2 & I3 & I4 & I5 & I6 & I7 & I8 & I9); auto; [intros i Hi; specialize (KB i Hi); lia|].
    csplit; auto; try lia.
    + intros i Hi. apply I2 in Hi as [Hi|Hi]; [auto|]. right. lia.
    + intros I J nu A [p q]. split; [easy|]. now apply (I4 I J nu).
    + intros I nu M. destruct (I8 I nu M) as [M' p]. apply M1 in M' as [M0 q]. auto.
    + intros I nu M [p q]. apply I9; auto. apply M1. auto.
Qed.
End Steps.

(** ** Errors *)
(** Numbers in the range the parser allows. *)

Section Errors.
Context (O : oracle) (cfg : config) (srt : list (Z * var) -> list (Z * var)).
Lemma twos32 : twos int32.
Proof. unfold twos. cbn [imin imax int32]. lia. Qed.
Lemma inv32 a : imin int32 < a <= imax int32 -> safe_inv int32 a = Ok (- a).
Proof.
  intros H. destruct (safe_inv_exact int32 a twos32) as [[_ R]|[N _]]; [unfold fits; lia|exact R|].
  exfalso. apply N. unfold fits. cbn [imin imax int32] in *. lia.
Qed.
Lemma add32 a b : fits int32 a -> fits int32 b -> fits int32 (a + b) -> safe_add int32 a b = Ok (a + b).
Proof. intros A B C. destruct (safe_add_exact int32 a b twos32 A B) as [[_ R]|[N _]]; [exact R|contradiction]. Qed.
Lemma inv_terms_total es : Forall (fun e => valid (fst e)) es -> exists r, inv_terms es = Ok r.
Proof.
  induction 1 as [|[c x] es H F [r IH]]; cbn [inv_terms]; [eauto|]. cbn [fst] in H. rewrite inv32 by (unfold valid, MIN_VAL, MAX_VAL in H; cbn [imin imax int32]; lia).
  cbn [bind]. rewrite IH. cbn [bind]. eauto.
Qed.
Lemma neg_terms_total es : Forall (fun e => valid (fst e)) es -> exists r, neg_terms es = Ok r /\ Forall (fun e => valid (fst e)) r /\ abs_sum r = abs_sum es.
Proof.
  induction 1 as [|[c x] es H F (r & IH & V & A)]; cbn [neg_terms]; [eauto|]. cbn [fst] in H. unfold ineg.
  rewrite ck_ok by (unfold valid, MIN_VAL, MAX_VAL in H; unfold fits; cbn [imin imax int32]; lia).
  cbn [bind]. rewrite IH. cbn [bind]. eexists. split; [reflexivity|]. split; [constructor; [|exact V]; unfold valid, MIN_VAL in *; cbn [fst]; lia|]. cbn [abs_sum]. lia.
Qed.
Lemma b_sum_total l es rhs strict b : Forall (fun e => valid (fst e)) es -> imin int32 <= rhs < imax int32 -> exists r, b_sum O cfg srt l es rhs strict b = Ok r.
Proof.
  intros F R. unfold b_sum. destruct (negb strict && _); [eauto|].
  assert (X : forall b1, exists r, (if strict then ies <- inv_terms es ;; r <- safe_add int32 rhs 1 ;; r <- safe_inv int32 r ;; Ok (true, post (CSum (- l) r (srt ies)) b1) else Ok (true, b1)) = Ok r).
  { intros b1. destruct strict; [|eauto]. destruct (inv_terms_total es F) as [r ->]. cbn [bind].
    rewrite add32 by (unfold fits; cbn [imin imax int32] in *; lia). cbn [bind]. rewrite inv32 by (cbn [imin imax int32] in *; lia). cbn [bind]. eauto. }
  destruct es as [|[co x] [|e es]]; eauto.
Qed.
Lemma dj_terms_total i j w : 0 <= w < imax int32 -> exists l0 es, dj_terms i j w = Ok (l0, (es, w)) /\ Forall (fun e => valid (fst e)) es.
Proof.
  intros H. unfold dj_terms. destruct (simplify_small true [(1, Some i); (-1, Some j)]) as [[vec r] S]; [cbn; unfold MAX_VAL; lia|]. rewrite S. cbn [bind].
  destruct (simplify_spec _ _ _ _ S) as (_ & _ & NN & _ & _ & V & _). destruct (strip_total vec NN) as [es ST]. rewrite ST. cbn [bind].
  destruct (simplify_keys _ _ _ _ S) as [_ R0]. assert (r = 0) as -> by (apply R0; repeat constructor; discriminate).
  unfold iadd. rewrite ck_ok by (unfold fits; cbn [imin imax int32] in *; lia). cbn [bind]. rewrite Z.add_0_r. eexists. exists es. split; [reflexivity|].
  destruct (strip_keys _ _ ST) as [_ K]. assert (Forall valid (map fst vec)) by now apply Forall_map. rewrite K in H0. now rewrite Forall_map in H0.
Qed.
Lemma dj_lit_total l0 es rhs b : Forall (fun e => valid (fst e)) es -> imin int32 <= rhs < imax int32 -> exists r, dj_lit O cfg srt l0 es rhs b = Ok r.
Proof.
  intros F R. unfold dj_lit. destruct (l0 =? 0); [|eauto]. destruct (b_literal b) as [x b1]. destruct (b_sum_total x es rhs true b1 F R) as [[ok b2] ->]. cbn [bind]. eauto.
Qed.
Lemma b_disjoint1_total l i j b : 0 < fst j <= imax int32 -> exists r, b_disjoint1 O cfg srt l i j b = Ok r.
Proof.
  intros W. unfold b_disjoint1. destruct (dj_terms_total (snd j) (snd i) 0) as (la & ea & -> & FA); [cbn [imax int32]; lia|]. cbn [bind].
  destruct (la =? _); [eauto|]. unfold isub. rewrite ck_ok by (unfold fits; cbn [imin imax int32] in *; lia). cbn [bind].
  destruct (dj_terms_total (snd i) (snd j) (fst j - 1)) as (lb & eb & -> & FB); [cbn [imax int32] in *; lia|]. cbn [bind].
  destruct (lb =? _); [eauto|].
  destruct (dj_lit_total la ea 0 b FA) as [[ok [la' b1]] ->]; [cbn [imin imax int32] in *; lia|]. cbn [bind]. destruct ok; cbn [negb]; [|eauto].
  destruct (dj_lit_total lb eb (fst j - 1) b1 FB) as [[ok [lb' b2]] ->]; [cbn [imin imax int32] in *; lia|]. cbn [bind]. destruct ok; cbn [negb]; eauto.
Qed.
Lemma b_disjoint_total l es b : Forall (fun e => 0 < fst e <= imax int32) es -> exists r, b_disjoint O cfg srt l es b = Ok r.
Proof.
  intros F. unfold b_disjoint. destruct (is_false _ _ _); [eauto|]. destruct (2 <? _)%nat; [eauto|].
  destruct es as [|i [|j [|k es]]]; eauto. inversion_clear F as [|? ? Fi F']. inversion_clear F' as [|? ? Fj _].
  destruct (b_disjoint1_total l i j b Fj) as [[ok b1] ->]. cbn [bind]. destruct ok; cbn [negb]; [|eauto]. now apply b_disjoint1_total.
Qed.
Lemma b_differ_total l fixed e1 e2 b : Forall (fun t => valid (fst t)) (fst e1) -> Forall (fun t => valid (fst t)) (fst e2) -> valid (snd e1) -> valid (snd e2) ->
  b_differ O cfg srt l fixed e1 e2 b <> UB /\
  (abs_sum (fst e1) + abs_sum (fst e2) <= MAX_VAL -> Z.abs (snd e1 - snd e2) < MAX_VAL -> exists r, b_differ O cfg srt l fixed e1 e2 b = Ok r).
Proof.
  destruct e1 as [t1 c1], e2 as [t2 c2]. cbn [fst snd]. intros F1 F2 V1 V2. unfold b_differ. cbn [fst snd]. unfold valid, MIN_VAL, MAX_VAL in V1, V2.
  unfold isub at 1 4. rewrite !ck_ok by (unfold fits; cbn [imin imax int32]; lia). cbn [bind].
  destruct (neg_terms_total t2 F2) as (ns & -> & Fn & An). cbn [bind].
  set (ts := map (fun t : Z * var => (fst t, Some (snd t))) (t1 ++ ns)).
  assert (AB : abs_sum ts = abs_sum t1 + abs_sum t2).
  { unfold ts. rewrite <- An, <- abs_sum_app. generalize (t1 ++ ns). intros q. induction q as [|[c x] q IH]; cbn [map abs_sum fst snd]; [reflexivity|]. now rewrite IH. }
  assert (CF : TermsProofs2.coefs_fit ts).
  { unfold ts, TermsProofs2.coefs_fit. apply Forall_map. apply Forall_app. split; [eapply Forall_impl; [|exact F1]|eapply Forall_impl; [|exact Fn]]; intros t; cbn [fst]; apply valid32. }
  pose proof (simplify_no_ub true ts CF) as NU.
  destruct (simplify true ts) as [[vec r]|e|] eqn:S; cbn [bind]; [|split; [discriminate|]; intros A _; destruct (simplify_small true ts) as [q Hq]; [lia|congruence]|congruence].
  destruct (simplify_spec _ _ _ _ S) as (_ & _ & NN & _ & _ & V & _). destruct (strip_total vec NN) as [es ST]. rewrite ST. cbn [bind].
  destruct (simplify_keys _ _ _ _ S) as [_ R0]. assert (r = 0) as ->.
  { apply R0. unfold ts. rewrite map_map. apply Forall_forall. intros k Hk. apply in_map_iff in Hk as (t & <- & _). discriminate. }
  assert (Fe : Forall (fun e => valid (fst e)) es).
  { destruct (strip_keys _ _ ST) as [_ K]. assert (X : Forall valid (map fst vec)) by now apply Forall_map. rewrite K in X. now rewrite Forall_map in X. }
  unfold iadd. rewrite !ck_ok by (unfold fits; cbn [imin imax int32]; lia). cbn [bind]. rewrite Z.add_0_r. set (rhs := c2 - c1) in *.
  destruct es as [|e0 es0] eqn:Es; [destruct (rhs =? 0); split; try discriminate; eauto|]. rewrite <- Es in *. clear Es.
  destruct (b_literal b) as [x b1].
  match goal with |- context [if fixed then ?a else ?c] => destruct (if fixed then a else c) as [ok [y b2]] end.
  destruct ok; cbn [negb]; [|split; [discriminate|eauto]].
  assert (RB : - (2^31 - 2) <= rhs <= 2^31 - 2) by (unfold rhs; lia).
  unfold isub. rewrite (ck_ok int32 (rhs - 1)) by (unfold fits; cbn [imin imax int32]; lia). cbn [bind].
  pose proof (check_valid_value_spec (rhs - 1)) as CV1.
  destruct (check_valid_value (rhs - 1)) as [r1|e|] eqn:C1; cbn [bind].
  2:{ split; [discriminate|]. intros _ A. rewrite check_valid_ok in C1; [discriminate|]. unfold valid, MIN_VAL, MAX_VAL in *. lia. }
  2:{ unfold check_valid_value in C1. destruct (_ <? _); [discriminate|]. destruct (_ <? _); discriminate. }
  apply check_valid_val in C1 as [-> VV]. unfold valid, MIN_VAL, MAX_VAL in VV.
  destruct (b_sum_total x es (rhs - 1) false b2 Fe) as [[ok b3] ->]; [cbn [imin imax int32]; lia|]. cbn [bind]. destruct ok; cbn [negb]; [|split; [discriminate|eauto]].
  destruct (neg_terms_total es Fe) as (ns' & -> & Fn' & _). cbn [bind]. unfold ineg. rewrite (ck_ok int32 (- rhs)) by (unfold fits; cbn [imin imax int32]; lia). cbn [bind].
  rewrite (ck_ok int32 (- rhs - 1)) by (unfold fits; cbn [imin imax int32]; lia). cbn [bind].
  destruct (check_valid_value (- rhs - 1)) as [r2|e|] eqn:C2; cbn [bind].
  2:{ split; [discriminate|]. intros _ A. rewrite check_valid_ok in C2; [discriminate|]. unfold valid, MIN_VAL, MAX_VAL in *. lia. }
  2:{ unfold check_valid_value in C2. destruct (_ <? _); [discriminate|]. destruct (_ <? _); discriminate. }
  apply check_valid_val in C2 as [-> VV2]. unfold valid, MIN_VAL, MAX_VAL in VV2.
  destruct (b_sum_total y ns' (- rhs - 1) false b3 Fn') as [q Hq]; [cbn [imin imax int32]; lia|]. rewrite Hq. split; [discriminate|eauto].
Qed.
Theorem build1_no_ub K m c b : call_ok K m c -> nums_ok c -> build1 O cfg srt c b <> UB.
Proof.
  intros C N. destruct c as [c|l es rhs st|l ca va vb cc vc rhs st|l es|l es|l x dom| | | |]; cbn [build1 call_ok nums_ok] in *; change valid_num with valid in *; try discriminate.
  - destruct N as [N1 N2]. destruct (b_sum_total l es rhs st b N1) as [r ->]; [unfold valid, MIN_VAL, MAX_VAL in N2; cbn [imin imax int32]; lia|discriminate].
  - destruct C as (C1 & C2 & C3 & C4 & C5). unfold b_nonlinear. destruct N as (Na & Nc & Nr).
    assert (R : imin int32 <= rhs < imax int32) by (unfold valid, MIN_VAL, MAX_VAL in Nr; cbn [imin imax int32]; lia).
    destruct (Z.eqb_spec ca 0) as [->|Ha].
    + destruct (Z.eqb_spec cc 0) as [->|Hc]; [destruct (b_sum_total l [] rhs st b) as [r ->]; [constructor|exact R|discriminate]|].
      destruct vc as [z|]; [|now elim Hc; apply C4]. destruct (b_sum_total l [(cc, z)] rhs st b) as [r ->]; [apply Forall_cons; [exact Nc|apply Forall_nil]|exact R|discriminate].
    + destruct (C3 Ha) as [X Y]. destruct va as [x|], vb as [y|]; try congruence. rewrite (C5 Ha). discriminate.
  - unfold b_distinct. destruct (is_false _ _ _); [discriminate|]. destruct (2 <? _)%nat; [discriminate|].
    destruct es as [|e1 [|e2 [|e3 es]]]; try discriminate. inversion_clear N as [|? ? [N1 N1'] N']. inversion_clear N' as [|? ? [N2 N2'] _]. now apply b_differ_total.
  - destruct C as [_ C]. destruct (b_disjoint_total l es b) as [r ->]; [|discriminate]. rewrite Forall_forall in *. intros e He. specialize (N e He). specialize (C e He).
    destruct e as [w x]. cbn [fst snd] in *. unfold valid, MIN_VAL, MAX_VAL in N. cbn [imax int32]. lia.
Qed.
End Errors.
