From Verif Require Import Base Util UtilProofs IntervalSet IntervalSetProofs VarState Terms TermsSpec TermsProofs TermsProofs3 StatementsProofs Solver OrderSpec OrderProofs1 OrderProofs2 OrderProofs3 OrderProofs5 OrderProofs6 OrderProofs7
  Sum PropProofs ConSpec Search SearchSpec SearchFrame SearchGrow SearchInv5 SearchSetup Builder BuilderSpec BuilderProofs.
From Coq Require Import Permutation.
Open Scope Z_scope.

Section Steps.
Context (O : oracle) (cfg : config) (srt : list (Z * var) -> list (Z * var)) (Base : interp -> Prop) (n0 : Z).
Context (BO : base_ok Base n0) (CO : clasp_ok O Base) (PS : forall es, Permutation (srt es) es).
Notation models := (models Base).
Notation Pr := (interp -> (var -> Z) -> Prop).
Notation top := (top O n0).
Notation gstep := (gstep O Base n0).
Local Ltac fb := repeat (apply Forall_cons; [assumption|]); apply Forall_nil.

(** Pairs of elements. *)
Lemma pairs_nth {A} (R : A -> A -> Prop) (es : list A) :
  ForallOrdPairs R es <-> forall i j a b, (i < j)%nat -> nth_error es i = Some a -> nth_error es j = Some b -> R a b.
Proof.
  induction es as [|e es IH].
  - split; [intros _ [|i] j a b _ H; discriminate|constructor].
  - split.
    + intros F. inversion_clear F as [|? ? F1 F2]. intros [|i] [|j] a b L Ha Hb; try lia; cbn in Ha, Hb.
      * injection Ha as <-. rewrite Forall_forall in F1. apply F1. now apply nth_error_In with j.
      * apply (proj1 IH F2 i j); auto. lia.
    + intros H. constructor.
      * rewrite Forall_forall. intros b Hb. apply In_nth_error in Hb as [j Hj]. apply (H 0%nat (S j)); [lia|easy|easy].
      * apply IH. intros i j a b L Ha Hb. apply (H (S i) (S j)); [lia|easy|easy].
Qed.
Lemma pairs_map {A B} (f : A -> B) (R : B -> B -> Prop) es : ForallOrdPairs R (map f es) <-> ForallOrdPairs (fun a b => R (f a) (f b)) es.
Proof.
  induction es as [|e es IH]; [split; constructor|]. cbn [map]. split; intros F; inversion_clear F as [|? ? F1 F2]; constructor; try now apply IH.
  - now rewrite Forall_map in F1.
  - now rewrite Forall_map.
Qed.
Lemma pairs_iff {A} (R S : A -> A -> Prop) es : (forall a b, In a es -> In b es -> (R a b <-> S a b)) -> (ForallOrdPairs R es <-> ForallOrdPairs S es).
Proof.
  intros H. rewrite !pairs_nth. split; intros F i j a b L Ha Hb; (apply H; [now apply nth_error_In with i|now apply nth_error_In with j|]); eauto.
Qed.

Lemma nth_pair {A} (R : A -> A -> Prop) e1 e2 : R e1 e2 <-> forall i j a b, (i < j)%nat -> nth_error [e1; e2] i = Some a -> nth_error [e1; e2] j = Some b -> R a b.
Proof.
  rewrite <- pairs_nth. split; [intros; repeat constructor; auto|]. intros F. inversion_clear F as [|? ? F1 _]. now inversion_clear F1.
Qed.

(** ** Distinct *)
Lemma b_distinct_ok l es b ok b' (Q : Pr) : top b -> below (nxt (b_s b)) l -> Forall (fun e => Forall (fun t => snd t < nvars (b_s b))%nat (fst e)) es ->
  b_distinct O cfg srt l es b = Ok (ok, b') -> dep (nxt (b_s b)) (nvars (b_s b)) Q ->
  (forall I nu, models b I nu -> Q I nu -> call_holds I nu (BDistinct l es)) ->
  gstep Q Q (fun I nu => ok = true -> call_holds I nu (BDistinct l es)) b b'.
Proof.
  intros T B F E D H. pose proof (stays_dlevel O _ (t_top _ T)) as D0. unfold b_distinct in E.
  destruct (is_false O (b_s b) l) eqn:FL.
  { injection E as <- <-. apply g_refl; auto. intros I nu (G & _) _ L. destruct (top_false O Base CO (b_s b) l I); auto. apply B. }
  match type of E with context [(2 <? ?n)%nat] => destruct (2 <? n)%nat eqn:N end.
  { injection E as <- <-.
    assert (X : forall I nu, csem None (CDistinct l (map (fun e => (snd e, srt (fst e))) es)) I nu <-> call_holds I nu (BDistinct l es)).
    { intros I nu. cbn [csem call_holds]. rewrite pairs_map. rewrite pairs_nth. cbn [fst snd]. split; intros K L i j a c Lt Ha Hc; specialize (K L i j a c Lt Ha Hc).
      - rewrite !(lval_srt srt PS) in K. lia. - rewrite !(lval_srt srt PS). lia. }
    eapply g_weaken; [apply g_post with (P := Q); auto|auto..].
    - split; [exact B|]. cbn [cvars]. rewrite map_map. rewrite Forall_concat, Forall_map. eapply Forall_impl; [|exact F]. intros e Fe. cbn [snd].
      apply (vars_srt srt PS). now apply Forall_map.
    - intros I nu M q. apply X. auto.
    - intros I nu _ _ Y _. now apply X. }
  assert (SM : (forall e1 e2, es <> [e1; e2]) -> (ok, b') = (true, b) -> gstep Q Q (fun I nu => ok = true -> call_holds I nu (BDistinct l es)) b b').
  { intros Ne X. injection X as -> ->. apply g_refl; auto. intros I nu _ _ _. apply pairs_nth with (R := fun e1 e2 => lin_val nu (fst e1) + snd e1 <> lin_val nu (fst e2) + snd e2).
    destruct es as [|e1 [|e2 [|e3 es]]]; [constructor|repeat constructor|now destruct (Ne e1 e2)|discriminate]. }
  destruct es as [|e1 [|e2 [|e3 es]]]; [apply SM; [discriminate|congruence]|apply SM; [discriminate|congruence]| |discriminate].
  assert (X : forall I nu, differ l e1 e2 I nu <-> call_holds I nu (BDistinct l [e1; e2])).
  { intros I nu. cbn [call_holds]. unfold differ. now rewrite <- (nth_pair (fun e1 e2 => lin_val nu (fst e1) + snd e1 <> lin_val nu (fst e2) + snd e2)). }
  inversion_clear F as [|? ? F1 F']. inversion_clear F' as [|? ? F2 _].
  eapply g_weaken; [eapply b_differ_ok with (9 := E) (10 := D); auto|auto..].
  - intros I nu M q. apply X. auto.
  - intros I nu _ _ Y K. apply X. auto.
Qed.

(** ** Disjoint *)
Lemma dj_terms_ok i j w l0 es rhs m : (i < m)%nat -> (j < m)%nat -> dj_terms i j w = Ok (l0, (es, rhs)) ->
  (forall nu, lin_val nu es <= rhs <-> nu i - nu j <= w) /\ Forall (fun e => fst e <> 0 /\ (snd e < m)%nat) es /\
  (l0 = 0 \/ (l0 = 1 /\ forall nu : var -> Z, nu i - nu j <= w) \/ (l0 = -1 /\ forall nu : var -> Z, ~ nu i - nu j <= w)).
Proof.
  intros Hi Hj E. unfold dj_terms in E. apply bind_ok in E as ([vec r] & S & E). apply bind_ok in E as (es' & ST & E). apply bind_ok in E as (rhs' & R & E).
  apply ck_val in R. injection E as El <- <-.
  assert (Fa : Forall (fun t => snd t < m)%nat [(1, i); (-1, j)]) by (constructor; [exact Hi|]; constructor; [exact Hj|constructor]).
  pose proof (simplify_vars [(1, i); (-1, j)] vec r es' m S ST Fa) as (-> & V & F).
  assert (X : forall nu, lin_val nu es' <= rhs' <-> nu i - nu j <= w) by (intros nu; rewrite V; cbn [lin_val]; lia).
  split; [exact X|]. split; [exact F|]. destruct es' as [|e es']; [|left; now rewrite <- El].
  right. destruct (0 <=? rhs') eqn:C; [left|right]; (split; [now rewrite <- El|]); intros nu; rewrite <- X; cbn [lin_val]; lia.
Qed.
Lemma dj_lit_ok l0 es rhs b ok la b' (Q : Pr) (A : (var -> Z) -> Prop) : top b -> Forall (fun e => fst e <> 0 /\ (snd e < nvars (b_s b))%nat) es ->
  (forall nu, lin_val nu es <= rhs <-> A nu) -> l0 = 0 \/ (l0 = 1 /\ forall nu, A nu) ->
  dj_lit O cfg srt l0 es rhs b = Ok (ok, (la, b')) -> dep (nxt (b_s b)) (nvars (b_s b)) Q ->
  gstep Q (fun I nu => Q I nu /\ (lit_true I la <-> A nu)) (fun I nu => ok = true -> (lit_true I la <-> A nu)) b b' /\ below (nxt (b_s b')) la /\
  dep (nxt (b_s b')) (nvars (b_s b')) (fun I nu => Q I nu /\ (lit_true I la <-> A nu)).
Proof.
  intros T F V L E D. unfold dj_lit in E. pose proof (wf_nxt _ (proj1 (bo_wf _ (t_ok _ T)))) as Nx.
  assert (Fv : Forall (fun e => snd e < nvars (b_s b))%nat es) by (eapply Forall_impl; [|exact F]; cbn; tauto).
  assert (AE : forall nu nu', ext_nu (nvars (b_s b)) nu nu' -> (A nu' <-> A nu)) by (intros nu nu' Ex; rewrite <- !V; now rewrite (lin_ext (nvars (b_s b)) nu nu')).
  destruct L as [->|[-> Tr]].
  - cbn [Z.eqb] in E. destruct (b_literal b) as [x b1] eqn:L1. apply bind_ok in E as ([ok1 b2] & S & E). injection E as <- <- <-.
    destruct (g_fresh O Base n0 BO b x b1 Q (fun _ nu => A nu) T L1 D) as (G1 & X1 & X2 & X3); [easy|intros I nu; rewrite <- V; lia|].
    set (Q1 := fun I nu => Q I nu /\ (lit_true I x <-> A nu)) in *.
    assert (D1 : dep (nxt (b_s b1)) (nvars (b_s b1)) Q1).
    { rewrite (g_nv _ _ _ _ _ _ _ _ G1). apply dep_and; [apply dep_mono with (nxt (b_s b)) (nvars (b_s b)); [lia|lia|easy]|].
      intros I J nu nu' AG Ex. rewrite (lit_true_agree (nxt (b_s b1)) I J x AG) by (split; lia). now rewrite (AE nu nu'). }
    assert (G2 : gstep Q1 Q1 (fun I nu => ok1 = true -> call_holds I nu (BSum x es rhs true)) b1 b2).
    { eapply b_sum_ok with (3 := PS) (7 := S); auto.
      - apply G1.
      - split; lia.
      - now rewrite (g_nv _ _ _ _ _ _ _ _ G1).
      - intros I nu M [_ q]. cbn. rewrite V. tauto. }
    split; [|split].
    + eapply g_trans; [exact G1|exact G2|]. intros I nu _ _ c Hok. destruct (c Hok) as [c1 c2]. specialize (c2 eq_refl). rewrite V in *. tauto.
    + pose proof (g_nxt _ _ _ _ _ _ _ _ G2). split; lia.
    + rewrite (g_nv _ _ _ _ _ _ _ _ G2). apply dep_mono with (nxt (b_s b1)) (nvars (b_s b1)); [apply G2|lia|exact D1].
  - cbn [Z.eqb] in E. injection E as <- <- <-. assert (One : forall I nu, models b I nu -> lit_true I 1) by (intros I nu ((_ & H1 & _) & _); exact H1).
    split; [|split].
    + eapply g_weaken; [apply g_refl with (P := Q) (R := fun I nu => lit_true I 1 <-> A nu); [exact T|]|auto..].
      * intros I nu M. split; [auto|intros _; now apply One with nu].
      * intros I nu M q. split; [exact q|]. split; [auto|intros _; now apply One with nu].
    + split; lia.
    + apply dep_and; [exact D|]. intros I J nu nu' AG Ex. rewrite (lit_true_agree (nxt (b_s b)) I J 1 AG) by (split; lia). now rewrite (AE nu nu').
Qed.
Definition not_within (l : lit) (i j : Z * var) : Pr := fun I nu => lit_true I l -> ~ (nu (snd j) <= nu (snd i) < nu (snd j) + fst j).
Lemma b_disjoint1_ok l i j b ok b' (Q : Pr) : top b -> below (nxt (b_s b)) l -> (snd i < nvars (b_s b))%nat -> (snd j < nvars (b_s b))%nat ->
  b_disjoint1 O cfg srt l i j b = Ok (ok, b') -> dep (nxt (b_s b)) (nvars (b_s b)) Q ->
  (forall I nu, models b I nu -> Q I nu -> not_within l i j I nu) ->
  gstep Q Q (fun I nu => ok = true -> not_within l i j I nu) b b'.
Proof.
  destruct i as [vi i], j as [vj j]. cbn [fst snd]. intros T B Hi Hj E D H. unfold b_disjoint1 in E. cbn [fst snd] in E.
  apply bind_ok in E as ([la0 [ea ra]] & DA & E). destruct (dj_terms_ok _ _ _ _ _ _ (nvars (b_s b)) Hj Hi DA) as (VA & FA & CA).
  destruct (la0 =? - TRUE_LIT) eqn:LA.
  { injection E as <- <-. apply g_refl; auto. destruct CA as [->|[[-> _]|[-> CA]]]; try discriminate. intros I nu _ _ _. cbn [fst snd]. specialize (CA nu). lia. }
  apply bind_ok in E as (w & Ew & E). apply ck_val in Ew.
  apply bind_ok in E as ([lb0 [eb rb]] & DB & E). destruct (dj_terms_ok _ _ _ _ _ _ (nvars (b_s b)) Hi Hj DB) as (VB & FB & CB).
  destruct (lb0 =? - TRUE_LIT) eqn:LB.
  { injection E as <- <-. apply g_refl; auto. destruct CB as [->|[[-> _]|[-> CB]]]; try discriminate. intros I nu _ _ _. cbn [fst snd]. specialize (CB nu). lia. }
  assert (CA' : la0 = 0 \/ (la0 = 1 /\ forall nu : var -> Z, nu j - nu i <= 0)) by (destruct CA as [->|[CA|[-> _]]]; auto; discriminate).
  assert (CB' : lb0 = 0 \/ (lb0 = 1 /\ forall nu : var -> Z, nu i - nu j <= w)) by (destruct CB as [->|[CB|[-> _]]]; auto; discriminate).
  clear CA CB LA LB DA DB.
  apply bind_ok in E as ([ok1 [la b1]] & E1 & E).
  destruct (dj_lit_ok la0 ea ra b ok1 la b1 Q (fun nu => nu j - nu i <= 0) T FA VA CA' E1 D) as (G1 & Ba & D1).
  set (Q1 := fun I nu => Q I nu /\ (lit_true I la <-> nu j - nu i <= 0)) in *.
  destruct ok1; cbn [negb] in E; [|injection E as <- <-; eapply g_weaken; [exact G1|auto| |discriminate]; intros I nu _ [q _]; exact q].
  apply bind_ok in E as ([ok2 [lb b2]] & E2 & E).
  assert (FB' : Forall (fun e => fst e <> 0 /\ (snd e < nvars (b_s b1))%nat) eb) by (now rewrite (g_nv _ _ _ _ _ _ _ _ G1)).
  destruct (dj_lit_ok lb0 eb rb b1 ok2 lb b2 Q1 (fun nu => nu i - nu j <= w) (g_top _ _ _ _ _ _ _ _ G1) FB' VB CB' E2 D1) as (G2 & Bb & D2).
  set (Q2 := fun I nu => Q1 I nu /\ (lit_true I lb <-> nu i - nu j <= w)) in *.
  destruct ok2; cbn [negb] in E.
  2:{ injection E as <- <-. eapply g_trans; [exact G1|eapply g_weaken with (R' := fun _ _ => True); [exact G2|auto| |auto]|discriminate]. intros I nu _ [[q _] _]. exact q. }
  assert (E3 : b_clause O [- l; - la; - lb] b2 = (ok, b')) by congruence.
  pose proof (g_nxt _ _ _ _ _ _ _ _ G1) as N1. pose proof (g_nxt _ _ _ _ _ _ _ _ G2) as N2.
  assert (B2 : below (nxt (b_s b2)) (- l)) by (apply below_opp, below_mono' with (nxt (b_s b)); [lia|easy]).
  assert (Ba2 : below (nxt (b_s b2)) (- la)) by (apply below_opp, below_mono' with (nxt (b_s b1)); [lia|easy]).
  assert (Bb2 : below (nxt (b_s b2)) (- lb)) by now apply below_opp.
  assert (Nl : l <> 0) by apply B. assert (Na : la <> 0) by apply Ba. assert (Nb : lb <> 0) by apply Bb.
  assert (G3 : gstep Q2 Q2 (fun I _ => clause_true I [- l; - la; - lb]) b2 b').
  { eapply g_clause with (2 := E3); [apply G2|fb|]. intros I nu M [[q qa] qb].
    destruct (g_bwd _ _ _ _ _ _ _ _ G2 I nu M) as [M1 _]. destruct (g_bwd _ _ _ _ _ _ _ _ G1 I nu M1) as [M0 _].
    pose proof (H I nu M0 q) as K. unfold not_within in K. cbn [fst snd] in K. apply clause3_true. rewrite !lit_true_neg, qa, qb by easy.
    destruct (lit_true_dec I l) as [L|L]; [|tauto]. specialize (K L). lia. }
  eapply g_trans; [exact G1|eapply g_trans; [exact G2|eapply g_weaken; [exact G3|auto| |]|]|].
  - intros I nu _ [[q _] _]. exact q.
  - intros I nu _ _ R. exact R.
  - intros I nu _ R1 R2. exact (conj R1 R2).
  - intros I nu _ Ra [Rb C] _ L. cbn [fst snd]. apply clause3_true in C. rewrite !lit_true_neg in C by easy.
    rewrite (Ra eq_refl), (Rb eq_refl) in C. destruct C as [C|[C|C]]; [tauto|lia|lia].
Qed.
Lemma b_disjoint_ok l es b ok b' (Q : Pr) : top b -> below (nxt (b_s b)) l -> Forall (fun e => 0 < fst e /\ (snd e < nvars (b_s b))%nat) es ->
  b_disjoint O cfg srt l es b = Ok (ok, b') -> dep (nxt (b_s b)) (nvars (b_s b)) Q ->
  (forall I nu, models b I nu -> Q I nu -> call_holds I nu (BDisjoint l es)) ->
  gstep Q Q (fun I nu => ok = true -> call_holds I nu (BDisjoint l es)) b b'.
Proof.
  intros T B F E D H. pose proof (stays_dlevel O _ (t_top _ T)) as D0. unfold b_disjoint in E.
  destruct (is_false O (b_s b) l) eqn:FL.
  { injection E as <- <-. apply g_refl; auto. intros I nu (G & _) _ L. destruct (top_false O Base CO (b_s b) l I); auto. apply B. }
  assert (AP : forall a v c w, 0 < v -> 0 < w -> (apart a v c w <-> a + v <= c \/ c + w <= a)).
  { intros a v c w Hv Hw. unfold apart. split; [|intros; lia]. intros K. pose proof (K a). pose proof (K c). lia. }
  match type of E with context [(2 <? ?n)%nat] => destruct (2 <? n)%nat eqn:N end.
  { injection E as <- <-.
    assert (X : forall I nu, csem None (CDisjoint l es) I nu <-> call_holds I nu (BDisjoint l es)).
    { intros I nu. cbn [csem call_holds]. rewrite (pairs_iff _ (fun e1 e2 => nu (snd e1) + fst e1 <= nu (snd e2) \/ nu (snd e2) + fst e2 <= nu (snd e1))).
      - now rewrite pairs_nth.
      - intros a c Ha Hc. rewrite Forall_forall in F. apply AP; now apply F. }
    eapply g_weaken; [apply g_post with (P := Q); auto|auto..].
    - split; [exact B|]. cbn [cvars]. apply Forall_map. eapply Forall_impl; [|exact F]. cbn. tauto.
    - intros I nu M q. apply X. auto.
    - intros I nu _ _ Y _. now apply X. }
  assert (SM : (forall e1 e2, es <> [e1; e2]) -> (ok, b') = (true, b) -> gstep Q Q (fun I nu => ok = true -> call_holds I nu (BDisjoint l es)) b b').
  { intros Ne X. injection X as -> ->. apply g_refl; auto. intros I nu _ _ _. apply pairs_nth with (R := fun e1 e2 => nu (snd e1) + fst e1 <= nu (snd e2) \/ nu (snd e2) + fst e2 <= nu (snd e1)).
    destruct es as [|e1 [|e2 [|e3 es]]]; [constructor|repeat constructor|now destruct (Ne e1 e2)|discriminate]. }
  destruct es as [|e1 [|e2 [|e3 es]]]; [apply SM; [discriminate|congruence]|apply SM; [discriminate|congruence]| |discriminate].
  inversion_clear F as [|? ? [W1 F1] F']. inversion_clear F' as [|? ? [W2 F2] _].
  assert (X : forall I nu, (not_within l e1 e2 I nu /\ not_within l e2 e1 I nu) <-> call_holds I nu (BDisjoint l [e1; e2])).
  { intros I nu. cbn [call_holds]. unfold not_within.
    rewrite <- (nth_pair (fun e1 e2 => nu (snd e1) + fst e1 <= nu (snd e2) \/ nu (snd e2) + fst e2 <= nu (snd e1))). split.
    - intros [K1 K2] L. specialize (K1 L). specialize (K2 L). lia.
    - clear - W1 W2. destruct e1 as [v1 x1], e2 as [v2 x2]. cbn [fst snd] in *. intros K. split; intros L; specialize (K L); lia. }
  apply bind_ok in E as ([ok1 b1] & E1 & E).
  assert (G1 : gstep Q Q (fun I nu => ok1 = true -> not_within l e1 e2 I nu) b b1).
  { apply b_disjoint1_ok; auto. intros I nu M q. apply (proj2 (X I nu)); auto. }
  destruct ok1; cbn [negb] in E; [|injection E as <- <-; eapply g_weaken; [exact G1|auto|auto|discriminate]].
  pose proof (g_nxt _ _ _ _ _ _ _ _ G1) as N1. pose proof (g_nv _ _ _ _ _ _ _ _ G1) as V1.
  eapply g_trans; [exact G1|eapply b_disjoint1_ok with (5 := E)|].
  - apply G1.
  - now apply below_mono' with (nxt (b_s b)).
  - now rewrite V1.
  - now rewrite V1.
  - apply dep_mono with (nxt (b_s b)) (nvars (b_s b)); [lia|lia|easy].
  - intros I nu M q. destruct (g_bwd _ _ _ _ _ _ _ _ G1 I nu M) as [M0 _]. apply (proj2 (X I nu)); auto.
  - intros I nu _ R1 R2 Hok. apply X. auto.
Qed.

(** ** Domains *)
Lemma b_dom_ok l x dom b ok b' (Q : Pr) : top b -> below (nxt (b_s b)) l -> (x < nvars (b_s b))%nat -> IntervalSetProofs.wf dom -> dom <> [] ->
  b_dom O cfg l x dom b = (ok, b') -> dep (nxt (b_s b)) (nvars (b_s b)) Q ->
  (forall I nu, models b I nu -> Q I nu -> call_holds I nu (BDom l x dom)) ->
  gstep Q Q (fun I nu => ok = true -> call_holds I nu (BDom l x dom)) b b'.
Proof.
  intros T B Hx Wd Nd E D H. pose proof (stays_dlevel O _ (t_top _ T)) as D0. unfold b_dom in E.
  destruct (is_false O (b_s b) l) eqn:FL.
  { injection E as <- <-. apply g_refl; auto. intros I nu (G & _) _ L. destruct (top_false O Base CO (b_s b) l I); auto. apply B. }
  unfold on_s in E. destruct (add_dom O cfg l x dom (b_s b)) as [r s] eqn:A. injection E as <- <-.
  pose proof (add_dom_ok O cfg Base n0 BO CO l x dom (b_s b) r s (bo_wf _ (t_ok _ T)) Hx (t_n0 _ T) B D0 Wd Nd A) as AS.
  pose proof (add_dom_fr O cfg l x dom (b_s b)) as FR. rewrite A in FR.
  assert (EQ : forall n, dmem dom n <-> exists y z, In (y, z) dom /\ y <= n < z) by (intros n; reflexivity).
  eapply g_weaken; [eapply g_state with (Q := Q) (2 := T) (3 := FR) (4 := AS); [auto|exact D|]|auto..].
  intros I nu M q L. apply EQ. now apply (H I nu M q).
Qed.
End Steps.
