(** The parser on the real builder: normalisation of constraints. *)
From Verif Require Import Base Util UtilProofs IntervalSet IntervalSetProofs VarState Terms TermsSpec TermsProofs TermsProofs2 TermsProofs3 TermsProofs4 Statements StatementsSpec DenFun StatementsProofs
  Solver OrderSpec OrderProofs2 OrderProofs5 OrderProofs6 Sum PropProofs ConSpec Objective Search SearchSpec SearchFrame SearchInv5 Builder BuilderSpec BuilderProofs BuilderProofs3 Init InitSpec ParseRun ParseRunProofs.
From Coq Require Import Permutation.
Open Scope Z_scope.

Local Notation holds := TermsSpec.holds.
Local Ltac kl := repeat (apply Forall_cons || apply Forall_nil); rewrite ?Z.abs_opp; assumption.
Section Norm.
Context (O : oracle) (cfg : config) (srt : list (Z * var) -> list (Z * var)) (Base : interp -> Prop) (n0 : Z).
Context (BO : base_ok Base n0) (CO : clasp_ok O Base) (PS : forall es, Permutation (srt es) es).
Notation Pr := (interp -> (var -> Z) -> Prop).
Context (F0 : Pr).
Notation models := (models Base).
Notation pok := (pok O n0).
Notation plain := (plain O cfg srt Base n0 F0).

Definition reifn (l : lit) (strict : bool) (R : (var -> Z) -> Prop) : Pr := fun I nu => reif l strict (R nu) I.
Lemma reifn_only n l strict R : below n l -> onlyI n (reifn l strict R).
Proof. intros B I J nu A. exact (reif_dep n l strict (R nu) B I J A). Qed.
Lemma call_only n c : call_below n c -> onlyI n (fun I nu => call_holds I nu c).
Proof. intros B I J nu A. exact (call_holds_agree n I J nu c A B). Qed.
Lemma and_only n (P Q : Pr) : onlyI n P -> onlyI n Q -> onlyI n (fun I nu => P I nu /\ Q I nu).
Proof. intros A B I J nu E [p q]. split; [eapply A|eapply B]; eauto. Qed.
Lemma pk_below (K : Z -> Prop) s l : pok K s -> K (Z.abs l) -> below (nxt (b_s (p_b s))) l.
Proof. intros P H. pose proof (po_lit _ _ _ _ P _ H). unfold below. lia. Qed.
Lemma pl_ok K s K' s' Q : plain K s K' s' Q -> pok K' s'.
Proof. apply ad_ok. Qed.
Lemma pl_nxt K s K' s' Q : plain K s K' s' Q -> nxt (b_s (p_b s)) <= nxt (b_s (p_b s')).
Proof. apply ad_nxt. Qed.
Lemma clause_step K c s s' : p_call O cfg srt (BClause c) s = Ok (true, s') -> pok K s -> Forall (fun l => K (Z.abs l)) c ->
  plain K s K s' (fun I nu => clause_true I c) /\ p_tab s' = p_tab s.
Proof.
  intros H P F. destruct (call_step O cfg srt Base n0 BO CO PS K _ s s' H P F Logic.I Logic.I) as [A E]. split; [|exact E].
  eapply ad_imp; [exact A|reflexivity|intros; now left|reflexivity].
Qed.
Lemma clause_only n c : Forall (below n) c -> onlyI n (fun I (_ : var -> Z) => clause_true I c).
Proof. exact (call_only n (BClause c)). Qed.

Context {T : Type} (kv : (var -> Z) -> T -> Z) (addc : lit -> list (Z * T) -> Z -> bool -> SM pr bool) (Qe : nat -> list (Z * T) -> Prop).
Hypothesis Qinv : forall m es es', Qe m es -> inv_all es = Ok es' -> Qe m es'.
Hypothesis addc_step : forall K l es rhs strict s s', addc l es rhs strict s = Ok (true, s') -> pok K s -> K (Z.abs l) -> Qe (st_next (p_tab s)) es ->
  plain K s K s' (reifn l strict (fun nu => terms_val (kv nu) es <= rhs)) /\ p_tab s' = p_tab s.

Theorem normalize_step : forall fuel K l es op rhs strict s s',
  p_normalize O cfg srt addc fuel l es op rhs strict s = Ok (true, s') -> pok K s -> K (Z.abs l) -> Qe (st_next (p_tab s)) es ->
  (exists K', plain K s K' s' (reifn l strict (fun nu => holds op (terms_val (kv nu) es) rhs))) /\ p_tab s' = p_tab s.
Proof.
  induction fuel as [|fuel IH0]; intros K l es op rhs strict s s' H Po Kl Qes; [discriminate|].
  cbn [p_normalize] in H. apply sbind_ok in H. destruct H as ([op1 rhs1] & s0 & H1 & H).
  apply slift_ok in H1. destruct H1 as [H1 ->].
  apply sbind_ok in H. destruct H as ([[op2 rhs2] elems] & s0 & H2 & H). apply slift_ok in H2. destruct H2 as [H2 ->].
  assert (E : (forall nu, holds op (terms_val (kv nu) es) rhs <-> holds op2 (terms_val (kv nu) elems) rhs2) /\ (op2 = RLe \/ op2 = REq \/ op2 = RNe)).
  { assert (E1 : (forall nu, holds op (terms_val (kv nu) es) rhs <-> holds op1 (terms_val (kv nu) es) rhs1) /\ (op1 = RLe \/ op1 = RGe \/ op1 = REq \/ op1 = RNe)).
    { destruct op; inv_ok; cbn [holds]; auto; split; auto; try reflexivity.
      - apply safe_sub_val in H0. lia.
      - apply safe_add_val in H0. lia. }
    clear H1. destruct E1 as [E1 Oo]. split; [intros nu; rewrite E1; clear E1|]; destruct op1; inv_ok; cbn [holds]; try (destruct Oo as [Oo|[Oo|[Oo|Oo]]]; discriminate); auto; try reflexivity.
    apply safe_inv_val in H0. apply (inv_all_val (kv nu)) in H1. lia. }
  assert (Qel : Qe (st_next (p_tab s)) elems).
  { clear E H. destruct op1; inv_ok; try assumption. eapply Qinv; eauto. }
  assert (IH : forall K l op rhs strict s1 s', p_normalize O cfg srt addc fuel l elems op rhs strict s1 = Ok (true, s') -> pok K s1 -> K (Z.abs l) -> p_tab s1 = p_tab s ->
    (exists K', plain K s1 K' s' (reifn l strict (fun nu => holds op (terms_val (kv nu) elems) rhs))) /\ p_tab s' = p_tab s).
  { intros K1 l1 o r st s1 s2 X1 X2 X3 X4. rewrite <- X4. apply (IH0 K1 l1 elems o r st s1 s2); auto. rewrite X4. exact Qel. }
  assert (addc_s : forall rhs strict s', addc l elems rhs strict s = Ok (true, s') ->
    plain K s K s' (reifn l strict (fun nu => terms_val (kv nu) elems <= rhs)) /\ p_tab s' = p_tab s) by (intros; eapply addc_step; eauto).
  clear IH0 Qes Qel.
  clear H1 H2. destruct E as [E Oo].
  cut ((exists K', plain K s K' s' (reifn l strict (fun nu => holds op2 (terms_val (kv nu) elems) rhs2))) /\ p_tab s' = p_tab s).
  { intros [[K' A] B]. split; [|exact B]. exists K'. eapply pl_iff; [exact A|]. intros I nu _. unfold reifn, reif. rewrite E. reflexivity. }
  clear E op es rhs op1 rhs1. rename op2 into op, rhs2 into rhs, elems into es.
  pose proof (pk_below K s l Po Kl) as Bl. pose proof Bl as [Nl _].
  assert (Kn : forall (K : Z -> Prop) x, K (Z.abs x) -> K (Z.abs (- x))) by (intros K1 x; now rewrite Z.abs_opp).
  destruct Oo as [->|[->| ->]].
  - (* <= *)
    destruct (strict && Nat.eqb (List.length es) 1) eqn:S1.
    + assert (strict = true) by (destruct strict; [reflexivity|discriminate]). subst strict. destruct (addc_s _ _ _ H) as [A B]. split; [|exact B]. exists K. exact A.
    + assert (TT : forall s1, plain K s K s1 (reifn l false (fun nu => terms_val (kv nu) es <= rhs)) -> p_tab s1 = p_tab s ->
        (if strict then p_normalize O cfg srt addc fuel (- l) es RGt rhs false else sret true) s1 = Ok (true, s') ->
        (exists K', plain K s K' s' (reifn l strict (fun nu => holds RLe (terms_val (kv nu) es) rhs))) /\ p_tab s' = p_tab s).
      { intros s1 S B H'. destruct strict.
        - destruct (IH K (- l) RGt rhs false s1 s' H' (pl_ok _ _ _ _ _ S) (Kn K l Kl) B) as [[K' A] B']. split; [|exact B']. exists K'.
          eapply pl_iff; [eapply pl_trans; [exact Po|exact S|exact A|apply reifn_only, below_neg, Bl]|].
          intros I nu _. unfold reifn, reif. cbn [holds]. rewrite lit_true_neg by exact Nl. split.
          + intros [[A1 _] [A2 _]]. split; [exact A1|]. intros _ HA. destruct (lit_true_dec I l) as [T'|T']; [exact T'|apply A2 in T'; lia].
          + intros [A1 A2]. split; split; [exact A1|discriminate| |discriminate]. intros T'.
            destruct (Z_le_gt_dec (terms_val (kv nu) es) rhs) as [X|X]; [exfalso; apply T', A2; auto|exact X].
        - inv_ok. split; [|exact B]. exists K. exact S. }
      apply sbind_ok in H as (f & s0 & Ht & H). destruct (true_step O Base n0 CO K s (- l) f s0 Ht Po) as [-> It].
      destruct f.
      * apply (TT s); [|reflexivity|exact H]. eapply pl_iff; [apply pl_refl, Po|]. intros I nu M. specialize (It eq_refl I nu M).
        rewrite lit_true_neg in It by exact Nl. unfold reifn, reif. intuition discriminate.
      * apply and_ok in H. destruct H as (s1 & H1 & H). destruct (addc_s _ _ _ H1) as [A B]. eapply TT; eassumption.
  - (* = *)
    destruct strict.
    + assert (G : forall (K1 : Z -> Prop) a b s0,
        p_and (p_call O cfg srt (BClause [- l; a])) (p_and (p_call O cfg srt (BClause [- l; b])) (p_and (p_call O cfg srt (BClause [- a; - b; l]))
          (p_and (p_normalize O cfg srt addc fuel a es RLe rhs true) (p_and (p_normalize O cfg srt addc fuel b es RGe rhs true) (sret true))))) s0 = Ok (true, s') ->
        pok K1 s0 -> K1 (Z.abs l) -> K1 (Z.abs a) -> K1 (Z.abs b) -> p_tab s0 = p_tab s ->
        (exists K', plain K1 s0 K' s' (fun I nu => ((lit_true I l -> lit_true I a /\ lit_true I b) /\ (lit_true I a -> lit_true I b -> lit_true I l)) /\
           (lit_true I a <-> terms_val (kv nu) es <= rhs) /\ (lit_true I b <-> terms_val (kv nu) es >= rhs))) /\ p_tab s' = p_tab s).
      { intros K1 a b s0 H' P0 Kl1 Ka Kb T0.
        pose proof (pk_below _ _ _ P0 Ka) as Ba. pose proof (pk_below _ _ _ P0 Kb) as Bb. pose proof (pk_below _ _ _ P0 Kl1) as Bl1. pose proof Ba as [Na _]. pose proof Bb as [Nb _].
        apply and_ok in H'. destruct H' as (s1 & C1 & H'). apply and_ok in H'. destruct H' as (s2 & C2 & H').
        apply and_ok in H'. destruct H' as (s3 & C3 & H'). apply and_ok in H'. destruct H' as (s4 & C4 & H').
        apply and_ok in H'. destruct H' as (s5 & C5 & H'). apply sret_ok in H'. destruct H' as [_ ->].
        destruct (clause_step K1 _ _ _ C1 P0 ltac:(kl)) as [D1 E1]. pose proof (pl_ok _ _ _ _ _ D1) as P1.
        destruct (clause_step K1 _ _ _ C2 P1 ltac:(kl)) as [D2 E2]. pose proof (pl_ok _ _ _ _ _ D2) as P2.
        destruct (clause_step K1 _ _ _ C3 P2 ltac:(kl)) as [D3 E3]. pose proof (pl_ok _ _ _ _ _ D3) as P3.
        destruct (IH K1 _ _ _ _ _ _ C4 P3 Ka ltac:(congruence)) as [[K4 D4] E4]. pose proof (pl_ok _ _ _ _ _ D4) as P4.
        destruct (IH K4 _ _ _ _ _ _ C5 P4 ltac:(now apply (ad_K _ _ _ _ _ _ _ _ _ _ _ _ D4)) E4) as [[K5 D5] E5].
        split; [|exact E5]. exists K5.
        pose proof (pl_nxt _ _ _ _ _ D1) as N1. pose proof (pl_nxt _ _ _ _ _ D2) as N2. pose proof (pl_nxt _ _ _ _ _ D3) as N3.
        assert (OB : forall n, nxt (b_s (p_b s0)) <= n -> onlyI n (reifn b true (fun nu => holds RGe (terms_val (kv nu) es) rhs))) by (intros n Hn; apply reifn_only; eapply below_mono; eauto).
        assert (OA : forall n, nxt (b_s (p_b s0)) <= n -> onlyI n (reifn a true (fun nu => holds RLe (terms_val (kv nu) es) rhs))) by (intros n Hn; apply reifn_only; eapply below_mono; eauto).
        assert (OC : forall n c, Forall (below (nxt (b_s (p_b s0)))) c -> nxt (b_s (p_b s0)) <= n -> onlyI n (fun I (_ : var -> Z) => clause_true I c)).
        { intros n c F Hn. apply clause_only. eapply Forall_impl; [|exact F]. intros x. now apply below_mono. }
        pose proof (pl_trans _ _ _ _ _ _ _ _ _ _ _ _ _ _ P3 D4 D5 ltac:(apply OB; lia)) as X4.
        pose proof (pl_trans _ _ _ _ _ _ _ _ _ _ _ _ _ _ P2 D3 X4 ltac:(apply and_only; [apply OA|apply OB]; lia)) as X3.
        pose proof (pl_trans _ _ _ _ _ _ _ _ _ _ _ _ _ _ P1 D2 X3 ltac:(apply and_only; [apply OC; [bl|lia]|apply and_only; [apply OA|apply OB]; lia])) as X2.
        pose proof (pl_trans _ _ _ _ _ _ _ _ _ _ _ _ _ _ P0 D1 X2 ltac:(apply and_only; [apply OC; [bl|lia]|apply and_only; [apply OC; [bl|lia]|apply and_only; [apply OA|apply OB]; lia]])) as X1.
        eapply pl_iff; [exact X1|]. intros I nu _. unfold reifn, reif. cbn [holds].
        rewrite !clause_cons, !clause_nil, !lit_true_neg by assumption.
        pose proof (lit_true_dec I l) as Dl. pose proof (lit_true_dec I a) as Da. pose proof (lit_true_dec I b) as Db.
        clear - Dl Da Db. split.
        - intros (A1 & A2 & A3 & [A4 A5] & [A6 A7]). specialize (A5 eq_refl). specialize (A7 eq_refl).
          split; [split|split; split; assumption].
          + intros T'. split; [destruct A1 as [A1|[A1|[]]]|destruct A2 as [A2|[A2|[]]]]; easy.
          + intros Ta Tb. destruct A3 as [A3|[A3|[A3|[]]]]; easy.
        - intros ((A1 & A2) & A3 & A4). repeat split; tauto. }
      apply sbind_ok in H as (f & s0 & Ht & H). destruct (true_step O Base n0 CO K s l f s0 Ht Po) as [-> It].
      destruct f.
      * apply sbind_ok in H as ([a b] & s0 & Hs & H). apply sret_ok in Hs as [Hs ->]. injection Hs as -> ->.
        destruct (G K TRUE_LIT TRUE_LIT s H Po Kl (po_one _ _ _ _ Po) (po_one _ _ _ _ Po) eq_refl) as [[K' A] B]. split; [|exact B]. exists K'.
        eapply pl_iff; [exact A|]. intros I nu M. pose proof (It eq_refl I nu M) as Tl. assert (T1 : lit_true I TRUE_LIT) by (destruct M as ((_ & M & _) & _); exact M).
        unfold reifn, reif. cbn [holds]. intuition lia.
      * apply sbind_ok in H as ([a b] & s0 & Hs & H). apply sbind_ok in Hs as (a' & sa & Ha & Hs). apply sbind_ok in Hs as (b' & sb & Hb & Hs). apply sret_ok in Hs as [Hs ->]. injection Hs as -> ->.
        destruct (lit_step O cfg srt Base n0 BO F0 K s a' sa Ha Po) as (Ea & Na & La & Ta & Da & _). pose proof (pl_ok _ _ _ _ _ Da) as Pa.
        destruct (lit_step O cfg srt Base n0 BO F0 _ sa b' sb Hb Pa) as (Eb & Nb & Lb & Tb & Db & _). pose proof (pl_ok _ _ _ _ _ Db) as Pb.
        destruct (G _ a' b' sb H Pb ltac:(cbn beta; auto) ltac:(rewrite Z.abs_eq by lia; cbn beta; auto) ltac:(rewrite Z.abs_eq by lia; cbn beta; auto) ltac:(congruence)) as [[K' A] B]. split; [|exact B]. exists K'.
        eapply (fresh_step O cfg srt Base n0 BO F0 _ _ _ _ _ _ _ Hb Pa) in A. eapply (fresh_step O cfg srt Base n0 BO F0 _ _ _ _ _ _ _ Ha Po) in A.
        eapply pl_iff; [exact A|]. clear A G. rewrite <- Eb, <- Ea. assert (b' = a' + 1) as -> by lia. rename a' into a.
        set (b := a + 1) in *.
        assert (Bla : below a l) by (rewrite Ea; exact Bl).
        intros I nu _. unfold reifn, reif. cbn [holds].
        split.
        -- intros (J & J1 & L & L1 & L3). assert (A : agree_below a I L) by (eapply agree_trans; [exact J1|]; eapply agree_mono; [|exact L1]; lia).
           rewrite (lit_true_agree a I L l A) by exact Bla.
           destruct L3 as ((M1 & M2) & M3 & M4). split; [intros T'; apply M1 in T'; destruct T' as [T1 T2]; apply M3 in T1; apply M4 in T2; lia|].
           intros _ V. apply M2; [apply M3|apply M4]; lia.
        -- intros [P1 P2].
           set (J := TermsProofs4.set I a (terms_val (kv nu) es <=? rhs)).
           set (L := TermsProofs4.set J b (rhs <=? terms_val (kv nu) es)).
           assert (AJ : agree_below a I J) by apply (TermsProofs4.set_agree (fun _ => true)). assert (AL : agree_below b J L) by apply (TermsProofs4.set_agree (fun _ => true)).
           exists J. split; [exact AJ|]. exists L. split; [exact AL|].
           assert (Tvb : lit_true L b <-> terms_val (kv nu) es >= rhs) by (unfold L; rewrite (TermsProofs4.set_true (fun _ => true)) by lia; lia).
           assert (Tva : lit_true L a <-> terms_val (kv nu) es <= rhs).
           { rewrite <- (lit_true_agree b J L a AL) by (unfold below; lia). unfold J. rewrite (TermsProofs4.set_true (fun _ => true)) by lia. lia. }
           assert (Tl : lit_true L l <-> lit_true I l).
           { rewrite <- (lit_true_agree b J L l AL) by (unfold below in *; lia). symmetry. apply (lit_true_agree a); [exact AJ|exact Bla]. }
           rewrite Tva, Tvb, Tl. split; [|split; reflexivity]. split; [intros T'; apply P1 in T'; lia|]. intros V1 V2. apply P2; [reflexivity|lia].
    + apply and_ok in H. destruct H as (s1 & H1 & H). apply and_ok in H. destruct H as (s2 & H2 & H). inv_ok.
      destruct (IH K _ _ _ _ _ _ H1 Po Kl eq_refl) as [[K1 A1] B1]. destruct (IH K1 _ _ _ _ _ _ H2 (pl_ok _ _ _ _ _ A1) ltac:(now apply (ad_K _ _ _ _ _ _ _ _ _ _ _ _ A1)) B1) as [[K2 A2] B2].
      split; [|exact B2]. exists K2.
      eapply pl_iff; [eapply pl_trans; [exact Po|exact A1|exact A2|apply reifn_only, Bl]|].
      intros I nu _. unfold reifn, reif. cbn [holds]. intuition (try discriminate); lia.
  - (* != *)
    destruct strict.
    + destruct (IH K _ _ _ _ _ _ H Po (Kn K l Kl) eq_refl) as [[K' A] B]. split; [|exact B]. exists K'.
      eapply pl_iff; [exact A|]. intros I nu _. unfold reifn, reif. cbn [holds]. rewrite lit_true_neg by exact Nl.
      destruct (lit_true_dec I l), (Z.eq_dec (terms_val (kv nu) es) rhs); intuition.
    + apply sbind_ok in H as (a & sa & Ha & H). apply sbind_ok in H as (b & sb & Hb & H).
      destruct (lit_step O cfg srt Base n0 BO F0 K s a sa Ha Po) as (Ea & Na & La & Ta & Da & _). pose proof (pl_ok _ _ _ _ _ Da) as Pa.
      destruct (lit_step O cfg srt Base n0 BO F0 _ sa b sb Hb Pa) as (Eb & Nb & Lb & Tb & Db & _). pose proof (pl_ok _ _ _ _ _ Db) as Pb.
      set (K1 := fun i => (K i \/ i = a) \/ i = b) in *.
      assert (Kl1 : K1 (Z.abs l)) by (unfold K1; auto). assert (Ka : K1 (Z.abs a)) by (unfold K1; rewrite Z.abs_eq by lia; auto). assert (Kb : K1 (Z.abs b)) by (unfold K1; rewrite Z.abs_eq by lia; auto).
      pose proof (pk_below _ _ _ Pb Ka) as Ba. pose proof (pk_below _ _ _ Pb Kb) as Bb. pose proof (pk_below _ _ _ Pb Kl1) as Bl1.
      assert (N0a : a <> 0) by lia. assert (N0b : b <> 0) by lia.
      apply and_ok in H. destruct H as (s1 & C1 & H'). apply and_ok in H'. destruct H' as (s2 & C2 & H').
      apply and_ok in H'. destruct H' as (s3 & C3 & H'). apply and_ok in H'. destruct H' as (s4 & C4 & H').
      apply and_ok in H'. destruct H' as (s5 & C5 & H'). apply and_ok in H'. destruct H' as (s6 & C6 & H'). apply sret_ok in H'. destruct H' as [_ ->].
      destruct (clause_step K1 _ _ _ C1 Pb ltac:(kl)) as [D1 E1]. pose proof (pl_ok _ _ _ _ _ D1) as P1.
      destruct (clause_step K1 _ _ _ C2 P1 ltac:(kl)) as [D2 E2]. pose proof (pl_ok _ _ _ _ _ D2) as P2.
      destruct (clause_step K1 _ _ _ C3 P2 ltac:(kl)) as [D3 E3]. pose proof (pl_ok _ _ _ _ _ D3) as P3.
      destruct (clause_step K1 _ _ _ C4 P3 ltac:(kl)) as [D4 E4]. pose proof (pl_ok _ _ _ _ _ D4) as P4.
      destruct (IH K1 _ _ _ _ _ _ C5 P4 Ka ltac:(congruence)) as [[K5 D5] E5]. pose proof (pl_ok _ _ _ _ _ D5) as P5.
      destruct (IH K5 _ _ _ _ _ _ C6 P5 ltac:(now apply (ad_K _ _ _ _ _ _ _ _ _ _ _ _ D5)) E5) as [[K6 D6] E6].
      split; [|exact E6]. exists K6.
      pose proof (pl_nxt _ _ _ _ _ D1) as N1. pose proof (pl_nxt _ _ _ _ _ D2) as N2. pose proof (pl_nxt _ _ _ _ _ D3) as N3. pose proof (pl_nxt _ _ _ _ _ D4) as N4.
      set (n := nxt (b_s (p_b sb))) in *.
      assert (OB : forall m, n <= m -> onlyI m (reifn b false (fun nu => holds RGt (terms_val (kv nu) es) rhs))) by (intros m Hn; apply reifn_only; eapply below_mono; eauto).
      assert (OA : forall m, n <= m -> onlyI m (reifn a false (fun nu => holds RLt (terms_val (kv nu) es) rhs))) by (intros m Hn; apply reifn_only; eapply below_mono; eauto).
      assert (OC : forall m c, Forall (below n) c -> n <= m -> onlyI m (fun I (_ : var -> Z) => clause_true I c)).
      { intros m c F Hn. apply clause_only. eapply Forall_impl; [|exact F]. intros x. now apply below_mono. }
      pose proof (pl_trans _ _ _ _ _ _ _ _ _ _ _ _ _ _ P4 D5 D6 ltac:(apply OB; lia)) as X5.
      pose proof (pl_trans _ _ _ _ _ _ _ _ _ _ _ _ _ _ P3 D4 X5 ltac:(apply and_only; [apply OA|apply OB]; lia)) as X4.
      pose proof (pl_trans _ _ _ _ _ _ _ _ _ _ _ _ _ _ P2 D3 X4 ltac:(apply and_only; [apply OC; [bl|lia]|apply and_only; [apply OA|apply OB]; lia])) as X3.
      pose proof (pl_trans _ _ _ _ _ _ _ _ _ _ _ _ _ _ P1 D2 X3 ltac:(apply and_only; [apply OC; [bl|lia]|apply and_only; [apply OC; [bl|lia]|apply and_only; [apply OA|apply OB]; lia]])) as X2.
      pose proof (pl_trans _ _ _ _ _ _ _ _ _ _ _ _ _ _ Pb D1 X2 ltac:(apply and_only; [apply OC; [bl|lia]|apply and_only; [apply OC; [bl|lia]|apply and_only; [apply OC; [bl|lia]|apply and_only; [apply OA|apply OB]; lia]]])) as A.
      eapply (fresh_step O cfg srt Base n0 BO F0 _ _ _ _ _ _ _ Hb Pa) in A. eapply (fresh_step O cfg srt Base n0 BO F0 _ _ _ _ _ _ _ Ha Po) in A.
      eapply pl_iff; [exact A|]. rewrite <- Eb, <- Ea. assert (b = a + 1) by lia. assert (Bla : below a l) by (rewrite Ea; exact Bl).
      clear - Nl N0a N0b Bla La H. intros I nu _. unfold reifn, reif. cbn [holds].
      split.
      * intros (J & J1 & L & L1 & L3). assert (A : agree_below a I L) by (eapply agree_trans; [exact J1|]; eapply agree_mono; [|exact L1]; lia).
        rewrite (lit_true_agree a I L l A) by exact Bla.
        rewrite !clause_cons, !clause_nil, !lit_true_neg in L3 by assumption.
        destruct L3 as (M1 & M2 & M3 & M4 & M5 & M6). split; [|discriminate]. intros Tl. destruct M1 as [M1|[M1|[M1|[]]]]; [apply M5 in M1; lia|apply M6 in M1; lia|tauto].
      * intros [P1 P2].
        set (J := TermsProofs4.set I a ((terms_val (kv nu) es <? rhs) && (if 0 <? l then I l else negb (I (- l))))).
        set (L := TermsProofs4.set J b ((rhs <? terms_val (kv nu) es) && (if 0 <? l then I l else negb (I (- l))))).
        assert (AJ : agree_below a I J) by apply (TermsProofs4.set_agree (fun _ => true)). assert (AL : agree_below b J L) by apply (TermsProofs4.set_agree (fun _ => true)).
        exists J. split; [exact AJ|]. exists L. split; [exact AL|].
        assert (El : (if 0 <? l then I l else negb (I (- l))) = true <-> lit_true I l).
        { unfold lit_true. destruct (0 <? l); [reflexivity|]. destruct (I (- l)); cbn; split; congruence. }
        assert (Tb : lit_true L b <-> terms_val (kv nu) es > rhs /\ lit_true I l) by (unfold L; rewrite (TermsProofs4.set_true (fun _ => true)), andb_true_iff, El, Z.ltb_lt, Z.gt_lt_iff by lia; reflexivity).
        assert (Ta : lit_true L a <-> terms_val (kv nu) es < rhs /\ lit_true I l).
        { rewrite <- (lit_true_agree b J L a AL) by (unfold below; lia). unfold J. rewrite (TermsProofs4.set_true (fun _ => true)), andb_true_iff, El, Z.ltb_lt by lia. reflexivity. }
        assert (Tl : lit_true L l <-> lit_true I l).
        { rewrite <- (lit_true_agree b J L l AL) by (unfold below in *; lia). symmetry. apply (lit_true_agree a); [exact AJ|exact Bla]. }
        rewrite !clause_cons, !clause_nil, !lit_true_neg by assumption. rewrite Ta, Tb, Tl.
        assert (X : lit_true I l -> terms_val (kv nu) es < rhs \/ terms_val (kv nu) es > rhs) by (intros T'; apply P1 in T'; lia).
        assert (Y : ~ (terms_val (kv nu) es < rhs /\ terms_val (kv nu) es > rhs)) by lia. clear - X Y.
        set (A := terms_val (kv nu) es < rhs) in *. set (B := terms_val (kv nu) es > rhs) in *. clearbody A B.
        destruct (lit_true_dec I l) as [T'|T'].
        -- specialize (X T'). split; [tauto|]. split; [tauto|]. split; [tauto|]. split; [tauto|]. split; (split; [tauto|discriminate]).
        -- split; [tauto|]. split; [tauto|]. split; [tauto|]. split; [tauto|]. split; (split; [tauto|discriminate]).
Qed.
End Norm.
