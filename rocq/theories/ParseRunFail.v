(** The parser on the real builder: if parsing reports a conflict no answer is lost. *)
From Coq Require Import String.
From Verif Require Import Base Util UtilProofs IntervalSet IntervalSetProofs VarState Terms TermsSpec TermsProofs TermsProofs2 TermsProofs3 TermsProofs4 Statements StatementsSpec DenFun StatementsProofs StatementsMain
  Solver OrderSpec OrderProofs2 OrderProofs5 OrderProofs6 Sum PropProofs ConSpec Objective Search SearchSpec SearchFrame SearchInv5 Builder BuilderSpec BuilderProofs BuilderProofs3 Init InitSpec
  ParseRun ParseRunSpec ParseRunProofs ParseRunProofs2 ParseRunProofs3 ParseRunNonlin ParseRunProofs4 ParseRunMain Orders InitReady Prop_Init.
From Coq Require Import Permutation.
Open Scope Z_scope.
Local Notation holds := TermsSpec.holds.
Local Notation add_variable := Terms.add_variable.
Local Ltac kl := repeat (apply Forall_cons || apply Forall_nil); rewrite ?Z.abs_opp; assumption.
Local Ltac bl := repeat (apply Forall_cons || apply Forall_nil); try assumption; apply below_neg; assumption.

Section Fail.
Context (O : oracle) (cfg : config) (srt : list (Z * var) -> list (Z * var)) (Base : interp -> Prop) (n0 : Z).
Context (BO : base_ok Base n0) (CO : clasp_ok O Base) (PS : forall es, Permutation (srt es) es).
Notation models := (models Base).
Notation pok := (pok O n0).
Notation adds := (adds O cfg srt Base n0).
Notation Pr := (interp -> (var -> Z) -> Prop).
Notation nx s := (nxt (b_s (p_b s))).

(** Solutions that satisfy [Q] are kept. *)
Definition keeps (s s' : pr) (Q : Pr) : Prop := forall I nu, models (p_b s) I nu -> Q I nu -> exists J, agree_below (nx s) I J /\ models (p_b s') J nu.

Lemma k_imp s s' (Q Q' : Pr) : keeps s s' Q -> (forall I nu, models (p_b s) I nu -> Q' I nu -> Q I nu) -> keeps s s' Q'.
Proof. intros A H I nu M q. apply A; auto. Qed.
Lemma k_seq K s K1 s1 s' Q1 F W Q2 : adds K s K1 s1 Q1 F W -> keeps s1 s' Q2 -> onlyI (nx s) Q2 -> keeps s s' (fun I nu => Q1 I nu /\ Q2 I nu).
Proof.
  intros A B D I nu M [q1 q2]. destruct (ad_fwd _ _ _ _ _ _ _ _ _ _ _ _ A I nu M q1) as (J & A1 & M1). destruct (B J nu M1 (D I J nu A1 q2)) as (L & A2 & M2).
  exists L. split; [|exact M2]. eapply agree_trans; [exact A1|]. eapply agree_mono; [|exact A2]. apply (ad_nxt _ _ _ _ _ _ _ _ _ _ _ _ A).
Qed.
Lemma and_false m k s s' : p_and m k s = Ok (false, s') -> m s = Ok (false, s') \/ exists s1, m s = Ok (true, s1) /\ k s1 = Ok (false, s').
Proof. unfold p_and. intros H. apply sbind_ok in H as (b & s1 & H1 & H). destruct b; [right; eauto|left]. apply sret_ok in H as [_ ->]. exact H1. Qed.
Lemma k_fresh K s x s1 s' Q : p_lit s = Ok (x, s1) -> pok K s -> keeps s1 s' Q -> keeps s s' (fun I nu => exists J, agree_below (nx s) I J /\ Q J nu).
Proof.
  intros E P A I nu M (J & AJ & q). destruct (lit_step O cfg srt Base n0 BO (fun _ _ => True) K s x s1 E P) as (X & N & _ & _ & _ & MM).
  pose proof (models_dep O Base n0 BO _ (po_top _ _ _ _ P) I J nu nu AJ ltac:(easy) M) as MJ.
  destruct (A J nu (MM _ _ MJ) q) as (L & E2 & M2). exists L. split; [|exact M2]. eapply agree_trans; [exact AJ|]. eapply agree_mono; [|exact E2]. lia.
Qed.
Lemma k_call K c s s' : p_call O cfg srt c s = Ok (false, s') -> pok K s -> call_ok K (nvars (b_s (p_b s))) c -> keeps s s' (fun I nu => call_holds I nu c).
Proof.
  intros H [T L _ _ _] C. unfold p_call in H. destruct (build1 O cfg srt c (p_b s)) as [[ok b]| |] eqn:E; try discriminate. injection H as -> <-.
  destruct (build1_built O cfg srt Base n0 BO CO PS K c (p_b s) false b T L C E) as ([_ _ _ U4 _] & _). exact U4.
Qed.
Lemma k_clause K c s s' : p_call O cfg srt (BClause c) s = Ok (false, s') -> pok K s -> Forall (fun l => K (Z.abs l)) c -> keeps s s' (fun I _ => clause_true I c).
Proof. intros H P F. exact (k_call K _ _ _ H P F). Qed.

Context (F0 : Pr).
Notation plain := (plain O cfg srt Base n0 F0).
Lemma k_and K m k s s' Q1 (Q2 : Pr) : p_and m k s = Ok (false, s') -> (m s = Ok (false, s') -> keeps s s' Q1) ->
  (forall s1, m s = Ok (true, s1) -> exists K1, plain K s K1 s1 Q1 /\ (k s1 = Ok (false, s') -> keeps s1 s' Q2)) -> onlyI (nx s) Q2 -> keeps s s' (fun I nu => Q1 I nu /\ Q2 I nu).
Proof.
  intros H A B D. destruct (and_false _ _ _ _ H) as [H1|(s1 & H1 & H2)].
  - eapply k_imp; [exact (A H1)|]. intros I nu _ [q _]. exact q.
  - destruct (B s1 H1) as (K1 & P & R). exact (k_seq _ _ _ _ _ _ _ _ _ P (R H2) D).
Qed.
Context {T : Type} (kv : (var -> Z) -> T -> Z) (addc : lit -> list (Z * T) -> Z -> bool -> SM pr bool) (Qe : nat -> list (Z * T) -> Prop).
Hypothesis Qinv : forall m es es', Qe m es -> inv_all es = Ok es' -> Qe m es'.
Hypothesis addc_step : forall K l es rhs strict s s', addc l es rhs strict s = Ok (true, s') -> pok K s -> K (Z.abs l) -> Qe (st_next (p_tab s)) es ->
  plain K s K s' (reifn l strict (fun nu => terms_val (kv nu) es <= rhs)) /\ p_tab s' = p_tab s.
Hypothesis addc_keeps : forall K l es rhs strict s s', addc l es rhs strict s = Ok (false, s') -> pok K s -> K (Z.abs l) -> Qe (st_next (p_tab s)) es ->
  keeps s s' (reifn l strict (fun nu => terms_val (kv nu) es <= rhs)).
Notation cl := (fun c => (fun (I : interp) (_ : var -> Z) => clause_true I c)).

Theorem normalize_keeps : forall fuel K l es op rhs strict s s',
  p_normalize O cfg srt addc fuel l es op rhs strict s = Ok (false, s') -> pok K s -> K (Z.abs l) -> Qe (st_next (p_tab s)) es ->
  keeps s s' (reifn l strict (fun nu => holds op (terms_val (kv nu) es) rhs)).
Proof.
  induction fuel as [|fuel IH0]; intros K l es op rhs strict s s' H Po Kl Qes; [discriminate|].
  cbn [p_normalize] in H. apply sbind_ok in H. destruct H as ([op1 rhs1] & s0 & H1 & H).
  apply slift_ok in H1. destruct H1 as [H1 ->].
  apply sbind_ok in H. destruct H as ([[op2 rhs2] elems] & s0 & H2 & H). apply slift_ok in H2. destruct H2 as [H2 ->].
  assert (E : (forall nu, holds op (terms_val (kv nu) es) rhs <-> holds op2 (terms_val (kv nu) elems) rhs2) /\ (op2 = RLe \/ op2 = REq \/ op2 = RNe)).
  { assert (E1 : (forall nu, holds op (terms_val (kv nu) es) rhs <-> holds op1 (terms_val (kv nu) es) rhs1) /\ (op1 = RLe \/ op1 = RGe \/ op1 = REq \/ op1 = RNe)).
    { destruct op; inv_ok; cbn [holds]; auto; split; auto; try reflexivity.
      - apply safe_sub_val in H0. lia.
      - apply safe_add_val in H0. lia. }
    clear H1. destruct E1 as [E1 Oo]. split; [intros nu; rewrite E1; clear E1|]; destruct op1; inv_ok; cbn [holds]; try (destruct Oo as [Oo|[Oo|[Oo|Oo]]]; discriminate); auto; try reflexivity.
    apply safe_inv_val in H0. apply (inv_all_val (kv nu)) in H1. lia. }
  assert (Qel : Qe (st_next (p_tab s)) elems).
  { clear E H. destruct op1; inv_ok; try assumption. eapply Qinv; eauto. }
  assert (ST : forall K l op rhs strict s1 s', p_normalize O cfg srt addc fuel l elems op rhs strict s1 = Ok (true, s') -> pok K s1 -> K (Z.abs l) -> p_tab s1 = p_tab s ->
    (exists K', plain K s1 K' s' (reifn l strict (fun nu => holds op (terms_val (kv nu) elems) rhs))) /\ p_tab s' = p_tab s).
  { intros K1 l1 o r st s1 s2 X1 X2 X3 X4. rewrite <- X4. apply (normalize_step O cfg srt Base n0 BO CO PS F0 kv addc Qe Qinv addc_step fuel K1 l1 elems o r st s1 s2); auto. rewrite X4. exact Qel. }
  assert (IH : forall K l op rhs strict s1 s', p_normalize O cfg srt addc fuel l elems op rhs strict s1 = Ok (false, s') -> pok K s1 -> K (Z.abs l) -> p_tab s1 = p_tab s ->
    keeps s1 s' (reifn l strict (fun nu => holds op (terms_val (kv nu) elems) rhs))).
  { intros K1 l1 o r st s1 s2 X1 X2 X3 X4. apply (IH0 K1 l1 elems o r st s1 s2); auto. rewrite X4. exact Qel. }
  assert (addc_s : forall rhs strict s', addc l elems rhs strict s = Ok (true, s') ->
    plain K s K s' (reifn l strict (fun nu => terms_val (kv nu) elems <= rhs)) /\ p_tab s' = p_tab s) by (intros; eapply addc_step; eauto).
  assert (addc_k : forall rhs strict s', addc l elems rhs strict s = Ok (false, s') -> keeps s s' (reifn l strict (fun nu => terms_val (kv nu) elems <= rhs))) by (intros; eapply addc_keeps; eauto).
  clear IH0 Qes Qel.
  clear H1 H2. destruct E as [E Oo].
  cut (keeps s s' (reifn l strict (fun nu => holds op2 (terms_val (kv nu) elems) rhs2))).
  { intros A. eapply k_imp; [exact A|]. intros I nu _. unfold reifn, reif. rewrite E. exact (fun X => X). }
  clear E op es rhs op1 rhs1. rename op2 into op, rhs2 into rhs, elems into es.
  pose proof (pk_below O n0 K s l Po Kl) as Bl. pose proof Bl as [Nl _].
  assert (Kn : forall (K : Z -> Prop) x, K (Z.abs x) -> K (Z.abs (- x))) by (intros K1 x; now rewrite Z.abs_opp).
  destruct Oo as [->|[->| ->]].
  - (* <= *)
    destruct (strict && Nat.eqb (List.length es) 1) eqn:S1.
    + assert (strict = true) by (destruct strict; [reflexivity|discriminate]). subst strict. exact (addc_k _ _ _ H).
    + assert (TT : forall s1, plain K s K s1 (reifn l false (fun nu => terms_val (kv nu) es <= rhs)) -> p_tab s1 = p_tab s ->
        (if strict then p_normalize O cfg srt addc fuel (- l) es RGt rhs false else sret true) s1 = Ok (false, s') ->
        keeps s s' (reifn l strict (fun nu => holds RLe (terms_val (kv nu) es) rhs))).
      { intros s1 S B H'. destruct strict; [|discriminate].
        pose proof (IH K (- l) RGt rhs false s1 s' H' (pl_ok _ _ _ _ _ _ _ _ _ _ _ S) (Kn K l Kl) B) as A.
        eapply k_imp; [eapply k_seq; [exact S|exact A|apply reifn_only, below_neg, Bl]|].
        intros I nu _. unfold reifn, reif. cbn [holds]. rewrite lit_true_neg by exact Nl.
        intros [A1 A2]. split; split; [exact A1|discriminate| |discriminate]. intros T'.
        destruct (Z_le_gt_dec (terms_val (kv nu) es) rhs) as [X|X]; [exfalso; apply T', A2; auto|exact X]. }
      apply sbind_ok in H as (f & s0 & Ht & H). destruct (true_step O Base n0 CO K s (- l) f s0 Ht Po) as [-> It].
      destruct f.
      * apply (TT s); [|reflexivity|exact H]. eapply pl_iff; [apply pl_refl, Po|]. intros I nu M. specialize (It eq_refl I nu M).
        rewrite lit_true_neg in It by exact Nl. unfold reifn, reif. intuition discriminate.
      * apply and_false in H as [H1|(s1 & H1 & H)].
        -- eapply k_imp; [exact (addc_k _ _ _ H1)|]. intros I nu _. unfold reifn, reif. cbn [holds]. intros [A1 A2]. split; [exact A1|discriminate].
        -- destruct (addc_s _ _ _ H1) as [A B]. eapply TT; eassumption.
  - (* = *)
    destruct strict.
    + assert (G : forall (K1 : Z -> Prop) a b s0,
        p_and (p_call O cfg srt (BClause [- l; a])) (p_and (p_call O cfg srt (BClause [- l; b])) (p_and (p_call O cfg srt (BClause [- a; - b; l]))
          (p_and (p_normalize O cfg srt addc fuel a es RLe rhs true) (p_and (p_normalize O cfg srt addc fuel b es RGe rhs true) (sret true))))) s0 = Ok (false, s') ->
        pok K1 s0 -> K1 (Z.abs l) -> K1 (Z.abs a) -> K1 (Z.abs b) -> p_tab s0 = p_tab s ->
        keeps s0 s' (fun I nu => ((lit_true I l -> lit_true I a /\ lit_true I b) /\ (lit_true I a -> lit_true I b -> lit_true I l)) /\
           (lit_true I a <-> terms_val (kv nu) es <= rhs) /\ (lit_true I b <-> terms_val (kv nu) es >= rhs))).
      { intros K1 a b s0 H' P0 Kl1 Ka Kb T0.
        pose proof (pk_below _ _ _ _ _ P0 Ka) as Ba. pose proof (pk_below _ _ _ _ _ P0 Kb) as Bb. pose proof (pk_below _ _ _ _ _ P0 Kl1) as Bl1. pose proof Ba as [Na _]. pose proof Bb as [Nb _].
        assert (OB : forall n, nx s0 <= n -> onlyI n (reifn b true (fun nu => holds RGe (terms_val (kv nu) es) rhs))) by (intros n Hn; apply reifn_only; eapply below_mono; eauto).
        assert (OA : forall n, nx s0 <= n -> onlyI n (reifn a true (fun nu => holds RLe (terms_val (kv nu) es) rhs))) by (intros n Hn; apply reifn_only; eapply below_mono; eauto).
        assert (OC : forall n c, Forall (below (nx s0)) c -> nx s0 <= n -> onlyI n (cl c)).
        { intros n c F Hn. apply clause_only. eapply Forall_impl; [|exact F]. intros x. now apply below_mono. }
        assert (OT : forall n, onlyI n (fun _ _ => True)) by (intros n I J nu _ _; exact Logic.I).
        eapply k_imp with (Q := fun I nu => cl [- l; a] I nu /\ cl [- l; b] I nu /\ cl [- a; - b; l] I nu /\ reifn a true (fun nu => holds RLe (terms_val (kv nu) es) rhs) I nu /\
          reifn b true (fun nu => holds RGe (terms_val (kv nu) es) rhs) I nu /\ True).
        - apply (k_and K1 _ _ s0 s' (cl [- l; a])) with (1 := H'); [intros X; apply (k_clause K1 _ _ _ X); [assumption|kl]| |do 2 (apply and_only; [apply OC; [bl|lia]|]); apply and_only; [apply OA; lia|]; apply and_only; [apply OB; lia|apply OT]].
          intros s1 C1. destruct (clause_step O cfg srt Base n0 BO CO PS F0 K1 _ _ _ C1 P0 ltac:(kl)) as [D1 E1]. exists K1. split; [exact D1|]. clear H'. intros H'. pose proof (pl_ok _ _ _ _ _ _ _ _ _ _ _ D1) as P1. pose proof (pl_nxt _ _ _ _ _ _ _ _ _ _ _ D1) as N1.
          apply (k_and K1 _ _ s1 s' (cl [- l; b])) with (1 := H'); [intros X; apply (k_clause K1 _ _ _ X); [assumption|kl]| |do 1 (apply and_only; [apply OC; [bl|lia]|]); apply and_only; [apply OA; lia|]; apply and_only; [apply OB; lia|apply OT]].
          intros s2 C2. destruct (clause_step O cfg srt Base n0 BO CO PS F0 K1 _ _ _ C2 P1 ltac:(kl)) as [D2 E2]. exists K1. split; [exact D2|]. clear H'. intros H'. pose proof (pl_ok _ _ _ _ _ _ _ _ _ _ _ D2) as P2. pose proof (pl_nxt _ _ _ _ _ _ _ _ _ _ _ D2) as N2.
          apply (k_and K1 _ _ s2 s' (cl [- a; - b; l])) with (1 := H'); [intros X; apply (k_clause K1 _ _ _ X); [assumption|kl]| |apply and_only; [apply OA; lia|]; apply and_only; [apply OB; lia|apply OT]].
          intros s3 C3. destruct (clause_step O cfg srt Base n0 BO CO PS F0 K1 _ _ _ C3 P2 ltac:(kl)) as [D3 E3]. exists K1. split; [exact D3|]. clear H'. intros H'. pose proof (pl_ok _ _ _ _ _ _ _ _ _ _ _ D3) as P3. pose proof (pl_nxt _ _ _ _ _ _ _ _ _ _ _ D3) as N3.
          apply (k_and K1 _ _ s3 s' (reifn a true (fun nu => holds RLe (terms_val (kv nu) es) rhs))) with (1 := H'); [intros X; eapply IH; eauto; congruence| |apply and_only; [apply OB; lia|apply OT]].
          intros s4 C4. destruct (ST K1 _ _ _ _ _ _ C4 P3 Ka ltac:(congruence)) as [[K4 D4] E4]. exists K4. split; [exact D4|]. clear H'. intros H'. pose proof (pl_ok _ _ _ _ _ _ _ _ _ _ _ D4) as P4.
          apply (k_and K4 _ _ s4 s' (reifn b true (fun nu => holds RGe (terms_val (kv nu) es) rhs))) with (1 := H'); [intros X; eapply (IH K4); eauto; now apply (ad_K _ _ _ _ _ _ _ _ _ _ _ _ D4)| |apply OT].
          intros s5 C5. destruct (ST K4 _ _ _ _ _ _ C5 P4 ltac:(now apply (ad_K _ _ _ _ _ _ _ _ _ _ _ _ D4)) E4) as [[K5 D5] E5]. exists K5. split; [exact D5|discriminate].
        - intros I nu _. unfold reifn, reif. cbn [holds].
          rewrite !clause_cons, !clause_nil, !lit_true_neg by assumption.
          pose proof (lit_true_dec I l) as Dl. pose proof (lit_true_dec I a) as Da. pose proof (lit_true_dec I b) as Db.
          clear - Dl Da Db. intros ((A1 & A2) & A3 & A4). repeat split; tauto. }
      apply sbind_ok in H as (f & s0 & Ht & H). destruct (true_step O Base n0 CO K s l f s0 Ht Po) as [-> It].
      destruct f.
      * apply sbind_ok in H as ([a b] & s0 & Hs & H). apply sret_ok in Hs as [Hs ->]. injection Hs as -> ->.
        eapply k_imp; [exact (G K TRUE_LIT TRUE_LIT s H Po Kl (po_one _ _ _ _ Po) (po_one _ _ _ _ Po) eq_refl)|].
        intros I nu M. pose proof (It eq_refl I nu M) as Tl. assert (T1 : lit_true I TRUE_LIT) by (destruct M as ((_ & M & _) & _); exact M).
        unfold reifn, reif. cbn [holds]. intuition lia.
      * apply sbind_ok in H as ([a b] & s0 & Hs & H). apply sbind_ok in Hs as (a' & sa & Ha & Hs). apply sbind_ok in Hs as (b' & sb & Hb & Hs). apply sret_ok in Hs as [Hs ->]. injection Hs as -> ->.
        destruct (lit_step O cfg srt Base n0 BO F0 K s a' sa Ha Po) as (Ea & Na & La & Ta & Da & _). pose proof (pl_ok _ _ _ _ _ _ _ _ _ _ _ Da) as Pa.
        destruct (lit_step O cfg srt Base n0 BO F0 _ sa b' sb Hb Pa) as (Eb & Nb & Lb & Tb & Db & _). pose proof (pl_ok _ _ _ _ _ _ _ _ _ _ _ Db) as Pb.
        pose proof (G _ a' b' sb H Pb ltac:(cbn beta; auto) ltac:(rewrite Z.abs_eq by lia; cbn beta; auto) ltac:(rewrite Z.abs_eq by lia; cbn beta; auto) ltac:(congruence)) as A.
        eapply (k_fresh _ _ _ _ _ _ Hb Pa) in A. eapply (k_fresh _ _ _ _ _ _ Ha Po) in A.
        eapply k_imp; [exact A|]. clear A G. rewrite <- Eb, <- Ea. assert (b' = a' + 1) as -> by lia. rename a' into a.
        set (b := a + 1) in *.
        assert (Bla : below a l) by (rewrite Ea; exact Bl).
        intros I nu _. unfold reifn, reif. cbn [holds].
        intros [P1 P2].
        set (J := TermsProofs4.set I a (terms_val (kv nu) es <=? rhs)).
        set (L := TermsProofs4.set J b (rhs <=? terms_val (kv nu) es)).
        assert (AJ : agree_below a I J) by apply (TermsProofs4.set_agree (fun _ => true)). assert (AL : agree_below b J L) by apply (TermsProofs4.set_agree (fun _ => true)).
        exists J. split; [exact AJ|]. exists L. split; [exact AL|].
        assert (Tvb : lit_true L b <-> terms_val (kv nu) es >= rhs) by (unfold L; rewrite (TermsProofs4.set_true (fun _ => true)) by lia; lia).
        assert (Tva : lit_true L a <-> terms_val (kv nu) es <= rhs).
        { rewrite <- (lit_true_agree b J L a AL) by (unfold below; lia). unfold J. rewrite (TermsProofs4.set_true (fun _ => true)) by lia. lia. }
        assert (Tl : lit_true L l <-> lit_true I l).
        { rewrite <- (lit_true_agree b J L l AL) by (unfold below in *; lia). symmetry. apply (lit_true_agree a); [exact AJ|exact Bla]. }
        rewrite Tva, Tvb, Tl. split; [|split; reflexivity]. split; [intros T'; apply P1 in T'; lia|]. intros V1 V2. apply P2; [reflexivity|lia].
    + eapply k_imp; [apply (k_and K _ _ s s' (reifn l false (fun nu => holds RLe (terms_val (kv nu) es) rhs)) (fun I nu => reifn l false (fun nu => holds RGe (terms_val (kv nu) es) rhs) I nu /\ True)) with (1 := H)|].
      * intros X. now apply (IH K _ _ _ _ _ _ X).
      * intros s1 H1. destruct (ST K _ _ _ _ _ _ H1 Po Kl eq_refl) as [[K1 A1] B1]. exists K1. split; [exact A1|]. clear H. intros H.
        pose proof (pl_ok _ _ _ _ _ _ _ _ _ _ _ A1) as P1. assert (Kl1 : K1 (Z.abs l)) by now apply (ad_K _ _ _ _ _ _ _ _ _ _ _ _ A1).
        apply (k_and K1 _ _ s1 s') with (1 := H); [intros X; now apply (IH K1 _ _ _ _ _ _ X)| |intros I J nu _ X; exact X].
        intros s2 H2. destruct (ST K1 _ _ _ _ _ _ H2 P1 Kl1 B1) as [[K2 A2] B2]. exists K2. split; [exact A2|discriminate].
      * apply and_only; [apply reifn_only, Bl|intros I J nu _ X; exact X].
      * intros I nu _. unfold reifn, reif. cbn [holds]. intuition (try discriminate); lia.
  - (* != *)
    destruct strict.
    + eapply k_imp; [exact (IH K _ _ _ _ _ _ H Po (Kn K l Kl) eq_refl)|]. intros I nu _. unfold reifn, reif. cbn [holds]. rewrite lit_true_neg by exact Nl.
      destruct (lit_true_dec I l), (Z.eq_dec (terms_val (kv nu) es) rhs); intuition.
    + apply sbind_ok in H as (a & sa & Ha & H). apply sbind_ok in H as (b & sb & Hb & H).
      destruct (lit_step O cfg srt Base n0 BO F0 K s a sa Ha Po) as (Ea & Na & La & Ta & Da & _). pose proof (pl_ok _ _ _ _ _ _ _ _ _ _ _ Da) as Pa.
      destruct (lit_step O cfg srt Base n0 BO F0 _ sa b sb Hb Pa) as (Eb & Nb & Lb & Tb & Db & _). pose proof (pl_ok _ _ _ _ _ _ _ _ _ _ _ Db) as Pb.
      set (K1 := fun i => (K i \/ i = a) \/ i = b) in *.
      assert (Kl1 : K1 (Z.abs l)) by (unfold K1; auto). assert (Ka : K1 (Z.abs a)) by (unfold K1; rewrite Z.abs_eq by lia; auto). assert (Kb : K1 (Z.abs b)) by (unfold K1; rewrite Z.abs_eq by lia; auto).
      pose proof (pk_below _ _ _ _ _ Pb Ka) as Ba. pose proof (pk_below _ _ _ _ _ Pb Kb) as Bb. pose proof (pk_below _ _ _ _ _ Pb Kl1) as Bl1.
      assert (N0a : a <> 0) by lia. assert (N0b : b <> 0) by lia.
      set (n := nx sb) in *.
      assert (OB : forall m, n <= m -> onlyI m (reifn b false (fun nu => holds RGt (terms_val (kv nu) es) rhs))) by (intros m Hn; apply reifn_only; eapply below_mono; eauto).
      assert (OA : forall m, n <= m -> onlyI m (reifn a false (fun nu => holds RLt (terms_val (kv nu) es) rhs))) by (intros m Hn; apply reifn_only; eapply below_mono; eauto).
      assert (OC : forall m c, Forall (below n) c -> n <= m -> onlyI m (cl c)).
      { intros m c F Hn. apply clause_only. eapply Forall_impl; [|exact F]. intros x. now apply below_mono. }
      assert (OT : forall n, onlyI n (fun _ _ => True)) by (intros m I J nu _ _; exact Logic.I).
      assert (A : keeps sb s' (fun I nu => cl [a; b; - l] I nu /\ cl [- a; - b] I nu /\ cl [l; - a] I nu /\ cl [l; - b] I nu /\
        reifn a false (fun nu => holds RLt (terms_val (kv nu) es) rhs) I nu /\ reifn b false (fun nu => holds RGt (terms_val (kv nu) es) rhs) I nu /\ True)).
      { apply (k_and K1 _ _ sb s' (cl [a; b; - l])) with (1 := H); [intros X; apply (k_clause K1 _ _ _ X); [assumption|kl]| |do 3 (apply and_only; [apply OC; [bl|lia]|]); apply and_only; [apply OA; lia|]; apply and_only; [apply OB; lia|apply OT]].
        intros s1 C1. destruct (clause_step O cfg srt Base n0 BO CO PS F0 K1 _ _ _ C1 Pb ltac:(kl)) as [D1 E1]. exists K1. split; [exact D1|]. clear H. intros H. pose proof (pl_ok _ _ _ _ _ _ _ _ _ _ _ D1) as P1. pose proof (pl_nxt _ _ _ _ _ _ _ _ _ _ _ D1) as N1. fold n in N1.
        apply (k_and K1 _ _ s1 s' (cl [- a; - b])) with (1 := H); [intros X; apply (k_clause K1 _ _ _ X); [assumption|kl]| |do 2 (apply and_only; [apply OC; [bl|lia]|]); apply and_only; [apply OA; lia|]; apply and_only; [apply OB; lia|apply OT]].
        intros s2 C2. destruct (clause_step O cfg srt Base n0 BO CO PS F0 K1 _ _ _ C2 P1 ltac:(kl)) as [D2 E2]. exists K1. split; [exact D2|]. clear H. intros H. pose proof (pl_ok _ _ _ _ _ _ _ _ _ _ _ D2) as P2. pose proof (pl_nxt _ _ _ _ _ _ _ _ _ _ _ D2) as N2.
        apply (k_and K1 _ _ s2 s' (cl [l; - a])) with (1 := H); [intros X; apply (k_clause K1 _ _ _ X); [assumption|kl]| |do 1 (apply and_only; [apply OC; [bl|lia]|]); apply and_only; [apply OA; lia|]; apply and_only; [apply OB; lia|apply OT]].
        intros s3 C3. destruct (clause_step O cfg srt Base n0 BO CO PS F0 K1 _ _ _ C3 P2 ltac:(kl)) as [D3 E3]. exists K1. split; [exact D3|]. clear H. intros H. pose proof (pl_ok _ _ _ _ _ _ _ _ _ _ _ D3) as P3. pose proof (pl_nxt _ _ _ _ _ _ _ _ _ _ _ D3) as N3.
        apply (k_and K1 _ _ s3 s' (cl [l; - b])) with (1 := H); [intros X; apply (k_clause K1 _ _ _ X); [assumption|kl]| |apply and_only; [apply OA; lia|]; apply and_only; [apply OB; lia|apply OT]].
        intros s4 C4. destruct (clause_step O cfg srt Base n0 BO CO PS F0 K1 _ _ _ C4 P3 ltac:(kl)) as [D4 E4]. exists K1. split; [exact D4|]. clear H. intros H. pose proof (pl_ok _ _ _ _ _ _ _ _ _ _ _ D4) as P4. pose proof (pl_nxt _ _ _ _ _ _ _ _ _ _ _ D4) as N4.
        apply (k_and K1 _ _ s4 s' (reifn a false (fun nu => holds RLt (terms_val (kv nu) es) rhs))) with (1 := H); [intros X; eapply (IH K1); eauto; congruence| |apply and_only; [apply OB; lia|apply OT]].
        intros s5 C5. destruct (ST K1 _ _ _ _ _ _ C5 P4 Ka ltac:(congruence)) as [[K5 D5] E5]. exists K5. split; [exact D5|]. clear H. intros H. pose proof (pl_ok _ _ _ _ _ _ _ _ _ _ _ D5) as P5.
        apply (k_and K5 _ _ s5 s' (reifn b false (fun nu => holds RGt (terms_val (kv nu) es) rhs))) with (1 := H); [intros X; eapply (IH K5); eauto; now apply (ad_K _ _ _ _ _ _ _ _ _ _ _ _ D5)| |apply OT].
        intros s6 C6. destruct (ST K5 _ _ _ _ _ _ C6 P5 ltac:(now apply (ad_K _ _ _ _ _ _ _ _ _ _ _ _ D5)) E5) as [[K6 D6] E6]. exists K6. split; [exact D6|discriminate]. }
      eapply (k_fresh _ _ _ _ _ _ Hb Pa) in A. eapply (k_fresh _ _ _ _ _ _ Ha Po) in A.
      eapply k_imp; [exact A|]. rewrite <- Eb, <- Ea. assert (Hba : b = a + 1) by lia. assert (Bla : below a l) by (rewrite Ea; exact Bl).
      clear - Nl N0a N0b Bla La Hba. intros I nu _. unfold reifn, reif. cbn [holds].
      intros [P1 P2].
      set (J := TermsProofs4.set I a ((terms_val (kv nu) es <? rhs) && (if 0 <? l then I l else negb (I (- l))))).
      set (L := TermsProofs4.set J b ((rhs <? terms_val (kv nu) es) && (if 0 <? l then I l else negb (I (- l))))).
      assert (AJ : agree_below a I J) by apply (TermsProofs4.set_agree (fun _ => true)). assert (AL : agree_below b J L) by apply (TermsProofs4.set_agree (fun _ => true)).
      exists J. split; [exact AJ|]. exists L. split; [exact AL|].
      assert (El : (if 0 <? l then I l else negb (I (- l))) = true <-> lit_true I l).
      { unfold lit_true. destruct (0 <? l); [reflexivity|]. destruct (I (- l)); cbn; split; congruence. }
      assert (Tb : lit_true L b <-> terms_val (kv nu) es > rhs /\ lit_true I l) by (unfold L; rewrite (TermsProofs4.set_true (fun _ => true)), andb_true_iff, El, Z.ltb_lt, Z.gt_lt_iff by lia; reflexivity).
      assert (Ta : lit_true L a <-> terms_val (kv nu) es < rhs /\ lit_true I l).
      { rewrite <- (lit_true_agree b J L a AL) by (unfold below; lia). unfold J. rewrite (TermsProofs4.set_true (fun _ => true)), andb_true_iff, El, Z.ltb_lt by lia. reflexivity. }
      assert (Tl : lit_true L l <-> lit_true I l).
      { rewrite <- (lit_true_agree b J L l AL) by (unfold below in *; lia). symmetry. apply (lit_true_agree a); [exact AJ|exact Bla]. }
      rewrite !clause_cons, !clause_nil, !lit_true_neg by assumption. rewrite Ta, Tb, Tl.
      assert (X : lit_true I l -> terms_val (kv nu) es < rhs \/ terms_val (kv nu) es > rhs) by (intros T'; apply P1 in T'; lia).
      assert (Y : ~ (terms_val (kv nu) es < rhs /\ terms_val (kv nu) es > rhs)) by lia. clear - X Y.
      set (A := terms_val (kv nu) es < rhs) in *. set (B := terms_val (kv nu) es > rhs) in *. clearbody A B.
      destruct (lit_true_dec I l) as [T'|T'].
      * specialize (X T'). split; [tauto|]. split; [tauto|]. split; [tauto|]. split; [tauto|]. split; [split; [tauto|discriminate]|]. split; [split; [tauto|discriminate]|exact Logic.I].
      * split; [tauto|]. split; [tauto|]. split; [tauto|]. split; [tauto|]. split; [split; [tauto|discriminate]|]. split; [split; [tauto|discriminate]|exact Logic.I].
Qed.
End Fail.

(** ** The table of names while constraints are posted *)
Section Table.
Context (O : oracle) (cfg : config) (srt : list (Z * var) -> list (Z * var)).
Definition same_tabs {A} (m : SM pr A) : Prop := forall s a s', m s = Ok (a, s') -> p_tab s' = p_tab s.
Lemma st_bind {A B} (m : SM pr A) (f : A -> SM pr B) : same_tabs m -> (forall a, same_tabs (f a)) -> same_tabs (sbind m f).
Proof. intros X Y s b s' H. apply sbind_ok in H as (a & s1 & H1 & H2). rewrite (Y _ _ _ _ H2). now apply (X _ _ _ H1). Qed.
Lemma st_ret {A} (a : A) : same_tabs (sret a). Proof. intros s b s' H. apply sret_ok in H as [_ ->]. reflexivity. Qed.
Lemma st_lift {A} (o : outcome A) : same_tabs (slift o). Proof. intros s b s' H. apply slift_ok in H as [_ ->]. reflexivity. Qed.
Lemma st_call c : same_tabs (p_call O cfg srt c).
Proof. intros s b s' H. unfold p_call in H. destruct (build1 O cfg srt c (p_b s)) as [[ok q]| |]; try discriminate. injection H as _ <-. reflexivity. Qed.
Lemma st_lit : same_tabs p_lit.
Proof. intros s b s' H. unfold p_lit in H. destruct (b_literal (p_b s)). injection H as _ <-. reflexivity. Qed.
Lemma st_true l : same_tabs (p_true O l). Proof. intros s b s' H. injection H as _ <-. reflexivity. Qed.
Lemma st_and m k : same_tabs m -> same_tabs k -> same_tabs (p_and m k).
Proof. intros X Y. apply st_bind; [exact X|]. intros [|]; [exact Y|apply st_ret]. Qed.
Lemma st_normalize {T} (addc : lit -> list (Z * T) -> Z -> bool -> SM pr bool) : (forall l es rhs st, same_tabs (addc l es rhs st)) ->
  forall fuel l es op rhs strict, same_tabs (p_normalize O cfg srt addc fuel l es op rhs strict).
Proof.
  intros HA. induction fuel as [|fuel IH]; intros l es op rhs strict; [intros s b s' H; discriminate|]. cbn [p_normalize].
  apply st_bind; [apply st_lift|]. intros [op1 rhs1]. apply st_bind; [apply st_lift|]. intros [[op2 rhs2] es2]. cbv beta iota.
  assert (TL : forall o, same_tabs (if strict then p_normalize O cfg srt addc fuel (- l) es2 o rhs2 false else sret true)) by (intros o; destruct strict; [apply IH|apply st_ret]).
  destruct op2; try apply TL.
  - destruct (strict && _); [apply HA|]. apply st_bind; [apply st_true|]. intros [|]; [apply TL|]. apply st_and; [apply HA|apply TL].
  - destruct strict.
    + apply st_bind; [apply st_true|]. intros f. apply st_bind; [destruct f; [apply st_ret|]; apply st_bind; [apply st_lit|]; intros a; apply st_bind; [apply st_lit|]; intros b; apply st_ret|].
      intros [a b]. repeat (apply st_and; [first [apply st_call|apply IH]|]). apply st_ret.
    + repeat (apply st_and; [apply IH|]). apply st_ret.
  - destruct strict; [apply IH|]. apply st_bind; [apply st_lit|]. intros a. apply st_bind; [apply st_lit|]. intros b. repeat (apply st_and; [first [apply st_call|apply IH]|]). apply st_ret.
Qed.
Lemma st_addc_l l es rhs st : same_tabs (p_addc_l O cfg srt l es rhs st).
Proof. apply st_bind; [apply st_lift|]. intros a. apply st_call. Qed.
Lemma st_addc_n l es rhs st : same_tabs (p_addc_n O cfg srt l es rhs st).
Proof. apply st_bind; [apply st_lift|]. intros [[[[ca va] vb] cc] vc]. apply st_call. Qed.
End Table.

(** ** Atoms and programs *)
Section Atoms.
Context (O : oracle) (cfg : config) (srt : list (Z * var) -> list (Z * var)) (mn mx : Z) (Base : interp -> Prop) (n0 : Z).
Context (BO : base_ok Base n0) (CO : clasp_ok O Base) (PS : forall es, Permutation (srt es) es) (MX : mn <= mx) (MR : MIN_VAL <= mn /\ mx <= MAX_VAL).
Notation models := (models Base).
Notation pok := (pok O n0).
Notation plain := (plain O cfg srt Base n0 (fun _ _ => True)).
Notation keeps := (keeps Base).
Notation Pr := (interp -> (var -> Z) -> Prop).
Notation nv s := (nvars (b_s (p_b s))).
Notation rng := (rng mn mx).
Notation read_step := (read_step O cfg srt mn mx Base n0 MX MR).

Definition kept (s s' : pr) (atoms : list tatom) : Prop :=
  (extends (p_tab s) (p_tab s') /\ tab_wf (p_tab s')) /\ exists Q, keeps s s' (fun I nu => (forall x, mn <= nu x <= mx) /\ Q I nu) /\ (forall n, Forall (fun a => below n (a_lit a)) atoms -> onlyI n Q) /\
    forall rho nu, tab_agrees rho nu (p_tab s') -> forall I, I 1 = true -> Forall (fun a => atom_means rho a I) atoms -> Q I nu.

Lemma read_keeps K s s1 s' a Q : plain K s K s1 (fun _ nu => rng (nv s) (nv s1) nu) -> keeps s1 s' Q -> p_tab s' = p_tab s1 -> pok K s -> K (Z.abs (a_lit a)) ->
  (forall n, below n (a_lit a) -> onlyI n Q) -> (forall rho nu, tab_agrees rho nu (p_tab s1) -> forall I, I 1 = true -> atom_means rho a I -> Q I nu) -> kept s s' [a].
Proof.
  intros R A T P Kl D S. split; [rewrite T; split; [apply (ad_ext _ _ _ _ _ _ _ _ _ _ _ _ R)|apply (po_tab _ _ _ _ (ad_ok _ _ _ _ _ _ _ _ _ _ _ _ R))]|]. exists Q. split; [|split].
  - eapply k_imp; [eapply k_seq; [exact R|exact A|]|].
    + apply D. eapply pk_below; eauto.
    + intros I nu _ [X q]. split; [|exact q]. intros x _. apply X.
  - intros n F. inversion_clear F. auto.
  - intros rho nu TA I I1 F. inversion_clear F. rewrite T in TA. eauto.
Qed.
Lemma addc_l_keeps K l es rhs strict s s' : p_addc_l O cfg srt l es rhs strict s = Ok (false, s') -> pok K s -> K (Z.abs l) -> tidy_terms (st_next (p_tab s)) es ->
  keeps s s' (reifn l strict (fun nu => terms_val (key_val nu) es <= rhs)).
Proof.
  intros H P Kl TD. unfold p_addc_l in H. inv_ok. destruct (strip_tidy _ _ _ H0 TD) as [F ND]. rewrite (po_next _ _ _ _ P) in F.
  eapply k_imp; [exact (k_call O cfg srt Base n0 BO CO PS K _ s s' H P ltac:(split; [exact Kl|exact F]))|].
  intros I nu _. cbn [call_holds]. unfold reifn, reif. rewrite (strip_val nu _ _ H0). exact (fun X => X).
Qed.
Lemma constraint_l_keeps is_sum K s s' a strict : p_constraint_l O cfg srt mn mx is_sum a strict s = Ok (false, s') -> pok K s -> K (Z.abs (a_lit a)) ->
  a_kind a = (if is_sum then KSum strict else KDiff strict) -> kept s s' [a].
Proof.
  intros H P Kl Ki. unfold p_constraint_l in H. destruct (a_guard a) as [[op g]|] eqn:G; [|discriminate]. inv_ok. rename a0 into ts. destruct a1 as [es rhs].
  destruct (gcd_reduce es rhs) as [es' rhs'] eqn:GR. rename H0 into HR, H1 into HS.
  destruct (read_step _ K s ts s0 HR P) as (RT & R & _).
  { intros t' Ht. destruct is_sum.
    - destruct (parse_elems_sum_spec lkey _ _ _ _ _ _ _ (lkey_compat (fun _ => 0)) Ht) as (A & B & _). auto.
    - destruct (parse_elems_diff_spec lkey _ _ _ _ _ _ _ (lkey_compat (fun _ => 0)) Ht) as (A & B & _). auto. }
  pose proof (ad_ok _ _ _ _ _ _ _ _ _ _ _ _ R) as P1.
  assert (KI : kins (st_next (p_tab s0)) ts) by (destruct is_sum; [eapply sum_kins|eapply elems_diff_kins]; eauto; apply P).
  pose proof (gcd_tidy _ _ _ _ _ GR (simplify_tidy _ _ _ _ HS KI)) as TD.
  eapply read_keeps; [exact R| |exact (st_normalize O cfg srt _ (st_addc_l O cfg srt) _ _ _ _ _ _ _ _ _ H)|exact P|exact Kl| |].
  - exact (normalize_keeps O cfg srt Base n0 BO CO PS (fun _ _ => True) (fun nu => key_val nu) (p_addc_l O cfg srt) tidy_terms inv_tidy (addc_l_step O cfg srt Base n0 BO CO PS) addc_l_keeps _ K _ _ _ _ _ _ _ H P1 Kl TD).
  - intros n B. apply reifn_only, B.
  - intros rho nu TA I _. apply (linear_means is_sum a strict op g _ _ ts es rhs es' rhs' Ki G RT HS GR rho nu TA I).
Qed.
Lemma addc_n_keeps K l es rhs strict s s' : guarded (p_addc_n O cfg srt) l es rhs strict s = Ok (false, s') -> pok K s -> K (Z.abs l) -> tidy_prods (st_next (p_tab s)) es ->
  keeps s s' (reifn l strict (fun nu => terms_val (prod_val nu) es <= rhs)).
Proof.
  intros H P Kl TP. apply guarded_inv in H as (-> & SM & H). destruct (addc_n_call O cfg srt n0 K l es rhs s false s' H P Kl TP SM) as (c & Hc & C1 & _ & _ & C4 & _).
  eapply k_imp; [exact (k_call O cfg srt Base n0 BO CO PS K _ s s' Hc P C1)|]. intros I nu _. apply C4.
Qed.
Lemma constraint_n_keeps K s s' a : p_constraint_n O cfg srt mn mx a false s = Ok (false, s') -> pok K s -> K (Z.abs (a_lit a)) ->
  a_kind a = KNsum false -> (forall t, one_product_atom a t) -> kept s s' [a].
Proof.
  intros H P Kl Ki OP. unfold p_constraint_n in H. destruct (a_guard a) as [[op g]|] eqn:G; [|discriminate]. inv_ok. rename a0 into ts. destruct a1 as [es rhs].
  destruct (gcd_reduce es rhs) as [es' rhs'] eqn:GR. rename H0 into HR, H1 into HS.
  destruct (read_step _ K s ts s0 HR P) as (RT & R & _).
  { intros t' Ht. destruct (parse_elems_sum_spec nkey _ _ _ _ _ _ _ (nkey_compat (fun _ => 0)) Ht) as (A & B & _). auto. }
  pose proof (ad_ok _ _ _ _ _ _ _ _ _ _ _ _ R) as P1.
  destruct (simplify_prods _ _ _ _ HS (sum_nins _ _ _ _ _ RT (po_tab _ _ _ _ P)) (OP _ _ _ _ _ _ _ G RT HS)) as [TP V].
  destruct (gcd_prods _ _ _ _ _ GR TP V) as [TP' V'].
  eapply read_keeps; [exact R| |exact (st_normalize O cfg srt _ (st_addc_n O cfg srt) _ _ _ _ _ _ _ _ _ H)|exact P|exact Kl| |].
  - rewrite (guard_ok O cfg srt) in H by (unfold valid, MIN_VAL, MAX_VAL, NORM_FUEL in *; cbn; lia).
    exact (normalize_keeps O cfg srt Base n0 BO CO PS (fun _ _ => False) (fun nu => prod_val nu) _ tidy_prods inv_prods (addc_n_step O cfg srt Base n0 BO CO PS) addc_n_keeps _ K _ _ _ _ _ _ _ H P1 Kl TP').
  - intros n B. apply reifn_only, B.
  - intros rho nu TA I _ HA. apply (product_means a false op g _ _ ts es rhs es' rhs' Ki G RT HS GR rho nu TA I (a_lit a)). rewrite atom_eta. exact HA.
Qed.
Lemma call_keeps K s s1 s' a c : pok K s -> plain K s K s1 (fun _ nu => rng (nv s) (nv s1) nu) -> p_call O cfg srt c s1 = Ok (false, s') ->
  K (Z.abs (a_lit a)) -> call_ok K (nv s1) c -> (forall n, below n (a_lit a) -> call_below n c) ->
  (forall rho nu, tab_agrees rho nu (p_tab s1) -> forall I, I 1 = true -> (call_holds I nu c <-> atom_means rho a I)) -> kept s s' [a].
Proof.
  intros P R H Kl C CB HM. pose proof (ad_ok _ _ _ _ _ _ _ _ _ _ _ _ R) as P1.
  eapply read_keeps; [exact R|exact (k_call O cfg srt Base n0 BO CO PS K c s1 s' H P1 C)|exact (st_call O cfg srt c _ _ _ H)|exact P|exact Kl| |].
  - intros n B. apply call_only, CB, B.
  - intros rho nu TA I I1. apply (HM rho nu TA I I1).
Qed.
Theorem atom_keeps K s s' a : p_atom O cfg srt mn mx a s = Ok (false, s') -> pok K s -> K (Z.abs (a_lit a)) -> covered a -> kept s s' [a].
Proof.
  intros H P Kl Cv. pose proof (lit_nz O n0 _ _ _ P Kl) as Nz. unfold p_atom in H. destruct (a_kind a) as [b|b|b| | | | | | |] eqn:Ki; try (inv_ok; discriminate).
  - eapply (constraint_l_keeps true); eauto.
  - eapply (constraint_l_keeps false); eauto.
  - unfold covered in Cv. rewrite Ki in Cv. destruct Cv as [-> OP]. eapply constraint_n_keeps; eauto.
  - unfold p_distinct in H. inv_ok. rename a0 into res.
    destruct (read_step _ K s res s0 H0 P) as (RT & R & _); [intros t' Ht; destruct (distinct_means a _ _ _ Ht Ki Nz) as (A & B & _); auto|].
    pose proof (ad_ok _ _ _ _ _ _ _ _ _ _ _ _ R) as P1. destruct (distinct_means a _ _ _ RT Ki Nz) as (_ & _ & DM).
    destruct (distinct_elems_tidy _ _ _ _ RT (po_tab _ _ _ _ P)) as (L & F1 & F2). rewrite (po_next _ _ _ _ P1) in F1.
    eapply call_keeps; [exact P|exact R|exact H|exact Kl|split; [exact Kl|exact F1]|auto|exact DM].
  - unfold p_disjoint in H. inv_ok. rename a0 into res.
    destruct (read_step _ K s res s0 H0 P) as (RT & R & _); [intros t' Ht; destruct (disjoint_means srt PS a _ _ _ Ht Ki Nz) as (A & B & _); auto|].
    pose proof (ad_ok _ _ _ _ _ _ _ _ _ _ _ _ R) as P1. destruct (disjoint_means srt PS a _ _ _ RT Ki Nz) as (_ & _ & DM).
    destruct (disjoint_elems_tidy _ _ _ _ RT (po_tab _ _ _ _ P)) as (L & F1). rewrite (po_next _ _ _ _ P1) in F1.
    destruct (parse_disjoint_elems_spec (fun _ => true) (fun _ => 0) _ _ _ _ RT) as (_ & _ & F2 & _).
    eapply call_keeps; [exact P|exact R|exact H|exact Kl|split; [exact Kl|]|auto|exact DM].
    rewrite Forall_forall in *. intros e He. specialize (F1 e He). specialize (F2 e He). cbv beta in *. split; [apply F2|exact F1].
  - unfold p_dom in H. inv_ok. destruct (a_guard a) as [[op g]|] eqn:G; [|discriminate]. inv_ok. rename a0 into dom, a1 into sy, a2 into v.
    destruct (read_step _ K s v s1 H2 P) as (RT & R & _); [intros t' Ht; destruct (add_variable_spec _ _ _ _ Ht) as (A & _ & B); auto|].
    pose proof (ad_ok _ _ _ _ _ _ _ _ _ _ _ _ R) as P1.
    assert (Bl : below (Z.abs (a_lit a) + 2) (a_lit a)) by (unfold below; lia).
    destruct (call_means (Z.abs (a_lit a) + 2) a (BDom (a_lit a) v dom) (p_tab s) (p_tab s1)) as (_ & _ & DM); auto; [|lia|rewrite Ki; discriminate|].
    { unfold parse_atom, parse_dom, on_tab, on_bld, call, sbind, slift. rewrite Ki, H0, G. rewrite H1. cbn [fst snd]. rewrite RT. reflexivity. }
    destruct (domain_read _ _ H0) as (WD & MD & _).
    assert (V : (v < nv s1)%nat).
    { rewrite <- (po_next _ _ _ _ P1). destruct (add_variable_spec _ _ _ _ RT) as (_ & Hi & _). apply (proj2 (proj2 (po_tab _ _ _ _ P1)) _ _ Hi). }
    assert (NE : dom <> []).
    { intros ->. unfold covered in Cv. rewrite Ki in Cv. destruct Cv as (t & z & X & Y). destruct (mem_nil z). apply MD. eauto. }
    eapply call_keeps; [exact P|exact R|exact H|exact Kl|split; [exact Kl|split; [exact V|split; [exact WD|exact NE]]]|auto|exact DM].
Qed.

Theorem parse_keeps atoms : forall K s s', p_parse O cfg srt mn mx atoms s = Ok (false, s') -> pok K s -> Forall (fun a => K (Z.abs (a_lit a))) atoms -> Forall covered atoms -> kept s s' atoms.
Proof.
  induction atoms as [|a r IH]; cbn [p_parse]; intros K s s' H P KL CV; [discriminate|].
  apply sbind_ok in H as (b & s1 & H1 & H). inversion_clear KL as [|? ? Ka Kr]. inversion_clear CV as [|? ? Ca Cr]. destruct b.
  - destruct (atom_step O cfg srt mn mx Base n0 BO CO PS MX MR K s s1 a H1 P Ka Ca) as (K1 & Q1 & F1 & V1 & A & D1 & S1). pose proof (ad_ok _ _ _ _ _ _ _ _ _ _ _ _ A) as P1.
    destruct (IH K1 s1 s' H P1 ltac:(eapply Forall_impl; [|exact Kr]; intros x; apply (ad_K _ _ _ _ _ _ _ _ _ _ _ _ A)) Cr) as ((X2 & W2) & Q2 & B & D2 & S2).
    split; [split; [eapply extends_trans; [apply (ad_ext _ _ _ _ _ _ _ _ _ _ _ _ A)|exact X2]|exact W2]|]. exists (fun I nu => Q1 I nu /\ Q2 I nu). split; [|split].
    + eapply k_imp; [eapply k_seq; [exact A|exact B|]|].
      * intros I J nu E [X q]. split; [exact X|]. revert q. apply (D2 _ ltac:(eapply Forall_impl; [|exact Kr]; intros x Kx; exact (pk_below O n0 K s _ P Kx)) I J nu E).
      * intros I nu _ [X [q1 q2]]. split; [split; [intros x _; apply X|exact q1]|split; [exact X|exact q2]].
    + intros n F. inversion_clear F. apply and_only; auto.
    + intros rho nu TA I I1 F. inversion_clear F. pose proof (tab_agrees_ext _ _ _ _ X2 TA) as TA1. destruct (S1 rho nu TA1) as (Y & _). split; [now apply Y|eauto].
  - apply sret_ok in H as [_ ->]. destruct (atom_keeps K s s1 a H1 P Ka Ca) as (X & Q & B & D & S). split; [exact X|]. exists Q. split; [exact B|]. split.
    + intros n F. inversion_clear F. apply D. auto.
    + intros rho nu TA I I1 F. inversion_clear F. eapply S; eauto.
Qed.
End Atoms.

(** ** Whole programs *)
Theorem parse_fail O cfg srt mn mx Base n0 n atoms s1 : base_ok Base n0 -> clasp_ok O Base -> (forall es, Permutation (srt es) es) -> mn <= mx -> MIN_VAL <= mn /\ mx <= MAX_VAL ->
  p_parse O cfg srt mn mx atoms (mkpr (mksymtab [] 0) (mkb (set_nxt n init_state) [] 0%nat) []) = Ok (false, s1) ->
  1 < n -> n0 <= n -> stays_top O (set_nxt n init_state) -> Forall (fun a => below n (a_lit a)) atoms -> Forall covered atoms ->
  forall I rho, Base I -> I 1 = true -> answers mn mx (p_tab s1) atoms rho I ->
  exists J, same_on n I J /\ tab_agrees rho (clamp mn mx (p_tab s1) rho) (p_tab s1) /\ models Base (p_b s1) J (clamp mn mx (p_tab s1) rho).
Proof.
  intros BO CO PS MX MR H N N0 ST LB CV I rho BI I1 [RG AM]. set (K := fun i => 0 < i < n).
  assert (P0 : pok O n0 K (mkpr (mksymtab [] 0) (mkb (set_nxt n init_state) [] 0%nat) [])).
  { constructor; cbn [p_b p_tab]; [now apply fresh_top|intros i Hi; exact Hi|unfold K; lia|split; [constructor|split; [constructor|easy]]|reflexivity]. }
  destruct (parse_keeps O cfg srt mn mx Base n0 BO CO PS MX MR atoms K _ _ H P0) as ((_ & W) & Q & A & _ & S).
  { eapply Forall_impl; [|exact LB]. intros a [L1 L2]. unfold K. lia. }
  { exact CV. }
  pose proof (clamp_agrees mn mx _ rho W RG) as TA. destruct (A I (clamp mn mx (p_tab s1) rho)) as (J & AJ & MJ); [now apply new_models|split; [|now apply (S rho)]|].
  { intros x. unfold clamp. lia. }
  exists J. split; [|split; [exact TA|exact MJ]]. intros i Hi. apply AJ. cbn. lia.
Qed.
