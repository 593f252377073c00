(** Normalisation of constraints. *)
From Coq Require Import String.
From Verif Require Import Base Util UtilProofs Terms TermsSpec TermsProofs TermsProofs2 TermsProofs3.
Open Scope Z_scope.

(** ** Interpretations *)
Definition call_below (n : Z) (c : bcall) : Prop :=
  match c with
  | BClause c => Forall (below n) c
  | BSum l _ _ _ | BNonlin l _ _ _ _ _ _ _ | BDistinct l _ | BDisjoint l _ | BDom l _ _ => below n l
  | _ => True
  end.

Lemma lit_true_neg I l : l <> 0 -> (lit_true I (- l) <-> ~ lit_true I l).
Proof. intros H. unfold lit_true. destruct (0 <? l) eqn:A, (0 <? - l) eqn:B; try lia; rewrite ?Z.opp_involutive.
  - destruct (I l); split; congruence.
  - destruct (I (- l)); split; congruence. Qed.
Lemma lit_true_dec I l : lit_true I l \/ ~ lit_true I l.
Proof. unfold lit_true. destruct (0 <? l); [destruct (I l)|destruct (I (- l))]; (left; reflexivity) || (right; discriminate). Qed.
Lemma lit_true_agree n I J l : agree_below n I J -> below n l -> (lit_true I l <-> lit_true J l).
Proof. intros A [N B]. unfold lit_true. destruct (0 <? l) eqn:E; rewrite A by lia; reflexivity. Qed.
Lemma below_mono n m l : n <= m -> below n l -> below m l.
Proof. unfold below. lia. Qed.
Lemma below_neg n l : below n l -> below n (- l).
Proof. unfold below. lia. Qed.
Lemma call_below_mono n m c : n <= m -> call_below n c -> call_below m c.
Proof. intros H. destruct c; cbn; auto; try (apply below_mono; exact H). intros F. eapply Forall_impl; [|exact F]. intros; eapply below_mono; eauto. Qed.
Lemma agree_sym n I J : agree_below n I J -> agree_below n J I.
Proof. intros A i H. symmetry. auto. Qed.
Lemma agree_mono n m I J : n <= m -> agree_below m I J -> agree_below n I J.
Proof. intros A B i H. apply B. lia. Qed.
Lemma agree_trans n I J L : agree_below n I J -> agree_below n J L -> agree_below n I L.
Proof. intros A B i H. rewrite A, B by exact H. reflexivity. Qed.

Lemma call_holds_agree n I J nu c : agree_below n I J -> call_below n c -> call_holds I nu c -> call_holds J nu c.
Proof.
  intros A B H. destruct c; cbn [call_holds call_below] in *; auto;
    try (rewrite <- (lit_true_agree n I J l A B); exact H).
  destruct H as (x & X1 & X2). exists x. split; [exact X1|]. rewrite <- (lit_true_agree n I J x A); [exact X2|].
  eapply Forall_forall; eauto.
Qed.

Lemma clause_nil I : clause_true I [] <-> False.
Proof. split; [intros (x & [] & _)|tauto]. Qed.
Lemma clause_cons I l c : clause_true I (l :: c) <-> lit_true I l \/ clause_true I c.
Proof. split.
  - intros (x & [<-|H] & T); [auto|right; exists x; auto].
  - intros [H|(x & A & B)]; [exists l; cbn; auto|exists x; cbn; auto]. Qed.

Ltac bl := repeat (apply Forall_cons || apply Forall_nil); auto; try (apply below_neg; auto; fail).

(** ** What a sequence of builder calls means *)
Section Sem.
Variable is_true : lit -> bool.
Variable nu : var -> Z.

Local Notation okI := (TermsSpec.okI is_true).
Local Notation bounded_by := (TermsSpec.bounded_by is_true).

(** Going from [s] to [s'] means [P]: the new calls imply it, and whenever it
    holds the fresh literals can be chosen so that the new calls hold. *)
Definition Sem (s s' : bst) (P : interp -> Prop) : Prop :=
  b_next s <= b_next s' /\ exists new, b_log s' = b_log s ++ new /\ Forall (call_below (b_next s')) new /\
  (forall I, okI I -> Forall (call_holds I nu) new -> P I) /\
  (forall I, okI I -> P I -> exists J, agree_below (b_next s) I J /\ okI J /\ Forall (call_holds J nu) new).

Definition dep (n : Z) (P : interp -> Prop) : Prop := forall I J, agree_below n I J -> P I -> P J.

Lemma Sem_iff s s' P Q : (forall I, okI I -> (P I <-> Q I)) -> Sem s s' P -> Sem s s' Q.
Proof.
  intros E (L & new & A & B & C & D). split; [exact L|]. exists new. repeat split; auto.
  - intros I O H. apply E; auto.
  - intros I O H. apply D; auto. apply E; auto.
Qed.

Lemma Sem_realizable s s' P : Sem s s' P -> dep (b_next s) P ->
  exists new, b_log s' = b_log s ++ new /\ forall I, okI I -> (realizable is_true (b_next s) I nu new <-> P I).
Proof.
  intros (L & new & A & B & C & D) X. exists new. split; [exact A|]. intros I O. split.
  - intros (J & J1 & J2 & J3). apply (X J I); [intros i Hi; symmetry; apply J1, Hi|]. apply C; assumption.
  - intros H. destruct (D I O H) as (J & J1 & J2 & J3). exists J. auto.
Qed.

Lemma Sem_refl s : Sem s s (fun _ => True).
Proof. split; [lia|]. exists []. rewrite app_nil_r. split; [reflexivity|]. split; [constructor|]. split; [auto|]. intros I O _. exists I. split; [intros i _; reflexivity|]. split; [exact O|constructor]. Qed.

Lemma Sem_seq s s1 s2 P Q : Sem s s1 P -> Sem s1 s2 Q -> dep (b_next s) Q -> Sem s s2 (fun I => P I /\ Q I).
Proof.
  intros (L1 & n1 & A1 & B1 & C1 & D1) (L2 & n2 & A2 & B2 & C2 & D2) Dq.
  split; [lia|]. exists (n1 ++ n2). split; [rewrite A2, A1, app_assoc; reflexivity|].
  split; [|split].
  - apply Forall_app. split; [|exact B2]. eapply Forall_impl; [|exact B1]. intros c Hc. eapply call_below_mono; eauto.
  - intros I O H. apply Forall_app in H. destruct H. auto.
  - intros I O [HP HQ]. destruct (D1 I O HP) as (J & J1 & J2 & J3).
    destruct (D2 J J2 (Dq I J J1 HQ)) as (K & K1 & K2 & K3). exists K. split; [|split; [exact K2|]].
    + eapply agree_trans; [exact J1|]. eapply agree_mono; [|exact K1]. exact L1.
    + apply Forall_app. split; [|exact K3]. rewrite Forall_forall in *. intros c Hc. eapply call_holds_agree; [exact K1|auto|auto].
Qed.

Lemma Sem_fresh s s2 Q : Sem (mkbst (b_next s + 1) (b_log s)) s2 Q ->
  Sem s s2 (fun I => exists J, agree_below (b_next s) I J /\ okI J /\ Q J).
Proof.
  intros (L2 & n2 & A2 & B2 & C2 & D2). cbn [b_next b_log] in *. split; [lia|]. exists n2. split; [exact A2|]. split; [exact B2|]. split.
  - intros I O H. exists I. split; [intros i _; reflexivity|]. split; auto.
  - intros I O (J & J1 & J2 & J3). destruct (D2 J J2 J3) as (K & K1 & K2 & K3). exists K. split; [|auto].
    eapply agree_trans; [exact J1|]. eapply agree_mono; [|exact K1]. lia.
Qed.

(** Setting one fresh literal. *)
Definition set (I : interp) (a : Z) (b : bool) : interp := fun i => if i =? a then b else I i.
Lemma set_agree I a b : agree_below a I (set I a b).
Proof. intros i H. unfold set. destruct (i =? a) eqn:E; [lia|reflexivity]. Qed.
Lemma set_ok I a b : 1 < a -> (forall l, is_true l = true -> below a l) -> okI I -> okI (set I a b).
Proof. intros H F [O1 O2]. split; [rewrite <- set_agree by lia; exact O1|].
  intros l T. apply (lit_true_agree a I); [apply set_agree|auto|auto]. Qed.
Lemma set_true I a b : 0 < a -> (lit_true (set I a b) a <-> b = true).
Proof. intros H. unfold lit_true, set. destruct (0 <? a) eqn:E; [|lia]. rewrite Z.eqb_refl. reflexivity. Qed.

Definition reif (l : lit) (strict : bool) (R : Prop) : interp -> Prop :=
  fun I => (lit_true I l -> R) /\ (strict = true -> R -> lit_true I l).

Lemma reif_dep n l strict R : below n l -> dep n (reif l strict R).
Proof. intros B I J A. unfold reif. rewrite (lit_true_agree n I J l A B). auto. Qed.

Variable ret : list bcall -> bool.

Lemma andthen_ok m k s s' : andthen m k s = Ok (true, s') -> exists s1, m s = Ok (true, s1) /\ k s1 = Ok (true, s').
Proof. unfold andthen. intros H. inv_ok. destruct a; [eauto|]. inv_ok. discriminate. Qed.

Lemma call_sem c s s' : call ret c s = Ok (true, s') -> call_below (b_next s) c ->
  b_next s' = b_next s /\ Sem s s' (fun I => call_holds I nu c).
Proof.
  unfold call. intros H B. injection H as H1 H2. subst s'. cbn [b_next]. split; [reflexivity|]. split; [cbn; lia|]. exists [c]. cbn [b_log b_next].
  split; [reflexivity|]. split; [constructor; [exact B|constructor]|]. split.
  - intros I O F. inversion_clear F. assumption.
  - intros I O F. exists I. split; [intros i _; reflexivity|]. split; [exact O|]. constructor; [exact F|constructor].
Qed.

Lemma inv_all_keys {K} (ts r : list (Z * K)) : inv_all ts = Ok r -> map snd r = map snd ts.
Proof. revert r. induction ts as [|[c k] ts IH]; intros r H; [injection H as <-; reflexivity|]. apply inv_all_cons in H. destruct H as (c' & r' & _ & H & ->). cbn [map snd]. f_equal. auto. Qed.

Lemma bounded_mono n m : n <= m -> bounded_by n -> bounded_by m.
Proof. intros L [A B]. split; [lia|]. intros l H. eapply below_mono; eauto. Qed.

Lemma okI_true1 I : okI I -> lit_true I TRUE_LIT.
Proof. intros [A _]. exact A. Qed.

Section Norm.
Context {K : Type} (kv : K -> Z).
Variable addc : lit -> list (Z * K) -> Z -> bool -> SM bst bool.
(** add_constraint posts the reified constraint. *)
Variable Qk : list K -> Prop.
Hypothesis addc_sem0 : forall l es rhs strict s s', addc l es rhs strict s = Ok (true, s') -> below (b_next s) l -> Qk (map snd es) ->
  Sem s s' (reif l strict (terms_val kv es <= rhs)).

Theorem normalize_sem : forall fuel l es op rhs strict s s',
  normalize is_true ret addc fuel l es op rhs strict s = Ok (true, s') ->
  below (b_next s) l -> bounded_by (b_next s) -> Qk (map snd es) ->
  Sem s s' (reif l strict (holds op (terms_val kv es) rhs)).
Proof.
  induction fuel as [|fuel IH0]; intros l es op rhs strict s s' H Bl Bn Qes; [discriminate|].
  cbn [normalize] in H. apply sbind_ok in H. destruct H as ([op1 rhs1] & s0 & H1 & H).
  apply slift_ok in H1. destruct H1 as [H1 ->].
  apply sbind_ok in H. destruct H as ([[op2 rhs2] elems] & s0 & H2 & H). apply slift_ok in H2. destruct H2 as [H2 ->].
  assert (E : (holds op (terms_val kv es) rhs <-> holds op2 (terms_val kv elems) rhs2) /\ (op2 = RLe \/ op2 = REq \/ op2 = RNe)).
  { assert (E1 : (holds op (terms_val kv es) rhs <-> holds op1 (terms_val kv es) rhs1) /\ (op1 = RLe \/ op1 = RGe \/ op1 = REq \/ op1 = RNe)).
    { destruct op; inv_ok; cbn [holds]; auto; split; auto; try reflexivity.
      - apply safe_sub_val in H0. lia.
      - apply safe_add_val in H0. lia. }
    clear H1. destruct E1 as [E1 O]. rewrite E1. destruct op1; inv_ok; cbn [holds]; try (destruct O as [O|[O|[O|O]]]; discriminate); split; auto; try reflexivity.
    apply safe_inv_val in H0. apply (inv_all_val kv) in H1. lia. }
  assert (Qel : Qk (map snd elems)).
  { clear E H. destruct op1; inv_ok; try assumption. match goal with X : inv_all _ = Ok _ |- _ => apply inv_all_keys in X; rewrite X end. exact Qes. }
  assert (IH : forall l op rhs strict s s', normalize is_true ret addc fuel l elems op rhs strict s = Ok (true, s') ->
    below (b_next s) l -> bounded_by (b_next s) -> Sem s s' (reif l strict (holds op (terms_val kv elems) rhs))) by (intros; eapply IH0; eauto).
  assert (addc_sem : forall l rhs strict s s', addc l elems rhs strict s = Ok (true, s') -> below (b_next s) l ->
    Sem s s' (reif l strict (terms_val kv elems <= rhs))) by (intros; eapply addc_sem0; eauto).
  clear IH0 Qes Qel.
  clear H1 H2. destruct E as [E O].
  apply (Sem_iff _ _ (reif l strict (holds op2 (terms_val kv elems) rhs2))).
  { intros I _. unfold reif. rewrite E. reflexivity. }
  clear E op es rhs op1 rhs1. rename op2 into op, rhs2 into rhs, elems into es.
  destruct Bl as [Nl Bl].
  destruct O as [->|[->| ->]].
  - (* <= *)
    destruct (strict && Nat.eqb (List.length es) 1) eqn:S1.
    + assert (strict = true) by (destruct strict; [reflexivity|discriminate]). subst strict. apply addc_sem in H; [exact H|split; assumption].
    + assert (T : forall s1, Sem s s1 (reif l false (terms_val kv es <= rhs)) ->
        (if strict then normalize is_true ret addc fuel (- l) es RGt rhs false else sret true) s1 = Ok (true, s') ->
        Sem s s' (reif l strict (holds RLe (terms_val kv es) rhs))).
      { intros s1 S H'. pose proof S as [L _]. destruct strict.
        - apply IH in H'; [|unfold below; lia|eapply bounded_mono; [|exact Bn]; lia].
          eapply Sem_iff; [|eapply Sem_seq; [exact S|exact H'|apply reif_dep; unfold below; lia]].
          intros I _. unfold reif. cbn [holds]. rewrite lit_true_neg by exact Nl. split.
          + intros [[A1 _] [A2 _]]. split; [exact A1|]. intros _ HA. destruct (lit_true_dec I l) as [T'|T']; [exact T'|apply A2 in T'; lia].
          + intros [A1 A2]. split; split; [exact A1|discriminate| |discriminate]. intros T'.
            destruct (Z_le_gt_dec (terms_val kv es) rhs) as [X|X]; [exfalso; apply T', A2; auto|exact X].
        - inv_ok. exact S. }
      destruct (is_true (- l)) eqn:It.
      * apply (T s); [|exact H]. eapply Sem_iff; [|apply Sem_refl]. intros I [_ O]. apply O in It.
        rewrite lit_true_neg in It by exact Nl. unfold reif. intuition discriminate.
      * apply andthen_ok in H. destruct H as (s1 & H1 & H). apply addc_sem in H1; [|split; assumption]. eapply T; eassumption.
  - (* = *)
    destruct strict.
    + assert (G : forall a b s0, s0 = s0 ->
        (andthen (call ret (BClause [- l; a])) (andthen (call ret (BClause [- l; b])) (andthen (call ret (BClause [- a; - b; l]))
          (andthen (normalize is_true ret addc fuel a es RLe rhs true) (andthen (normalize is_true ret addc fuel b es RGe rhs true) (sret true)))))) s0 = Ok (true, s') ->
        b_next s <= b_next s0 -> below (b_next s0) a -> below (b_next s0) b ->
        Sem s0 s' (fun I => ((lit_true I l -> lit_true I a /\ lit_true I b) /\ (lit_true I a -> lit_true I b -> lit_true I l)) /\
           (lit_true I a <-> terms_val kv es <= rhs) /\ (lit_true I b <-> terms_val kv es >= rhs))).
      { intros a b s0 _ H' L Ba Bb. pose proof Ba as [Na _]. pose proof Bb as [Nb _].
        apply andthen_ok in H'. destruct H' as (s1 & C1 & H'). apply andthen_ok in H'. destruct H' as (s2 & C2 & H').
        apply andthen_ok in H'. destruct H' as (s3 & C3 & H'). apply andthen_ok in H'. destruct H' as (s4 & C4 & H').
        apply andthen_ok in H'. destruct H' as (s5 & C5 & H'). apply sret_ok in H'. destruct H' as [_ ->].
        assert (Bl0 : below (b_next s0) l) by (split; [exact Nl|lia]).
        apply call_sem in C1; [|bl]. destruct C1 as [N1 C1].
        apply call_sem in C2; [|rewrite N1; bl]. destruct C2 as [N2 C2].
        apply call_sem in C3; [|rewrite N2, N1; bl]. destruct C3 as [N3 C3].
        assert (N03 : b_next s3 = b_next s0) by lia.
        apply IH in C4; [|rewrite N03; assumption|rewrite N03; eapply bounded_mono; eassumption].
        assert (N4 : b_next s3 <= b_next s4) by apply C4.
        apply IH in C5; [|eapply below_mono; [|exact Bb]; lia|eapply bounded_mono; [|exact Bn]; lia].
        pose proof (Sem_seq _ _ _ _ _ C4 C5) as D45. specialize (D45 ltac:(apply reif_dep; rewrite N03; exact Bb)).
        assert (D : forall c, call_below (b_next s0) c -> dep (b_next s0) (fun I => call_holds I nu c)).
        { intros c Hc I J A. apply (call_holds_agree _ _ _ _ _ A Hc). }
        assert (DR : forall n, b_next s0 <= n -> dep n (fun I => reif a true (holds RLe (terms_val kv es) rhs) I /\ reif b true (holds RGe (terms_val kv es) rhs) I)).
        { intros n Hn I J A [X Y]. split; [exact (reif_dep n a true _ (below_mono _ _ _ Hn Ba) I J A X)|exact (reif_dep n b true _ (below_mono _ _ _ Hn Bb) I J A Y)]. }
        pose proof (Sem_seq _ _ _ _ _ C3 D45) as D345. specialize (D345 ltac:(apply DR; lia)).
        assert (D2 : dep (b_next s1) (fun I => call_holds I nu (BClause [- a; - b; l]) /\ reif a true (holds RLe (terms_val kv es) rhs) I /\ reif b true (holds RGe (terms_val kv es) rhs) I)).
        { rewrite N1. intros I J A [X Y]. split; [eapply D; eauto; bl|]. revert Y. apply (DR (b_next s0)); [lia|exact A]. }
        assert (D2345 := Sem_seq _ _ _ _ _ C2 D345 D2).
        assert (D1 : dep (b_next s0) (fun I => call_holds I nu (BClause [- l; b]) /\ call_holds I nu (BClause [- a; - b; l]) /\ reif a true (holds RLe (terms_val kv es) rhs) I /\ reif b true (holds RGe (terms_val kv es) rhs) I)).
        { intros I J A [X Y]. split; [eapply D; eauto; bl|]. revert Y. rewrite <- N1 in A. apply D2, A. }
        assert (DD := Sem_seq _ _ _ _ _ C1 D2345 D1).
        eapply Sem_iff; [|exact DD]. intros I _. unfold reif. cbn [call_holds holds].
        rewrite !clause_cons, !clause_nil, !lit_true_neg by assumption.
        pose proof (lit_true_dec I l) as Dl. pose proof (lit_true_dec I a) as Da. pose proof (lit_true_dec I b) as Db.
        clear - Dl Da Db. split.
        - intros (A1 & A2 & A3 & [A4 A5] & [A6 A7]). specialize (A5 eq_refl). specialize (A7 eq_refl).
          split; [split|split; split; assumption].
          + intros T. split; [destruct A1 as [A1|[A1|[]]]|destruct A2 as [A2|[A2|[]]]]; easy.
          + intros Ta Tb. destruct A3 as [A3|[A3|[A3|[]]]]; easy.
        - intros ((A1 & A2) & A3 & A4). repeat split; tauto. }
      destruct (is_true l) eqn:It.
      * cbn in H. unfold sbind, sret in H. cbn in H.
        destruct Bn as [Bn1 Bn2].
        apply (G TRUE_LIT TRUE_LIT s) in H; [|reflexivity|lia|unfold below, TRUE_LIT; lia..].
        eapply Sem_iff; [|exact H]. intros I Ok. pose proof (okI_true1 I Ok). destruct Ok as [_ Ok]. apply Ok in It.
        unfold reif. cbn [holds]. intuition lia.
      * unfold sbind, sret, new_lit in H. cbn [b_next b_log] in H.
        set (a := b_next s) in *. set (b := a + 1) in *.
        apply (G a b) in H; [|reflexivity|cbn; lia|unfold below; cbn; destruct Bn; lia..].
        change (b_log s) with (b_log (mkbst (a + 1) (b_log s))) in H.
        apply (Sem_fresh (mkbst b (b_log s))) in H. apply (Sem_fresh s) in H.
        eapply Sem_iff; [|exact H]. cbn [b_next]. clear H G. intros I Ok. unfold reif. cbn [holds].
        split.
        -- intros (J & J1 & J2 & L & L1 & L2 & L3). assert (A : agree_below a I L) by (eapply agree_trans; [exact J1|]; eapply agree_mono; [|exact L1]; lia).
           rewrite (lit_true_agree a I L l A) by (split; assumption).
           destruct L3 as ((M1 & M2) & M3 & M4). split; [intros T; apply M1 in T; destruct T as [T1 T2]; apply M3 in T1; apply M4 in T2; lia|].
           intros _ V. apply M2; [apply M3|apply M4]; lia.
        -- intros [P1 P2]. destruct Bn as [Bn1 Bn2].
           set (J := set I a (terms_val kv es <=? rhs)).
           set (L := set J b (rhs <=? terms_val kv es)).
           assert (OJ : okI J) by (apply set_ok; auto).
           assert (OL : okI L) by (apply set_ok; [lia| |exact OJ]; intros x Hx; eapply below_mono; [|apply Bn2, Hx]; lia).
           assert (AJ : agree_below a I J) by apply set_agree. assert (AL : agree_below b J L) by apply set_agree.
           exists J. split; [exact AJ|]. split; [exact OJ|]. exists L. split; [exact AL|]. split; [exact OL|].
           assert (Tb : lit_true L b <-> terms_val kv es >= rhs) by (unfold L; rewrite set_true by lia; lia).
           assert (Ta : lit_true L a <-> terms_val kv es <= rhs).
           { rewrite <- (lit_true_agree b J L a AL) by (unfold below; lia). unfold J. rewrite set_true by lia. lia. }
           assert (Tl : lit_true L l <-> lit_true I l).
           { rewrite <- (lit_true_agree b J L l AL) by (unfold below; lia). symmetry. apply (lit_true_agree a); [exact AJ|split; assumption]. }
           rewrite Ta, Tb, Tl. split; [|split; reflexivity]. split; [intros T; apply P1 in T; lia|]. intros V1 V2. apply P2; [reflexivity|lia].
    + apply andthen_ok in H. destruct H as (s1 & H1 & H). apply andthen_ok in H. destruct H as (s2 & H2 & H). inv_ok.
      apply IH in H1; [|split; assumption|assumption]. pose proof H1 as [L1 _].
      apply IH in H2; [|split; [assumption|lia]|eapply bounded_mono; eassumption].
      eapply Sem_iff; [|eapply Sem_seq; [exact H1|exact H2|apply reif_dep; split; assumption]].
      intros I _. unfold reif. cbn [holds]. intuition (try discriminate); lia.
  - (* != *)
    destruct strict.
    + apply IH in H; [|apply below_neg; split; assumption|assumption].
      eapply Sem_iff; [|exact H]. intros I _. unfold reif. cbn [holds]. rewrite lit_true_neg by exact Nl.
      destruct (lit_true_dec I l), (Z.eq_dec (terms_val kv es) rhs); intuition.
    + unfold sbind, sret, new_lit in H. cbn [b_next b_log] in H. destruct Bn as [Bn1 Bn2].
      set (a := b_next s) in *. set (b := a + 1) in *.
      set (s0 := mkbst (b + 1) (b_log s)) in *.
      apply andthen_ok in H. destruct H as (s1 & C1 & H'). apply andthen_ok in H'. destruct H' as (s2 & C2 & H').
      apply andthen_ok in H'. destruct H' as (s3 & C3 & H'). apply andthen_ok in H'. destruct H' as (s4 & C4 & H').
      apply andthen_ok in H'. destruct H' as (s5 & C5 & H'). apply andthen_ok in H'. destruct H' as (s6 & C6 & H'). apply sret_ok in H'. destruct H' as [_ ->].
      assert (N0 : b_next s0 = b + 1) by reflexivity.
      assert (Ba : below (b_next s0) a) by (unfold below; lia). assert (Bb : below (b_next s0) b) by (unfold below; lia).
      assert (Bl0 : below (b_next s0) l) by (unfold below; lia).
      assert (Na : a <> 0) by lia. assert (Nb : b <> 0) by lia.
      apply call_sem in C1; [|bl]. destruct C1 as [N1 C1].
      apply call_sem in C2; [|rewrite N1; bl]. destruct C2 as [N2 C2].
      apply call_sem in C3; [|rewrite N2, N1; bl]. destruct C3 as [N3 C3].
      apply call_sem in C4; [|rewrite N3, N2, N1; bl]. destruct C4 as [N4 C4].
      assert (N04 : b_next s4 = b_next s0) by lia.
      apply IH in C5; [|rewrite N04; assumption|rewrite N04; eapply (bounded_mono a); [lia|split; assumption]].
      assert (N5 : b_next s4 <= b_next s5) by apply C5.
      apply IH in C6; [|eapply below_mono; [|exact Bb]; lia|eapply (bounded_mono a); [lia|split; assumption]].
      assert (D : forall c, call_below (b_next s0) c -> dep (b_next s0) (fun I => call_holds I nu c)).
      { intros c Hc I J A. apply (call_holds_agree _ _ _ _ _ A Hc). }
      assert (Dand : forall n P Q, dep n P -> dep n Q -> dep n (fun I => P I /\ Q I)).
      { intros n P Q X Y I J A [U V]. split; [eapply X|eapply Y]; eauto. }
      pose proof (Sem_seq _ _ _ _ _ C5 C6) as D6. specialize (D6 ltac:(apply reif_dep; rewrite N04; exact Bb)).
      assert (Da : dep (b_next s0) (reif a false (holds RLt (terms_val kv es) rhs))) by (apply reif_dep; exact Ba).
      assert (Db : dep (b_next s0) (reif b false (holds RGt (terms_val kv es) rhs))) by (apply reif_dep; exact Bb).
      pose proof (Sem_seq _ _ _ _ _ C4 D6) as D5. specialize (D5 ltac:(replace (b_next s3) with (b_next s0) by lia; auto)).
      assert (Dc : forall c, Forall (below (b_next s0)) c -> dep (b_next s0) (fun I => call_holds I nu (BClause c))) by (intros c Hc; apply D, Hc).
      pose proof (Sem_seq _ _ _ _ _ C3 D5) as D4. specialize (D4 ltac:(replace (b_next s2) with (b_next s0) by lia; apply Dand; [apply Dc; bl|auto])).
      pose proof (Sem_seq _ _ _ _ _ C2 D4) as D3. specialize (D3 ltac:(replace (b_next s1) with (b_next s0) by lia; apply Dand; [apply Dc; bl|];
         apply Dand; [apply Dc; bl|auto])).
      pose proof (Sem_seq _ _ _ _ _ C1 D3) as DD. specialize (DD ltac:(apply Dand; [apply Dc; bl|];
         apply Dand; [apply Dc; bl|];
         apply Dand; [apply Dc; bl|auto])).
      apply (Sem_fresh (mkbst b (b_log s))) in DD. apply (Sem_fresh s) in DD.
      eapply Sem_iff; [|exact DD]. cbn [b_next]. clear DD C1 C2 C3 C4 C5 C6 D6 D5 D4 D3. intros I Ok. unfold reif. cbn [holds call_holds].
      split.
      * intros (J & J1 & J2 & L & L1 & L2 & L3). assert (A : agree_below a I L) by (eapply agree_trans; [exact J1|]; eapply agree_mono; [|exact L1]; lia).
        rewrite (lit_true_agree a I L l A) by (split; assumption).
        rewrite !clause_cons, !clause_nil, !lit_true_neg in L3 by assumption.
        destruct L3 as (M1 & M2 & M3 & M4 & M5 & M6). split; [|discriminate]. intros Tl. destruct M1 as [M1|[M1|[M1|[]]]]; [apply M5 in M1; lia|apply M6 in M1; lia|tauto].
      * intros [P1 P2].
        set (J := set I a ((terms_val kv es <? rhs) && (if 0 <? l then I l else negb (I (- l))))).
        set (L := set J b ((rhs <? terms_val kv es) && (if 0 <? l then I l else negb (I (- l))))).
        assert (OJ : okI J) by (apply set_ok; auto).
        assert (OL : okI L) by (apply set_ok; [lia| |exact OJ]; intros x Hx; eapply below_mono; [|apply Bn2, Hx]; lia).
        assert (AJ : agree_below a I J) by apply set_agree. assert (AL : agree_below b J L) by apply set_agree.
        exists J. split; [exact AJ|]. split; [exact OJ|]. exists L. split; [exact AL|]. split; [exact OL|].
        assert (El : (if 0 <? l then I l else negb (I (- l))) = true <-> lit_true I l).
        { unfold lit_true. destruct (0 <? l); [reflexivity|]. destruct (I (- l)); cbn; split; congruence. }
        assert (Tb : lit_true L b <-> terms_val kv es > rhs /\ lit_true I l) by (unfold L; rewrite set_true, andb_true_iff, El, Z.ltb_lt, Z.gt_lt_iff by lia; reflexivity).
        assert (Ta : lit_true L a <-> terms_val kv es < rhs /\ lit_true I l).
        { rewrite <- (lit_true_agree b J L a AL) by (unfold below; lia). unfold J. rewrite set_true, andb_true_iff, El, Z.ltb_lt by lia. reflexivity. }
        assert (Tl : lit_true L l <-> lit_true I l).
        { rewrite <- (lit_true_agree b J L l AL) by (unfold below; lia). symmetry. apply (lit_true_agree a); [exact AJ|split; assumption]. }
        rewrite !clause_cons, !clause_nil, !lit_true_neg by assumption. rewrite Ta, Tb, Tl.
        assert (X : lit_true I l -> terms_val kv es < rhs \/ terms_val kv es > rhs) by (intros T; apply P1 in T; lia).
        assert (Y : ~ (terms_val kv es < rhs /\ terms_val kv es > rhs)) by lia. clear - X Y.
        set (A := terms_val kv es < rhs) in *. set (B := terms_val kv es > rhs) in *. clearbody A B.
        destruct (lit_true_dec I l) as [T|T].
        -- specialize (X T). split; [tauto|]. split; [tauto|]. split; [tauto|]. split; [tauto|]. split; (split; [tauto|discriminate]).
        -- split; [tauto|]. split; [tauto|]. split; [tauto|]. split; [tauto|]. split; (split; [tauto|discriminate]).
Qed.

End Norm.
End Sem.

(** ** The normalisation neither fails nor runs out of fuel *)
Section NormTotal.
Variable is_true : lit -> bool.
Variable ret : list bcall -> bool.
Context {K : Type}.
Variable addc : lit -> list (Z * K) -> Z -> bool -> SM bst bool.
Hypothesis ret_true : forall log, ret log = true.
Variable Q : list K -> Prop.
Hypothesis addc_total : forall l es rhs strict s, Forall (fun t => valid (fst t)) es -> Q (map snd es) -> exists s', addc l es rhs strict s = Ok (true, s').

Definition need (op : rel) (strict : bool) : nat :=
  match op, strict with
  | RNe, true => 4 | REq, true => 3 | RNe, false => 2 | REq, false => 2
  | _, true => 2 | _, false => 1
  end.

Lemma inv_all_total (es : list (Z * K)) : Forall (fun t => valid (fst t)) es ->
  exists r, inv_all es = Ok r /\ map snd r = map snd es /\ Forall (fun t => valid (fst t)) r.
Proof.
  induction 1 as [|[c k] r H F (r' & IH1 & IH0 & IH2)]; [exists []; split; [reflexivity|split; [reflexivity|constructor]]|].
  unfold inv_all in *. cbn [fold_right fst snd] in *. cbn [fst] in H.
  destruct (safe_inv_exact int32 c twos32 (valid32 _ H)) as [[A ->]|[A _]].
  - cbn [bind]. rewrite IH1. cbn [bind]. eexists. split; [reflexivity|]. split; [cbn; f_equal; exact IH0|]. constructor; [|exact IH2]. unfold valid, MIN_VAL in *. cbn [fst]. lia.
  - exfalso. apply A. unfold valid, MIN_VAL, MAX_VAL, fits in *. cbn. lia.
Qed.

Lemma call_total c s : exists s', call ret c s = Ok (true, s').
Proof. unfold call. rewrite ret_true. eauto. Qed.
Lemma andthen_total m k s : (exists s1, m s = Ok (true, s1)) -> (forall s1, exists s2, k s1 = Ok (true, s2)) -> exists s2, andthen m k s = Ok (true, s2).
Proof. intros [s1 H] G. unfold andthen, sbind. rewrite H. apply G. Qed.

Theorem normalize_total : forall fuel l es op rhs strict s, (need op strict <= fuel)%nat ->
  Forall (fun t => valid (fst t)) es -> Q (map snd es) -> MIN_VAL - 10 + Z.of_nat fuel <= rhs <= MAX_VAL + 10 - Z.of_nat fuel ->
  exists s', normalize is_true ret addc fuel l es op rhs strict s = Ok (true, s').
Proof.
  induction fuel as [|fuel IH]; intros l es op rhs strict s N V VQ R; [destruct op, strict; cbn in N; lia|].
  cbn [normalize].
  assert (X : exists op2 rhs2 elems op1 rhs1,
     (match op with RGt => r <- safe_add int32 rhs 1 ;; Ok (RGe, r) | RLt => r <- safe_sub int32 rhs 1 ;; Ok (RLe, r) | _ => Ok (op, rhs) end) = Ok (op1, rhs1) /\
     (match op1 with RGe => r <- safe_inv int32 rhs1 ;; e <- inv_all es ;; Ok (RLe, r, e) | _ => Ok (op1, rhs1, es) end) = Ok (op2, rhs2, elems) /\
     Forall (fun t => valid (fst t)) elems /\ Q (map snd elems) /\ MIN_VAL - 10 + Z.of_nat fuel <= rhs2 <= MAX_VAL + 10 - Z.of_nat fuel /\
     (op2 = match op with REq => REq | RNe => RNe | _ => RLe end)).
  { destruct (inv_all_total es V) as (es' & I1 & I0 & I2).
    assert (Inv : forall x, MIN_VAL - 10 <= x <= MAX_VAL + 10 -> safe_inv int32 x = Ok (- x)).
    { intros x Hx. destruct (safe_inv_exact int32 x twos32) as [[A ->]|[A _]]; [unfold fits, MIN_VAL, MAX_VAL in *; cbn; lia|reflexivity|].
      exfalso. apply A. unfold fits, MIN_VAL, MAX_VAL in *. cbn. lia. }
    assert (Add : safe_add int32 rhs 1 = Ok (rhs + 1)).
    { destruct (safe_add_exact int32 rhs 1 twos32) as [[A ->]|[A _]]; [unfold fits, MIN_VAL, MAX_VAL in *; cbn; lia..|reflexivity|].
      exfalso. apply A. unfold fits, MIN_VAL, MAX_VAL in *. cbn. lia. }
    assert (Sub : safe_sub int32 rhs 1 = Ok (rhs - 1)).
    { destruct (safe_sub_exact int32 rhs 1 twos32) as [[A ->]|[A _]]; [unfold fits, MIN_VAL, MAX_VAL in *; cbn; lia..|reflexivity|].
      exfalso. apply A. unfold fits, MIN_VAL, MAX_VAL in *. cbn. lia. }
    unfold MIN_VAL in *.
    destruct op.
    - do 5 eexists. split; [reflexivity|]. split; [reflexivity|]. split; [exact V|]. split; [exact VQ|]. split; [lia|reflexivity].
    - do 5 eexists. rewrite Sub. split; [reflexivity|]. split; [reflexivity|]. split; [exact V|]. split; [exact VQ|]. split; [lia|reflexivity].
    - do 5 eexists. split; [reflexivity|]. cbv iota. rewrite Inv, I1 by lia. split; [reflexivity|]. split; [exact I2|]. split; [rewrite I0; exact VQ|]. split; [lia|reflexivity].
    - do 5 eexists. rewrite Add. split; [reflexivity|]. cbv iota. rewrite Inv, I1 by lia. split; [reflexivity|]. split; [exact I2|]. split; [rewrite I0; exact VQ|]. split; [lia|reflexivity].
    - do 5 eexists. split; [reflexivity|]. split; [reflexivity|]. split; [exact V|]. split; [exact VQ|]. split; [lia|reflexivity].
    - do 5 eexists. split; [reflexivity|]. split; [reflexivity|]. split; [exact V|]. split; [exact VQ|]. split; [lia|reflexivity]. }
  destruct X as (op2 & rhs2 & elems & op1 & rhs1 & -> & Q2 & V2 & VQ2 & R2 & O).
  unfold sbind at 1. unfold slift at 1. unfold sbind at 1. unfold slift at 1. rewrite Q2.
  assert (NN : (need op2 strict <= S fuel)%nat) by (clear - N O; subst op2; destruct op, strict; cbn in *; lia).
  assert (OO : op2 = RLe \/ op2 = REq \/ op2 = RNe) by (subst op2; destruct op; auto). clear O Q2 N.
  destruct OO as [->|[->| ->]].
  - destruct (strict && Nat.eqb (List.length elems) 1); [apply addc_total; assumption|].
    assert (T : forall s1, exists s', (if strict then normalize is_true ret addc fuel (- l) elems RGt rhs2 false else sret true) s1 = Ok (true, s')).
    { intros s1. destruct strict; [|eexists; reflexivity]. apply IH; auto. cbn in NN |- *. lia. }
    destruct (is_true (- l)); [apply T|]. apply andthen_total; [apply addc_total; assumption|exact T].
  - destruct strict.
    + assert (G : forall a b s0, exists s', (andthen (call ret (BClause [- l; a])) (andthen (call ret (BClause [- l; b])) (andthen (call ret (BClause [- a; - b; l]))
          (andthen (normalize is_true ret addc fuel a elems RLe rhs2 true) (andthen (normalize is_true ret addc fuel b elems RGe rhs2 true) (sret true)))))) s0 = Ok (true, s')).
      { intros a b s0. cbn in NN.
        apply andthen_total; [apply call_total|]; intros. apply andthen_total; [apply call_total|]; intros. apply andthen_total; [apply call_total|]; intros.
        apply andthen_total; [apply IH; auto; cbn; lia|]; intros. apply andthen_total; [apply IH; auto; cbn; lia|]; intros. eexists; reflexivity. }
      destruct (is_true l); [exact (G TRUE_LIT TRUE_LIT s)|exact (G (b_next s) (b_next s + 1) (mkbst (b_next s + 1 + 1) (b_log s)))].
    + cbn in NN. apply andthen_total; [apply IH; auto; cbn; lia|]; intros. apply andthen_total; [apply IH; auto; cbn; lia|]; intros. eexists; reflexivity.
  - destruct strict; [apply IH; auto; cbn in NN |- *; lia|]. unfold sbind, new_lit. cbn in NN.
    do 4 (apply andthen_total; [apply call_total|]; intros).
    apply andthen_total; [apply IH; auto; cbn; lia|]; intros. apply andthen_total; [apply IH; auto; cbn; lia|]; intros. eexists; reflexivity.
Qed.
End NormTotal.
