From Coq Require Import String.
From Verif Require Import Base Util UtilProofs IntervalSet IntervalSetProofs Terms TermsSpec TermsProofs TermsProofs2 TermsProofs3 TermsProofs4
  Statements StatementsSpec DenFun.
Open Scope Z_scope.

Lemma on_tab_ok {A} (m : SM symtab A) s a s' : on_tab m s = Ok (a, s') -> m (fst s) = Ok (a, fst s') /\ snd s' = snd s.
Proof. unfold on_tab. destruct (m (fst s)) as [[x t]| |]; try discriminate. intros H. injection H as <- <-. auto. Qed.
Lemma on_bld_ok {A} (m : SM bst A) s a s' : on_bld m s = Ok (a, s') -> m (snd s) = Ok (a, snd s') /\ fst s' = fst s.
Proof. unfold on_bld. destruct (m (snd s)) as [[x t]| |]; try discriminate. intros H. injection H as <- <-. auto. Qed.

Ltac inv_p := repeat (inv_ok; match goal with
  | H : on_tab _ _ = Ok (_, _) |- _ => let E := fresh "Es" in apply on_tab_ok in H; destruct H as [H E]
  | H : on_bld _ _ = Ok (_, _) |- _ => let E := fresh "Es" in apply on_bld_ok in H; destruct H as [H E]
  | _ => idtac
  end); inv_ok.

(** ** Linear constraints *)
Lemma strip_val nu ts : forall r, strip ts = Ok r -> lin_val nu r = terms_val (key_val nu) ts.
Proof.
  induction ts as [|[c [v|]] ts IH]; cbn [strip]; intros r H; inv_ok; [reflexivity|].
  cbn [lin_val terms_val key_val]. rewrite (IH _ H0). reflexivity.
Qed.
Lemma strip_total ts : Forall (fun k => k <> None) (map snd ts) -> exists r, strip ts = Ok r.
Proof. induction ts as [|[c [v|]] ts IH]; cbn [map snd strip]; intros F; [eauto| |].
  - inversion_clear F. destruct IH as [r ->]; [assumption|]. cbn. eauto.
  - inversion_clear F. congruence. Qed.

Section P.
Variable is_true : lit -> bool.
Variable ret : list bcall -> bool.
Local Notation program_fine := (StatementsSpec.program_fine is_true ret).

Lemma addc_l_sem nu l es rhs strict s s' : addc_l ret l es rhs strict s = Ok (true, s') -> below (b_next s) l ->
  Sem is_true nu s s' (reif l strict (terms_val (key_val nu) es <= rhs)).
Proof.
  unfold addc_l. intros H B. inv_ok. apply (call_sem is_true nu) in H; [|exact B]. destruct H as [_ H].
  eapply Sem_iff; [|exact H]. intros I _. unfold reif. cbn [call_holds]. rewrite (strip_val nu _ _ H0). reflexivity.
Qed.

Theorem constrain_l_sem nu l ts op strict s s' :
  constrain_l is_true ret l ts op strict s = Ok (true, s') -> below (b_next s) l -> bounded_by is_true (b_next s) ->
  Sem is_true nu s s' (reif l strict (holds op (terms_val (key_val nu) ts) 0)).
Proof.
  unfold constrain_l. intros H B Bn. inv_ok. destruct a as [es rhs]. destruct (gcd_reduce es rhs) as [es' rhs'] eqn:G.
  apply (normalize_sem is_true nu ret (key_val nu) _ (fun _ => True)) in H; auto; [|intros; eapply addc_l_sem; eauto].
  apply simplify_spec in H0. destruct H0 as (V & _). apply gcd_reduce_spec in G. destruct G as (_ & G & _).
  eapply Sem_iff; [|exact H]. intros I _. unfold reif. rewrite G.
  assert (E : holds op (terms_val (key_val nu) es) rhs <-> holds op (terms_val (key_val nu) ts) 0).
  { rewrite (V nu). destruct op; cbn [holds]; lia. }
  rewrite E. reflexivity.
Qed.

(** If the numbers are in range the constraint is posted completely. *)
Theorem constrain_l_total l ts op strict s : (forall log, ret log = true) -> coefs_fit ts ->
  (exists e, simplify true ts = Throw e /\ constrain_l is_true ret l ts op strict s = Throw e) \/
  (exists s', constrain_l is_true ret l ts op strict s = Ok (true, s')).
Proof.
  intros R F. unfold constrain_l, sbind, slift. pose proof (simplify_no_ub true ts F).
  destruct (simplify true ts) as [[es rhs]|e|] eqn:S; [right|left; eauto|congruence].
  destruct (gcd_reduce es rhs) as [es' rhs'] eqn:G.
  apply simplify_spec in S. destruct S as (_ & _ & NN & _ & Vr & Ve & _). apply gcd_reduce_spec in G. destruct G as (G1 & _ & G3 & G4 & _).
  rewrite <- G1 in NN.
  assert (T : forall l es2 rhs2 strict2 s2, Forall (fun k => k <> None) (map snd es2) -> exists s3, addc_l ret l es2 rhs2 strict2 s2 = Ok (true, s3)).
  { intros l2 es2 rhs2 strict2 s2 Hn. destruct (strip_total es2 Hn) as [r Hr]. unfold addc_l, sbind, slift, call. rewrite Hr, R. eauto. }
  apply normalize_total with (Q := Forall (fun k => k <> None)); auto.
  - unfold NORM_FUEL. destruct op, strict; cbn; lia.
  - unfold valid in *. unfold NORM_FUEL. cbn [Z.of_nat]. specialize (G4 Vr). unfold MIN_VAL in *. lia.
Qed.

(** ** One atom *)
Definition atom_ok (a : tatom) : Prop := match a_kind a with KNsum _ => False | _ => True end.

Definition atom_spec (nu : var -> Z) (a : tatom) (t t' : symtab) (s s' : bst) : Prop :=
  b_next s <= b_next s' /\ extends t t' /\ (tab_wf t -> tab_wf t') /\
  forall rho, tab_agrees rho nu t' -> Sem is_true nu s s' (atom_means rho a).

Lemma holds_sub op x y : holds op (x - y) 0 <-> holds op x y.
Proof. destruct op; cbn [holds]; lia. Qed.

Lemma parse_constraint_sem nu is_sum a strict st st' :
  parse_constraint_l is_true ret is_sum a strict st = Ok (true, st') ->
  below (b_next (snd st)) (a_lit a) -> bounded_by is_true (b_next (snd st)) ->
  a_kind a = (if is_sum then KSum strict else KDiff strict) ->
  atom_spec nu a (fst st) (fst st') (snd st) (snd st').
Proof.
  intros H B Bn K. unfold parse_constraint_l in H. destruct (a_guard a) as [[op g]|] eqn:G; [|discriminate].
  inv_p. rewrite Es in *.
  apply (constrain_l_sem nu) in H; auto. unfold atom_spec. rewrite Es0. split; [apply (proj1 H)|]. destruct is_sum.
  - apply (parse_elems_sum_spec lkey (key_val nu) nu) in H0; [|apply lkey_compat]. destruct H0 as (E1 & E2 & E3).
    split; [exact E1|]. split; [exact E2|]. intros rho R. destruct (E3 rho R) as (x & y & X & Y & V).
    eapply Sem_iff; [|exact H]. intros I _. unfold atom_means. rewrite K, V. unfold reif. rewrite holds_sub. split.
    + intros Q. exists op, g, x, y. unfold reified. auto.
    + intros (op' & g' & x' & y' & Eg & X' & Y' & Q). rewrite G in Eg. injection Eg as <- <-.
      rewrite (den_elems_fun _ (fun t x H => den_fun rho t x H) _ _ X _ X'), (den_fun rho _ _ Y _ Y'). exact Q.
  - apply (parse_elems_diff_spec lkey (key_val nu) nu) in H0; [|apply lkey_compat]. destruct H0 as (E1 & E2 & E3).
    split; [exact E1|]. split; [exact E2|]. intros rho R. destruct (E3 rho R) as (x & y & X & Y & V).
    eapply Sem_iff; [|exact H]. intros I _. unfold atom_means. rewrite K, V. unfold reif. rewrite holds_sub. split.
    + intros Q. exists op, g, x, y. unfold reified. auto.
    + intros (op' & g' & x' & y' & Eg & X' & Y' & Q). rewrite G in Eg. injection Eg as <- <-.
      rewrite (den_elems_fun _ (fun t x H => den_diff_fun rho t x H) _ _ X _ X').
      pose proof (ground_fun _ _ Y _ Y') as E. injection E as ->. exact Q.
Qed.

(** *** Distinct *)
Lemma parse_distinct_elems_spec nu es : forall t res t', parse_distinct_elems es t = Ok (res, t') ->
  extends t t' /\ (tab_wf t -> tab_wf t') /\
  forall rho, tab_agrees rho nu t' -> Forall2 (expr_den rho) es (map (fun e => lin_val nu (fst e) + snd e) res).
Proof.
  induction es as [|[[|tm ts] c] es IH]; cbn [parse_distinct_elems]; intros t res t' H.
  - inv_ok. split; [apply extends_refl|]. split; [auto|]. intros. constructor.
  - discriminate.
  - destruct c; [|discriminate]. inv_ok. destruct a0 as [vec rhs]. inv_ok.
    destruct (parse_elem_spec lkey (key_val nu) nu (lkey_compat nu) _ _ _ _ H0) as (E1 & E2 & E3).
    destruct (IH _ _ _ H4) as (F1 & F2 & F3).
    split; [eapply extends_trans; eauto|]. split; [auto|]. intros rho R. cbn [map fst snd]. constructor; [|auto].
    apply simplify_spec in H1. destruct H1 as (V & _). apply safe_inv_val in H2. subst.
    rewrite (strip_val nu _ _ H3). specialize (V nu).
    replace (terms_val (key_val nu) vec + - rhs) with (terms_val (key_val nu) a) by lia. constructor.
    apply E3. eapply tab_agrees_ext; eauto.
Qed.

Lemma expr_den_fun rho e x y : expr_den rho e x -> expr_den rho e y -> x = y.
Proof. intros A B. inversion A; subst. inversion B; subst. eapply den_fun; eauto. Qed.
Lemma Forall2_fun {A B} (R : A -> B -> Prop) : (forall a b c, R a b -> R a c -> b = c) ->
  forall l m n, Forall2 R l m -> Forall2 R l n -> m = n.
Proof. intros F l m n H. revert n. induction H; intros n H'; inversion H'; subst; [reflexivity|]. f_equal; eauto. Qed.

Lemma nodup_nth {A} (l : list A) : NoDup l <-> forall i j x y, (i < j)%nat -> nth_error l i = Some x -> nth_error l j = Some y -> x <> y.
Proof.
  split.
  - intros N i j x y L Hi Hj ->. pose proof (proj1 (NoDup_nth_error l) N i j) as E.
    assert (i = j) by (apply E; [apply nth_error_Some; congruence|congruence]). lia.
  - intros H. apply NoDup_nth_error. intros i j Li E.
    destruct (nth_error l i) as [x|] eqn:Ei; [|apply nth_error_None in Ei; lia].
    destruct (Nat.lt_trichotomy i j) as [L|[L|L]]; [|exact L|]; exfalso.
    + apply (H i j x x L Ei (eq_sym E)). reflexivity.
    + apply (H j i x x L (eq_sym E) Ei). reflexivity.
Qed.

Lemma parse_distinct_sem nu a st st' : parse_distinct ret a st = Ok (true, st') -> a_kind a = KDistinct ->
  below (b_next (snd st)) (a_lit a) -> atom_spec nu a (fst st) (fst st') (snd st) (snd st').
Proof.
  intros H K B. unfold parse_distinct in H. inv_p. rewrite Es in *.
  apply (call_sem is_true nu) in H; [|exact B]. destruct H as [_ H].
  destruct (parse_distinct_elems_spec nu _ _ _ _ H0) as (E1 & E2 & E3). unfold atom_spec. rewrite Es0. split; [apply (proj1 H)|].
  split; [exact E1|]. split; [exact E2|]. intros rho R. specialize (E3 rho R).
  eapply Sem_iff; [|exact H]. intros I _. unfold atom_means. rewrite K. cbn [call_holds].
  set (val := fun e : list (Z * var) * Z => lin_val nu (fst e) + snd e) in *.
  assert (X : NoDup (map val a0) <-> forall i j e1 e2, (i < j)%nat -> nth_error a0 i = Some e1 -> nth_error a0 j = Some e2 -> val e1 <> val e2).
  { rewrite nodup_nth. split.
    - intros N i j e1 e2 L H1 H2. eapply N; [exact L|apply map_nth_error, H1|apply map_nth_error, H2].
    - intros N i j x y L H1 H2. rewrite nth_error_map in H1, H2. destruct (nth_error a0 i) eqn:P1; [|discriminate]. destruct (nth_error a0 j) eqn:P2; [|discriminate].
      cbn in H1, H2. injection H1 as <-. injection H2 as <-. eapply N; eauto. }
  split.
  - intros Q. exists (map val a0). split; [exact E3|]. intros T. apply X. intros. eapply Q; eauto.
  - intros (xs & F & Q) T. rewrite (Forall2_fun _ (expr_den_fun rho) _ _ _ F E3) in Q. apply X, Q, T.
Qed.

(** *** Disjoint *)
Lemma parse_disjoint_elems_spec nu es : forall t res t', parse_disjoint_elems es t = Ok (res, t') ->
  extends t t' /\ (tab_wf t -> tab_wf t') /\ Forall (fun e => 0 < fst e <= MAX_VAL) res /\
  forall rho, tab_agrees rho nu t' -> exists ivs, Forall2 (interval_den rho) es ivs /\
    map (fun e => (nu (snd e), fst e)) res = filter (fun i => 0 <? snd i) ivs.
Proof.
  induction es as [|[[|tm ts] c] es IH]; cbn [parse_disjoint_elems]; intros t res t' H.
  - inv_ok. split; [apply extends_refl|]. split; [auto|]. split; [constructor|]. intros. exists []. split; [constructor|reflexivity].
  - discriminate.
  - destruct c; [|discriminate]. unfold op2 in H.
    destruct tm as [ | |name [|x [|y [|z r]]]| | ]; try discriminate.
    destruct (String.eqb_spec name "@") as [->|N]; [|discriminate]. inv_ok.
    apply evaluate_ground in H0, H1. destruct a0; try discriminate. cbn [num_of] in H3. inv_ok.
    assert (Nn : forall n, a <> SNum n) by (intros k ->; discriminate).
    destruct (0 <? a2) eqn:P.
    + inv_ok. destruct (add_variable_spec _ _ _ _ H4) as (V1 & V2 & V3). destruct (IH _ _ _ H5) as (F1 & F2 & F0 & F3).
      apply check_valid_val in H3. destruct H3 as [-> Hv]. unfold valid in Hv.
      split; [eapply extends_trans; eauto|]. split; [auto|]. split; [constructor; [cbn [fst]; lia|exact F0]|].
      intros rho R. destruct (F3 rho R) as (ivs & G1 & G2). exists ((rho a, a2) :: ivs).
      split; [constructor; [constructor; assumption|exact G1]|]. cbn [map filter fst snd]. rewrite P. f_equal; [|exact G2].
      f_equal. apply R, F1, V2.
    + destruct (IH _ _ _ H) as (F1 & F2 & F0 & F3). split; [exact F1|]. split; [exact F2|]. split; [exact F0|].
      intros rho R. destruct (F3 rho R) as (ivs & G1 & G2). exists ((rho a, a2) :: ivs).
      split; [constructor; [constructor; assumption|exact G1]|]. cbn [filter snd]. rewrite P. exact G2.
Qed.

Lemma interval_den_fun rho e x y : interval_den rho e x -> interval_den rho e y -> x = y.
Proof. intros A B. inversion A; subst. inversion B; subst.
  match goal with E : ground a s, F : ground a ?s' |- _ => pose proof (ground_fun _ _ E _ F) as X end.
  match goal with E : ground b (SNum w), F : ground b (SNum ?s') |- _ => pose proof (ground_fun _ _ E _ F) as Y end. congruence. Qed.

Definition pairwise {A} (R : A -> A -> Prop) (l : list A) : Prop :=
  forall i j x y, (i < j)%nat -> nth_error l i = Some x -> nth_error l j = Some y -> R x y.
Lemma pairwise_cons {A} (R : A -> A -> Prop) a l : pairwise R (a :: l) <-> Forall (R a) l /\ pairwise R l.
Proof.
  split.
  - intros H. split.
    + apply Forall_forall. intros y Hy. apply In_nth_error in Hy. destruct Hy as [n Hn]. apply (H O (S n) a y); [lia|reflexivity|exact Hn].
    + intros i j x y L Hi Hj. apply (H (S i) (S j)); [lia|exact Hi|exact Hj].
  - intros [F H] i j x y L Hi Hj. destruct i as [|i].
    + cbn in Hi. injection Hi as <-. destruct j as [|j]; [lia|]. cbn in Hj. apply nth_error_In in Hj. rewrite Forall_forall in F. auto.
    + destruct j as [|j]; [lia|]. apply (H i j); [lia|exact Hi|exact Hj].
Qed.
Lemma pairwise_nil {A} (R : A -> A -> Prop) : pairwise R [].
Proof. intros i j x y _ H. destruct i; discriminate. Qed.
Lemma pairwise_map {A B} (R : B -> B -> Prop) (f : A -> B) l : pairwise R (map f l) <-> pairwise (fun x y => R (f x) (f y)) l.
Proof. induction l as [|a l IH]; [split; intros; apply pairwise_nil|]. cbn [map]. rewrite !pairwise_cons, IH, Forall_map. reflexivity. Qed.
Lemma pairwise_filter {A} (R : A -> A -> Prop) f l : (forall x y, f x = false \/ f y = false -> R x y) ->
  pairwise R (filter f l) <-> pairwise R l.
Proof.
  intros N. induction l as [|a l IH]; [reflexivity|]. cbn [filter]. rewrite pairwise_cons.
  assert (E : Forall (R a) (filter f l) <-> Forall (R a) l).
  { clear IH. induction l as [|b l IH]; [reflexivity|]. cbn [filter]. destruct (f b) eqn:Fb; rewrite ?Forall_cons_iff, IH; [reflexivity|]. split; [intros; auto|tauto]. }
  destruct (f a) eqn:Fa; [rewrite pairwise_cons, IH, E; reflexivity|]. rewrite IH. split; [|tauto]. intros H. split; [|exact H].
  apply Forall_forall. intros; apply N; auto.
Qed.
Lemma pairwise_ext {A} (R Q : A -> A -> Prop) l : (forall x y, In x l -> In y l -> (R x y <-> Q x y)) -> pairwise R l <-> pairwise Q l.
Proof.
  intros E. split; intros H i j x y L Hi Hj; (apply E; [eapply nth_error_In; eauto|eapply nth_error_In; eauto|]); eapply H; eauto.
Qed.

Lemma overlap_pos x w y v : 0 < w -> 0 < v -> (~ overlap (x, w) (y, v) <-> x + w <= y \/ y + v <= x).
Proof.
  intros Hw Hv. unfold overlap. cbn [fst snd]. split.
  - intros N. destruct (Z_le_gt_dec (x + w) y); [auto|]. destruct (Z_le_gt_dec (y + v) x); [auto|]. exfalso. apply N. exists (Z.max x y). lia.
  - intros H (z & A & B). lia.
Qed.

Lemma parse_disjoint_sem nu a st st' : parse_disjoint ret a st = Ok (true, st') -> a_kind a = KDisjoint ->
  below (b_next (snd st)) (a_lit a) -> atom_spec nu a (fst st) (fst st') (snd st) (snd st').
Proof.
  intros H K B. unfold parse_disjoint in H. inv_p. rewrite Es in *.
  apply (call_sem is_true nu) in H; [|exact B]. destruct H as [_ H].
  destruct (parse_disjoint_elems_spec nu _ _ _ _ H0) as (E1 & E2 & E0 & E3). unfold atom_spec. rewrite Es0. split; [apply (proj1 H)|].
  split; [exact E1|]. split; [exact E2|]. intros rho R. destruct (E3 rho R) as (ivs & G1 & G2).
  eapply Sem_iff; [|exact H]. intros I _. unfold atom_means. rewrite K. cbn [call_holds].
  assert (X : pairwise (fun p q => ~ overlap p q) ivs <->
     pairwise (fun e1 e2 : Z * var => nu (snd e1) + fst e1 <= nu (snd e2) \/ nu (snd e2) + fst e2 <= nu (snd e1)) a0).
  { rewrite <- (pairwise_filter _ (fun i => 0 <? snd i) ivs).
    - rewrite <- G2, pairwise_map. apply pairwise_ext. intros [w v] [w2 v2] I1 I2. rewrite Forall_forall in E0. apply E0 in I1, I2. cbn [fst snd] in *.
      apply overlap_pos; lia.
    - intros [x w] [y v] Hn (z & A & C). cbn [fst snd] in *. lia. }
  split.
  - intros Q. exists ivs. split; [exact G1|]. intros T. apply X. exact (Q T).
  - intros (ivs' & F & Q) T. rewrite (Forall2_fun _ (interval_den_fun rho) _ _ _ F G1) in Q. apply X. exact (Q T).
Qed.

(** *** Domains *)
Lemma parse_dom_elem_spec t l r : parse_dom_elem t = Ok (l, r) -> forall z, l <= z < r <-> dom_lists t z.
Proof.
  unfold parse_dom_elem, op2. intros H z.
  assert (V : forall t', t' = t -> (s <- evaluate t' ;; a <- num_of s ;; r <- safe_add int32 a 1 ;; Ok (a, r)) = Ok (l, r) ->
     (forall a b, t <> TFun ".." [a; b]) -> (l <= z < r <-> dom_lists t z)).
  { intros t' -> H' N. clear H. inv_ok. apply evaluate_ground in H. destruct a; try discriminate. cbn [num_of] in *. inv_ok. apply safe_add_val in H1. subst.
    split; [intros L; assert (z = l) by lia; subst; constructor; assumption|]. intros D. inversion D; subst; [exfalso; eapply N; reflexivity|].
    match goal with A : ground t (SNum l), B : ground t (SNum z) |- _ => pose proof (ground_fun _ _ A _ B) as E; injection E as -> end. lia. }
  destruct t as [n|n|name [|x [|y [|w q]]]|q|q]; try (eapply V; [reflexivity|exact H|discriminate]).
  destruct (String.eqb_spec name "..") as [->|N]; [|eapply V; [reflexivity|exact H|congruence]].
  clear V. inv_ok. apply evaluate_ground in H0, H2. destruct a; try discriminate. destruct a1; try discriminate. cbn [num_of] in *. inv_ok.
  match goal with S : safe_add _ _ _ = _ |- _ => apply safe_add_val in S end. subst.
  split; [intros L; econstructor; eauto; lia|]. intros D. inversion D; subst.
  - match goal with A : ground x _, B : ground x _, C : ground y _, E : ground y _ |- _ => pose proof (ground_fun _ _ A _ B) as E1; pose proof (ground_fun _ _ C _ E) as E2 end. injection E1 as ->. injection E2 as ->. lia.
  - exfalso. match goal with A : ground (TFun ".." _) _ |- _ => inversion A; subst end. discriminate.
Qed.

Lemma parse_dom_elems_spec es : forall dom res, parse_dom_elems es dom = Ok res -> wf dom ->
  wf res /\ (forall z, mem res z <-> mem dom z \/ exists t, In ([t], true) es /\ dom_lists t z) /\
  ((forall z, mem dom z -> valid z) -> forall z, mem res z -> valid z).
Proof.
  induction es as [|[[|t [|t2 ts]] c] es IH]; cbn [parse_dom_elems]; intros dom res H W; try discriminate.
  - inv_ok. split; [exact W|]. split; [|auto]. intros z. split; [auto|]. intros [?|(t & [] & _)]. assumption.
  - destruct c; [|discriminate]. inv_ok. destruct a as [l r]. pose proof (parse_dom_elem_spec _ _ _ H0) as D.
    destruct (l <? r) eqn:L.
    + inv_ok. apply check_valid_val in H1, H3. apply safe_sub_val in H2. subst.
      destruct (IH _ _ H (add_wf _ _ _ W)) as (A & B & C). split; [exact A|]. split.
      * intros z. rewrite B, add_mem, D by exact W. split.
        -- intros [[?|?]|(t' & I1 & I2)]; [right; exists t; cbn; auto|auto|right; exists t'; cbn; auto].
        -- intros [?|(t' & [E|I1] & I2)]; [auto|injection E as <-; auto|right; exists t'; auto].
      * intros Vd. apply C. intros z M. apply add_mem in M; [|exact W]. destruct M as [M|M]; [|auto]. unfold valid in *. lia.
    + destruct (IH _ _ H W) as (A & B & C). split; [exact A|]. split; [|exact C]. intros z. rewrite B. split.
      * intros [?|(t' & I1 & I2)]; [auto|right; exists t'; cbn; auto].
      * intros [?|(t' & [E|I1] & I2)]; [auto|injection E as <-; apply D in I2; lia|right; exists t'; auto].
Qed.

Lemma parse_dom_sem nu a st st' : parse_dom ret a st = Ok (true, st') -> a_kind a = KDom ->
  below (b_next (snd st)) (a_lit a) -> atom_spec nu a (fst st) (fst st') (snd st) (snd st').
Proof.
  intros H K B. unfold parse_dom in H. inv_p. destruct (a_guard a) as [[op g]|] eqn:G; [|discriminate]. inv_p.
  rewrite Es in *. apply (call_sem is_true nu) in H; [|exact B]. destruct H as [_ H].
  apply evaluate_ground in H1. destruct (add_variable_spec _ _ _ _ H2) as (V1 & V2 & V3). unfold atom_spec. rewrite Es0. split; [apply (proj1 H)|].
  destruct (parse_dom_elems_spec _ _ _ H0 I) as (_ & M & _).
  split; [exact V1|]. split; [exact V3|]. intros rho R.
  eapply Sem_iff; [|exact H]. intros I _. unfold atom_means. rewrite K. cbn [call_holds].
  change (exists x y : Z, In (x, y) a0 /\ x <= nu a2 < y) with (mem a0 (nu a2)). rewrite M.
  rewrite (R _ _ V2). split.
  - intros Q. exists op, g, a1. split; [exact G|]. split; [exact H1|]. intros T. destruct (Q T) as [N|N]; [destruct (mem_nil _ N)|exact N].
  - intros (op' & g' & s' & Eg & Gg & Q) T. rewrite G in Eg. injection Eg as <- <-. rewrite (ground_fun _ _ H1 _ Gg). right. auto.
Qed.

(** *** Show and objective *)
Lemma call_true_sem nu c s b s' : call ret c s = Ok (b, s') -> call_below (b_next s) c -> (forall I, call_holds I nu c) ->
  b_next s' = b_next s /\ Sem is_true nu s s' (fun _ => True).
Proof.
  unfold call. intros H B T. injection H as _ <-. cbn [b_next]. split; [reflexivity|]. split; [cbn; lia|]. exists [c]. cbn [b_log b_next].
  split; [reflexivity|]. split; [constructor; [exact B|constructor]|]. split; [auto|].
  intros I O _. exists I. split; [intros i _; reflexivity|]. split; [exact O|]. constructor; [apply T|constructor].
Qed.
Lemma Sem_true_trans nu s s1 s2 : Sem is_true nu s s1 (fun _ => True) -> Sem is_true nu s1 s2 (fun _ => True) -> Sem is_true nu s s2 (fun _ => True).
Proof. intros A B. eapply Sem_iff; [|eapply Sem_seq; [exact A|exact B|intros I J _; split; auto]]. cbn. tauto. Qed.

Lemma add_min_sem nu factor ts : forall st u st', add_min ret factor ts st = Ok (u, st') ->
  fst st' = fst st /\ Sem is_true nu (snd st) (snd st') (fun _ => True) /\
  exists new, b_log (snd st') = b_log (snd st) ++ new /\ obj_val nu new = factor * terms_val (key_val nu) ts.
Proof.
  induction ts as [|[co v] ts IH]; cbn [add_min]; intros st u st' H.
  - inv_ok. split; [reflexivity|]. split; [apply Sem_refl|]. exists []. rewrite app_nil_r. split; [reflexivity|cbn; lia].
  - inv_p. destruct (IH _ _ _ H) as (F1 & F2 & new & F3 & F4).
    pose proof H1 as H1'. apply (call_true_sem nu) in H1; [|exact Logic.I|intros; exact Logic.I]. destruct H1 as [_ S].
    split; [congruence|]. split; [eapply Sem_true_trans; eauto|].
    unfold call in H1'. injection H1' as _ E. exists (BMin a v :: new). rewrite F3, <- E. cbn [b_log]. rewrite <- app_assoc. split; [reflexivity|].
    cbn [obj_val terms_val]. rewrite F4. apply safe_mul_val in H0. subst a. destruct v; cbn [ov key_val]; lia.
Qed.

Lemma parse_objective_sem nu a factor st u st' : parse_objective ret a factor st = Ok (u, st') ->
  extends (fst st) (fst st') /\ (tab_wf (fst st) -> tab_wf (fst st')) /\ Sem is_true nu (snd st) (snd st') (fun _ => True) /\
  exists new, b_log (snd st') = b_log (snd st) ++ new /\
    forall rho, tab_agrees rho nu (fst st') -> exists x, den_elems (den rho) (a_elems a) x /\ obj_val nu new = factor * x.
Proof.
  unfold parse_objective. intros H. inv_p. destruct (add_min_sem nu _ _ _ _ _ H) as (F1 & F2 & new & F3 & F4).
  apply (parse_elems_sum_spec lkey (key_val nu) nu) in H0; [|apply lkey_compat]. destruct H0 as (E1 & E2 & E3). rewrite F1, <- Es.
  split; [exact E1|]. split; [exact E2|]. split; [exact F2|]. exists new. split; [exact F3|].
  intros rho R. destruct (E3 rho R) as (x & y & X & -> & V). exists x. split; [exact X|]. rewrite F4, V. lia.
Qed.

Lemma parse_show_elem_sem nu t st u st' : parse_show_elem ret t st = Ok (u, st') ->
  extends (fst st) (fst st') /\ (tab_wf (fst st) -> tab_wf (fst st')) /\ Sem is_true nu (snd st) (snd st') (fun _ => True) /\
  exists new, b_log (snd st') = b_log (snd st) ++ new /\ obj_val nu new = 0.
Proof.
  assert (C : forall c s b s', call ret c s = Ok (b, s') -> b_log s' = b_log s ++ [c]) by (unfold call; intros c s b s' E; injection E as _ <-; reflexivity).
  assert (L : forall st u st', (s <~ slift (evaluate t) ;;
      match s with
      | SNum _ => slift (Throw Syntax)
      | _ => v <~ on_tab (add_variable s) ;; _ <~ on_bld (call ret (BShowVar v)) ;; sret tt
      end) st = Ok (u, st') ->
    extends (fst st) (fst st') /\ (tab_wf (fst st) -> tab_wf (fst st')) /\ Sem is_true nu (snd st) (snd st') (fun _ => True) /\
    exists new, b_log (snd st') = b_log (snd st) ++ new /\ obj_val nu new = 0).
  { clear st u st'. intros st u st' H. inv_p. destruct a; [discriminate| |]; inv_p;
      destruct (add_variable_spec _ _ _ _ H1) as (V1 & V2 & V3); rewrite Es0, <- Es; (split; [exact V1|]); (split; [exact V3|]);
      (split; [apply (call_true_sem nu) in H2; [exact (proj2 H2)|exact Logic.I|intros; exact Logic.I]|]);
      (eexists; split; [apply (C _ _ _ _ H2)|reflexivity]). }
  unfold parse_show_elem, op2. intros H.
  destruct t as [n|n|name [|x [|y [|w q]]]|q|q]; try (apply (L _ _ _ H)).
  destruct (String.eqb name "/"); [|apply (L _ _ _ H)]. inv_p. destruct a as [|s|nm [|] p]; try discriminate. inv_p.
  rewrite Es. split; [apply extends_refl|]. split; [auto|].
  split; [apply (call_true_sem nu) in H3; [exact (proj2 H3)|exact Logic.I|intros; exact Logic.I]|].
  eexists. split; [apply (C _ _ _ _ H3)|reflexivity].
Qed.

Lemma obj_val_app nu a b : obj_val nu (a ++ b) = obj_val nu a + obj_val nu b.
Proof. induction a as [|c a IH]; [reflexivity|]. destruct c; cbn [obj_val app]; lia. Qed.

Lemma parse_show_sem nu a st u st' : parse_show ret a st = Ok (u, st') ->
  extends (fst st) (fst st') /\ (tab_wf (fst st) -> tab_wf (fst st')) /\ Sem is_true nu (snd st) (snd st') (fun _ => True) /\
  exists new, b_log (snd st') = b_log (snd st) ++ new /\ obj_val nu new = 0.
Proof.
  assert (L : forall es st u st', parse_show_elems ret es st = Ok (u, st') ->
    extends (fst st) (fst st') /\ (tab_wf (fst st) -> tab_wf (fst st')) /\ Sem is_true nu (snd st) (snd st') (fun _ => True) /\
    exists new, b_log (snd st') = b_log (snd st) ++ new /\ obj_val nu new = 0).
  { clear. induction es as [|[[|t [|t2 ts]] c] es IH]; cbn [parse_show_elems]; intros st u st' H; try discriminate.
    - inv_ok. split; [apply extends_refl|]. split; [auto|]. split; [apply Sem_refl|]. exists []. rewrite app_nil_r. auto.
    - destruct c; [|discriminate]. inv_p. destruct (parse_show_elem_sem nu _ _ _ _ H0) as (A1 & A2 & A3 & n1 & A4 & A5).
      destruct (IH _ _ _ H) as (B1 & B2 & B3 & n2 & B4 & B5). split; [eapply extends_trans; eauto|]. split; [auto|].
      split; [eapply Sem_true_trans; eauto|]. exists (n1 ++ n2). rewrite B4, A4, app_assoc, obj_val_app. split; [reflexivity|lia]. }
  unfold parse_show. intros H. inv_p. destruct (L _ _ _ _ H) as (A1 & A2 & A3 & n1 & A4 & A5). rewrite Es in A1, A2.
  split; [exact A1|]. split; [exact A2|].
  pose proof H0 as H0'. apply (call_true_sem nu) in H0; [|exact Logic.I|intros; exact Logic.I].
  split; [eapply Sem_true_trans; [exact (proj2 H0)|exact A3]|].
  unfold call in H0'. injection H0' as _ E. exists (BShow :: n1). rewrite A4, <- E. cbn [b_log]. rewrite <- app_assoc. split; [reflexivity|exact A5].
Qed.

(** *** Nonlinear constraints *)
Lemma nonlin_scan_noprod nu es : forall a va vb c vc a' va' vb' c' vc',
  nonlin_scan es (a, va, vb, c, vc) = Ok (a', va', vb', c', vc') ->
  filter (fun k => Nat.eqb (List.length k) 2) (map snd es) = [] -> Forall (fun k => k <> []) (map snd es) ->
  nonlin_val nu a' va' vb' c' vc' = nonlin_val nu a va vb c vc + terms_val (prod_val nu) es.
Proof.
  induction es as [|[co [|v [|w [|x r]]]] es IH]; cbn [nonlin_scan map snd filter List.length Nat.eqb]; intros a va vb c vc a' va' vb' c' vc' H N F; try discriminate.
  - injection H as -> -> -> -> ->. cbn [terms_val]. lia.
  - inversion_clear F. congruence.
  - destruct (Z.eqb_spec c 0) as [->|]; [|discriminate]. inversion_clear F. rewrite (IH _ _ _ _ _ _ _ _ _ _ H N H1).
    unfold nonlin_val. cbn [terms_val prod_val ov]. lia.
Qed.
Lemma nonlin_scan_val nu es : forall va vb c vc a' va' vb' c' vc',
  nonlin_scan es (0, va, vb, c, vc) = Ok (a', va', vb', c', vc') ->
  one_product (map snd es) -> Forall (fun k => k <> []) (map snd es) ->
  nonlin_val nu a' va' vb' c' vc' = nonlin_val nu 0 va vb c vc + terms_val (prod_val nu) es.
Proof.
  unfold one_product.
  induction es as [|[co [|v [|w [|x r]]]] es IH]; cbn [nonlin_scan map snd filter List.length Nat.eqb]; intros va vb c vc a' va' vb' c' vc' H N F; try discriminate.
  - injection H as <- -> -> -> ->. cbn [terms_val]. lia.
  - inversion_clear F. congruence.
  - destruct (Z.eqb_spec c 0) as [->|]; [|discriminate]. inversion_clear F. rewrite (IH _ _ _ _ _ _ _ _ _ H N H1).
    unfold nonlin_val. cbn [terms_val prod_val ov]. lia.
  - destruct (Z.eqb_spec c 0) as [->|]; [|discriminate]. inversion_clear F.
    rewrite (nonlin_scan_noprod nu _ _ _ _ _ _ _ _ _ _ _ H); [|apply length_zero_iff_nil; lia|assumption].
    unfold nonlin_val. cbn [terms_val prod_val ov]. lia.
Qed.

Definition nl_keys (ks : list (list var)) : Prop := one_product ks /\ Forall (fun k => k <> []) ks.

Lemma addc_n_sem nu l es rhs strict s s' : addc_n ret l es rhs strict s = Ok (true, s') -> below (b_next s) l -> nl_keys (map snd es) ->
  Sem is_true nu s s' (reif l strict (terms_val (prod_val nu) es <= rhs)).
Proof.
  unfold addc_n. intros H B [N F]. inv_ok. destruct a as [[[[co_ab va] vb] co_c] vc].
  apply (call_sem is_true nu) in H; [|exact B]. destruct H as [_ H].
  eapply Sem_iff; [|exact H]. intros I _. unfold reif. cbn [call_holds]. rewrite (nonlin_scan_val nu _ _ _ _ _ _ _ _ _ _ H0 N F).
  replace (nonlin_val nu 0 None None 0 None) with 0 by reflexivity. reflexivity.
Qed.

Theorem constrain_n_sem nu l ts op strict s s' es rhs :
  constrain_n is_true ret l ts op strict s = Ok (true, s') -> below (b_next s) l -> bounded_by is_true (b_next s) ->
  simplify_n true ts = Ok (es, rhs) -> one_product (map snd es) ->
  Sem is_true nu s s' (reif l strict (holds op (terms_val (prod_val nu) ts) 0)).
Proof.
  unfold constrain_n. intros H B Bn S N. inv_ok. destruct a as [es1 rhs1]. rewrite S in H0. injection H0 as <- <-.
  destruct (gcd_reduce es rhs) as [es' rhs'] eqn:G.
  apply simplify_n_spec in S. destruct S as (V & _ & NE & _). apply gcd_reduce_spec in G. destruct G as (Gk & G & _).
  apply (normalize_sem is_true nu ret (prod_val nu) _ nl_keys) in H; auto; [|intros; eapply addc_n_sem; eauto|rewrite Gk; split; assumption].
  eapply Sem_iff; [|exact H]. intros I _. unfold reif. rewrite G.
  assert (E : holds op (terms_val (prod_val nu) es) rhs <-> holds op (terms_val (prod_val nu) ts) 0).
  { rewrite (V nu). destruct op; cbn [holds]; lia. }
  rewrite E. reflexivity.
Qed.

Lemma parse_constraint_n_sem nu a strict st st' :
  parse_constraint_n is_true ret a strict st = Ok (true, st') ->
  below (b_next (snd st)) (a_lit a) -> bounded_by is_true (b_next (snd st)) -> a_kind a = KNsum strict ->
  one_product_atom a (fst st) -> atom_spec nu a (fst st) (fst st') (snd st) (snd st').
Proof.
  intros H B Bn K OP. unfold parse_constraint_n in H. destruct (a_guard a) as [[op g]|] eqn:G; [|discriminate].
  inv_p. rewrite Es in *. pose proof H as H'. unfold constrain_n in H'. inv_ok. destruct a1 as [es rhs]. clear H'.
  rename H1 into S. eapply (constrain_n_sem nu) in H; eauto. unfold atom_spec. rewrite Es0. split; [apply (proj1 H)|].
  apply (parse_elems_sum_spec nkey (prod_val nu) nu) in H0; [|apply nkey_compat]. destruct H0 as (E1 & E2 & E3).
  split; [exact E1|]. split; [exact E2|]. intros rho R. destruct (E3 rho R) as (x & y & X & Y & V).
  eapply Sem_iff; [|exact H]. intros I _. unfold atom_means. rewrite K, V. unfold reif. rewrite holds_sub. split.
  - intros Q. exists op, g, x, y. unfold reified. auto.
  - intros (op' & g' & x' & y' & Eg & X' & Y' & Q). rewrite G in Eg. injection Eg as <- <-.
    rewrite (den_elems_fun _ (fun t x H => den_fun rho t x H) _ _ X _ X'), (den_fun rho _ _ Y _ Y'). exact Q.
Qed.

(** *** Whole programs *)
Lemma parse_atom_sem nu a st st' : parse_atom is_true ret a st = Ok (true, st') ->
  below (b_next (snd st)) (a_lit a) -> bounded_by is_true (b_next (snd st)) -> atom_fine a (fst st) ->
  atom_spec nu a (fst st) (fst st') (snd st) (snd st').
Proof.
  intros H B Bn Fi. unfold parse_atom in H. unfold atom_fine in Fi.
  assert (M : forall P, extends (fst st) (fst st') /\ (tab_wf (fst st) -> tab_wf (fst st')) /\ Sem is_true nu (snd st) (snd st') (fun _ => True) /\ P ->
    (forall rho I, atom_means rho a I) -> atom_spec nu a (fst st) (fst st') (snd st) (snd st')).
  { intros P (A1 & A2 & A3 & _) T. split; [apply (proj1 A3)|]. split; [exact A1|]. split; [exact A2|]. intros rho _. eapply Sem_iff; [|exact A3]. cbn. intros. split; auto. }
  destruct (a_kind a) eqn:K.
  - apply (parse_constraint_sem nu) in H; auto.
  - apply (parse_constraint_sem nu) in H; auto.
  - apply (parse_constraint_n_sem nu) in H; auto.
  - apply (parse_distinct_sem nu) in H; auto.
  - apply (parse_disjoint_sem nu) in H; auto.
  - inv_ok. eapply M; [eapply parse_show_sem; eassumption|]. intros. unfold atom_means. rewrite K. exact Logic.I.
  - apply (parse_dom_sem nu) in H; auto.
  - inv_ok. eapply M; [eapply parse_objective_sem; eassumption|]. intros. unfold atom_means. rewrite K. exact Logic.I.
  - inv_ok. eapply M; [eapply parse_objective_sem; eassumption|]. intros. unfold atom_means. rewrite K. exact Logic.I.
  - inv_ok. apply (M True); [|intros; unfold atom_means; rewrite K; exact Logic.I]. split; [apply extends_refl|]. split; [auto|]. split; [apply Sem_refl|exact Logic.I].
Qed.

Lemma atom_means_dep rho a n : below n (a_lit a) -> dep n (atom_means rho a).
Proof.
  intros B I J A. unfold atom_means, reified. pose proof (lit_true_agree n I J (a_lit a) A B) as E.
  destruct (a_kind a); try exact (fun H => H).
  - intros (op & g & x & y & H). exists op, g, x, y. rewrite <- E. exact H.
  - intros (op & g & x & y & H). exists op, g, x, y. rewrite <- E. exact H.
  - intros (op & g & x & y & H). exists op, g, x, y. rewrite <- E. exact H.
  - intros (xs & H). exists xs. rewrite <- E. exact H.
  - intros (xs & H). exists xs. rewrite <- E. exact H.
  - intros (op & g & s & H). exists op, g, s. rewrite <- E. exact H.
Qed.

Theorem parse_sem nu atoms : forall st st', parse is_true ret atoms st = Ok (true, st') ->
  Forall (fun a => below (b_next (snd st)) (a_lit a)) atoms -> bounded_by is_true (b_next (snd st)) -> program_fine atoms st ->
  b_next (snd st) <= b_next (snd st') /\ extends (fst st) (fst st') /\ (tab_wf (fst st) -> tab_wf (fst st')) /\
  forall rho, tab_agrees rho nu (fst st') -> Sem is_true nu (snd st) (snd st') (fun I => Forall (fun a => atom_means rho a I) atoms).
Proof.
  induction atoms as [|a r IH]; cbn [parse program_fine]; intros st st' H F Bn P.
  - inv_ok. split; [lia|]. split; [apply extends_refl|]. split; [auto|]. intros. eapply Sem_iff; [|apply Sem_refl]. cbn. intros. split; intros; [constructor|exact Logic.I].
  - apply sbind_ok in H. destruct H as (b & s1 & H1 & H). destruct b; [|discriminate].
    inversion_clear F as [|? ? Ba Fr]. destruct P as [P1 P2]. specialize (P2 _ H1).
    apply (parse_atom_sem nu) in H1; auto. destruct H1 as (A0 & A1 & A2 & A3).
    apply IH in H; [|eapply Forall_impl; [|exact Fr]; intros x; apply below_mono; exact A0|exact (bounded_mono is_true _ _ A0 Bn)|exact P2].
    destruct H as (B0 & B1 & B2 & B3).
    split; [lia|]. split; [eapply extends_trans; eauto|]. split; [auto|]. intros rho R.
    eapply Sem_iff; [|eapply Sem_seq; [apply A3; eapply tab_agrees_ext; eauto|apply B3, R|]].
    + intros I _. rewrite Forall_cons_iff. reflexivity.
    + intros I J A. rewrite !Forall_forall. intros X x Hx. rewrite Forall_forall in Fr. eapply atom_means_dep; eauto.
Qed.

(** The objective collected over a program: no other statement contributes to it. *)
Definition no_min (c : bcall) : Prop := match c with BMin _ _ => False | _ => True end.
Definition emits {A} (m : SM bst A) : Prop := forall s a s', m s = Ok (a, s') -> exists new, b_log s' = b_log s ++ new /\ Forall no_min new.
Lemma emits_ret {A} (a : A) : emits (sret a).
Proof. intros s x s' H. inv_ok. exists []. rewrite app_nil_r. split; [reflexivity|constructor]. Qed.
Lemma emits_lift {A} (a : outcome A) : emits (slift a).
Proof. intros s x s' H. apply slift_ok in H. destruct H as [_ ->]. exists []. rewrite app_nil_r. split; [reflexivity|constructor]. Qed.
Lemma emits_new : emits new_lit.
Proof. intros s x s' H. injection H as _ <-. exists []. rewrite app_nil_r. split; [reflexivity|constructor]. Qed.
Lemma emits_bind {A B} (m : SM bst A) (k : A -> SM bst B) : emits m -> (forall a, emits (k a)) -> emits (sbind m k).
Proof.
  intros E F s x s' H. apply sbind_ok in H. destruct H as (a & s1 & H1 & H2). destruct (E _ _ _ H1) as (n1 & A1 & B1). destruct (F _ _ _ _ H2) as (n2 & A2 & B2).
  exists (n1 ++ n2). rewrite A2, A1, app_assoc. split; [reflexivity|apply Forall_app; auto].
Qed.
Lemma emits_call c : no_min c -> emits (call ret c).
Proof. intros N s x s' H. injection H as _ <-. exists [c]. split; [reflexivity|constructor; [exact N|constructor]]. Qed.
Lemma emits_andthen m k : emits m -> emits k -> emits (andthen m k).
Proof. intros A B. unfold andthen. apply emits_bind; [exact A|]. intros []; [exact B|apply emits_ret]. Qed.

Lemma emits_normalize {K} (addc : lit -> list (Z * K) -> Z -> bool -> SM bst bool) :
  (forall l es rhs st, emits (addc l es rhs st)) -> forall fuel l es op rhs strict, emits (normalize is_true ret addc fuel l es op rhs strict).
Proof.
  intros A. induction fuel as [|fuel IH]; intros l es op rhs strict; [intros s x s' H; discriminate|]. cbn [normalize].
  apply emits_bind; [apply emits_lift|]. intros [op1 rhs1]. apply emits_bind; [apply emits_lift|]. intros [[op2 rhs2] el].
  repeat first [ apply emits_andthen | apply emits_call; exact Logic.I | apply emits_ret | apply A | apply IH | apply emits_new
    | apply emits_bind; [|intros ?] | match goal with |- emits (match ?x with _ => _ end) => destruct x end ].
Qed.

Lemma emits_constrain_l l ts op strict : emits (constrain_l is_true ret l ts op strict).
Proof.
  unfold constrain_l. apply emits_bind; [apply emits_lift|]. intros [es rhs]. destruct (gcd_reduce es rhs). apply emits_normalize.
  intros. unfold addc_l. apply emits_bind; [apply emits_lift|]. intros. apply emits_call. exact Logic.I.
Qed.
Lemma emits_constrain_n l ts op strict : emits (constrain_n is_true ret l ts op strict).
Proof.
  unfold constrain_n. apply emits_bind; [apply emits_lift|]. intros [es rhs]. destruct (gcd_reduce es rhs). apply emits_normalize.
  intros. unfold addc_n. apply emits_bind; [apply emits_lift|]. intros [[[[? ?] ?] ?] ?]. apply emits_call. exact Logic.I.
Qed.
Lemma no_min_obj nu new : Forall no_min new -> obj_val nu new = 0.
Proof. induction 1 as [|c r H F IH]; [reflexivity|]. destruct c; cbn [obj_val no_min] in *; easy. Qed.

Lemma parse_atom_obj nu a st st' : parse_atom is_true ret a st = Ok (true, st') ->
  exists new, b_log (snd st') = b_log (snd st) ++ new /\
  match a_kind a with
  | KMinimize => forall rho, tab_agrees rho nu (fst st') -> exists x, den_elems (den rho) (a_elems a) x /\ obj_val nu new = x
  | KMaximize => forall rho, tab_agrees rho nu (fst st') -> exists x, den_elems (den rho) (a_elems a) x /\ obj_val nu new = - x
  | _ => obj_val nu new = 0
  end.
Proof.
  intros H. unfold parse_atom in H.
  assert (E : forall (m : SM bst bool) s b s', emits m -> m s = Ok (b, s') -> exists new, b_log s' = b_log s ++ new /\ obj_val nu new = 0).
  { intros m s b s' X Y. destruct (X _ _ _ Y) as (n & N1 & N2). exists n. split; [exact N1|apply no_min_obj, N2]. }
  destruct (a_kind a).
  - unfold parse_constraint_l in H. destruct (a_guard a) as [[op g]|]; [|discriminate]. inv_p. rewrite <- Es. eapply E; [apply emits_constrain_l|exact H].
  - unfold parse_constraint_l in H. destruct (a_guard a) as [[op g]|]; [|discriminate]. inv_p. rewrite <- Es. eapply E; [apply emits_constrain_l|exact H].
  - unfold parse_constraint_n in H. destruct (a_guard a) as [[op g]|]; [|discriminate]. inv_p. rewrite <- Es. eapply E; [apply emits_constrain_n|exact H].
  - unfold parse_distinct in H. inv_p. rewrite <- Es. eapply E; [|exact H]. apply emits_call; exact Logic.I.
  - unfold parse_disjoint in H. inv_p. rewrite <- Es. eapply E; [|exact H]. apply emits_call; exact Logic.I.
  - inv_ok. apply (parse_show_sem nu) in H0. apply H0.
  - unfold parse_dom in H. inv_p. destruct (a_guard a) as [[op g]|]; [|discriminate]. inv_p. rewrite <- Es. eapply E; [|exact H]. apply emits_call; exact Logic.I.
  - inv_ok. apply (parse_objective_sem nu) in H0. destruct H0 as (_ & _ & _ & new & L & X). exists new. split; [exact L|]. intros rho R.
    destruct (X rho R) as (x & D & V). exists x. split; [exact D|lia].
  - inv_ok. apply (parse_objective_sem nu) in H0. destruct H0 as (_ & _ & _ & new & L & X). exists new. split; [exact L|]. intros rho R.
    destruct (X rho R) as (x & D & V). exists x. split; [exact D|lia].
  - inv_ok. exists []. rewrite app_nil_r. auto.
Qed.

Theorem parse_obj nu atoms : forall st st', parse is_true ret atoms st = Ok (true, st') ->
  Forall (fun a => below (b_next (snd st)) (a_lit a)) atoms -> bounded_by is_true (b_next (snd st)) -> program_fine atoms st ->
  exists new, b_log (snd st') = b_log (snd st) ++ new /\
    forall rho, tab_agrees rho nu (fst st') -> objective rho atoms (obj_val nu new).
Proof.
  induction atoms as [|a r IH]; cbn [parse program_fine]; intros st st' H F Bn P.
  - inv_ok. exists []. rewrite app_nil_r. split; [reflexivity|]. constructor.
  - apply sbind_ok in H. destruct H as (b & s1 & H1 & H). destruct b; [|discriminate].
    inversion_clear F as [|? ? Ba Fr]. destruct P as [P1 P2]. specialize (P2 _ H1).
    destruct (parse_atom_obj nu _ _ _ H1) as (n1 & L1 & V1).
    apply (parse_atom_sem nu) in H1; auto. destruct H1 as (A0 & A1 & A2 & A3).
    assert (Fr' : Forall (fun a => below (b_next (snd s1)) (a_lit a)) r) by (eapply Forall_impl; [|exact Fr]; intros x; apply below_mono; exact A0).
    assert (Bn' : bounded_by is_true (b_next (snd s1))) by exact (bounded_mono is_true _ _ A0 Bn).
    destruct (parse_sem nu _ _ _ H Fr' Bn' P2) as (_ & B1 & _).
    apply IH in H; auto. destruct H as (n2 & L2 & V2).
    exists (n1 ++ n2). split; [rewrite L2, L1, app_assoc; reflexivity|]. intros rho R. rewrite obj_val_app.
    specialize (V2 rho R). pose proof (tab_agrees_ext _ _ _ _ B1 R) as R1.
    destruct (a_kind a) eqn:K; try (rewrite V1, Z.add_0_l; apply o_skip; [congruence..|exact V2]).
    + destruct (V1 rho R1) as (x & D & ->). apply o_min; auto.
    + destruct (V1 rho R1) as (x & D & ->). apply o_max; auto.
Qed.
End P.

(** Every assignment to the variables gives one to the names, and back. *)
Definition name_val (t : symtab) (nu : var -> Z) (s : sym) : Z :=
  match sym_find s (st_map t) with Some v => nu v | None => 0 end.
Definition var_val (t : symtab) (rho : sym -> Z) (v : var) : Z :=
  match find (fun e => Nat.eqb (snd e) v) (st_map t) with Some (s, _) => rho s | None => 0 end.

Lemma name_val_agrees t nu : tab_wf t -> tab_agrees (name_val t nu) nu t.
Proof.
  intros (W & _ & _) s v H. unfold name_val. destruct (sym_find s (st_map t)) as [w|] eqn:F.
  - apply sym_find_in in F. f_equal. revert W H F. generalize (st_map t). intros m. induction m as [|[a b] m IH]; cbn [map fst]; intros W H F; [destruct H|].
    inversion_clear W. destruct H as [E|H], F as [G|F].
    + congruence.
    + injection E as -> ->. destruct H0. apply in_map_iff. exists (s, w). auto.
    + injection G as -> ->. destruct H0. apply in_map_iff. exists (s, v). auto.
    + auto.
  - exfalso. eapply sym_find_none; eauto.
Qed.
Lemma var_val_agrees t rho : tab_wf t -> tab_agrees rho (var_val t rho) t.
Proof.
  intros (_ & W & _) s v H. unfold var_val. revert W H. generalize (st_map t). intros m. induction m as [|[a b] m IH]; cbn [map snd find]; intros W H; [destruct H|].
  inversion_clear W. destruct (Nat.eqb_spec b v) as [->|N].
  - destruct H as [E|H]; [congruence|]. destruct H0. apply in_map_iff. exists (s, v). auto.
  - destruct H as [E|H]; [congruence|]. auto.
Qed.
