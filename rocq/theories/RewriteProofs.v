(** Proofs about the rewriting of statements. *)
From Coq Require Import String.
From Verif Require Import Base Terms Rewrite RewriteSpec.
Open Scope Z_scope.

(** ** Shifting *)

Lemma existsb_eqb x l : existsb (String.eqb x) l = true <-> In x l.
Proof.
  rewrite existsb_exists. split.
  - intros [y [A B]]. apply String.eqb_eq in B. now subst.
  - intros A. exists x. split; [easy|apply String.eqb_refl].
Qed.
Lemma matches_in n names : matches n names = true <-> exists x, n = NFun x [] false /\ In x names.
Proof.
  split.
  - destruct n as [x [|a r] [|]|]; cbn; try discriminate. intros H. exists x. split; [easy|]. now apply existsb_eqb.
  - intros [x [-> H]]. cbn. now apply existsb_eqb.
Qed.
Lemma matches_sum n : matches n ["sum"; "diff"]%string = true <-> is_sum n.
Proof.
  rewrite matches_in. unfold is_sum. split; intros [x [A B]]; exists x; (split; [easy|]).
  - destruct B as [B|[B|[]]]; auto.
  - destruct B as [-> | ->]; cbn; auto.
Qed.

Lemma negate_ok op op' : negate_relation op = Ok op' ->
  forall x y, exists p q, compares op x y = Some p /\ compares op' x y = Some q /\ (q <-> ~ p).
Proof.
  unfold negate_relation. intros H x y.
  repeat match type of H with (if String.eqb op ?o then _ else _) = _ =>
    let E := fresh in destruct (String.eqb op o) eqn:E;
    [apply String.eqb_eq in E; rewrite E; injection H as <-; cbn;
     eexists; eexists; split; [reflexivity|]; split; [reflexivity|]; lia|] end.
  discriminate.
Qed.
Lemma negate_some op x y p : compares op x y = Some p -> exists op', negate_relation op = Ok op'.
Proof.
  unfold compares, negate_relation. intros H.
  repeat match type of H with (if String.eqb op ?o then _ else _) = _ =>
    destruct (String.eqb op o) eqn:?E; [eauto|] end.
  discriminate.
Qed.

Lemma proper_negate w a op op' t : proper w -> is_sum (ra_name a) -> ra_guard a = Some (op, t) -> negate_relation op = Ok op' ->
  (w_atom w (mkratom (ra_name a) (ra_elems a) (Some (op', t))) = true <-> w_atom w a = false).
Proof.
  intros P S G N. destruct (negate_ok _ _ N (w_elems w (ra_name a) (ra_elems a)) (w_guard w t)) as [p [q [A [B C]]]].
  pose proof (P _ _ _ _ S G A). pose proof (P (mkratom (ra_name a) (ra_elems a) (Some (op', t))) op' t q S eq_refl B) as D.
  rewrite D, C. destruct (w_atom w a); split; intros K; try easy; [exfalso; tauto|]. intros L. apply H in L. discriminate.
Qed.
Lemma shift_body_spec body : forall pre r, shift_body pre body = Ok r ->
  match r with
  | None => forall s a, In (LTheory s a) body -> ~ is_sum (ra_name a)
  | Some (h, b) => exists b1 s a op t b2, body = b1 ++ LTheory s a :: b2 /\ b = pre ++ b1 ++ b2 /\ is_sum (ra_name a) /\
      (forall s' a', In (LTheory s' a') b1 -> ~ is_sum (ra_name a')) /\ ra_guard a = Some (op, t) /\
      ((s = SNeg /\ h = a) \/
       (s <> SNeg /\ exists op', negate_relation op = Ok op' /\ h = mkratom (ra_name a) (ra_elems a) (Some (op', t))))
  end.
Proof.
  induction body as [|l body IH]; intros pre r H; cbn [shift_body] in H.
  - injection H as <-. intros s a [].
  - assert (Step : match l with LTheory _ a => ~ is_sum (ra_name a) | _ => True end -> shift_body (pre ++ [l]) body = Ok r ->
      match r with
      | None => forall s a, In (LTheory s a) (l :: body) -> ~ is_sum (ra_name a)
      | Some (h, b) => exists b1 s a op t b2, l :: body = b1 ++ LTheory s a :: b2 /\ b = pre ++ b1 ++ b2 /\ is_sum (ra_name a) /\
        (forall s' a', In (LTheory s' a') b1 -> ~ is_sum (ra_name a')) /\ ra_guard a = Some (op, t) /\
        ((s = SNeg /\ h = a) \/
         (s <> SNeg /\ exists op', negate_relation op = Ok op' /\ h = mkratom (ra_name a) (ra_elems a) (Some (op', t))))
      end).
    { intros N E. specialize (IH _ _ E). destruct r as [[h b]|].
      - destruct IH as (b1 & s & a & op & t & b2 & A & B & C & D & F & G).
        exists (l :: b1), s, a, op, t, b2. rewrite A, B. split; [easy|]. split; [now rewrite <- app_assoc|].
        split; [easy|]. split; [|split; easy]. intros s' a' [K|K]; [subst l; exact N|now apply (D s' a')].
      - intros s a [K|K]; [subst l; exact N|now apply (IH s a)]. }
    destruct l as [s a|n]; [|now apply Step].
    destruct (matches (ra_name a) _) eqn:M.
    + apply matches_sum in M. destruct (ra_guard a) as [[op t]|] eqn:G; [|discriminate].
      destruct s.
      1,3: destruct (negate_relation op) as [op'| |] eqn:N; cbn in H; try discriminate; injection H as <-;
        eexists [], _, a, op, t, body; split; [reflexivity|]; split; [reflexivity|]; split; [exact M|]; split; [easy|];
        split; [exact G|]; right; split; [discriminate|]; exists op'; easy.
      injection H as <-. exists [], SNeg, a, op, t, body. split; [reflexivity|]. split; [reflexivity|]. split; [exact M|]. split; [easy|].
      split; [exact G|]. now left.
    + apply Step; [|easy]. intros K. apply matches_sum in K. congruence.
Qed.

Definition false_head (s : sign) (v : bool) : bool :=
  negb ((negb v && match s with SNeg => true | _ => false end) || (v && match s with SNeg => false | _ => true end)).
Lemma false_head_ok w s v : if false_head s v then ~ head_holds w (HBool s v) else head_holds w (HBool s v).
Proof. destruct s, v; cbn; easy. Qed.

Lemma shift_cases st st' : shift_rule st = Ok st' ->
  st' = st \/
  exists s v b1 sg a op t b2 h, st = SRule (mkrrule (HBool s v) (b1 ++ LTheory sg a :: b2)) /\ false_head s v = true /\
    st' = SRule (mkrrule (HTheory h) (b1 ++ b2)) /\ is_sum (ra_name a) /\ ra_guard a = Some (op, t) /\
    (forall s' a', In (LTheory s' a') b1 -> ~ is_sum (ra_name a')) /\
    ((sg = SNeg /\ h = a) \/
     (sg <> SNeg /\ exists op', negate_relation op = Ok op' /\ h = mkratom (ra_name a) (ra_elems a) (Some (op', t)))).
Proof.
  destruct st as [[[s v|a|n] body]|n]; cbn [shift_rule]; try (intros H; injection H as <-; now left).
  destruct (_ || _) eqn:E; [intros H; injection H as <-; now left|].
  destruct (shift_body [] body) as [r| |] eqn:B; cbn; try discriminate.
  pose proof (shift_body_spec _ _ _ B) as P. destruct r as [[h b]|]; intros H; injection H as <-; [|now left].
  right. destruct P as (b1 & sg & a & op & t & b2 & X1 & X2 & X3 & X4 & X5 & X6). subst.
  exists s, v, b1, sg, a, op, t, b2, h. split; [reflexivity|]. split; [unfold false_head; now rewrite E|]. easy.
Qed.

Lemma shift_meaning st st' w : proper w -> shift_rule st = Ok st' -> (allows w st <-> allows w st').
Proof.
  intros P H. destruct (shift_cases _ _ H) as [->|(s & v & b1 & sg & a & op & t & b2 & h & -> & F & -> & S & G & _ & D)]; [easy|].
  cbn [allows r_body r_head]. pose proof (false_head_ok w s v) as FH. rewrite F in FH.
  assert (Lh : (head_holds w (HTheory h) -> ~ lit_holds w (LTheory sg a)) /\ (~ lit_holds w (LTheory sg a) -> head_holds w (HTheory h))).
  { destruct D as [[-> ->]|[N [op' [E ->]]]]; cbn.
    - destruct (w_atom w a); split; congruence.
    - pose proof (proper_negate w a op op' t P S G E) as Q. destruct sg; [| congruence |]; destruct (w_atom w a), (w_atom w _); split; try congruence; intros; try tauto; exfalso; intuition discriminate. }
  split.
  - intros A B. apply Lh. intros C. apply FH, A. intros l I. apply in_app_or in I. destruct I as [I|[I|I]]; [|subst l; exact C|];
      apply B, in_or_app; auto.
  - intros A B. exfalso. apply (proj1 Lh).
    + apply A. intros l I. apply B. apply in_app_or in I. apply in_or_app. cbn. tauto.
    + apply B. apply in_or_app. cbn. auto.
Qed.

Lemma shift_same st : ~ (integrity st /\ shiftable st) -> shift_rule st = Ok st.
Proof.
  intros N. destruct st as [[[s v|a|n] body]|n]; try reflexivity. cbn [shift_rule].
  destruct (_ || _) eqn:E; [reflexivity|].
  assert (F : false_head s v = true) by (unfold false_head; now rewrite E).
  assert (A : forall l pre, (forall s a, In (LTheory s a) l -> ~ is_sum (ra_name a)) -> shift_body pre l = Ok None).
  { induction l as [|x l IH]; intros pre H; [reflexivity|]. cbn [shift_body].
    assert (K : shift_body (pre ++ [x]) l = Ok None) by (apply IH; intros s' a' I; apply (H s' a'); now right).
    destruct x as [s' a|n]; [|exact K]. destruct (matches _ _) eqn:M; [|exact K].
    apply matches_sum in M. exfalso. apply (H s' a); [now left|exact M]. }
  rewrite A; [reflexivity|]. intros s' a I S. apply N. split.
  - exists (mkrrule (HBool s v) body), s, v. split; [easy|]. split; [easy|]. intros w. pose proof (false_head_ok w s v) as P. now rewrite F in P.
  - exists (mkrrule (HBool s v) body), s', a. easy.
Qed.

(** Rules that can be shifted are, unless a guard is missing or has an unknown relation. *)
Lemma shift_done st : integrity st -> shiftable st ->
  (forall a, In a (atoms_of st) -> is_sum (ra_name a) -> exists op t, ra_guard a = Some (op, t) /\ forall x y, compares op x y <> None) ->
  exists r h b1 sg a b2, st = SRule r /\ r_body r = b1 ++ LTheory sg a :: b2 /\ is_sum (ra_name a) /\
    (forall s' a', In (LTheory s' a') b1 -> ~ is_sum (ra_name a')) /\
    shift_rule st = Ok (SRule (mkrrule (HTheory h) (b1 ++ b2))) /\ ra_name h = ra_name a /\ ra_elems h = ra_elems a.
Proof.
  intros (r & s & v & -> & E & F) (r' & s0 & a0 & E1 & I0 & S0) G. injection E1 as <-.
  destruct r as [hd body]. cbn in E. subst hd. cbn [r_body r_head] in *.
  assert (FH : false_head s v = true).
  { pose proof (false_head_ok {| w_elems := fun _ _ => 0; w_guard := fun _ => 0; w_other := fun _ => true; w_atom := fun _ => true |} s v) as P.
    destruct (false_head s v); [reflexivity|]. exfalso. exact (F _ P). }
  assert (G' : forall s a, In (LTheory s a) body -> is_sum (ra_name a) -> exists op t op', ra_guard a = Some (op, t) /\ negate_relation op = Ok op').
  { intros s1 a1 I1 S1. destruct (G a1) as (op & t & A & B); [|exact S1|].
    - cbn. apply in_flat_map. exists (LTheory s1 a1). split; [exact I1|now left].
    - specialize (B 0 0). destruct (compares op 0 0) eqn:C; [|congruence]. apply negate_some in C. destruct C as [op' C]. exists op, t, op'. easy. }
  assert (A : forall l pre, (forall s a, In (LTheory s a) l -> In (LTheory s a) body) -> (exists s a, In (LTheory s a) l /\ is_sum (ra_name a)) ->
    exists h b, shift_body pre l = Ok (Some (h, b))).
  { induction l as [|x l IH]; intros pre Sub [s1 [a1 [I1 S1]]]; [easy|]. cbn [shift_body].
    assert (K : (forall s a, x = LTheory s a -> ~ is_sum (ra_name a)) -> exists h b, shift_body (pre ++ [x]) l = Ok (Some (h, b))).
    { intros N. apply IH; [intros; apply Sub; now right|]. exists s1, a1. split; [|easy].
      destruct I1 as [I1|I1]; [|easy]. exfalso. exact (N _ _ I1 S1). }
    destruct x as [sx ax|n]; [|now apply K]. destruct (matches _ _) eqn:M.
    - apply matches_sum in M. destruct (G' sx ax) as (op & t & op' & X & Y); [apply Sub; now left|easy|]. rewrite X, Y. cbn. destruct sx; eauto.
    - apply K. intros s2 a2 E2 S2. injection E2 as <- <-. apply matches_sum in S2. congruence. }
  destruct (A body []) as (h & b & Sh); [easy|eauto|].
  pose proof (shift_body_spec _ _ _ Sh) as (b1 & sg & a & op & t & b2 & X1 & X2 & X3 & X4 & X5 & X6). subst body b.
  exists (mkrrule (HBool s v) (b1 ++ LTheory sg a :: b2)), h, b1, sg, a, b2. cbn [r_body].
  split; [easy|]. split; [easy|]. split; [easy|]. split; [easy|]. split.
  - cbn [shift_rule]. unfold false_head in FH. destruct (_ || _); [discriminate|]. now rewrite Sh.
  - destruct X6 as [[_ ->]|[_ [op' [_ ->]]]]; easy.
Qed.

(** ** Tuples *)

Lemma vinsert_in x y l : In y (vinsert x l) <-> y = x \/ In y l.
Proof.
  induction l as [|z l IH]; cbn.
  - intuition.
  - destruct (String.compare x z) eqn:E; cbn.
    + apply String.compare_eq_iff in E. subst z. intuition.
    + intuition.
    + rewrite IH. intuition.
Qed.
Lemma verase_in x y l : In y (verase x l) <-> y <> x /\ In y l.
Proof.
  unfold verase. rewrite filter_In. split.
  - intros [A B]. split; [|easy]. intros ->. now rewrite String.eqb_refl in B.
  - intros [A B]. split; [easy|]. apply negb_true_iff, String.eqb_neq. congruence.
Qed.

Fixpoint rsize (t : rterm) : nat :=
  match t with RFun _ args => S (fold_right (fun t n => rsize t + n)%nat 0%nat args) | _ => 1%nat end.
Lemma rsize_in t args : In t args -> (rsize t <= fold_right (fun t n => rsize t + n)%nat 0%nat args)%nat.
Proof. induction args as [|a r IH]; intros H; [easy|]. cbn. destruct H as [<-|H]; [lia|specialize (IH H); lia]. Qed.

Lemma collect_in_aux n : forall t, (rsize t < n)%nat -> forall vars x, In x (collect t vars) <-> occurs x t \/ In x vars.
Proof.
  induction n as [|n IH]; intros t Hn vars x; [lia|]. destruct t as [y|s|f args]; cbn [collect].
  - rewrite vinsert_in. split; intros [A|A]; auto; [subst; left; constructor|left; now inversion A].
  - split; [auto|]. intros [A|A]; [inversion A|easy].
  - assert (G : forall l vars, (forall t, In t l -> (rsize t < n)%nat) ->
      (In x (fold_left (fun v a => collect a v) l vars) <-> (exists t, In t l /\ occurs x t) \/ In x vars)).
    { induction l as [|a l IHl]; intros vs Hl; cbn [fold_left].
      - split; [auto|]. intros [[t [[] _]]|A]; easy.
      - rewrite IHl by (intros; apply Hl; now right). rewrite IH by (apply Hl; now left).
        split.
        + intros [[t [A B]]|[A|A]]; [left; exists t; split; [now right|easy]|left; exists a; split; [now left|easy]|now right].
        + intros [[t [[A|A] B]]|A]; [subst; auto|left; eauto|auto]. }
    rewrite G.
    + split; intros [A|A]; auto; left.
      * destruct A as [t [A B]]. now apply oc_fun with t.
      * inversion A; subst. eauto.
    + intros t I. cbn in Hn. apply rsize_in in I. lia.
Qed.
Lemma collect_in t vars x : In x (collect t vars) <-> occurs x t \/ In x vars.
Proof. apply collect_in_aux with (S (rsize t)). lia. Qed.
Lemma collect_all_in ts x : In x (collect_all ts) <-> exists t, In t ts /\ occurs x t.
Proof.
  unfold collect_all. assert (G : forall vars, In x (fold_left (fun v a => collect a v) ts vars) <-> (exists t, In t ts /\ occurs x t) \/ In x vars).
  { induction ts as [|a l IHl]; intros vs; cbn [fold_left].
    - split; [auto|]. intros [[t [[] _]]|A]; easy.
    - rewrite IHl, collect_in. split.
      + intros [[t [A B]]|[A|A]]; [left; exists t; split; [now right|easy]|left; exists a; split; [now left|easy]|now right].
      + intros [[t [[A|A] B]]|A]; [subst; auto|left; eauto|auto]. }
  rewrite G. split; [intros [A|[]]; easy|auto].
Qed.
Lemma erase_all_in xs : forall l y, In y (fold_left (fun v x => verase x v) xs l) <-> ~ In y xs /\ In y l.
Proof.
  induction xs as [|x xs IH]; intros l y; cbn [fold_left]; [cbn; tauto|].
  rewrite IH, verase_in. cbn. intuition.
Qed.

Lemma gsubst_inj_aux n : forall t, (rsize t < n)%nat -> forall sg tau, gsubst sg t = gsubst tau t -> forall x, occurs x t -> sg x = tau x.
Proof.
  induction n as [|n IH]; intros t Hn sg tau E x O; [lia|]. destruct O as [|f args t I O]; [exact E|].
  cbn in E. injection E as E. apply (IH t); [cbn in Hn; apply rsize_in in I; lia| |exact O].
  clear - I E. induction args as [|a r IH]; [easy|]. cbn in E. injection E as E1 E2. destruct I as [<-|I]; auto.
Qed.
Lemma gsubst_inj t sg tau : gsubst sg t = gsubst tau t -> forall x, occurs x t -> sg x = tau x.
Proof. apply gsubst_inj_aux with (S (rsize t)). lia. Qed.
Lemma gsubst_ext_aux n : forall t, (rsize t < n)%nat -> forall sg tau, (forall x, occurs x t -> sg x = tau x) -> gsubst sg t = gsubst tau t.
Proof.
  induction n as [|n IH]; intros t Hn sg tau E; [lia|]. destruct t as [x|s|f args]; cbn; [apply E; constructor|easy|].
  f_equal. apply map_ext_in. intros t I. apply IH; [cbn in Hn; apply rsize_in in I; lia|].
  intros x O. apply E. now apply oc_fun with t.
Qed.
Lemma gsubst_ext t sg tau : (forall x, occurs x t -> sg x = tau x) -> gsubst sg t = gsubst tau t.
Proof. apply gsubst_ext_aux with (S (rsize t)). lia. Qed.

(** The shape of a rewritten element. *)
Definition shaped (e e' : relem) (number : Z) : Prop :=
  e_cond e' = e_cond e /\
  exists t vars, e_tuple e = [t] /\ e_tuple e' = (if 0 <=? number then [t; RSym (SNum number)] else [t]) ++ map RVar vars /\
    forall x, In x vars <-> x <> "_"%string /\ ~ occurs x t /\ exists u, In u (e_cond e) /\ occurs x u.
Lemma rewrite_tuple_shape e n e' : rewrite_tuple e n = Ok e' -> shaped e e' n.
Proof.
  unfold rewrite_tuple. destruct (e_tuple e) as [|t [|]] eqn:E; try discriminate. intros H. injection H as <-. split; [easy|].
  eexists t, _. split; [easy|]. split; [reflexivity|]. intros x.
  rewrite verase_in, erase_all_in, !collect_all_in. split.
  - intros [A [B C]]. split; [easy|]. split; [|easy]. intros O. apply B. exists t. split; [now left|easy].
  - intros [A [B C]]. split; [easy|]. split; [|easy]. intros [u [[<-|[]] O]]. easy.
Qed.
Lemma rewrite_elems_shape es : forall n es', rewrite_elems es n = Ok es' ->
  List.length es' = List.length es /\
  forall i e, nth_error es i = Some e -> exists e', nth_error es' i = Some e' /\ shaped e e' (n + Z.of_nat i).
Proof.
  induction es as [|e es IH]; intros n es' H; cbn [rewrite_elems] in H.
  - injection H as <-. split; [easy|]. intros [|i] e; discriminate.
  - destruct (rewrite_tuple e n) as [e'| |] eqn:E1; cbn in H; try discriminate.
    destruct (rewrite_elems es (n + 1)) as [r| |] eqn:E2; cbn in H; try discriminate. injection H as <-.
    destruct (IH _ _ E2) as [L S]. split; [cbn; congruence|]. intros [|i] e0 I; cbn in I.
    + injection I as <-. exists e'. split; [easy|]. rewrite Z.add_0_r. now apply rewrite_tuple_shape.
    + destruct (S i e0 I) as [e2 [A B]]. exists e2. split; [easy|]. replace (n + Z.of_nat (Datatypes.S i)) with (n + 1 + Z.of_nat i) by lia. easy.
Qed.
Lemma rewritten_matches n : rewritten n <-> matches n ["sum"; "nsum"; "diff"; "distinct"; "disjoint"; "minimize"; "maximize"]%string = true.
Proof. rewrite matches_in. easy. Qed.

Lemma rewrite_atom_elems il a a' : rewritten (ra_name a) -> rewrite_atom il a = Ok a' ->
  rewrite_elems (ra_elems a) (if (1 <? Z.of_nat (List.length (ra_elems a))) then 0 else -1) = Ok (ra_elems a') /\ ra_guard a' = ra_guard a.
Proof.
  intros R. apply rewritten_matches in R. unfold rewrite_atom. rewrite R.
  destruct (rewrite_elems _ _) as [es| |]; cbn [bind]; try discriminate.
  destruct (matches (ra_name a) ["sum"; "nsum"; "diff"]%string); [|intros H; now injection H as <-].
  destruct (tag_terms _ _); cbn [bind]; try discriminate. intros H. now injection H as <-.
Qed.

Lemma ground_merge il a a' : rewritten (ra_name a) -> rewrite_atom il a = Ok a' ->
  forall i j e f e' f' sg tau, nth_error (ra_elems a) i = Some e -> nth_error (ra_elems a) j = Some f ->
    nth_error (ra_elems a') i = Some e' -> nth_error (ra_elems a') j = Some f' ->
    (ground_tuple sg e' = ground_tuple tau f' <-> i = j /\ forall x, (var_of e x \/ exists t, In t (e_tuple e) /\ occurs x t) -> sg x = tau x).
Proof.
  intros R H. destruct (rewrite_atom_elems _ _ _ R H) as [E _]. destruct (rewrite_elems_shape _ _ _ E) as [L S].
  intros i j e f e' f' sg tau Ie If Ie' If'.
  destruct (S i e Ie) as [e2 [A [Ce (t & vs & T1 & T2 & T3)]]]. rewrite A in Ie'. injection Ie' as ->.
  destruct (S j f If) as [f2 [B [Cf (u & us & U1 & U2 & U3)]]]. rewrite B in If'. injection If' as ->.
  assert (Li : (i < List.length (ra_elems a))%nat) by (apply nth_error_Some; congruence).
  assert (Lj : (j < List.length (ra_elems a))%nat) by (apply nth_error_Some; congruence).
  unfold ground_tuple. split.
  - intros G.
    assert (ij : i = j).
    { destruct (1 <? Z.of_nat (List.length (ra_elems a))) eqn:N; [|apply Z.ltb_ge in N; lia].
      rewrite T2, U2 in G. replace (0 <=? 0 + Z.of_nat i) with true in G by (symmetry; apply Z.leb_le; lia).
      replace (0 <=? 0 + Z.of_nat j) with true in G by (symmetry; apply Z.leb_le; lia).
      cbn in G. injection G as _ G _. lia. }
    split; [exact ij|]. subst j. rewrite Ie in If. injection If as <-. rewrite A in B. injection B as <-.
    assert (M : forall w, In w (e_tuple e') -> gsubst sg w = gsubst tau w).
    { clear - G. induction (e_tuple e') as [|a r IH]; intros w I; [easy|]. cbn in G. injection G as G1 G2. destruct I as [<-|I]; auto. }
    assert (Tt : forall x, occurs x t -> sg x = tau x).
    { apply gsubst_inj. apply M. rewrite T2. destruct (_ <=? _); now left. }
    intros x [[X0 [w [I O]]]|[w [I O]]].
    + rewrite T1 in I. destruct I as [<-|I]; [now apply Tt|].
      destruct (in_dec String.string_dec x (collect t [])) as [D|D]; rewrite collect_in in D; cbn in D.
      * apply Tt. tauto.
      * specialize (M (RVar x)). cbn in M. apply M. rewrite T2. apply in_or_app. right. apply in_map, T3. split; [easy|]. split; [tauto|]. eauto.
    + rewrite T1 in I. destruct I as [<-|[]]. now apply Tt.
  - intros [<- V]. rewrite Ie in If. injection If as <-. rewrite A in B. injection B as <-.
    apply map_ext_in. intros w I. apply gsubst_ext. intros x O. apply V.
    rewrite T2 in I. apply in_app_or in I. destruct I as [I|I].
    + right. exists t. split; [rewrite T1; now left|]. destruct (_ <=? _); cbn in I; destruct I as [<-|I]; try easy.
      destruct I as [<-|[]]. inversion O.
    + left. apply in_map_iff in I. destruct I as [y [<- I]]. inversion O; subst y. apply T3 in I. destruct I as (I1 & _ & v & I2 & I3).
      split; [easy|]. exists v. split; [apply in_or_app; now right|easy].
Qed.

Lemma kept_term il a a' : rewritten (ra_name a) -> rewrite_atom il a = Ok a' ->
  List.length (ra_elems a') = List.length (ra_elems a) /\ ra_guard a' = ra_guard a /\
  forall i e e', nth_error (ra_elems a) i = Some e -> nth_error (ra_elems a') i = Some e' ->
    e_cond e' = e_cond e /\ exists t r, e_tuple e = [t] /\ e_tuple e' = t :: r.
Proof.
  intros R H. destruct (rewrite_atom_elems _ _ _ R H) as [E G]. destruct (rewrite_elems_shape _ _ _ E) as [L S].
  split; [easy|]. split; [easy|]. intros i e e' Ie Ie'. destruct (S i e Ie) as [e2 [A [Ce (t & vs & T1 & T2 & T3)]]].
  rewrite A in Ie'. injection Ie' as ->. split; [easy|]. exists t. rewrite T2. destruct (_ <=? _); eexists; split; try easy; reflexivity.
Qed.

(** ** The whole statement *)

Lemma tag_ok il a a' x : ra_name a = NFun x [] false -> rewrite_atom il a = Ok a' ->
  ra_name a' = NFun (if existsb (String.eqb x) ["sum"; "nsum"; "diff"]%string then ("__" ++ x ++ (if il then "_b" else "_h"))%string else x) [] false.
Proof.
  intros N. unfold rewrite_atom. rewrite N. unfold matches.
  destruct (existsb (String.eqb x) ["sum"; "nsum"; "diff"; "distinct"; "disjoint"; "minimize"; "maximize"]%string) eqn:A.
  - destruct (rewrite_elems _ _); cbn [bind]; try discriminate.
    destruct (existsb (String.eqb x) ["sum"; "nsum"; "diff"]%string); cbn; intros H; injection H as <-; easy.
  - replace (existsb (String.eqb x) ["sum"; "nsum"; "diff"]%string) with false.
    + intros H. injection H as <-. exact N.
    + symmetry. apply not_true_iff_false. intros B. apply existsb_eqb in B. apply not_true_iff_false in A. apply A, existsb_eqb.
      cbn in B |- *. tauto.
Qed.
Lemma rewrite_body_ok b : forall b', rewrite_body b = Ok b' ->
  Forall2 (fun l l' => match l, l' with
                       | LTheory s a, LTheory s' a' => s = s' /\ rewrite_atom true a = Ok a'
                       | LOther n, LOther n' => n = n'
                       | _, _ => False
                       end) b b'.
Proof.
  induction b as [|l b IH]; intros b' H; cbn [rewrite_body] in H.
  - injection H as <-. constructor.
  - destruct l as [s a|n].
    + destruct (rewrite_atom true a) as [a'| |] eqn:A; cbn in H; try discriminate.
      destruct (rewrite_body b) as [r| |]; cbn in H; try discriminate. injection H as <-. constructor; [easy|now apply IH].
    + destruct (rewrite_body b) as [r| |]; cbn in H; try discriminate. injection H as <-. constructor; [easy|now apply IH].
Qed.

Lemma transform_atoms sh st st' : transform sh st = Ok st' ->
  exists mid, (if sh then shift_rule st = Ok mid else mid = st) /\
    match mid, st' with
    | SRule r, SRule r' =>
        match r_head r, r_head r' with HTheory a, HTheory a' => rewrite_atom false a = Ok a' | h, h' => h = h' end /\
        Forall2 (fun l l' => match l, l' with
                             | LTheory s a, LTheory s' a' => s = s' /\ rewrite_atom true a = Ok a'
                             | LOther n, LOther n' => n = n'
                             | _, _ => False
                             end) (r_body r) (r_body r')
    | _, _ => mid = st'
    end.
Proof.
  unfold transform. intros H. destruct (if sh then shift_rule st else Ok st) as [mid| |] eqn:M; cbn [bind] in H; try discriminate.
  exists mid. split; [destruct sh; [easy|now injection M as ->]|].
  destruct mid as [[h b]|n]; [|now injection H as <-].
  destruct (rewrite_head h) as [h'| |] eqn:Hh; cbn [bind] in H; try discriminate.
  destruct (rewrite_body b) as [b'| |] eqn:Hb; cbn [bind] in H; try discriminate. injection H as <-.
  cbn [r_head r_body]. split; [|now apply rewrite_body_ok].
  destruct h as [s v|a|n]; cbn in Hh; try (injection Hh as <-; easy).
  destruct (rewrite_atom false a) as [a'| |]; cbn in Hh; try discriminate. injection Hh as <-. easy.
Qed.
Lemma transform_pairs sh st st' : transform sh st = Ok st' ->
  exists mid, (if sh then shift_rule st = Ok mid else mid = st) /\
    Forall2 (fun a a' => exists il, rewrite_atom il a = Ok a') (atoms_of mid) (atoms_of st').
Proof.
  intros H. destruct (transform_atoms _ _ _ H) as [mid [A B]]. exists mid. split; [easy|].
  destruct mid as [r|n], st' as [r'|n']; try discriminate; [|constructor].
  destruct B as [B C]. cbn [atoms_of]. apply Forall2_app.
  - destruct (r_head r) as [s v|a|n], (r_head r') as [s' v'|a'|n']; try discriminate; try constructor; eauto.
  - induction C as [|l l' b b' C1 C2 IH]; cbn; [constructor|]. apply Forall2_app; [|exact IH].
    destruct l, l'; try easy. destruct C1. constructor; [eauto|constructor].
Qed.
