(** The denotations of terms are unique. *)
From Coq Require Import String.
From Verif Require Import Base Terms TermsSpec TermsProofs.
Open Scope Z_scope.

Lemma decodes_fun s r : decodes s r -> forall r', decodes s r' -> r = r'.
Proof.
  induction 1; intros r' H'; inversion H'; subst; try congruence; try (f_equal; auto; fail).
Qed.

Lemma app_quote_inj i j : (i ++ """")%string = (j ++ """")%string -> i = j.
Proof.
  revert j. induction i as [|c i IH]; intros [|d j] H; cbn in H; try reflexivity.
  - injection H as _ H. destruct j; discriminate.
  - injection H as _ H. destruct i; discriminate.
  - injection H as -> H. f_equal. auto.
Qed.

Lemma spec_bin_is_bin n x y z : spec_bin n x y = Some z -> is_bin n = true.
Proof. unfold spec_bin, is_bin. destruct (String.eqb n "+"), (String.eqb n "-"), (String.eqb n "*"), (String.eqb n "/"), (String.eqb n "\"), (String.eqb n "**"); cbn; congruence. Qed.

Scheme ground_mind := Minimality for ground Sort Prop
  with grounds_mind := Minimality for grounds Sort Prop.

Lemma ground_fun : forall t s, ground t s -> forall s', ground t s' -> s = s'.
Proof.
  apply (ground_mind (fun t s => forall s', ground t s' -> s = s') (fun ts ss => forall ss', grounds ts ss' -> ss = ss')).
  - intros n s' H. inversion H. reflexivity.
  - intros i s D s' H. inversion H; subst.
    + match goal with X : _ = _ |- _ => apply app_quote_inj in X; subst end. f_equal. eapply decodes_fun; eauto.
    + match goal with X : forall i, _ |- _ => destruct (X i) as [Y _]; congruence end.
  - intros n N s' H. inversion H; subst; [destruct (N i) as [X _]; congruence|reflexivity].
  - intros name a b x y z _ IHa _ IHb S s' H. inversion H; subst.
    + apply IHa in H3. apply IHb in H5. injection H3 as <-. injection H5 as <-. congruence.
    + exfalso. apply spec_bin_is_bin in S. destruct (H2 eq_refl). congruence.
  - intros a x _ IH s' H. inversion H; subst.
    + apply IH in H1. congruence.
    + apply IH in H1. congruence.
    + exfalso. apply (H3 eq_refl). reflexivity.
  - intros a n args p _ IH N s' H. inversion H; subst.
    + apply IH in H1. congruence.
    + apply IH in H1. congruence.
    + exfalso. apply (H3 eq_refl). reflexivity.
  - intros name args ss N2 N1 _ IH s' H. inversion H; subst.
    + exfalso. match goal with S : spec_bin _ _ _ = Some _ |- _ => apply spec_bin_is_bin in S end. destruct (N2 eq_refl). congruence.
    + exfalso. apply (N1 eq_refl). reflexivity.
    + exfalso. apply (N1 eq_refl). reflexivity.
    + f_equal. auto.
  - intros args ss _ IH s' H. inversion H; subst. f_equal. auto.
  - intros ss' H. inversion H. reflexivity.
  - intros t s ts ss _ IH _ IHs ss' H. inversion H; subst. f_equal; auto.
Qed.

Ltac den_contra :=
  match goal with
  | N : (_ = _ \/ _ = _ \/ _ = _)%string |- _ => destruct N as [N|[N|N]]; (discriminate || (subst; den_contra))
  | H : forall name a b, TFun _ [?x; ?y] = TFun name [a; b] -> is_bin name = false |- _ => specialize (H _ _ _ eq_refl); discriminate
  | H : forall n, TNum ?m <> TNum n |- _ => exfalso; eapply H; reflexivity
  | H : forall a, TFun _ [?x] <> _ /\ _ |- _ => destruct (H x); congruence
  end.

Lemma den_fun rho t x : den rho t x -> forall y, den rho t y -> x = y.
Proof.
  induction 1 as [n|a b x y A IHa B IHb|a b x y A IHa B IHb|a b x y A IHa B IHb|a x A IHa|a x A IHa|name a b z N G|t s N1 N2 N3 G]; intros y' H;
    inversion H; subst; try (f_equal; auto; fail); auto; try den_contra.
  all: try (f_equal; eapply ground_fun; eauto; fail).
  all: match goal with E : ground ?t (SNum ?a), F : ground ?t (SNum ?b) |- _ = _ => pose proof (ground_fun _ _ E _ F) end; congruence.
Qed.

Lemma den_side_fun rho t x : den_side rho t x -> forall y, den_side rho t y -> x = y.
Proof. intros H y H'. inversion H; inversion H'; subst; match goal with A : ground t ?a, B : ground t ?b |- _ => pose proof (ground_fun _ _ A _ B) end; subst; try congruence;
  match goal with N : forall n, SNum _ <> SNum n |- _ => exfalso; eapply N; reflexivity end. Qed.
Lemma den_diff_fun rho t x : den_diff rho t x -> forall y, den_diff rho t y -> x = y.
Proof. intros H y H'. inversion H; subst. inversion H'; subst. f_equal; eapply den_side_fun; eauto. Qed.

Lemma den_elems_fun (D : tterm -> Z -> Prop) : (forall t x, D t x -> forall y, D t y -> x = y) ->
  forall es x, den_elems D es x -> forall y, den_elems D es y -> x = y.
Proof. intros F. induction 1; intros y' H'; inversion H'; subst; [reflexivity|]. f_equal; eauto. Qed.
