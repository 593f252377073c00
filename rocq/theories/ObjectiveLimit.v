(** The number of literals of a translated objective. *)
From Verif Require Import Base Util IntervalSet VarState Solver OrderProofs1 Sum PropProofs Orders Objective EstimateSpec EstimateProofs.
Open Scope Z_scope.

(** The levels' first bounds stay and [n] entries for the objective are sent. *)
Definition mins (s s' : state) (n : Z) : Prop :=
  (forall x, minb (vst s' x) = minb (vst s x) /\ maxb (vst s' x) = maxb (vst s x)) /\ exists new, log s' = new ++ log s /\ Z.of_nat (mins_sent new) = n.
Lemma mins_app a b : mins_sent (a ++ b) = (mins_sent a + mins_sent b)%nat.
Proof. induction a as [|e a IH]; cbn; auto. destruct e; auto. cbn. now rewrite IH. Qed.
Lemma mins_refl s : mins s s 0.
Proof. split; auto. exists []. auto. Qed.
Lemma mins_trans s1 s2 s3 n m : mins s1 s2 n -> mins s2 s3 m -> mins s1 s3 (n + m).
Proof.
  intros [A (a & A1 & A2)] [B (b & B1 & B2)]. split; [intros x; destruct (A x) as [<- <-]; apply B|]. exists (b ++ a). rewrite B1, A1, app_assoc, mins_app. split; [easy|lia].
Qed.
Lemma mins_emit l w p s : mins s (emit (EMin l w p) s) 1.
Proof. split; [auto|]. exists [EMin l w p]. auto. Qed.
Section Translate.
Context (cfg : config).
Lemma get_mins x v s : mins s (snd (get_literal cfg x v s)) 0.
Proof.
  split.
  - unfold get_literal. destruct (v <? _); [auto|]. destruct (_ <=? v); [auto|]. destruct (vfind _ _); [auto|].
    cbn [add_literal]. set (s1 := emit _ _). set (g := if _ <=? v then _ else _). cbn [snd]. unfold add_watch. cbn [emit set_log vst log]. rewrite litmap_add_vst.
    intros y. unfold store_lit, set_vs. cbn [vst set_vst]. unfold upd. destruct (Nat.eqb _ _) eqn:E; auto. apply Nat.eqb_eq in E. subst. auto.
  - destruct (get_quiet cfg x v s) as [_ (new & A & B & _)]. exists new. split; [exact A|]. clear A. induction B as [|e r P F IH]; [easy|]. destruct e; try easy; exact IH.
Qed.
Lemma values_mins co x vs : forall s, mins s (min_values cfg co x vs s) (Z.of_nat (length vs)).
Proof.
  induction vs as [|v r IH]; intros s; cbn [min_values]; [apply mins_refl|]. pose proof (get_mins x v s) as H1. destruct (get_literal cfg x v s) as [l s1]. cbn [snd] in H1.
  assert (H := mins_trans _ _ _ _ _ (mins_trans _ _ _ _ _ H1 (mins_emit (- l) co 0 s1)) (IH (emit (EMin (- l) co 0) s1))).
  replace (Z.of_nat (length (v :: r))) with (0 + 1 + Z.of_nat (length r)) by (cbn [length]; lia). exact H.
Qed.
Lemma needed_same s s' es : (forall x, minb (vst s' x) = minb (vst s x) /\ maxb (vst s' x) = maxb (vst s x)) -> needed s' es = needed s es.
Proof. intros H. induction es as [|[co x] r IH]; cbn [needed]; auto. destruct (H x) as [-> ->]. now rewrite IH. Qed.
Lemma zseq_len n : forall x, length (zseq x n) = n.
Proof. induction n as [|n IH]; intros; cbn; auto. Qed.
Lemma elems_mins es : forall s s', Forall (fun e => minb (vst s (snd e)) <= maxb (vst s (snd e))) es -> min_elems cfg es s = Ok s' ->
  mins s s' (Z.of_nat (length es) + needed s es).
Proof.
  induction es as [|[co x] r IH]; intros s s' F E; cbn [min_elems] in E; [injection E as <-; apply mins_refl|].
  destruct (safe_mul int32 co (minb (vst s x))) as [p| |] eqn:M; try discriminate. cbn [bind] in E. inversion F as [|? ? F1 F2]; subst. cbn [snd] in F1.
  set (s1 := emit (EMin TRUE_LIT p 0) s) in E. set (vs := zseq _ _) in E. pose proof (values_mins co x vs s1) as H1. set (s2 := min_values cfg co x vs s1) in *.
  assert (H2 := mins_trans _ _ _ _ _ (mins_emit TRUE_LIT p 0 s) H1). pose proof H2 as [K _].
  apply IH in E; [|eapply Forall_impl; [|exact F2]; intros e; cbv beta; destruct (K (snd e)) as [-> ->]; auto].
  assert (H3 := mins_trans _ _ _ _ _ H2 E). rewrite (needed_same s s2 r K) in H3. unfold vs in H3. rewrite zseq_len in H3. change (vst s1 x) with (vst s x) in H3. cbn [needed length].
  match goal with |- mins s s' ?a => match type of H3 with mins s s' ?b => replace a with b by lia end end. exact H3.
Qed.
Lemma required_needed es s : required_literals es s = needed s es - Z.of_nat (length es).
Proof.
  unfold required_literals. induction es as [|[co x] r IH]; [easy|]. cbn [map zsum fold_right needed length snd]. fold (zsum (map (fun e => maxb (vst s (snd e)) - minb (vst s (snd e)) - 1) r)). lia.
Qed.
Lemma objective_within limit adj es s b s' : Forall (fun e => minb (vst s (snd e)) <= maxb (vst s (snd e))) es -> tmin s = false -> limit <> 2^32 - 1 ->
  translate_minimize cfg limit (adj, es) s = Ok (b, s') ->
  (b = true <-> needed s es < limit + Z.of_nat (length es)) /\
  exists new, log s' = new ++ log s /\ Z.of_nat (mins_sent new) = if b then 1 + Z.of_nat (length es) + needed s es else 0.
Proof.
  intros F T N E. unfold translate_minimize in E. rewrite T in E. cbn [orb snd fst] in E. replace (limit =? 2^32 - 1) with false in E by lia. cbn [orb] in E. rewrite required_needed in E.
  destruct (needed s es - Z.of_nat (length es) <? limit) eqn:C.
  - set (s1 := emit _ _) in E. destruct (min_elems cfg es s1) as [s2| |] eqn:M; try discriminate. cbn [bind] in E. assert (b = true /\ s' = s2) as [-> ->] by (split; congruence).
    apply elems_mins in M; [|exact F]. rewrite (needed_same s s1 es) in M by (intros; split; reflexivity).
    assert (H : mins s s2 (1 + (Z.of_nat (length es) + needed s es))).
    { apply mins_trans with s1; [|exact M]. split; [auto|]. exists [EMin TRUE_LIT (- adj) 0]. auto. }
    destruct H as [_ (new & N1 & N2)]. split; [split; [lia|auto]|]. exists new. split; [exact N1|lia].
  - assert (b = false /\ s' = s) as [-> ->] by (split; congruence). split; [split; [discriminate|lia]|]. exists []. auto.
Qed.
Lemma objective_always m s b s' limit : tmin s = true \/ limit = 2^32 - 1 -> translate_minimize cfg limit m s = Ok (b, s') -> b = true.
Proof.
  intros H E. unfold translate_minimize in E. replace (tmin s || (limit =? 2^32 - 1)) with true in E by (destruct H as [-> | ->]; [easy|now rewrite orb_true_r]). cbn [orb] in E.
  destruct (min_elems _ _ _); try discriminate. cbn [bind] in E. congruence.
Qed.
End Translate.
