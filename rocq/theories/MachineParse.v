(** The constraints posted for linear atoms have room. *)
From Verif Require Import Base Util UtilProofs VarState Terms TermsSpec TermsProofs TermsProofs2 TermsProofs3 Solver MachineSpec.
Open Scope Z_scope.

Section Posts.
Variable is_true : lit -> bool.
Variable ret : list bcall -> bool.
Context (P : bcall -> Prop).
(** All calls made satisfy [P]. *)
Definition posts {A} (m : SM bst A) : Prop := forall s a s', m s = Ok (a, s') -> exists new, b_log s' = b_log s ++ new /\ Forall P new.
Lemma po_ret {A} (a : A) : posts (sret a).
Proof. intros s x s' H. inv_ok. exists []. rewrite app_nil_r. split; [reflexivity|constructor]. Qed.
Lemma po_new : posts new_lit.
Proof. intros s x s' H. injection H as _ <-. exists []. rewrite app_nil_r. split; [reflexivity|constructor]. Qed.
Lemma po_bind {A B} (m : SM bst A) (k : A -> SM bst B) : posts m -> (forall a, posts (k a)) -> posts (sbind m k).
Proof.
  intros E F s x s' H. apply sbind_ok in H. destruct H as (a & s1 & H1 & H2). destruct (E _ _ _ H1) as (n1 & A1 & B1). destruct (F _ _ _ _ H2) as (n2 & A2 & B2).
  exists (n1 ++ n2). rewrite A2, A1, app_assoc. split; [reflexivity|apply Forall_app; auto].
Qed.
Lemma po_lift {A B} (m : outcome A) (k : A -> SM bst B) : (forall a, m = Ok a -> posts (k a)) -> posts (sbind (slift m) k).
Proof. intros F s x s' H. apply sbind_ok in H. destruct H as (a & s1 & H1 & H2). apply slift_ok in H1 as [H1 ->]. now apply (F a H1 _ _ _ H2). Qed.
Lemma po_call c : P c -> posts (call ret c).
Proof. intros N s x s' H. injection H as _ <-. exists [c]. split; [reflexivity|constructor; [exact N|constructor]]. Qed.
Lemma po_andthen m k : posts m -> posts k -> posts (andthen m k).
Proof. intros A B. unfold andthen. apply po_bind; [exact A|]. intros []; [exact B|apply po_ret]. Qed.

(** How often one is added on the way to a constraint. *)
Definition cost (op : rel) (strict : bool) : Z :=
  (match op with RLt | RGt => 1 | RNe => if strict then 0 else 1 | _ => 0 end) + (if strict then 1 else 0).
Context {K : Type} (addc : lit -> list (Z * K) -> Z -> bool -> SM bst bool) (R : Z) (Q : list (Z * K) -> Prop).
Context (PC : forall c, P (BClause c)) (PA : forall l es rhs st, Q es -> Z.abs rhs <= R -> posts (addc l es rhs st)) (QI : forall es es', Q es -> inv_all es = Ok es' -> Q es').
Lemma po_normalize fuel : forall l es op rhs strict, Q es -> Z.abs rhs + cost op strict <= R -> posts (normalize is_true ret addc fuel l es op rhs strict).
Proof.
  induction fuel as [|fuel IH]; intros l es op rhs strict HQ HR; [intros s x s' H; discriminate|]. cbn [normalize].
  apply po_lift. intros [op1 rhs1] E1. apply po_lift. intros [[op2 rhs2] el] E2.
  assert (X : Q el /\ ((op2 = RLe /\ Z.abs rhs2 + (if strict then 1 else 0) <= R) \/ (op2 = REq /\ op = REq /\ rhs2 = rhs) \/ (op2 = RNe /\ op = RNe /\ rhs2 = rhs))).
  { destruct op; inv_ok; cbn in HR;
      repeat match goal with H : (_, _) = (_, _) |- _ => injection H as; subst | H : safe_add _ _ _ = Ok _ |- _ => apply safe_add_val in H; subst | H : safe_sub _ _ _ = Ok _ |- _ => apply safe_sub_val in H; subst end;
      inv_ok; repeat match goal with H : (_, _) = (_, _) |- _ => injection H as; subst | H : safe_inv _ _ = Ok _ |- _ => apply safe_inv_val in H; subst end; (split; [eauto|]); auto;
      left; (split; [reflexivity|]); destruct strict; lia. }
  destruct X as (HQ2 & X).
  assert (TL : Z.abs rhs2 + 1 <= R -> posts (normalize is_true ret addc fuel (- l) el RGt rhs2 false)) by (intros HT; apply IH; [exact HQ2|cbn; lia]).
  destruct X as [(-> & X)|[(-> & -> & ->)|(-> & -> & ->)]].
  - destruct strict; cbn [andb].
    + destruct (_ =? _)%nat; [apply PA; auto; lia|]. destruct (is_true _); [apply TL; lia|]. apply po_andthen; [apply PA; auto; lia|apply TL; lia].
    + destruct (is_true _); [apply po_ret|]. apply po_andthen; [apply PA; auto; lia|apply po_ret].
  - destruct strict; cbn in HR.
    + apply po_bind; [destruct (is_true l); [apply po_ret|repeat (apply po_bind; [apply po_new|intros ?]); apply po_ret]|]. intros [a b].
      repeat first [apply po_andthen | apply po_call, PC | apply po_ret | apply IH; [exact HQ2|cbn; lia]].
    + repeat first [apply po_andthen | apply po_ret | apply IH; [exact HQ2|cbn; lia]].
  - destruct strict; cbn in HR.
    + apply IH; [exact HQ2|cbn; lia].
    + apply po_bind; [apply po_new|intros a]. apply po_bind; [apply po_new|intros b].
      repeat first [apply po_andthen | apply po_call, PC | apply po_ret | apply IH; [exact HQ2|cbn; lia]].
Qed.
End Posts.

Definition with_room (c : bcall) : Prop := match c with BSum _ es rhs _ => room es rhs | _ => True end.
(** Coefficients of a constraint, and room for right-hand sides of up to [R]. *)
Definition wide {K} (R : Z) (es : list (Z * K)) : Prop := Forall (fun e => fst e <> 0 /\ valid (fst e)) es /\ R + weight es <= 2^63 - 2.
Lemma wide_inv {K} R (es es' : list (Z * K)) : wide R es -> inv_all es = Ok es' -> wide R es'.
Proof.
  unfold wide. intros (A & B) E. assert (X : weight es' = weight es /\ Forall (fun e => fst e <> 0 /\ valid (fst e)) es'); [|destruct X as [-> X]; auto].
  clear B. revert es' E. induction A as [|[c k] es [V1 V2] A IH]; intros es' E; [injection E as <-; auto|].
  apply inv_all_cons in E as (c' & r & E1 & E2 & ->). apply safe_inv_val in E1. cbn [fst snd] in *. subst. destruct (IH r E2) as [I1 I2]. cbn [weight]. rewrite Z.abs_opp, I1. split; [reflexivity|].
  constructor; auto. cbn [fst]. unfold valid, MIN_VAL in *. lia.
Qed.
Lemma wide_strip R es : forall es', wide R es -> Terms.strip es = Ok es' -> forall rhs, Z.abs rhs <= R -> room es' rhs.
Proof.
  intros es' (A & B) E rhs HR. assert (X : weight es' = weight es /\ Forall (fun e => fst e <> 0 /\ valid (fst e)) es').
  { clear B HR. revert es' E. induction A as [|[c [v|]] es V A IH]; intros es' E; cbn [Terms.strip] in E; [injection E as <-; auto| |discriminate].
    inv_ok. destruct (IH _ H) as [I1 I2]. cbn [weight]. rewrite I1. auto. }
  destruct X as [X1 X2]. split; [|lia]. intros co x I. rewrite Forall_forall in X2. exact (X2 _ I).
Qed.
Lemma weight_abs {K} (es : list (Z * K)) : weight es = abs_sum es * MAX_VAL.
Proof. induction es as [|[c k] es IH]; cbn [weight abs_sum]; [reflexivity|]. lia. Qed.

Lemma constrain_room is_true ret l ts op strict s b s' vec r : simplify true ts = Ok (vec, r) -> Z.abs r + weight vec <= 2^63 - 4 ->
  constrain_l is_true ret l ts op strict s = Ok (b, s') -> exists new, b_log s' = b_log s ++ new /\ Forall with_room new.
Proof.
  intros E W. revert s b s'. change (posts with_room (constrain_l is_true ret l ts op strict)). unfold constrain_l. rewrite E. apply po_lift. intros a Ea. injection Ea as <-.
  destruct (gcd_reduce vec r) as [es rhs] eqn:G. apply simplify_spec in E as (_ & _ & _ & NZ & _ & VC & _). pose proof (gcd_reduce_spec _ _ _ _ G) as (_ & _ & VG & _ & AG & NG).
  assert (AR : Z.abs rhs <= Z.abs r).
  { unfold gcd_reduce in G. set (d := fold_left _ _ _) in G. clearbody d. destruct (1 <? d) eqn:D; injection G as _ <-; [|lia]. rewrite <- (Z.quot_abs r d) by lia.
    rewrite (Z.abs_eq d) by lia. destruct (Z.eq_dec (Z.abs r) 0) as [Z0|Z0]; [rewrite Z0, Z.quot_0_l; lia|]. pose proof (Z.quot_lt (Z.abs r) d). lia. }
  apply po_normalize with (R := Z.abs r + 2) (Q := wide (Z.abs r + 2)).
  - easy.
  - intros l0 es0 rhs0 st HQ HR. unfold addc_l. apply po_lift. intros es1 E1. apply po_call. cbn. now apply wide_strip with (1 := HQ).
  - intros es0 es1. apply wide_inv.
  - split; [|rewrite weight_abs in *; unfold MAX_VAL in *; lia]. specialize (VG VC). specialize (NG (NZ eq_refl)). rewrite Forall_forall in *. intros e I. auto.
  - unfold cost. destruct op, strict; lia.
Qed.
