(** Parsing on the real builder never runs into undefined behaviour. *)
From Coq Require Import String.
From Verif Require Import Base Util UtilProofs IntervalSet VarState Terms TermsSpec TermsProofs TermsProofs2 TermsProofs3 TermsProofs4 Statements StatementsSpec StatementsProofs StatementsMain
  Solver Sum Search Builder BuilderSpec BuilderProofs BuilderProofs3 ParseRun.
Open Scope Z_scope.

Section Defined.
Context (O : oracle) (cfg : config) (srt : list (Z * var) -> list (Z * var)) (mn mx : Z).
Notation p_normalize := (p_normalize O cfg srt).
Notation p_call := (p_call O cfg srt).

Definition safe {A} (m : SM pr A) : Prop := forall s, m s <> UB.
Definition gives {S A} (m : SM S A) (Q : A -> Prop) : Prop := forall s, match m s with Ok (a, _) => Q a | Throw _ => True | UB => False end.
Lemma gives_safe {A} (m : SM pr A) Q : gives m Q -> safe m.
Proof. intros H s E. specialize (H s). now rewrite E in H. Qed.
Lemma gives_bind {S A B} (m : SM S A) (f : A -> SM S B) P Q : gives m P -> (forall a, P a -> gives (f a) Q) -> gives (a <~ m ;; f a) Q.
Proof. intros H F s. specialize (H s). unfold sbind. destruct (m s) as [[a s']| |]; try easy. exact (F a H s'). Qed.
Lemma gives_ret {S A} (a : A) (Q : A -> Prop) : Q a -> gives (S := S) (sret a) Q.
Proof. intros H s. exact H. Qed.
Definition yields {A} (o : outcome A) (Q : A -> Prop) : Prop := match o with Ok a => Q a | Throw _ => True | UB => False end.
Lemma gives_lift {S A} (o : outcome A) (Q : A -> Prop) : yields o Q -> gives (S := S) (slift o) Q.
Proof. intros H s. unfold slift. destruct o; easy. Qed.
Lemma gives_impl {S A} (m : SM S A) (P Q : A -> Prop) : gives m P -> (forall a, P a -> Q a) -> gives m Q.
Proof. intros H F s. specialize (H s). destruct (m s) as [[a s']| |]; auto. Qed.
Definition any {A} (a : A) : Prop := True.
Lemma read_gives {A} (m : SM symtab A) Q : gives m Q -> gives (p_read mn mx m) Q.
Proof. intros H s. specialize (H (p_tab s)). unfold p_read. destruct (m (p_tab s)) as [[a t]| |]; auto. Qed.
Lemma call_gives c : (forall b, build1 O cfg srt c b <> UB) -> gives (p_call c) any.
Proof. intros H s. unfold ParseRun.p_call. specialize (H (p_b s)). destruct (build1 O cfg srt c (p_b s)) as [[ok b]| |]; easy. Qed.
Lemma and_gives m k : gives m any -> gives k any -> gives (p_and m k) any.
Proof. intros A B. unfold p_and. apply gives_bind with any; [exact A|]. intros [|] _; [exact B|now apply gives_ret]. Qed.
Lemma clause_gives c : gives (p_call (BClause c)) any.
Proof. apply call_gives. intros b. discriminate. Qed.
Lemma true_gives l : gives (p_true O l) any. Proof. intros s. exact Logic.I. Qed.
Lemma lit_gives : gives p_lit any.
Proof. intros s. unfold p_lit. destruct (b_literal (p_b s)). exact Logic.I. Qed.

(** *** Normalisation *)
Definition near (k rhs : Z) : Prop := Z.abs rhs <= MAX_VAL + k.
Lemma near_fits k rhs : k <= 100 -> near k rhs -> imin int32 <= rhs < imax int32.
Proof. unfold near, MAX_VAL. cbn [imin imax int32]. lia. Qed.
Lemma safe_yields_add a b : fits int32 a -> fits int32 b -> yields (safe_add int32 a b) (fun r => r = a + b).
Proof. intros A B. destruct (safe_add_exact int32 a b twos32 A B) as [[_ ->]|[_ [e ->]]]; easy. Qed.
Lemma safe_yields_sub a b : fits int32 a -> fits int32 b -> yields (safe_sub int32 a b) (fun r => r = a - b).
Proof. intros A B. destruct (safe_sub_exact int32 a b twos32 A B) as [[_ ->]|[_ [e ->]]]; easy. Qed.
Lemma safe_yields_inv a : fits int32 a -> yields (safe_inv int32 a) (fun r => r = - a).
Proof. intros A. destruct (safe_inv_exact int32 a twos32 A) as [[_ ->]|[_ [e ->]]]; easy. Qed.
Lemma yields_bind {A B} (o : outcome A) (f : A -> outcome B) P Q : yields o P -> (forall a, P a -> yields (f a) Q) -> yields (a <- o ;; f a) Q.
Proof. destruct o; cbn; auto. Qed.
Lemma yields_impl {A} (o : outcome A) (P Q : A -> Prop) : yields o P -> (forall a, P a -> Q a) -> yields o Q.
Proof. destruct o; cbn; auto. Qed.

Section Norm.
Context {K : Type} (addc : lit -> list (Z * K) -> Z -> bool -> SM pr bool) (good : list (Z * K) -> Prop).
Context (good_inv : forall es, good es -> yields (inv_all es) good).
Context (addc_gives : forall l es rhs strict, good es -> near 10 rhs -> gives (addc l es rhs strict) any).
(** How deep the recursion goes. *)
Definition need (op : rel) (strict : bool) : nat :=
  match op, strict with
  | REq, false | RNe, false => 2 | REq, true => 3 | RNe, true => 4 | _, false => 1 | _, true => 2
  end.
Lemma normalize_gives fuel : forall l es op rhs strict, (need op strict <= fuel)%nat -> (fuel <= 9)%nat -> good es -> near (9 - Z.of_nat fuel) rhs ->
  gives (p_normalize addc fuel l es op rhs strict) any.
Proof.
  induction fuel as [|fuel IH]; intros l es op rhs strict N F G R; [destruct op, strict; cbn in N; lia|]. cbn [ParseRun.p_normalize].
  assert (FR : fits int32 rhs) by (apply near_fits in R; [unfold fits; cbn [imin imax int32] in *; lia|lia]).
  apply gives_bind with (P := fun p => (fst p = match op with RGt => RGe | RLt => RLe | o => o end) /\ near (9 - Z.of_nat fuel) (snd p) /\ (match op with RGt | RLt => True | _ => snd p = rhs end)).
  { apply gives_lift. assert (R' : near (9 - Z.of_nat fuel) rhs) by (unfold near in *; lia). destruct op; try (split; [reflexivity|split; [exact R'|reflexivity]]).
    - apply yields_bind with (fun r => r = rhs - 1); [apply safe_yields_sub; auto; unfold fits; cbn; lia|]. intros r ->. split; [reflexivity|split; [|exact Logic.I]]. clear R'. cbn [snd]. unfold near in *. lia.
    - apply yields_bind with (fun r => r = rhs + 1); [apply safe_yields_add; auto; unfold fits; cbn; lia|]. intros r ->. split; [reflexivity|split; [|exact Logic.I]]. clear R'. cbn [snd]. unfold near in *. lia. }
  intros [op1 rhs1] (E1 & R1 & _). cbn [fst snd] in *.
  assert (FR1 : fits int32 rhs1) by (apply near_fits in R1; [unfold fits; cbn [imin imax int32] in *; lia|lia]).
  apply gives_bind with (P := fun p => match op1 with RGe => fst (fst p) = RLe | _ => fst (fst p) = op1 end /\ near (9 - Z.of_nat fuel) (snd (fst p)) /\ good (snd p)).
  { apply gives_lift. destruct op1; try (split; [reflexivity|split; [exact R1|exact G]]).
    apply yields_bind with (fun r => r = - rhs1); [now apply safe_yields_inv|]. intros r ->. apply yields_bind with good; [now apply good_inv|]. intros es' G'. split; [reflexivity|split; [|exact G']]. cbn [fst snd]. unfold near in *. lia. }
  intros [[op2 rhs2] elems] (E2 & R2 & G2). cbn [fst snd] in *.
  assert (R2' : near 10 rhs2) by (unfold near in *; lia).
  assert (T : forall op', (if strict then op' = RLe /\ (1 <= fuel)%nat else True) -> gives (if strict then p_normalize addc fuel (- l) elems (match op' with RLe => RGt | RNe => REq | o => o end) rhs2 false else sret true) any).
  { intros op' H. destruct strict; [|now apply gives_ret]. destruct H as [-> H]. apply IH; [exact H|lia|exact G2|exact R2]. }
  cbv zeta. destruct op2.
  - (* <= *)
    assert (Q : if strict then RLe = RLe /\ (1 <= fuel)%nat else True). { destruct strict; [|exact Logic.I]. split; [reflexivity|]. destruct op; subst op1; try discriminate; cbn in N; lia. }
    destruct (strict && _); [now apply addc_gives|]. apply gives_bind with any; [apply true_gives|]. intros [|] _; [exact (T RLe Q)|]. apply and_gives; [now apply addc_gives|exact (T RLe Q)].
  - destruct op; subst op1; discriminate.
  - destruct op; subst op1; discriminate.
  - destruct op; subst op1; discriminate.
  - assert (op = REq) as -> by (destruct op; subst op1; congruence). cbn in N. destruct strict.
    + apply gives_bind with any; [apply true_gives|]. intros f _. apply gives_bind with any.
      { destruct f; [now apply gives_ret|]. apply gives_bind with any; [apply lit_gives|]. intros a _. apply gives_bind with any; [apply lit_gives|]. intros b _. now apply gives_ret. }
      intros [a b] _. repeat (apply and_gives; [apply clause_gives|]). apply and_gives; [apply IH; auto; cbn; lia|]. apply and_gives; [apply IH; auto; cbn; lia|now apply gives_ret].
    + apply and_gives; [apply IH; auto; cbn; lia|]. apply and_gives; [apply IH; auto; cbn; lia|]. now apply gives_ret.
  - assert (op = RNe) as -> by (destruct op; subst op1; congruence). cbn in N. destruct strict.
    + apply IH; auto; cbn; lia.
    + apply gives_bind with any; [apply lit_gives|]. intros a _. apply gives_bind with any; [apply lit_gives|]. intros b _. repeat (apply and_gives; [apply clause_gives|]).
      apply and_gives; [apply IH; auto; cbn; lia|]. apply and_gives; [apply IH; auto; cbn; lia|]. now apply gives_ret.
Qed.
End Norm.

Notation vals es := (Forall (fun e => valid (fst e)) es).
Lemma valid_fits z : valid z -> fits int32 z.
Proof. unfold valid, MIN_VAL, MAX_VAL, fits. cbn [imin imax int32]. lia. Qed.
Lemma valid_near z : valid z -> near 0 z.
Proof. unfold valid, near, MIN_VAL, MAX_VAL. lia. Qed.
Lemma valid_opp z : valid z -> valid (- z).
Proof. unfold valid, MIN_VAL. lia. Qed.
Lemma inv_vals {K} (es : list (Z * K)) : vals es -> yields (inv_all es) (fun r => vals r /\ map snd r = map snd es).
Proof.
  induction es as [|[c k] es IH]; intros F; cbn [inv_all]; [now split|]. inversion_clear F as [|? ? V F']. cbn [fst] in V.
  apply yields_bind with (fun r => r = - c); [now apply safe_yields_inv, valid_fits|]. intros c' ->. apply yields_bind with (fun r => vals r /\ map snd r = map snd es); [now apply IH|].
  intros r [A B]. cbn [yields map snd fst]. split; [constructor; [now apply valid_opp|exact A]|now rewrite B].
Qed.
Lemma yields_of {A} (o : outcome A) (Q : A -> Prop) : o <> UB -> (forall a, o = Ok a -> Q a) -> yields o Q.
Proof. intros N H. destruct o; cbn; auto. Qed.

(** *** Linear constraints *)
Definition lgood (es : list lterm) : Prop := vals es /\ Forall (fun k => k <> None) (map snd es).
Lemma lgood_inv es : lgood es -> yields (inv_all es) lgood.
Proof. intros [V N]. eapply yields_impl; [now apply inv_vals|]. intros r [A B]. split; [exact A|]. now rewrite B. Qed.
Lemma strip_gives es : lgood es -> yields (Terms.strip es) (fun r => vals r).
Proof.
  intros [V N]. destruct (strip_total es N) as [r E]. rewrite E. cbn. destruct (strip_keys _ _ E) as [_ K].
  apply Forall_map. rewrite <- K. now apply Forall_map.
Qed.
Lemma addc_l_gives l es rhs strict : lgood es -> near 10 rhs -> gives (p_addc_l O cfg srt l es rhs strict) any.
Proof.
  intros G R. unfold p_addc_l. apply gives_bind with (fun r => vals r); [apply gives_lift; now apply strip_gives|]. intros es' V. apply call_gives. intros b. cbn [build1].
  destruct (b_sum_total O cfg srt l es' rhs strict b V) as [r ->]; [now apply (near_fits 10)|discriminate].
Qed.
Lemma sum_gives {K} (ko : keyops K) es g : kmul_safe ko -> Forall wf_telem es -> (forall t, g = Some t -> wf_term t) -> gives (parse_elems_sum ko es g) coefs_fit.
Proof. intros A B C s. pose proof (parse_elems_sum_safe ko es g s A B C) as H. destruct (parse_elems_sum ko es g s) as [[r t]| |]; exact H. Qed.
Lemma diff_gives {K} (ko : keyops K) es g : Forall wf_telem es -> (forall t, g = Some t -> wf_term t) -> gives (parse_elems_diff ko es g) coefs_fit.
Proof. intros B C s. pose proof (parse_elems_diff_safe ko es g s B C) as H. destruct (parse_elems_diff ko es g s) as [[r t]| |]; exact H. Qed.
Lemma need_ok op strict : (need op strict <= NORM_FUEL)%nat.
Proof. unfold NORM_FUEL. destruct op, strict; cbn; lia. Qed.
Lemma near_4 rhs : valid rhs -> near (9 - Z.of_nat NORM_FUEL) rhs.
Proof. unfold valid, near, MIN_VAL, NORM_FUEL. lia. Qed.
Lemma fuel_9 : (NORM_FUEL <= 9)%nat. Proof. unfold NORM_FUEL. lia. Qed.
(** The atoms are well formed: numbers are 32 bit and quoted strings have their quotes, see C06. *)
Definition wf_atom (a : tatom) : Prop := Forall wf_telem (a_elems a) /\ forall op g, a_guard a = Some (op, g) -> wf_term g.
Lemma constraint_l_gives is_sum a strict : wf_atom a -> gives (p_constraint_l O cfg srt mn mx is_sum a strict) any.
Proof.
  intros [W G]. unfold p_constraint_l. destruct (a_guard a) as [[op g]|]; [|now apply gives_lift].
  assert (W' : forall t, Some g = Some t -> wf_term t) by (intros t [= <-]; now apply (G op g)).
  apply gives_bind with coefs_fit; [apply read_gives; destruct is_sum; [apply sum_gives; auto; apply lkey_safe|now apply diff_gives]|]. intros ts F.
  apply gives_bind with (fun p => lgood (fst p) /\ valid (snd p)).
  { apply gives_lift, yields_of; [now apply simplify_no_ub|]. intros [vec r] E. destruct (simplify_spec _ _ _ _ E) as (_ & _ & N & _ & R & V & _). split; [split; [exact V|exact N]|exact R]. }
  intros [vec r] [[V N] R]. cbn [fst snd] in *. destruct (gcd_reduce vec r) as [vec' r'] eqn:E. destruct (gcd_reduce_spec _ _ _ _ E) as (K & _ & V' & R' & _).
  apply (normalize_gives (p_addc_l O cfg srt) lgood lgood_inv addc_l_gives NORM_FUEL); [apply need_ok|apply fuel_9|split; [now apply V'|now rewrite K]|apply near_4; auto].
Qed.

(** *** Products *)
Definition found (st : Z * option var * option var * Z * option var) : Prop :=
  let '(ab, va, vb, c, vc) := st in valid ab /\ valid c /\ (ab <> 0 -> va <> None /\ vb <> None) /\ (c <> 0 -> vc <> None).
Lemma scan_gives es : vals es -> forall st, found st -> yields (nonlin_scan es st) found.
Proof.
  induction es as [|[co k] es IH]; intros V [[[[ab va] vb] c] vc] H; cbn [nonlin_scan]; [exact H|]. inversion_clear V as [|? ? Vc V']. cbn [fst] in Vc.
  destruct H as (A & B & C & D). destruct k as [|v [|w [|? ?]]]; try exact Logic.I.
  - apply IH; [exact V'|]. exact (conj A (conj B (conj C D))).
  - destruct (c =? 0); [|exact Logic.I]. apply IH; [exact V'|]. refine (conj A (conj Vc (conj C _))). discriminate.
  - destruct (c =? 0); [|exact Logic.I]. apply IH; [exact V'|]. refine (conj Vc (conj B (conj _ D))). now split.
Qed.
Lemma nonlin_gives l ab va vb c vc rhs strict b : found (ab, va, vb, c, vc) -> near 10 rhs -> yields (b_nonlinear O cfg srt l ab va vb c vc rhs strict b) any.
Proof.
  intros (A & B & C & D) R. pose proof (near_fits 10 rhs ltac:(lia) R) as RF. unfold b_nonlinear. destruct (Z.eqb_spec ab 0) as [->|Ha].
  - destruct (Z.eqb_spec c 0) as [->|Hc]; [destruct (b_sum_total O cfg srt l [] rhs strict b) as [r ->]; [constructor|exact RF|exact Logic.I]|].
    destruct vc as [z|]; [|now elim (D Hc)]. destruct (b_sum_total O cfg srt l [(c, z)] rhs strict b) as [r ->]; [constructor; [exact B|constructor]|exact RF|exact Logic.I].
  - destruct (C Ha) as [X Y]. destruct va as [x|]; [|now elim X]. destruct vb as [y|]; [|now elim Y]. destruct strict; [|exact Logic.I].
    apply yields_bind with (fun r => r = rhs + 1); [apply safe_yields_add; unfold fits; cbn [imin imax int32] in *; lia|]. intros r ->.
    apply yields_bind with (fun r => r = - (rhs + 1)); [apply safe_yields_inv; unfold fits, near, MAX_VAL in *; cbn [imin imax int32] in *; lia|]. intros r _.
    apply yields_bind with (fun r => r = - ab); [now apply safe_yields_inv, valid_fits|]. intros r1 _.
    apply yields_bind with (fun r => r = - c); [now apply safe_yields_inv, valid_fits|]. intros r2 _. exact Logic.I.
Qed.
Lemma addc_n_gives l es rhs strict : vals es -> near 10 rhs -> gives (p_addc_n O cfg srt l es rhs strict) any.
Proof.
  intros V R. unfold p_addc_n. apply gives_bind with found.
  { apply gives_lift, scan_gives; [exact V|]. repeat split; try (unfold valid, MIN_VAL, MAX_VAL; lia); intros H; now elim H. }
  intros [[[[ab va] vb] c] vc] H. apply call_gives. intros b. cbn [build1]. pose proof (nonlin_gives l ab va vb c vc rhs strict b H R) as Y. intros E. now rewrite E in Y.
Qed.
Lemma constraint_n_gives a strict : wf_atom a -> gives (p_constraint_n O cfg srt mn mx a strict) any.
Proof.
  intros [W G]. unfold p_constraint_n. destruct (a_guard a) as [[op g]|]; [|now apply gives_lift].
  assert (W' : forall t, Some g = Some t -> wf_term t) by (intros t [= <-]; now apply (G op g)).
  apply gives_bind with coefs_fit; [apply read_gives, sum_gives; auto; apply nkey_safe|]. intros ts F.
  apply gives_bind with (fun p => vals (fst p) /\ valid (snd p)).
  { apply gives_lift, yields_of; [now apply simplify_n_no_ub|]. intros [vec r] E. destruct (simplify_n_spec _ _ _ _ E) as (_ & _ & _ & _ & R & V). now split. }
  intros [vec r] [V R]. cbn [fst snd] in *. destruct (gcd_reduce vec r) as [vec' r'] eqn:E. destruct (gcd_reduce_spec _ _ _ _ E) as (K & _ & V' & R' & _).
  apply (normalize_gives (p_addc_n O cfg srt) (fun es => vals es)); [|apply addc_n_gives|apply need_ok|apply fuel_9|now apply V'|apply near_4; auto].
  intros es X. eapply yields_impl; [now apply inv_vals|]. now intros r0 [Y _].
Qed.

(** *** The other statements *)
Lemma eval_gives t : wf_term t -> yields (evaluate t) num_fits.
Proof. intros W. exact (evaluate_safe t W). Qed.
Lemma num_gives s : num_fits s -> yields (num_of s) (fits int32).
Proof. destruct s; cbn; auto. Qed.
Lemma variable_gives s : gives (Terms.add_variable s) any.
Proof. intros t. destruct (add_variable_no_ub s t) as [A _]. destruct (Terms.add_variable s t) as [[v t']| |]; [exact Logic.I..|congruence]. Qed.
Lemma op2_wf t o x y : op2 t o = Some (x, y) -> wf_term t -> wf_term x /\ wf_term y.
Proof.
  unfold op2. destruct t as [ | |name [|a [|b [|c r]]]| | ]; try discriminate. destruct (String.eqb name o); [|discriminate]. intros [= <- <-] W. change (wf_args [a; b]) in W.
  destruct W as (A & B & _). now split.
Qed.
Lemma min_gives factor ts : fits int32 factor -> coefs_fit ts -> gives (p_add_min O cfg srt factor ts) any.
Proof.
  intros F. induction ts as [|[c v] ts IH]; intros C; cbn [p_add_min]; [now apply gives_ret|]. inversion_clear C as [|? ? Cc Cs]. cbn [fst] in Cc.
  apply gives_bind with any; [apply gives_lift; pose proof (safe_z_mul factor c F Cc) as Z; destruct (safe_mul int32 factor c); [exact Logic.I|exact Logic.I|exact Z]|]. intros co _.
  apply gives_bind with any; [apply call_gives; intros b; discriminate|]. intros _ _. now apply IH.
Qed.
Lemma objective_gives a factor : fits int32 factor -> wf_atom a -> gives (p_objective O cfg srt mn mx a factor) any.
Proof.
  intros F [W _]. unfold p_objective. apply gives_bind with coefs_fit; [apply read_gives, sum_gives; auto; [apply lkey_safe|discriminate]|]. intros ts C. now apply min_gives.
Qed.
Lemma show_elem_gives t : wf_term t -> gives (p_show_elem O cfg srt mn mx t) any.
Proof.
  intros W. unfold p_show_elem. destruct (op2 t "/") as [[x y]|] eqn:E.
  - destruct (op2_wf _ _ _ _ E W) as [Wx Wy]. apply gives_bind with num_fits; [apply gives_lift; now apply eval_gives|]. intros [n|s|name [|? ?] p] _; try (now apply gives_lift).
    apply gives_bind with num_fits; [apply gives_lift; now apply eval_gives|]. intros sy N. apply gives_bind with (fits int32); [apply gives_lift; now apply num_gives|]. intros n _.
    apply gives_bind with any; [apply call_gives; intros b; discriminate|]. intros _ _. now apply gives_ret.
  - apply gives_bind with num_fits; [apply gives_lift; now apply eval_gives|]. intros [n|s|name args p] _; [now apply gives_lift|..].
    all: apply gives_bind with any; [apply read_gives, variable_gives|]; intros v _; apply gives_bind with any; [apply call_gives; intros b; discriminate|]; intros _ _; now apply gives_ret.
Qed.
Lemma show_gives a : wf_atom a -> gives (p_show O cfg srt mn mx a) any.
Proof.
  intros [W _]. unfold p_show. apply gives_bind with any; [apply call_gives; intros b; discriminate|]. intros _ _.
  induction W as [|[[|t [|? ?]] [|]] es We _ IH]; cbn [p_show_elems]; try (now apply gives_lift); [now apply gives_ret|].
  apply gives_bind with any; [apply show_elem_gives; now inversion We|]. intros _ _. exact IH.
Qed.
Lemma dom_elem_gives t : wf_term t -> yields (parse_dom_elem t) (fun p => fits int32 (fst p) /\ fits int32 (snd p)).
Proof.
  intros W. assert (NX : forall t', wf_term t' -> yields (s <- evaluate t' ;; num_of s) (fits int32)).
  { intros t' W'. apply yields_bind with num_fits; [now apply eval_gives|]. intros s. apply num_gives. }
  assert (AD : forall z, fits int32 z -> yields (safe_add int32 z 1) (fits int32)).
  { intros z F. pose proof (safe_z_add z 1 F ltac:(unfold fits; cbn; lia)) as Z. destruct (safe_add int32 z 1); exact Z. }
  unfold parse_dom_elem. destruct (op2 t "..") as [[x y]|] eqn:E.
  - destruct (op2_wf _ _ _ _ E W) as [Wx Wy]. apply yields_bind with num_fits; [now apply eval_gives|]. intros sx Nx. apply yields_bind with (fits int32); [now apply num_gives|]. intros a Fa.
    apply yields_bind with num_fits; [now apply eval_gives|]. intros sy Ny. apply yields_bind with (fits int32); [now apply num_gives|]. intros b Fb.
    apply yields_bind with (fits int32); [now apply AD|]. intros r Fr. now split.
  - apply yields_bind with num_fits; [now apply eval_gives|]. intros sx Nx. apply yields_bind with (fits int32); [now apply num_gives|]. intros a Fa.
    apply yields_bind with (fits int32); [now apply AD|]. intros r Fr. now split.
Qed.
Lemma value_gives z : yields (check_valid_value z) (fun r => r = z /\ valid z).
Proof.
  apply yields_of; [|intros r; apply check_valid_val]. unfold check_valid_value. destruct (_ <? _); [discriminate|]. destruct (_ <? _); discriminate.
Qed.
Lemma dom_elems_gives es : Forall wf_telem es -> forall d, yields (parse_dom_elems es d) any.
Proof.
  induction 1 as [|[[|t [|? ?]] [|]] es We _ IH]; intros d; cbn [parse_dom_elems]; try exact Logic.I.
  apply yields_bind with (fun p => fits int32 (fst p) /\ fits int32 (snd p)); [apply dom_elem_gives; now inversion We|]. intros [l r] [Fl Fr]. cbn [fst snd] in *.
  destruct (l <? r); [|apply IH]. apply yields_bind with (fun q => q = l /\ valid l); [apply value_gives|]. intros _ _.
  apply yields_bind with (fun q => q = r - 1); [apply safe_yields_sub; [exact Fr|unfold fits; cbn; lia]|]. intros q ->.
  apply yields_bind with (fun q => q = r - 1 /\ valid (r - 1)); [apply value_gives|]. intros _ _. apply IH.
Qed.
Lemma dom_gives a : wf_atom a -> gives (p_dom O cfg srt mn mx a) any.
Proof.
  intros [W G]. unfold p_dom. apply gives_bind with any; [apply gives_lift; now apply dom_elems_gives|]. intros d _. destruct (a_guard a) as [[op g]|]; [|now apply gives_lift].
  apply gives_bind with num_fits; [apply gives_lift, eval_gives; now apply (G op g)|]. intros s _. apply gives_bind with any; [apply read_gives, variable_gives|]. intros v _.
  apply call_gives. intros b. discriminate.
Qed.
Definition dgood (e : list (Z * var) * Z) : Prop := vals (fst e) /\ valid (snd e).
Lemma distinct_elems_gives es : Forall wf_telem es -> gives (parse_distinct_elems es) (Forall dgood).
Proof.
  induction 1 as [|[[|t ts] [|]] es We _ IH]; cbn [parse_distinct_elems]; try (now apply gives_lift); [apply gives_ret; constructor|].
  inversion_clear We as [|? ? Wt _]. apply gives_bind with coefs_fit.
  { intros s. pose proof (parse_elem_safe lkey lkey_safe t s Wt) as H. destruct (parse_elem lkey t s) as [[r s']| |]; exact H. }
  intros co F. apply gives_bind with (fun p => lgood (fst p) /\ valid (snd p)).
  { apply gives_lift, yields_of; [now apply simplify_no_ub|]. intros [vec r] E. destruct (simplify_spec _ _ _ _ E) as (_ & _ & N & _ & R & V & _). split; [split; [exact V|exact N]|exact R]. }
  intros [vec r] [G R]. cbn [fst snd] in *. apply gives_bind with (fun q => q = - r); [apply gives_lift; now apply safe_yields_inv, valid_fits|]. intros c ->.
  apply gives_bind with (fun r => vals r); [apply gives_lift; now apply strip_gives|]. intros vec' V. apply gives_bind with (Forall dgood); [exact IH|]. intros rs Q.
  apply gives_ret. constructor; [split; [exact V|now apply valid_opp]|exact Q].
Qed.
Lemma distinct_gives a : wf_atom a -> gives (p_distinct O cfg srt mn mx a) any.
Proof.
  intros [W _]. unfold p_distinct. apply gives_bind with (Forall dgood); [apply read_gives; now apply distinct_elems_gives|]. intros es N. apply call_gives. intros b. cbn [build1].
  unfold b_distinct. destruct (is_false _ _ _); [discriminate|]. destruct (2 <? _)%nat; [discriminate|].
  destruct es as [|e1 [|e2 [|e3 es]]]; try discriminate. inversion_clear N as [|? ? [N1 N1'] N']. inversion_clear N' as [|? ? [N2 N2'] _]. now apply b_differ_total.
Qed.
Lemma disjoint_elems_gives es : Forall wf_telem es -> gives (parse_disjoint_elems es) (Forall (fun e => 0 < fst e <= imax int32)).
Proof.
  induction 1 as [|[[|t ts] [|]] es We _ IH]; cbn [parse_disjoint_elems]; try (now apply gives_lift); [apply gives_ret; constructor|].
  inversion_clear We as [|? ? Wt _]. destruct (op2 t "@") as [[x y]|] eqn:E; [|now apply gives_lift]. destruct (op2_wf _ _ _ _ E Wt) as [Wx Wy].
  apply gives_bind with num_fits; [apply gives_lift; now apply eval_gives|]. intros sx _. apply gives_bind with num_fits; [apply gives_lift; now apply eval_gives|]. intros sy Ny.
  apply gives_bind with any; [apply gives_lift; unfold check_syntax; destruct (negb _); exact Logic.I|]. intros _ _.
  apply gives_bind with (fits int32); [apply gives_lift; now apply num_gives|]. intros n _. destruct (0 <? n) eqn:P; [|exact IH].
  apply gives_bind with (fun q => q = n /\ valid n); [apply gives_lift, value_gives|]. intros q [-> V]. apply gives_bind with any; [apply variable_gives|]. intros v _.
  apply gives_bind with (Forall (fun e => 0 < fst e <= imax int32)); [exact IH|]. intros r F. apply gives_ret. constructor; [|exact F]. cbn [fst]. apply valid_fits in V. unfold fits in V. lia.
Qed.
Lemma disjoint_gives a : wf_atom a -> gives (p_disjoint O cfg srt mn mx a) any.
Proof.
  intros [W _]. unfold p_disjoint. apply gives_bind with (Forall (fun e => 0 < fst e <= imax int32)); [apply read_gives; now apply disjoint_elems_gives|]. intros es N. apply call_gives. intros b. cbn [build1].
  destruct (b_disjoint_total O cfg srt (a_lit a) es b N) as [r ->]. discriminate.
Qed.
Lemma atom_gives a : wf_atom a -> gives (p_atom O cfg srt mn mx a) any.
Proof.
  intros W. unfold p_atom. destruct (a_kind a); try (now apply constraint_l_gives); try (now apply constraint_n_gives).
  - now apply distinct_gives.
  - now apply disjoint_gives.
  - apply gives_bind with any; [now apply show_gives|]. intros _ _. now apply gives_ret.
  - now apply dom_gives.
  - apply gives_bind with any; [apply objective_gives; [unfold fits; cbn; lia|exact W]|]. intros _ _. now apply gives_ret.
  - apply gives_bind with any; [apply objective_gives; [unfold fits; cbn; lia|exact W]|]. intros _ _. now apply gives_ret.
  - now apply gives_ret.
Qed.
Theorem parse_defined atoms s : Forall wf_atom atoms -> p_parse O cfg srt mn mx atoms s <> UB.
Proof.
  intros W. assert (H : gives (p_parse O cfg srt mn mx atoms) any).
  { induction W as [|a atoms Wa _ IH]; cbn [p_parse]; [now apply gives_ret|]. apply gives_bind with any; [now apply atom_gives|]. intros [|] _; [exact IH|now apply gives_ret]. }
  intros E. specialize (H s). now rewrite E in H.
Qed.
End Defined.
