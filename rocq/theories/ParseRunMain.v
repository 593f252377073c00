(** The parser on the real builder: from a program to the calls demanded by C47 and back. *)
From Verif Require Import Base Util UtilProofs IntervalSet VarState Terms TermsSpec TermsProofs TermsProofs2 TermsProofs4 Statements StatementsSpec DenFun StatementsProofs
  Solver OrderSpec Orders Sum ConSpec Objective Search SearchSpec Builder BuilderSpec BuilderProofs3 Init InitSpec InitReady Prop_Init ParseRun ParseRunSpec ParseRunProofs ParseRunProofs2 ParseRunProofs3 ParseRunProofs4.
From Coq Require Import Permutation.
Open Scope Z_scope.

(** Programs look at the literals of their atoms only. *)
Definition same_on (n : Z) (I J : interp) : Prop := forall i, 0 < i < n -> I i = J i.
Lemma lit_true_on n I J l : same_on n I J -> below n l -> (lit_true I l <-> lit_true J l).
Proof. intros A [N B]. unfold lit_true. destruct (0 <? l) eqn:E; rewrite A by lia; reflexivity. Qed.
Lemma atom_means_on n rho a I J : below n (a_lit a) -> same_on n I J -> atom_means rho a I -> atom_means rho a J.
Proof.
  intros B A. unfold atom_means, reified. pose proof (lit_true_on n I J (a_lit a) A B) as E.
  destruct (a_kind a); try exact (fun H => H).
  - intros (op & g & x & y & H). exists op, g, x, y. rewrite <- E. exact H.
  - intros (op & g & x & y & H). exists op, g, x, y. rewrite <- E. exact H.
  - intros (op & g & x & y & H). exists op, g, x, y. rewrite <- E. exact H.
  - intros (xs & H). exists xs. rewrite <- E. exact H.
  - intros (xs & H). exists xs. rewrite <- E. exact H.
  - intros (op & g & s & H). exists op, g, s. rewrite <- E. exact H.
Qed.
Lemma firmly_on n rho a I J : 1 < n -> same_on n I J -> holds_firmly rho a I -> holds_firmly rho a J.
Proof.
  intros N A. unfold holds_firmly. assert (B : below n (a_lit (as_fact a))) by (cbn; unfold below, TRUE_LIT; lia). pose proof (atom_means_on n rho (as_fact a) I J B A) as X.
  destruct (a_kind a); auto; [intros [L H]; auto|intros [L|H]; auto..].
Qed.
Lemma objective_fun rho atoms x : objective rho atoms x -> forall y, objective rho atoms y -> x = y.
Proof.
  induction 1 as [|a r x y K D _ IH|a r x y K D _ IH|a r y N1 N2 _ IH]; intros z H'; inversion H'; subst; try congruence; f_equal; eauto.
  - eapply den_elems_fun; [|eassumption..]. intros t ? ? ? ?. eapply den_fun; eauto.
  - f_equal. eapply den_elems_fun; [|eassumption..]. intros t ? ? ? ?. eapply den_fun; eauto.
Qed.
(** Values for the variables: those of the names, and something in the range for variables without name. *)
Definition clamp (mn mx : Z) (t : symtab) (rho : sym -> Z) (v : var) : Z := Z.max mn (Z.min mx (var_val t rho v)).
Lemma clamp_agrees mn mx t rho : tab_wf t -> in_range mn mx t rho -> tab_agrees rho (clamp mn mx t rho) t.
Proof. intros W R s v H. pose proof (R s v H). pose proof (var_val_agrees t rho W s v H) as E. unfold clamp. rewrite E. lia. Qed.

Section Main.
Context (O : oracle) (cfg : config) (srt : list (Z * var) -> list (Z * var)) (mn mx : Z) (Base : interp -> Prop) (n0 : Z).
Context (BO : base_ok Base n0) (CO : clasp_ok O Base) (PS : forall es, Permutation (srt es) es) (MX : mn <= mx) (MR : MIN_VAL <= mn /\ mx <= MAX_VAL).
Notation fresh n := (mkb (set_nxt n init_state) [] 0%nat).

Lemma new_models n I nu : Base I -> I 1 = true -> models Base (fresh n) I nu.
Proof. intros B I1. split; [split; [exact B|split; [exact I1|constructor]]|]. split; [|constructor]. intros x Hx. cbn in Hx. lia. Qed.

Theorem parse_main n atoms s1 : p_parse O cfg srt mn mx atoms (mkpr (mksymtab [] 0) (fresh n) []) = Ok (true, s1) ->
  1 < n -> n0 <= n -> stays_top O (set_nxt n init_state) -> Forall (fun a => below n (a_lit a)) atoms -> Forall covered atoms ->
  tab_wf (p_tab s1) /\ st_next (p_tab s1) = nvars (b_s (p_b s1)) /\
  exists K' P, run O cfg srt (fun i => 0 < i < n) (fresh n) (p_ops s1) K' (p_b s1) P /\ Forall (op_tidy (nvars (b_s (p_b s1)))) (p_ops s1) /\ (forall i, 0 < i < n -> K' i) /\
    (forall I nu, Base I -> I 1 = true -> P I nu -> answers mn mx (p_tab s1) atoms (name_val (p_tab s1) nu) I) /\
    ((forall c, In (POp c) (p_ops s1) -> third_ok c) -> forall I rho, Base I -> I 1 = true -> answers mn mx (p_tab s1) atoms rho I -> Forall (fun a => holds_firmly rho a I) atoms ->
      exists J, same_on n I J /\ Base J /\ J 1 = true /\ P J (clamp mn mx (p_tab s1) rho) /\ firmly (p_ops s1) J (clamp mn mx (p_tab s1) rho)) /\
    (forall rho nu, tab_agrees rho nu (p_tab s1) -> objective rho atoms (terms_val (key_val nu) (min_terms (calls (p_ops s1))))).
Proof.
  intros H N N0 ST LB CV. set (K := fun i => 0 < i < n).
  assert (P0 : pok O n0 K (mkpr (mksymtab [] 0) (fresh n) [])).
  { constructor; cbn [p_b p_tab]; [now apply fresh_top|intros i Hi; exact Hi|unfold K; lia|split; [constructor|split; [constructor|easy]]|reflexivity]. }
  destruct (parse_step O cfg srt mn mx Base n0 BO CO PS MX MR atoms K _ _ H P0) as (K' & Q & F & W & A & D & S).
  { eapply Forall_impl; [|exact LB]. intros a [L1 L2]. unfold K. lia. }
  { exact CV. }
  pose proof (ad_ok _ _ _ _ _ _ _ _ _ _ _ _ A) as P1. destruct (ad_run _ _ _ _ _ _ _ _ _ _ _ _ A) as (ops & P & E & R & T & FM & WM). cbn [p_ops p_b p_tab app] in *. subst ops.
  split; [apply (po_tab _ _ _ _ P1)|]. split; [apply (po_next _ _ _ _ P1)|]. exists K', P.
  destruct (run_known O cfg srt Base n0 BO CO PS _ _ _ _ _ _ R (po_top _ _ _ _ P0) (po_lit _ _ _ _ P0)) as (KK & _ & _ & PD & _ & _ & _ & RB & RF).
  split; [exact R|]. split; [exact T|]. split; [intros i Hi; apply KK, Hi|].
  assert (LIT : forall rho I J, same_on n I J -> Forall (fun a => atom_means rho a I) atoms -> Forall (fun a => atom_means rho a J) atoms).
  { intros rho I J SO FA. rewrite Forall_forall in *. intros a Ha. eapply atom_means_on; eauto. }
  split; [|split].
  - intros I nu BI I1 HP. destruct (RF I nu (new_models n I nu BI I1) HP) as (J & AJ & MJ). destruct (ad_bwd _ _ _ _ _ _ _ _ _ _ _ _ A _ _ MJ) as (_ & RG & HQ).
    pose proof (name_val_agrees _ nu (po_tab _ _ _ _ P1)) as TA. destruct (S _ _ TA) as (SQ & _).
    assert (J1 : J 1 = true) by (rewrite AJ; [exact I1|left; apply KK; unfold K; lia]). split.
    + intros s v Hv. rewrite <- (TA s v Hv). apply RG. split; [apply Nat.le_0_l|]. rewrite <- (po_next _ _ _ _ P1). apply (proj2 (proj2 (po_tab _ _ _ _ P1)) _ _ Hv).
    + apply (LIT _ J I); [|now apply SQ]. intros i Hi. apply AJ. left. apply KK. exact Hi.
  - intros TH I rho BI I1 [RG AM] FR. pose proof (clamp_agrees mn mx _ rho (po_tab _ _ _ _ P1) RG) as TA. destruct (S _ _ TA) as (SQ & SF & _).
    destruct (ad_fwd _ _ _ _ _ _ _ _ _ _ _ _ A I (clamp mn mx (p_tab s1) rho)) as (J & AJ & MJ); [now apply new_models|split; [|now apply SQ]|].
    { intros x Hx. unfold clamp. lia. }
    assert (SO : same_on n I J) by (intros i Hi; apply AJ; cbn; lia). assert (J1 : J 1 = true) by (rewrite <- (SO 1) by lia; exact I1).
    destruct (RB _ _ MJ) as [M0 HP]. exists J. split; [exact SO|]. split; [apply M0|]. split; [exact J1|]. split; [exact HP|].
    intros c Hc. split; [now apply TH|]. destruct (FM J (clamp mn mx (p_tab s1) rho)) with (c := c) as [E|X]; auto.
    + apply SF; [exact J1|]. rewrite Forall_forall in *. intros a Ha. eapply firmly_on; eauto.
    + rewrite E. eapply run_holds; eauto.
  - intros rho nu TA. rewrite WM. apply (S rho nu TA).
Qed.
End Main.
