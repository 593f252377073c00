(** The reading theorems in the form stated in Prop_Terms. *)
From Coq Require Import String.
From Verif Require Import Base Util UtilProofs IntervalSet IntervalSetProofs Terms TermsSpec TermsProofs TermsProofs2 TermsProofs3 TermsProofs4
  Statements StatementsSpec DenFun StatementsProofs.
Open Scope Z_scope.

Lemma den_elems_unique rho es x y : den_elems (den rho) es x -> den_elems (den rho) es y -> x = y.
Proof. intros A B. exact (den_elems_fun _ (fun t x H => den_fun rho t x H) _ _ A _ B). Qed.

Lemma parse_elems_no_ub es guard t : Forall wf_telem es -> (forall g, guard = Some g -> wf_term g) ->
  parse_elems_sum lkey es guard t <> UB /\ parse_elems_sum nkey es guard t <> UB /\ parse_elems_diff lkey es guard t <> UB.
Proof.
  intros W G. pose proof (parse_elems_sum_safe lkey es guard t lkey_safe W G) as A. pose proof (parse_elems_sum_safe nkey es guard t nkey_safe W G) as B.
  pose proof (parse_elems_diff_safe lkey es guard t W G) as C.
  split; [|split]; intros E; rewrite E in *; assumption.
Qed.

Lemma head_realizable is_true ret nu l ts op s s' :
  constrain_l is_true ret l ts op false s = Ok (true, s') -> below (b_next s) l -> bounded_by is_true (b_next s) ->
  exists new, b_log s' = b_log s ++ new /\
  forall I, okI is_true I ->
    (realizable is_true (b_next s) I nu new <-> (lit_true I l -> holds op (terms_val (key_val nu) ts) 0)).
Proof.
  intros H B Bn. apply (constrain_l_sem _ _ nu) in H; auto. apply Sem_realizable in H; [|apply reif_dep, B].
  destruct H as (new & A & R). exists new. split; [exact A|]. intros I O. rewrite (R I O). unfold reif. intuition discriminate.
Qed.
Lemma body_realizable is_true ret nu l ts op s s' :
  constrain_l is_true ret l ts op true s = Ok (true, s') -> below (b_next s) l -> bounded_by is_true (b_next s) ->
  exists new, b_log s' = b_log s ++ new /\
  forall I, okI is_true I ->
    (realizable is_true (b_next s) I nu new <-> (lit_true I l <-> holds op (terms_val (key_val nu) ts) 0)).
Proof.
  intros H B Bn. apply (constrain_l_sem _ _ nu) in H; auto. apply Sem_realizable in H; [|apply reif_dep, B].
  destruct H as (new & A & R). exists new. split; [exact A|]. intros I O. rewrite (R I O). unfold reif. clear. intuition.
Qed.

Lemma Sem_exists_real is_true nu s s' (P : (sym -> Z) -> interp -> Prop) t' :
  (exists new, b_log s' = b_log s ++ new) ->
  (forall rho, tab_agrees rho nu t' -> Sem is_true nu s s' (P rho)) -> (forall rho, dep (b_next s) (P rho)) ->
  exists new, b_log s' = b_log s ++ new /\
    forall rho, tab_agrees rho nu t' -> forall I, okI is_true I -> (realizable is_true (b_next s) I nu new <-> P rho I).
Proof.
  intros [new N] S D. exists new. split; [exact N|]. intros rho R. destruct (Sem_realizable _ _ _ _ _ (S rho R) (D rho)) as (new' & N' & X).
  rewrite N in N'. apply app_inv_head in N'. subst new'. exact X.
Qed.

Lemma atom_log is_true ret a st b st' : parse_atom is_true ret a st = Ok (b, st') -> b = true -> exists new, b_log (snd st') = b_log (snd st) ++ new.
Proof. intros H ->. destruct (parse_atom_obj _ _ (fun _ => 0) _ _ _ H) as (new & N & _). eauto. Qed.

Lemma atom_realizable is_true ret nu a st st' : parse_atom is_true ret a st = Ok (true, st') ->
  below (b_next (snd st)) (a_lit a) -> bounded_by is_true (b_next (snd st)) -> atom_fine a (fst st) ->
  extends (fst st) (fst st') /\ (tab_wf (fst st) -> tab_wf (fst st')) /\
  exists new, b_log (snd st') = b_log (snd st) ++ new /\
    forall rho, tab_agrees rho nu (fst st') -> forall I, okI is_true I ->
      (realizable is_true (b_next (snd st)) I nu new <-> atom_means rho a I).
Proof.
  intros H B Bn F. pose proof (atom_log _ _ _ _ _ _ H eq_refl) as L. apply (parse_atom_sem _ _ nu) in H; auto. destruct H as (_ & A1 & A2 & A3).
  split; [exact A1|]. split; [exact A2|]. apply Sem_exists_real; [exact L|exact A3|]. intros rho. apply atom_means_dep, B.
Qed.

Lemma program_realizable is_true ret nu atoms st st' : parse is_true ret atoms st = Ok (true, st') ->
  Forall (fun a => below (b_next (snd st)) (a_lit a)) atoms -> bounded_by is_true (b_next (snd st)) ->
  program_fine is_true ret atoms st ->
  extends (fst st) (fst st') /\ (tab_wf (fst st) -> tab_wf (fst st')) /\
  exists new, b_log (snd st') = b_log (snd st) ++ new /\
    forall rho, tab_agrees rho nu (fst st') -> forall I, okI is_true I ->
      (realizable is_true (b_next (snd st)) I nu new <-> Forall (fun a => atom_means rho a I) atoms).
Proof.
  intros H B Bn F. destruct (parse_obj _ _ nu _ _ _ H B Bn F) as (new & L & _). apply (parse_sem _ _ nu) in H; auto. destruct H as (_ & A1 & A2 & A3).
  split; [exact A1|]. split; [exact A2|]. apply Sem_exists_real; [eauto|exact A3|]. intros rho I J A. rewrite !Forall_forall. rewrite Forall_forall in B.
  intros X x Hx. eapply atom_means_dep; eauto.
Qed.

Lemma nonlinear_realizable is_true ret nu a strict st st' :
  parse_atom is_true ret a st = Ok (true, st') -> a_kind a = KNsum strict ->
  below (b_next (snd st)) (a_lit a) -> bounded_by is_true (b_next (snd st)) -> one_product_atom a (fst st) ->
  exists new, b_log (snd st') = b_log (snd st) ++ new /\
    forall rho, tab_agrees rho nu (fst st') -> forall I, okI is_true I ->
      (realizable is_true (b_next (snd st)) I nu new <->
       exists op g x y, a_guard a = Some (op, g) /\ den_elems (den rho) (a_elems a) x /\ den rho g y /\
         reified I (a_lit a) strict (holds op x y)).
Proof.
  intros H K B Bn F. apply (atom_realizable _ _ nu) in H; auto; [|unfold atom_fine; rewrite K; exact F].
  destruct H as (_ & _ & H). unfold atom_means in H. rewrite K in H. exact H.
Qed.

Lemma names_of_vars t : tab_wf t -> forall nu, exists rho, tab_agrees rho nu t.
Proof. intros W nu. exists (name_val t nu). apply name_val_agrees, W. Qed.
Lemma vars_of_names t : tab_wf t -> forall rho, exists nu, tab_agrees rho nu t.
Proof. intros W rho. exists (var_val t rho). apply var_val_agrees, W. Qed.

Lemma domain_read es dom : parse_dom_elems es [] = Ok dom ->
  wf dom /\ (forall z, mem dom z <-> exists t, In ([t], true) es /\ dom_lists t z) /\ (forall z, mem dom z -> valid z).
Proof.
  intros H. destruct (parse_dom_elems_spec (fun _ => true) _ _ _ H Logic.I) as (A & B & C). split; [exact A|]. split.
  - intros z. rewrite B. split; [intros [N|N]; [destruct (mem_nil _ N)|exact N]|auto].
  - apply C. intros z N. destruct (mem_nil _ N).
Qed.

(** Two products: [x*y + x*z <= 5] with x = y = 3, z = 0. *)
Definition w_atom : tatom :=
  mkatom (KNsum false) [([TFun "*" [TSym "x"; TSym "y"]], true); ([TFun "*" [TSym "x"; TSym "z"]], true)] (Some (RLe, TNum 5)) 2.
Definition w_nu (v : var) : Z := match v with 0%nat | 1%nat => 3 | _ => 0 end.
Definition w_rho (s : sym) : Z := if sym_eqb s (SFun "z" [] true) then 0 else 3.

Lemma two_products_dropped :
  exists a st st' new rho nu I,
    a_kind a = KNsum false /\
    parse_atom (fun l => l =? 1) (fun _ => true) a st = Ok (true, st') /\
    b_log (snd st') = b_log (snd st) ++ new /\
    tab_wf (fst st) /\ tab_agrees rho nu (fst st') /\ okI (fun l => l =? 1) I /\
    Forall (call_holds I nu) new /\ lit_true I (a_lit a) /\
    ~ atom_means rho a I.
Proof.
  exists w_atom, (mksymtab [] 0, mkbst 3 []). eexists. eexists. exists w_rho, w_nu, (fun _ => true).
  split; [reflexivity|]. split; [vm_compute; reflexivity|]. split; [reflexivity|]. cbn [fst snd].
  split; [split; [constructor|split; [constructor|intros s v []]]|].
  split; [intros s v [E|[E|[E|[]]]]; injection E as <- <-; reflexivity|].
  split; [split; [reflexivity|]; intros l H; apply Z.eqb_eq in H; subst; reflexivity|].
  split; [constructor; [|constructor]; split; [intros _; vm_compute; discriminate|discriminate]|].
  split; [reflexivity|].
  intros (op & g & x & y & G & X & Y & R). cbn in G. injection G as <- <-. inversion Y; subst; [|try discriminate..].
  - assert (D : den_elems (den w_rho) (a_elems w_atom) (3 * 3 + (3 * 0 + 0))).
    { assert (V : forall n, n <> EmptyString -> (forall i, n <> String """" (i ++ """") /\ n <> """"%string) -> den w_rho (TSym n) (w_rho (SFun n [] true))).
      { intros n _ N. apply d_var; try discriminate; try (intros; split; discriminate). constructor. exact N. }
      assert (Vx := V "x"%string ltac:(discriminate) ltac:(split; discriminate)).
      assert (Vy := V "y"%string ltac:(discriminate) ltac:(split; discriminate)).
      assert (Vz := V "z"%string ltac:(discriminate) ltac:(split; discriminate)).
      constructor; [apply d_mul; assumption|]. constructor; [apply d_mul; assumption|]. constructor. }
    rewrite (den_elems_unique _ _ _ _ X D) in R. destruct R as [R _]. specialize (R eq_refl). cbn [holds] in R. lia.
  - match goal with N : forall n, TNum _ <> TNum n |- _ => eapply N; reflexivity end.
Qed.

Definition w_es : list telem := [([TFun "*" [TSym "x"; TSym "y"]], true); ([TSym "z"], true)].
Lemma order_matters : exists a b st, a_elems a = rev (a_elems b) /\
  a_kind a = a_kind b /\ a_guard a = a_guard b /\ a_lit a = a_lit b /\
  (exists st', parse_atom (fun l => l =? 1) (fun _ => true) a st = Ok (true, st')) /\
  (exists e, parse_atom (fun l => l =? 1) (fun _ => true) b st = Throw e).
Proof.
  exists (mkatom (KNsum false) w_es (Some (RLe, TNum 5)) 2), (mkatom (KNsum false) (rev w_es) (Some (RLe, TNum 5)) 2), (mksymtab [] 0, mkbst 3 []).
  repeat split; eexists; vm_compute; reflexivity.
Qed.
