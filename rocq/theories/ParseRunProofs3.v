(** The parser on the real builder: reading terms. *)
From Coq Require Import String.
From Verif Require Import Base Util UtilProofs IntervalSet IntervalSetProofs VarState Terms TermsSpec TermsProofs TermsProofs2 TermsProofs3 TermsProofs4 Statements StatementsSpec DenFun StatementsProofs StatementsMain
  Solver OrderSpec OrderProofs2 OrderProofs5 OrderProofs6 Sum PropProofs ConSpec Objective Search SearchSpec SearchFrame SearchInv5 Builder BuilderSpec BuilderProofs BuilderProofs3 Init InitSpec
  ParseRun ParseRunSpec ParseRunProofs ParseRunProofs2.
From Coq Require Import Permutation.
Open Scope Z_scope.
Local Notation holds := TermsSpec.holds.
Local Notation add_variable := Terms.add_variable.

(** ** Variables in parsed terms *)
Definition kin (m : nat) (k : option var) : Prop := match k with Some x => (x < m)%nat | None => True end.
Definition kins (m : nat) (ts : list lterm) : Prop := Forall (fun t => kin m (snd t)) ts.
Lemma kins_mono m m' ts : (m <= m')%nat -> kins m ts -> kins m' ts.
Proof. intros L F. eapply Forall_impl; [|exact F]. intros [c [x|]]; cbn; auto. lia. Qed.
Lemma kins_app m a b : kins m a -> kins m b -> kins m (a ++ b).
Proof. intros A B. apply Forall_app. now split. Qed.
Lemma kins_keys m a b : map snd b = map snd a -> kins m a -> kins m b.
Proof. unfold kins. intros E A. rewrite <- (Forall_map snd (kin m)) in *. now rewrite E. Qed.
Lemma kins_inv m ts r : inv_all ts = Ok r -> kins m ts -> kins m r.
Proof. intros H. apply kins_keys. now apply inv_all_keys. Qed.
Lemma kins_row m l rs : forall r, mul_row lkey l rs = Ok r -> kin m (snd l) -> kins m rs -> kins m r.
Proof.
  induction rs as [|[c k] rs IH]; cbn [mul_row]; intros r H Kl F; inv_ok; [constructor|]. inversion_clear F. constructor; [|now apply IH]. cbn [snd] in *.
  destruct l as [lc [x|]], k as [y|]; cbn in *; inv_ok; auto.
Qed.
Lemma kins_mul m ls rs : forall r, mul_all lkey ls rs = Ok r -> kins m ls -> kins m rs -> kins m r.
Proof.
  induction ls as [|l ls IH]; cbn [mul_all]; intros r H F G; inv_ok; [constructor|]. inversion_clear F. apply kins_app; [|now apply IH]. eapply kins_row; eauto.
Qed.
Lemma var_kins t st res st' c : (s <~ slift (evaluate t) ;; v <~ add_variable s ;; sret [(c, k_var lkey v)]) st = Ok (res, st') -> tab_wf st -> kins (st_next st') res.
Proof.
  intros H W. inv_ok. apply add_variable_spec in H1 as (A1 & A2 & A3). constructor; [|constructor]. cbn. apply (proj2 (proj2 (A3 W)) _ _ A2).
Qed.
Lemma elem_ext t st res st' : parse_elem lkey t st = Ok (res, st') -> extends st st' /\ (tab_wf st -> tab_wf st').
Proof. intros H. destruct (parse_elem_spec lkey _ _ (lkey_compat (fun _ => 0)) _ _ _ _ H) as (A & B & _). auto. Qed.
Lemma elem_kins : forall t st res st', parse_elem lkey t st = Ok (res, st') -> tab_wf st -> kins (st_next st') res.
Proof.
  assert (N1 : forall n m, kins m [(n, k_one lkey)]) by (intros; constructor; [exact Logic.I|constructor]).
  induction t as [n|name|name args IH|args IH|args IH] using tterm_ind'; intros st res st' H W.
  - cbn in H. inv_ok. apply N1.
  - cbn [parse_elem] in H. eapply var_kins; eauto.
  - destruct args as [|a [|b [|c r]]]; try (eapply var_kins; eauto; fail).
    + inversion_clear IH. cbn [parse_elem] in H.
      destruct (String.eqb name "-"); [|destruct (String.eqb name "+")].
      * inv_ok. eapply kins_inv; eauto.
      * eauto.
      * eapply var_kins; eauto.
    + inversion_clear IH. inversion_clear H1. clear H3. cbn [parse_elem] in H.
      assert (Two : forall ra rb s1 s2, parse_elem lkey a st = Ok (ra, s1) -> parse_elem lkey b s1 = Ok (rb, s2) -> kins (st_next s2) ra /\ kins (st_next s2) rb).
      { intros ra rb s1 s2 X Y. destruct (elem_ext _ _ _ _ X) as [_ X1]. destruct (elem_ext _ _ _ _ Y) as [[_ Y1] _].
        split; [apply kins_mono with (st_next s1); [exact Y1|now apply (H0 _ _ _ X)]|apply (H2 _ _ _ Y), X1, W]. }
      destruct (String.eqb name "+"); [|destruct (String.eqb name "-"); [|destruct (String.eqb name "*")]].
      * inv_ok. destruct (Two _ _ _ _ H1 H3). now apply kins_app.
      * inv_ok. destruct (Two _ _ _ _ H1 H3). apply kins_app; [easy|]. eapply kins_inv; eauto.
      * inv_ok. destruct (Two _ _ _ _ H1 H3). eapply kins_mul; eauto.
      * destruct (String.eqb name "**" || String.eqb name "/" || String.eqb name "\"); [inv_ok; apply N1|eapply var_kins; eauto].
  - cbn [parse_elem] in H. eapply var_kins; eauto.
  - cbn in H. discriminate.
Qed.
Lemma diff_kins t st res st' : parse_diff lkey t st = Ok (res, st') -> tab_wf st -> kins (st_next st') res.
Proof.
  assert (N1 : forall n m, kins m [(n, k_one lkey)]) by (intros; constructor; [exact Logic.I|constructor]).
  assert (Sd : forall sign u s r s', parse_diff_side lkey sign u s = Ok (r, s') -> extends s s' /\ (tab_wf s -> tab_wf s' /\ kins (st_next s') r)).
  { intros sign u s r s' H. unfold parse_diff_side in H. inv_ok. destruct a as [n|str|n args p].
    - inv_ok. split; [apply extends_refl|]. intros W. split; [exact W|apply N1].
    - inv_ok. apply add_variable_spec in H1 as (A1 & A2 & A3). split; [exact A1|]. intros W. specialize (A3 W). split; [exact A3|]. constructor; [|constructor]. cbn. apply (proj2 (proj2 A3) _ _ A2).
    - inv_ok. apply add_variable_spec in H1 as (A1 & A2 & A3). split; [exact A1|]. intros W. specialize (A3 W). split; [exact A3|]. constructor; [|constructor]. cbn. apply (proj2 (proj2 A3) _ _ A2). }
  unfold parse_diff. intros H W. destruct (op2 t "-") as [[a b]|]; [|discriminate]. inv_ok. destruct (Sd _ _ _ _ _ H0) as [_ X]. destruct (X W) as [W1 X1]. destruct (Sd _ _ _ _ _ H1) as [[_ E] Y]. destruct (Y W1) as [_ Y1].
  apply kins_app; [eapply kins_mono; eauto|exact Y1].
Qed.
Lemma list_kins f : (forall t st res st', f t st = Ok (res, st') -> extends st st' /\ (tab_wf st -> tab_wf st')) ->
  (forall t st res st', f t st = Ok (res, st') -> tab_wf st -> kins (st_next st') res) ->
  forall es st res st', parse_elem_list f es st = Ok (res, st') -> tab_wf st -> extends st st' /\ tab_wf st' /\ kins (st_next st') res.
Proof.
  intros FE FK. induction es as [|[tuple cond] es IH]; cbn [parse_elem_list]; intros st res st' H W.
  - inv_ok. split; [apply extends_refl|]. split; [exact W|constructor].
  - destruct tuple as [|t ts]; [cbn in H; discriminate|]. destruct cond; [|cbn in H; inv_ok; discriminate]. inv_ok. destruct (FE _ _ _ _ H1) as [E1 W1]. destruct (IH _ _ _ H2 (W1 W)) as (E2 & W2 & K2).
    split; [eapply extends_trans; eauto|]. split; [exact W2|]. apply kins_app; [|exact K2]. apply kins_mono with (st_next s0); [apply E2|]. eapply FK; eauto.
Qed.
Lemma diff_ext t st res st' : parse_diff lkey t st = Ok (res, st') -> extends st st' /\ (tab_wf st -> tab_wf st').
Proof. intros H. destruct (parse_diff_spec lkey _ _ (lkey_compat (fun _ => 0)) _ _ _ _ H) as (A & B & _). auto. Qed.
Lemma sum_kins es g st res st' : parse_elems_sum lkey es g st = Ok (res, st') -> tab_wf st -> kins (st_next st') res.
Proof.
  intros H W. unfold parse_elems_sum in H. inv_ok. destruct (list_kins _ elem_ext elem_kins _ _ _ _ H0 W) as (E & W1 & K1). destruct g as [g|]; inv_ok; [|exact K1].
  apply kins_app; [apply kins_mono with (st_next s); [apply (elem_ext _ _ _ _ H1)|exact K1]|]. eapply kins_inv; [eassumption|]. eapply elem_kins; eauto.
Qed.
Lemma elems_diff_kins es g st res st' : parse_elems_diff lkey es g st = Ok (res, st') -> tab_wf st -> kins (st_next st') res.
Proof.
  intros H W. unfold parse_elems_diff in H. inv_ok. destruct (list_kins _ diff_ext diff_kins _ _ _ _ H1 W) as (E & W1 & K1).
  destruct g as [g|]; inv_ok; [|exact K1]. apply kins_app; [exact K1|]. constructor; [exact Logic.I|constructor].
Qed.

(** Simplified terms. *)
Definition tidy_terms (m : nat) (es : list lterm) : Prop := Forall (fun e => fst e <> 0) es /\ Forall (fun k => k <> None) (map snd es) /\ NoDup (map snd es) /\ kins m es.
Lemma simplify_tidy m ts vec r : simplify true ts = Ok (vec, r) -> kins m ts -> tidy_terms m vec.
Proof.
  intros H F. destruct (simplify_keys _ _ _ _ H) as [I _]. destruct (simplify_spec _ _ _ _ H) as (_ & ND & NN & NZ & _). split; [now apply NZ|]. split; [exact NN|]. split; [exact ND|].
  unfold kins in *. rewrite <- (Forall_map snd (kin m)) in *. rewrite Forall_forall in *. intros k Hk. apply F, I, Hk.
Qed.
Lemma strip_tidy m vec es : Terms.strip vec = Ok es -> tidy_terms m vec -> Forall (fun e => fst e <> 0 /\ (snd e < m)%nat) es /\ NoDup (map snd es).
Proof.
  intros H (A & _ & C & D). destruct (strip_keys _ _ H) as [K1 K2]. rewrite K1 in C. apply NoDup_map_inv in C. split; [|exact C].
  unfold kins in D. rewrite <- (Forall_map snd (kin m)), K1 in D. rewrite <- (Forall_map fst (fun c => c <> 0)), K2 in A. rewrite Forall_map in A, D. rewrite Forall_map in D.
  rewrite Forall_forall in *. intros e He. split; [now apply A|]. exact (D e He).
Qed.
Lemma inv_tidy m es es' : tidy_terms m es -> inv_all es = Ok es' -> tidy_terms m es'.
Proof.
  intros (A & B & C & D) H. pose proof (inv_all_keys _ _ H) as K. split; [|rewrite K; split; [exact B|split; [exact C|eapply kins_inv; eauto]]].
  clear B C D K. revert es' H. induction A as [|[c k] r N F IH]; intros es' H; [cbn in H; inv_ok; constructor|]. apply inv_all_cons in H as (c' & r' & E & H & ->). apply safe_inv_val in E. constructor; [cbn in *; lia|auto].
Qed.
Lemma gcd_tidy m es rhs es' rhs' : gcd_reduce es rhs = (es', rhs') -> tidy_terms m es -> tidy_terms m es'.
Proof. intros H (A & B & C & D). destruct (gcd_reduce_spec _ _ _ _ H) as (K & _ & _ & _ & _ & NZ). split; [now apply NZ|]. rewrite K. split; [exact B|]. split; [exact C|]. eapply kins_keys; eauto. Qed.

Lemma distinct_elems_tidy es : forall t res t', parse_distinct_elems es t = Ok (res, t') -> tab_wf t ->
  length res = length es /\ Forall (fun e => Forall (fun x => snd x < st_next t')%nat (fst e)) res /\
  Forall (fun e => Forall (fun x => fst x <> 0) (fst e) /\ NoDup (map snd (fst e))) res.
Proof.
  induction es as [|[[|tm ts] c] es IH]; cbn [parse_distinct_elems]; intros t res t' H W.
  - inv_ok. repeat split; constructor.
  - discriminate.
  - destruct c; [|discriminate]. inv_ok. destruct a0 as [vec rhs]. inv_ok. destruct (elem_ext _ _ _ _ H0) as [E1 E2].
    destruct (IH _ _ _ H4 (E2 W)) as (L & A & B). destruct (parse_distinct_elems_spec (fun _ => 0) _ _ _ _ H4) as ([_ E3] & _).
    pose proof (elem_kins _ _ _ _ H0 W) as K. destruct (strip_tidy _ _ _ H3 (simplify_tidy _ _ _ _ H1 K)) as [F ND].
    split; [cbn; now rewrite L|]. split; constructor; auto; cbn [fst].
    + eapply Forall_impl; [|exact F]. cbn. intros x [_ X]. lia.
    + split; [|exact ND]. eapply Forall_impl; [|exact F]. intros x X. apply X.
Qed.
Lemma disjoint_elems_tidy es : forall t res t', parse_disjoint_elems es t = Ok (res, t') -> tab_wf t ->
  (length res <= length es)%nat /\ Forall (fun e => (snd e < st_next t')%nat) res.
Proof.
  induction es as [|[[|tm ts] c] es IH]; cbn [parse_disjoint_elems]; intros t res t' H W.
  - inv_ok. split; [cbn; lia|constructor].
  - discriminate.
  - destruct c; [|discriminate]. destruct (op2 tm "@") as [[x y]|]; [|discriminate]. inv_ok.
    match goal with E : (if 0 <? ?n then _ else _) _ = _ |- _ => destruct (0 <? n) end.
    + inv_ok. match goal with V : add_variable _ _ = _ |- _ => destruct (add_variable_spec _ _ _ _ V) as (V1 & V2 & V3) end.
      match goal with E : parse_disjoint_elems _ _ = _ |- _ => destruct (IH _ _ _ E (V3 W)) as [L F]; destruct (parse_disjoint_elems_spec (fun _ => true) (fun _ => 0) _ _ _ _ E) as ([_ E3] & _) end.
      split; [cbn; lia|]. constructor; [|exact F]. cbn. pose proof (proj2 (proj2 (V3 W)) _ _ V2). lia.
    + destruct (IH _ _ _ H W) as [L F]. split; [cbn; lia|exact F].
Qed.

(** ** Reading *)
Section Read.
Context (O : oracle) (cfg : config) (srt : list (Z * var) -> list (Z * var)) (mn mx : Z) (Base : interp -> Prop) (n0 : Z).
Context (BO : base_ok Base n0) (CO : clasp_ok O Base) (PS : forall es, Permutation (srt es) es) (MX : mn <= mx) (MR : MIN_VAL <= mn /\ mx <= MAX_VAL).
Notation models := (models Base).
Notation pok := (pok O n0).
Notation plain := (plain O cfg srt Base n0 (fun _ _ => True)).
Notation Pr := (interp -> (var -> Z) -> Prop).
Notation nv s := (nvars (b_s (p_b s))).

Definition rng (a b : nat) (nu : var -> Z) : Prop := forall x, (a <= x < b)%nat -> mn <= nu x <= mx.
Lemma rng_app a b c nu : (a <= b)%nat -> (b <= c)%nat -> (rng a b nu /\ rng b c nu <-> rng a c nu).
Proof.
  intros L1 L2. split; [intros [A B] x Hx|intros A; split; intros x Hx; apply A; lia].
  destruct (le_lt_dec b x); [apply B|apply A]; lia.
Qed.
Lemma rng_only n a b : onlyI n (fun _ nu => rng a b nu).
Proof. easy. Qed.

Lemma vars_raw n : forall K s, top O n0 (p_b s) -> let s' := p_vars mn mx n s in
  top O n0 (p_b s') /\ nxt (b_s (p_b s')) = nxt (b_s (p_b s)) /\ nv s' = (nv s + n)%nat /\ p_tab s' = p_tab s /\
  (exists ops P, p_ops s' = p_ops s ++ ops /\ run O cfg srt K (p_b s) ops K (p_b s') P /\ (forall m, Forall (op_tidy m) ops) /\ calls ops = [] /\ forall c, ~ In (POp c) ops) /\
  forall I nu, models (p_b s') I nu <-> models (p_b s) I nu /\ rng (nv s) (nv s') nu.
Proof.
  induction n as [|n IH]; intros K s T; cbn [p_vars]; cbv zeta.
  - split; [exact T|]. split; [reflexivity|]. split; [lia|]. split; [reflexivity|]. split.
    + exists [], (fun _ _ => True). rewrite app_nil_r. split; [reflexivity|]. split; [constructor|]. split; [constructor|]. split; [reflexivity|]. intros c [].
    + intros I nu. split; [|now intros [M _]]. intros M. split; [exact M|]. intros x Hx. lia.
  - destruct (var_step O Base n0 mn mx (p_b s) T MX) as (T1 & N1 & V1 & M1).
    set (s1 := mkpr (p_tab s) (snd (on_s (Solver.add_variable mn mx) (p_b s))) (p_ops s ++ [PVar mn mx])).
    destruct (IH K s1 T1) as (A1 & A2 & A3 & A4 & (ops & P & A5 & A6 & A7 & A8 & A9) & A10).
    set (s' := p_vars mn mx n s1) in *. change (p_b s1) with (snd (on_s (Solver.add_variable mn mx) (p_b s))) in *.
    split; [exact A1|]. split; [congruence|]. split; [rewrite A3; cbn in *; lia|]. split; [exact A4|]. split.
    + exists (PVar mn mx :: ops), (fun I nu => op_holds (p_b s) (PVar mn mx) I nu /\ P I nu). split; [rewrite A5; cbn [p_ops s1]; rewrite <- app_assoc; reflexivity|].
      split; [econstructor; [exact MX|reflexivity|exact A6]|]. split; [intros m; constructor; [exact MR|apply A7]|]. split; [exact A8|]. intros c [X|X]; [discriminate|now apply (A9 c)].
    + intros I nu. rewrite A10, M1. rewrite <- (rng_app (nv s) (nvars (b_s (p_b s1))) (nv s') nu); [|cbn in *; lia..].
      assert (E : rng (nv s) (nvars (b_s (p_b s1))) nu <-> mn <= nu (nv s) <= mx).
      { split; [intros R; apply R; cbn in *; lia|]. intros R x Hx. assert (x = nv s) as -> by (cbn in *; lia). exact R. }
      rewrite E. cbn [p_b s1]. tauto.
Qed.

Lemma read_step {A} (m : SM symtab A) K s a s' : p_read mn mx m s = Ok (a, s') -> pok K s ->
  (forall t', m (p_tab s) = Ok (a, t') -> extends (p_tab s) t' /\ (tab_wf (p_tab s) -> tab_wf t')) ->
  m (p_tab s) = Ok (a, p_tab s') /\ plain K s K s' (fun _ nu => rng (nv s) (nv s') nu) /\ nxt (b_s (p_b s')) = nxt (b_s (p_b s)).
Proof.
  intros H [T L One Tw Tn] HE. unfold p_read in H. destruct (m (p_tab s)) as [[a' t]| |] eqn:E; try discriminate. injection H as -> <-.
  destruct (HE t eq_refl) as [Ext W]. set (s1 := mkpr t (p_b s) (p_ops s)).
  destruct (vars_raw (st_next t - st_next (p_tab s)) K s1 T) as (A1 & A2 & A3 & A4 & (ops & P & A5 & A6 & A7 & A8 & A9) & A10). set (s' := p_vars mn mx _ s1) in *.
  cbn [p_b p_tab p_ops s1] in *. rewrite A4. split; [reflexivity|]. split; [|exact A2].
  assert (N : st_next t = nv s') by (destruct Ext; lia).
  constructor; auto; try lia.
  - exists ops, P. split; [exact A5|]. split; [exact A6|]. split; [apply A7|]. split; [intros I nu _ c Hc; now elim (A9 c)|]. intros nu. rewrite A8. reflexivity.
  - constructor; auto; try lia; [intros i Hi; rewrite A2; now apply L|rewrite A4; now apply W|rewrite A4; exact N].
  - rewrite A4. exact Ext.
  - intros I nu M. now apply A10.
  - intros I nu M R. exists I. split; [easy|]. now apply A10.
Qed.
End Read.
