(** The parser on the real builder: sums with a product. *)
From Coq Require Import String.
From Verif Require Import Base Util UtilProofs IntervalSet IntervalSetProofs VarState Terms TermsSpec TermsProofs TermsProofs2 TermsProofs3 TermsProofs4 Statements StatementsSpec DenFun StatementsProofs StatementsMain
  Solver OrderSpec OrderProofs2 OrderProofs5 OrderProofs6 Sum PropProofs ConSpec Objective Search SearchSpec SearchFrame SearchInv5 Builder BuilderSpec BuilderProofs BuilderProofs3 Init InitSpec
  ParseRun ParseRunSpec ParseRunProofs ParseRunProofs2 ParseRunProofs3.
From Coq Require Import Permutation.
Open Scope Z_scope.
Local Notation holds := TermsSpec.holds.
Local Notation add_variable := Terms.add_variable.

(** ** Variables in parsed terms, as for linear terms *)
Definition nin (m : nat) (k : list var) : Prop := Forall (fun x => (x < m)%nat) k.
Definition nins (m : nat) (ts : list nterm) : Prop := Forall (fun t => nin m (snd t)) ts.
Lemma nins_mono m m' ts : (m <= m')%nat -> nins m ts -> nins m' ts.
Proof. intros L F. eapply Forall_impl; [|exact F]. intros [c k] G. eapply Forall_impl; [|exact G]. cbn. intros x. lia. Qed.
Lemma nins_app m a b : nins m a -> nins m b -> nins m (a ++ b).
Proof. intros A B. apply Forall_app. now split. Qed.
Lemma nins_keys m a b : map snd b = map snd a -> nins m a -> nins m b.
Proof. unfold nins. intros E A. rewrite <- (Forall_map snd (nin m)) in *. now rewrite E. Qed.
Lemma nins_inv m ts r : inv_all ts = Ok r -> nins m ts -> nins m r.
Proof. intros H. apply nins_keys. now apply inv_all_keys. Qed.
Lemma nins_row m l rs : forall r, mul_row nkey l rs = Ok r -> nin m (snd l) -> nins m rs -> nins m r.
Proof.
  induction rs as [|[c k] rs IH]; cbn [mul_row]; intros r H Kl F; inv_ok; [constructor|]. inversion_clear F. constructor; [|now apply IH]. cbn [snd] in *.
  cbn [k_mul nkey] in *. inv_ok. apply Forall_app. now split.
Qed.
Lemma nins_mul m ls rs : forall r, mul_all nkey ls rs = Ok r -> nins m ls -> nins m rs -> nins m r.
Proof.
  induction ls as [|l ls IH]; cbn [mul_all]; intros r H F G; inv_ok; [constructor|]. inversion_clear F. apply nins_app; [|now apply IH]. eapply nins_row; eauto.
Qed.
Lemma var_nins t st res st' c : (s <~ slift (evaluate t) ;; v <~ add_variable s ;; sret [(c, k_var nkey v)]) st = Ok (res, st') -> tab_wf st -> nins (st_next st') res.
Proof.
  intros H W. inv_ok. apply add_variable_spec in H1 as (A1 & A2 & A3). constructor; [|constructor]. cbn. constructor; [|constructor]. apply (proj2 (proj2 (A3 W)) _ _ A2).
Qed.
Lemma elem_ext_n t st res st' : parse_elem nkey t st = Ok (res, st') -> extends st st' /\ (tab_wf st -> tab_wf st').
Proof. intros H. destruct (parse_elem_spec nkey _ _ (nkey_compat (fun _ => 0)) _ _ _ _ H) as (A & B & _). auto. Qed.
Lemma elem_nins : forall t st res st', parse_elem nkey t st = Ok (res, st') -> tab_wf st -> nins (st_next st') res.
Proof.
  assert (N1 : forall n m, nins m [(n, k_one nkey)]) by (intros; constructor; [constructor|constructor]).
  induction t as [n|name|name args IH|args IH|args IH] using tterm_ind'; intros st res st' H W.
  - cbn in H. inv_ok. apply N1.
  - cbn [parse_elem] in H. eapply var_nins; eauto.
  - destruct args as [|a [|b [|c r]]]; try (eapply var_nins; eauto; fail).
    + inversion_clear IH. cbn [parse_elem] in H.
      destruct (String.eqb name "-"); [|destruct (String.eqb name "+")].
      * inv_ok. eapply nins_inv; eauto.
      * eauto.
      * eapply var_nins; eauto.
    + inversion_clear IH. inversion_clear H1. clear H3. cbn [parse_elem] in H.
      assert (Two : forall ra rb s1 s2, parse_elem nkey a st = Ok (ra, s1) -> parse_elem nkey b s1 = Ok (rb, s2) -> nins (st_next s2) ra /\ nins (st_next s2) rb).
      { intros ra rb s1 s2 X Y. destruct (elem_ext_n _ _ _ _ X) as [_ X1]. destruct (elem_ext_n _ _ _ _ Y) as [[_ Y1] _].
        split; [apply nins_mono with (st_next s1); [exact Y1|now apply (H0 _ _ _ X)]|apply (H2 _ _ _ Y), X1, W]. }
      destruct (String.eqb name "+"); [|destruct (String.eqb name "-"); [|destruct (String.eqb name "*")]].
      * inv_ok. destruct (Two _ _ _ _ H1 H3). now apply nins_app.
      * inv_ok. destruct (Two _ _ _ _ H1 H3). apply nins_app; [easy|]. eapply nins_inv; eauto.
      * inv_ok. destruct (Two _ _ _ _ H1 H3). eapply nins_mul; eauto.
      * destruct (String.eqb name "**" || String.eqb name "/" || String.eqb name "\"); [inv_ok; apply N1|eapply var_nins; eauto].
  - cbn [parse_elem] in H. eapply var_nins; eauto.
  - cbn in H. discriminate.
Qed.
Lemma list_nins f : (forall t st res st', f t st = Ok (res, st') -> extends st st' /\ (tab_wf st -> tab_wf st')) ->
  (forall t st res st', f t st = Ok (res, st') -> tab_wf st -> nins (st_next st') res) ->
  forall es st res st', parse_elem_list f es st = Ok (res, st') -> tab_wf st -> extends st st' /\ tab_wf st' /\ nins (st_next st') res.
Proof.
  intros FE FK. induction es as [|[tuple cond] es IH]; cbn [parse_elem_list]; intros st res st' H W.
  - inv_ok. split; [apply extends_refl|]. split; [exact W|constructor].
  - destruct tuple as [|t ts]; [cbn in H; discriminate|]. inv_ok. destruct (FE _ _ _ _ H1) as [E1 W1]. destruct (IH _ _ _ H2 (W1 W)) as (E2 & W2 & K2).
    split; [eapply extends_trans; eauto|]. split; [exact W2|]. apply nins_app; [|exact K2]. apply nins_mono with (st_next s0); [apply E2|]. eapply FK; eauto.
Qed.
Lemma sum_nins es g st res st' : parse_elems_sum nkey es g st = Ok (res, st') -> tab_wf st -> nins (st_next st') res.
Proof.
  intros H W. unfold parse_elems_sum in H. inv_ok. destruct (list_nins _ elem_ext_n elem_nins _ _ _ _ H0 W) as (E & W1 & K1). destruct g as [g|]; inv_ok; [|exact K1].
  apply nins_app; [apply nins_mono with (st_next s); [apply (elem_ext_n _ _ _ _ H1)|exact K1]|]. eapply nins_inv; [eassumption|]. eapply elem_nins; eauto.
Qed.

(** Simplified terms; coefficients are in the range of values. *)
Definition tidy_prods (m : nat) (es : list nterm) : Prop :=
  nl_keys (map snd es) /\ nins m es /\ Forall (fun e => fst e <> 0 /\ valid (fst e)) es.
Lemma simplify_prods m ts vec r : simplify_n true ts = Ok (vec, r) -> nins m ts -> one_product (map snd vec) -> tidy_prods m vec /\ valid r.
Proof.
  intros H F OP. destruct (simplify_n_spec _ _ _ _ H) as (_ & ND & NE & NZ & VR & VC). specialize (NZ eq_refl). split; [|exact VR]. split; [now split|]. split.
  - unfold simplify_n in H. inv_ok. destruct a as [acc r']. inv_ok. destruct a0 as [mn mx]. inv_ok. destruct (collect_keys _ _ _ _ _ _ _ _ H0) as [A _].
    unfold nins in *. rewrite <- (Forall_map snd (nin m)) in *. rewrite Forall_forall in *. intros k Hk.
    assert (I : In k (map snd acc)) by (unfold drop_zeros in Hk; apply in_map_iff in Hk as (t & <- & Ht); apply filter_In in Ht; now apply in_map).
    apply A in I. cbn [map app] in I. rewrite map_map in I. cbn [snd] in I. apply in_map_iff in I as (t & <- & Ht).
    apply (Permutation_Forall (sort_vars_perm (snd t))). apply F. now apply in_map.
  - rewrite Forall_forall in *. intros e He. split; auto.
Qed.
Lemma inv_prods m es es' : tidy_prods m es -> inv_all es = Ok es' -> tidy_prods m es'.
Proof.
  intros (A & B & C) H. pose proof (inv_all_keys _ _ H) as K. split; [now rewrite K|]. split; [eapply nins_inv; eauto|].
  clear A B K. revert es' H. induction C as [|[c k] r N F IH]; intros es' H; [cbn in H; inv_ok; constructor|]. apply inv_all_cons in H as (c' & r' & E & H & ->). apply safe_inv_val in E. subst c'.
  constructor; [|auto]. cbn in *. unfold valid, MIN_VAL in *. lia.
Qed.
Lemma gcd_prods m es rhs es' rhs' : gcd_reduce es rhs = (es', rhs') -> tidy_prods m es -> valid rhs -> tidy_prods m es' /\ valid rhs'.
Proof.
  intros H (A & B & C) V. destruct (gcd_reduce_spec _ _ _ _ H) as (K & _ & VC & VR & _ & NZ). split; [|now apply VR]. split; [now rewrite K|]. split; [eapply nins_keys; eauto|].
  assert (C1 : Forall (fun e => fst e <> 0) es) by (eapply Forall_impl; [|exact C]; cbn; tauto). assert (C2 : Forall (fun e => valid (fst e)) es) by (eapply Forall_impl; [|exact C]; cbn; tauto).
  specialize (NZ C1). specialize (VC C2). rewrite Forall_forall in *. split; auto.
Qed.

(** What the scan for the product finds. *)
Definition oin (m : nat) (v : option var) : Prop := match v with Some x => (x < m)%nat | None => True end.
Definition scanned (m : nat) (st : Z * option var * option var * Z * option var) : Prop :=
  let '(a, va, vb, c, vc) := st in oin m va /\ oin m vb /\ oin m vc /\ (a <> 0 -> va <> None /\ vb <> None) /\ (vc = None <-> c = 0) /\ valid a /\ valid c.
Lemma scan_tidy m es : forall st st', nonlin_scan es st = Ok st' -> nins m es -> Forall (fun e => fst e <> 0 /\ valid (fst e)) es -> scanned m st -> scanned m st'.
Proof.
  induction es as [|[co k] es IH]; cbn [nonlin_scan]; intros [[[[a va] vb] c] vc] st' H F G S; [injection H as <-; exact S|].
  inversion_clear F as [|? ? F1 F2]. inversion_clear G as [|? ? [G1 G2] G3]. cbn [fst snd] in *. destruct k as [|v [|w [|y r]]]; [eapply IH; eauto| | |discriminate].
  - destruct (c =? 0); [|discriminate]. eapply IH; [exact H|exact F2|exact G3|]. inversion_clear F1. cbn in S |- *. destruct S as (S1 & S2 & S3 & S4 & S5 & S6 & S7).
    split; [exact S1|]. split; [exact S2|]. split; [assumption|]. split; [exact S4|]. split; [split; [discriminate|lia]|]. now split.
  - destruct (c =? 0); [|discriminate]. eapply IH; [exact H|exact F2|exact G3|]. inversion_clear F1 as [|? ? X1 X2]. inversion_clear X2. cbn in S |- *. destruct S as (S1 & S2 & S3 & S4 & S5 & S6 & S7).
    split; [assumption|]. split; [assumption|]. split; [exact S3|]. split; [easy|]. split; [exact S5|]. now split.
Qed.
Lemma scan_found m es a va vb c vc : nonlin_scan es (0, None, None, 0, None) = Ok (a, va, vb, c, vc) -> tidy_prods m es ->
  scanned m (a, va, vb, c, vc) /\ forall nu, nonlin_val nu a va vb c vc = terms_val (prod_val nu) es.
Proof.
  intros H ((OP & NE) & F & G). split.
  - eapply scan_tidy; eauto. cbn. unfold valid, MIN_VAL, MAX_VAL. repeat split; auto; try congruence; lia.
  - intros nu. rewrite (nonlin_scan_val (fun _ => true) nu _ _ _ _ _ _ _ _ _ _ H OP NE). reflexivity.
Qed.

(** ** Adding the constraints *)
Section Steps.
Context (O : oracle) (cfg : config) (srt : list (Z * var) -> list (Z * var)) (mn mx : Z) (Base : interp -> Prop) (n0 : Z).
Context (BO : base_ok Base n0) (CO : clasp_ok O Base) (PS : forall es, Permutation (srt es) es).
Notation pok := (pok O n0).
Notation plain := (plain O cfg srt Base n0 (fun _ _ => False)).
Notation adds := (adds O cfg srt Base n0).
Notation Pr := (interp -> (var -> Z) -> Prop).
Notation call_step := (call_step O cfg srt Base n0 BO CO PS).

(** Calls are not strict and right hand sides fit. *)
Definition small (rhs : Z) : bool := (- 2^31 <=? rhs) && (rhs <=? 2^31 - 1).
Definition guarded {K} (addc : lit -> list (Z * K) -> Z -> bool -> SM pr bool) (l : lit) (es : list (Z * K)) (rhs : Z) (strict : bool) : SM pr bool :=
  if strict || negb (small rhs) then fun _ => UB else addc l es rhs false.
Lemma bind_ext {A B} (m m' : SM pr A) (k k' : A -> SM pr B) s : m s = m' s -> (forall a s1, k a s1 = k' a s1) -> sbind m k s = sbind m' k' s.
Proof. intros E1 E2. unfold sbind. rewrite E1. destruct (m' s) as [[a s1]| |]; auto. Qed.
Lemma bind_known {A B} (m : SM pr A) (k k' : A -> SM pr B) s : (forall a s1, m s = Ok (a, s1) -> k a s1 = k' a s1) -> sbind m k s = sbind m k' s.
Proof. intros E. unfold sbind. destruct (m s) as [[a s1]| |]; auto. Qed.
Lemma and_ext m m' k k' s : m s = m' s -> (forall s1, k s1 = k' s1) -> p_and m k s = p_and m' k' s.
Proof. intros E1 E2. unfold p_and. apply bind_ext; [exact E1|]. intros [|] s1; auto. Qed.
Lemma guard_ok {K} (addc : lit -> list (Z * K) -> Z -> bool -> SM pr bool) : forall fuel l es op rhs s, Z.abs rhs + Z.of_nat fuel <= 2^31 - 1 ->
  p_normalize O cfg srt addc fuel l es op rhs false s = p_normalize O cfg srt (guarded addc) fuel l es op rhs false s.
Proof.
  induction fuel as [|fuel IH]; intros l es op rhs s L; [reflexivity|]. cbn [p_normalize].
  apply bind_known. intros [op1 rhs1] s1 H1. apply slift_ok in H1 as [H1 ->].
  assert (S1 : Z.abs rhs1 + Z.of_nat fuel <= 2^31 - 1).
  { destruct op; inv_ok; try (injection H1 as -> ->); try lia; match goal with E : safe_sub _ _ _ = _ |- _ => apply safe_sub_val in E | E : safe_add _ _ _ = _ |- _ => apply safe_add_val in E end; lia. }
  clear H1 L rhs op. apply bind_known. intros [[op rhs] elems] s1 H1. apply slift_ok in H1 as [H1 ->].
  assert (S2 : Z.abs rhs + Z.of_nat fuel <= 2^31 - 1).
  { destruct op1; inv_ok; auto. match goal with E : safe_inv _ _ = _ |- _ => apply safe_inv_val in E end. lia. }
  clear H1 S1 rhs1 op1. cbn [andb].
  destruct op; auto.
  - apply bind_ext; [reflexivity|]. intros [|] s1; [reflexivity|]. apply and_ext; [|reflexivity]. unfold guarded, small. cbn [orb]. destruct (Z.leb_spec (- 2^31) rhs), (Z.leb_spec rhs (2^31 - 1)); auto; lia.
  - apply and_ext; [now apply IH|]. intros s1. apply and_ext; [now apply IH|]. reflexivity.
  - apply bind_ext; [reflexivity|]. intros a s1. apply bind_ext; [reflexivity|]. intros b s2. repeat (apply and_ext; [first [reflexivity|now apply IH]|]; intros). reflexivity.
Qed.

Lemma addc_n_call K l es rhs s b s' : p_addc_n O cfg srt l es rhs false s = Ok (b, s') -> pok K s -> K (Z.abs l) -> tidy_prods (st_next (p_tab s)) es -> small rhs = true ->
  exists c, p_call O cfg srt c s = Ok (b, s') /\ call_ok K (nvars (b_s (p_b s))) c /\ call_tidy c /\ (match c with BMin _ _ => False | _ => True end) /\
    (forall I nu, call_holds I nu c <-> reifn l false (fun nu => terms_val (prod_val nu) es <= rhs) I nu) /\
    (forall I nu, terms_val (prod_val nu) es <= rhs -> firm c = c \/ call_holds I nu (firm c)).
Proof.
  intros H P Kl TP SM. unfold p_addc_n in H. apply sbind_ok in H as ([[[[ca va] vb] cc] vc] & s1 & Hs & H). apply slift_ok in Hs as [Hs ->].
  destruct (scan_found _ _ _ _ _ _ _ Hs TP) as [(A1 & A2 & A3 & A4 & A5 & A6 & A7) V]. rewrite (po_next _ _ _ _ P) in A1, A2, A3.
  unfold small in SM. apply andb_true_iff in SM as [SM1 SM2]. apply Z.leb_le in SM1, SM2. unfold valid, MIN_VAL, MAX_VAL in A6, A7.
  exists (BNonlin l ca va vb cc vc rhs false). split; [exact H|]. split; [|split; [|split; [exact Logic.I|split]]].
  - cbn. split; [exact Kl|]. split; [intros x [->|[->| ->]]; assumption|]. split; [exact A4|]. split; [apply A5|reflexivity].
  - cbn. intros _. split; [lia|]. split; [lia|]. split; [lia|exact A5].
  - intros I nu. cbn [call_holds]. unfold reifn, reif. rewrite V. reflexivity.
  - intros I nu Hv. cbn [firm]. destruct (ca =? 0); [now left|]. right. cbn [call_holds]. rewrite V. split; [auto|discriminate].
Qed.
Lemma guarded_inv l es rhs strict s b s' : guarded (p_addc_n O cfg srt) l es rhs strict s = Ok (b, s') -> strict = false /\ small rhs = true /\ p_addc_n O cfg srt l es rhs false s = Ok (b, s').
Proof. unfold guarded. destruct strict; [discriminate|]. destruct (small rhs); [auto|discriminate]. Qed.
Lemma addc_n_step K l es rhs strict s s' : guarded (p_addc_n O cfg srt) l es rhs strict s = Ok (true, s') -> pok K s -> K (Z.abs l) -> tidy_prods (st_next (p_tab s)) es ->
  plain K s K s' (reifn l strict (fun nu => terms_val (prod_val nu) es <= rhs)) /\ p_tab s' = p_tab s.
Proof.
  intros H P Kl TP. apply guarded_inv in H as (-> & SM & H). destruct (addc_n_call K l es rhs s true s' H P Kl TP SM) as (c & Hc & C1 & C2 & C3 & C4 & _).
  destruct (call_step K c s s' Hc P C1 C2 ltac:(destruct c; auto; contradiction)) as [A T]. split; [|exact T].
  eapply ad_imp; [exact A|intros I nu _; apply C4|contradiction|]. intros nu. destruct c; try reflexivity. contradiction.
Qed.

(** What is demanded on the top level. *)
Definition firmed (s s' : pr) (F : (var -> Z) -> Prop) : Prop :=
  exists ops, p_ops s' = p_ops s ++ ops /\ forall I nu, F nu -> forall c, In (POp c) ops -> firm c = c \/ call_holds I nu (firm c).
Lemma firmed_trans s s1 s' F G : firmed s s1 F -> firmed s1 s' G -> firmed s s' (fun nu => F nu /\ G nu).
Proof.
  intros (o1 & E1 & X1) (o2 & E2 & X2). exists (o1 ++ o2). split; [rewrite E2, E1, app_assoc; reflexivity|]. intros I nu [f g] c Hc. apply in_app_or in Hc as [Hc|Hc]; eauto.
Qed.
Lemma firmed_imp s s' (F G : (var -> Z) -> Prop) : firmed s s' F -> (forall nu, G nu -> F nu) -> firmed s s' G.
Proof. intros (o & E & X) H. exists o. split; [exact E|]. intros I nu g. apply X, H, g. Qed.
Lemma firmed_refl s F : firmed s s F.
Proof. exists []. rewrite app_nil_r. split; [reflexivity|]. intros I nu _ c []. Qed.
Lemma addc_n_firm K l es rhs strict s s' : guarded (p_addc_n O cfg srt) l es rhs strict s = Ok (true, s') -> pok K s -> K (Z.abs l) -> tidy_prods (st_next (p_tab s)) es ->
  firmed s s' (fun nu => terms_val (prod_val nu) es <= rhs).
Proof.
  intros H P Kl TP. apply guarded_inv in H as (-> & SM & H). destruct (addc_n_call K l es rhs s true s' H P Kl TP SM) as (c & Hc & _ & _ & _ & _ & C5).
  unfold p_call in Hc. destruct (build1 O cfg srt c (p_b s)) as [[ok q]| |]; try discriminate. injection Hc as _ <-. exists [POp c]. split; [reflexivity|].
  intros I nu Hv c' [E|[]]. injection E as <-. now apply C5.
Qed.
Notation norm := (p_normalize O cfg srt (guarded (p_addc_n O cfg srt))).
Lemma norm_step fuel K l es op rhs strict s s' : norm fuel l es op rhs strict s = Ok (true, s') -> pok K s -> K (Z.abs l) -> tidy_prods (st_next (p_tab s)) es ->
  (exists K', plain K s K' s' (reifn l strict (fun nu => holds op (terms_val (prod_val nu) es) rhs))) /\ p_tab s' = p_tab s.
Proof. exact (normalize_step O cfg srt Base n0 BO CO PS (fun _ _ => False) (fun nu => prod_val nu) _ tidy_prods inv_prods addc_n_step fuel K l es op rhs strict s s'). Qed.
Theorem norm_firm : forall fuel K l es op rhs s s', norm fuel l es op rhs false s = Ok (true, s') -> pok K s -> K (Z.abs l) -> tidy_prods (st_next (p_tab s)) es ->
  op <> RNe -> firmed s s' (fun nu => holds op (terms_val (prod_val nu) es) rhs).
Proof.
  induction fuel as [|fuel IH]; intros K l es op rhs s s' H Po Kl TP NE; [discriminate|].
  cbn [p_normalize] in H. apply sbind_ok in H as ([op1 rhs1] & s0 & H1 & H). apply slift_ok in H1 as [H1 ->].
  apply sbind_ok in H as ([[op2 rhs2] elems] & s0 & H2 & H). apply slift_ok in H2 as [H2 ->].
  assert (E : (forall nu, holds op (terms_val (prod_val nu) es) rhs <-> holds op2 (terms_val (prod_val nu) elems) rhs2) /\ (op2 = RLe \/ op2 = REq)).
  { assert (E1 : (forall nu, holds op (terms_val (prod_val nu) es) rhs <-> holds op1 (terms_val (prod_val nu) es) rhs1) /\ (op1 = RLe \/ op1 = RGe \/ op1 = REq)).
    { destruct op; inv_ok; cbn [holds]; auto; split; auto; try reflexivity; try congruence.
      - apply safe_sub_val in H0. lia.
      - apply safe_add_val in H0. lia. }
    clear H1. destruct E1 as [E1 Oo]. split; [intros nu; rewrite E1; clear E1|]; destruct op1; inv_ok; cbn [holds]; try (destruct Oo as [Oo|[Oo|Oo]]; discriminate); auto; try reflexivity.
    apply safe_inv_val in H0. apply (inv_all_val (prod_val nu)) in H1. lia. }
  assert (TPl : tidy_prods (st_next (p_tab s)) elems).
  { clear E H. destruct op1; inv_ok; try assumption. eapply inv_prods; eauto. }
  destruct E as [E Oo]. apply firmed_imp with (F := fun nu => holds op2 (terms_val (prod_val nu) elems) rhs2); [|intros nu; apply E]. clear E H1 H2 TP.
  destruct Oo as [-> | ->].
  - cbn [andb] in H. apply sbind_ok in H as (f & s0 & Ht & H). injection Ht as _ <-. destruct f; [inv_ok; apply firmed_refl|].
    apply and_ok in H as (s1 & H1 & H). inv_ok. exact (addc_n_firm _ _ _ _ _ _ _ H1 Po Kl TPl).
  - apply and_ok in H as (s1 & H1 & H). apply and_ok in H as (s2 & H2 & H). inv_ok.
    destruct (norm_step _ _ _ _ _ _ _ _ _ H1 Po Kl TPl) as [[K1 A1] T1].
    apply firmed_imp with (F := fun nu => holds RLe (terms_val (prod_val nu) elems) rhs2 /\ holds RGe (terms_val (prod_val nu) elems) rhs2); [|intros nu; cbn [holds]; lia].
    apply firmed_trans with s1; [eapply IH; eauto; discriminate|]. apply (IH K1 l); [exact H2|exact (pl_ok _ _ _ _ _ _ _ _ _ _ _ A1)|now apply (ad_K _ _ _ _ _ _ _ _ _ _ _ _ A1)|rewrite T1; exact TPl|discriminate].
Qed.
Lemma add_firm K s K' s' Q W (F : (var -> Z) -> Prop) : adds K s K' s' Q (fun _ _ => False) W -> firmed s s' F -> adds K s K' s' Q (fun _ nu => F nu) W.
Proof.
  intros [A1 A2 A3 A4 A5 A6 A7] (ops & E & X). constructor; auto. destruct A1 as (o1 & P1 & E1 & R1 & T1 & _ & M1). rewrite E in E1. apply app_inv_head in E1. subst o1.
  exists ops, P1. split; [exact E|]. split; [exact R1|]. split; [exact T1|]. split; [intros I nu f; apply X, f|exact M1].
Qed.
(** The whole normalisation. *)
Theorem prods_step K l es op rhs s s' : p_normalize O cfg srt (p_addc_n O cfg srt) NORM_FUEL l es op rhs false s = Ok (true, s') ->
  pok K s -> K (Z.abs l) -> tidy_prods (st_next (p_tab s)) es -> valid rhs ->
  (exists K', adds K s K' s' (reifn l false (fun nu => holds op (terms_val (prod_val nu) es) rhs))
     (fun _ nu => op <> RNe /\ holds op (terms_val (prod_val nu) es) rhs) (fun _ => 0)) /\ p_tab s' = p_tab s.
Proof.
  intros H P Kl TP V. rewrite guard_ok in H by (unfold valid, MIN_VAL, MAX_VAL, NORM_FUEL in *; cbn; lia).
  destruct (norm_step _ _ _ _ _ _ _ _ _ H P Kl TP) as [[K' A] T]. split; [|exact T]. exists K'.
  destruct (match op with RNe => true | _ => false end) eqn:NE.
  - eapply ad_imp; [exact A|reflexivity| |reflexivity]. intros I nu [X _]. destruct op; try discriminate. congruence.
  - assert (NE' : op <> RNe) by (intros ->; discriminate). eapply ad_imp; [exact (add_firm _ _ _ _ _ _ _ A (norm_firm _ _ _ _ _ _ _ _ H P Kl TP NE'))|reflexivity| |reflexivity].
    intros I nu [_ X]. exact X.
Qed.
End Steps.

(** ** Counting products *)
Definition deg {K} (k : list K) : nat := match k with [] => 0 | [_] => 1 | _ => 2 end.
Definition num (d : nat) (ts : list nterm) : nat := length (filter (fun t => Nat.eqb (deg (snd t)) d) ts).
Definition nums (ts : list nterm) : nat * nat * nat := (num 0 ts, num 1 ts, num 2 ts).
Definition plus3 (a b : nat * nat * nat) : nat * nat * nat := let '(i, j, k) := a in let '(i', j', k') := b in (i + i', j + j', k + k')%nat.
Lemma nums_app a b : nums (a ++ b) = plus3 (nums a) (nums b).
Proof. unfold nums, num, plus3. rewrite !filter_app, !app_length. reflexivity. Qed.
Lemma num_keys d a : forall b, map snd b = map snd a -> num d b = num d a.
Proof. induction a as [|[c k] a IH]; intros [|[c' k'] b] E; try discriminate; [reflexivity|]. injection E as -> E. unfold num in *. cbn. destruct (Nat.eqb (deg k) d); cbn; rewrite IH; auto. Qed.
Lemma nums_inv a b : inv_all a = Ok b -> nums b = nums a.
Proof. intros H. apply inv_all_keys in H. unfold nums. now rewrite !(num_keys _ a b H). Qed.
Lemma nums_cons c k ts : nums ((c, k) :: ts) = plus3 (nums [(c, k)]) (nums ts).
Proof. exact (nums_app [(c, k)] ts). Qed.
Definition times3 (a b : nat * nat * nat) : nat * nat * nat :=
  let '(i, j, k) := a in let '(i', j', k') := b in (i * i', i * j' + j * i', i * k' + j * (j' + k') + k * (i' + j' + k'))%nat.
Lemma nums_row l rs : forall r, mul_row nkey l rs = Ok r -> nums r = times3 (nums [l]) (nums rs).
Proof.
  destruct l as [lc lk]. induction rs as [|[c k] rs IH]; cbn [mul_row]; intros r H; inv_ok.
  - unfold nums, num. cbn. destruct (Nat.eqb (deg lk) 0), (Nat.eqb (deg lk) 1), (Nat.eqb (deg lk) 2); reflexivity.
  - rewrite nums_cons, (IH _ H2), (nums_cons c k rs). cbn [snd k_mul nkey] in *. injection H1 as <-. destruct (nums rs) as [[i j] q].
    destruct lk as [|x [|y u]], k as [|x' [|y' u']]; cbn; f_equal; try lia; f_equal; lia.
Qed.
Lemma nums_mul ls rs : forall r, mul_all nkey ls rs = Ok r -> nums r = times3 (nums ls) (nums rs).
Proof.
  induction ls as [|[lc lk] ls IH]; cbn [mul_all]; intros r H; inv_ok; [destruct (nums rs) as [[i j] k]; reflexivity|].
  rewrite nums_app, (IH _ H1), (nums_row _ _ _ H0), (nums_cons lc lk ls). destruct (nums [(lc, lk)]) as [[i j] k], (nums ls) as [[i1 j1] k1], (nums rs) as [[i2 j2] k2]. cbn. f_equal; try lia; f_equal; lia.
Qed.
Lemma elem_nums : forall t st res st', parse_elem nkey t st = Ok (res, st') -> nums res = summands t.
Proof.
  assert (V : forall t st res st' c, (s <~ slift (evaluate t) ;; v <~ add_variable s ;; sret [(c, k_var nkey v)]) st = Ok (res, st') -> nums res = (0, 1, 0)%nat) by (intros t st res st' c H; inv_ok; reflexivity).
  induction t as [n|name|name args IH|args IH|args IH] using tterm_ind'; intros st res st' H.
  - cbn in H. inv_ok. reflexivity.
  - cbn [parse_elem] in H. eapply V; eauto.
  - destruct args as [|a [|b [|c r]]]; try (eapply V; eauto; fail).
    + inversion_clear IH. cbn [parse_elem summands] in *. destruct (String.eqb name "-"); [|destruct (String.eqb name "+")]; cbn [orb].
      * inv_ok. match goal with E : inv_all _ = _ |- _ => rewrite (nums_inv _ _ E) end. eauto.
      * eauto.
      * eapply V; eauto.
    + inversion_clear IH. inversion_clear H1. clear H3. cbn [parse_elem summands] in *.
      destruct (String.eqb name "+"); [|destruct (String.eqb name "-"); [|destruct (String.eqb name "*")]]; cbn [orb].
      * inv_ok. rewrite nums_app. erewrite H0, H2 by eassumption. reflexivity.
      * inv_ok. match goal with E : inv_all _ = _ |- _ => rewrite nums_app, (nums_inv _ _ E) end. erewrite H0, H2 by eassumption. reflexivity.
      * inv_ok. match goal with E : mul_all _ _ _ = _ |- _ => rewrite (nums_mul _ _ _ E) end. erewrite H0, H2 by eassumption. reflexivity.
      * destruct (String.eqb name "**" || String.eqb name "/" || String.eqb name "\"); [inv_ok; reflexivity|eapply V; eauto].
  - cbn [parse_elem] in H. eapply V; eauto.
  - cbn in H. discriminate.
Qed.
Lemma list_nums es : forall st res st', parse_elem_list (parse_elem nkey) es st = Ok (res, st') ->
  num 2 res = list_sum (map (fun e => match fst e with t :: _ => products t | [] => 0%nat end) es).
Proof.
  induction es as [|[tuple cond] es IH]; cbn [parse_elem_list]; intros st res st' H; [inv_ok; reflexivity|].
  destruct tuple as [|t ts]; [cbn in H; discriminate|]. inv_ok.
  match goal with E : parse_elem nkey _ _ = Ok (?r, _), F : parse_elem_list _ _ _ = Ok (?q, _) |- _ => pose proof (elem_nums _ _ _ _ E) as X; pose proof (IH _ _ _ F) as W; pose proof (nums_app r q) as Y end.
  cbn [map fst]. change (list_sum (?x :: ?l)) with (x + list_sum l)%nat. rewrite <- W. unfold products. rewrite <- X. unfold nums, plus3 in Y. injection Y as _ _ Y. exact Y.
Qed.
Theorem one_product_written a : (written_products a <= 1)%nat -> forall t, one_product_atom a t.
Proof.
  intros L t op g ts t' es rhs G H S. unfold written_products in L. rewrite G in L.
  assert (N : (num 2 ts <= 1)%nat).
  { unfold parse_elems_sum in H. inv_ok. clear S.
    match goal with E : parse_elem_list _ _ _ = Ok _, F : parse_elem nkey _ _ = Ok _, I : inv_all _ = Ok _ |- (num 2 (?u ++ ?v) <= _)%nat =>
      pose proof (list_nums _ _ _ _ E) as A; pose proof (elem_nums _ _ _ _ F) as B; pose proof (nums_inv _ _ I) as C; pose proof (nums_app u v) as Y end.
    rewrite B in C. unfold products in L at 2. rewrite <- A, <- C in L. unfold nums, plus3 in Y, L. injection Y as _ _ Y. cbn [snd] in L. refine (Nat.le_trans _ _ _ _ L). apply Nat.eq_le_incl. exact Y. }
  clear L G. destruct (simplify_n_spec _ _ _ _ S) as (_ & ND & _). unfold simplify_n in S. clear H. inv_ok. destruct a0 as [acc r']. inv_ok. destruct a1 as [mn mx]. inv_ok.
  match goal with E : collect _ _ _ _ _ _ = _ |- _ => destruct (collect_keys _ _ _ _ _ _ _ _ E) as [A _] end. cbn [map app] in A. rewrite map_map in A. cbn [snd] in A.
  unfold one_product. eapply Nat.le_trans; [apply NoDup_incl_length with (l' := filter (fun k => Nat.eqb (length k) 2) (map (fun x => sort_vars (snd x)) ts))|].
  - now apply NoDup_filter.
  - intros k Hk. apply filter_In in Hk as [K1 K2]. apply filter_In. split; [|exact K2]. apply A. unfold drop_zeros in K1. apply in_map_iff in K1 as (x & <- & Hx). apply filter_In in Hx. now apply in_map.
  - refine (Nat.le_trans _ _ _ _ N). unfold num. clear. induction ts as [|[c k] ts IH]; [easy|]. cbn [map filter snd].
    rewrite <- (Permutation_length (sort_vars_perm k)). destruct k as [|x [|y [|z u]]]; cbn in *; lia.
Qed.
