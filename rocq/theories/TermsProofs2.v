(** Reading of elements: meaning is preserved; no undefined behaviour. *)
From Coq Require Import String Permutation.
From Verif Require Import Base Util UtilProofs Terms TermsSpec TermsProofs.
Open Scope Z_scope.

(** ** Symbols *)
Fixpoint sym_ind' (P : sym -> Prop) (Hn : forall n, P (SNum n)) (Hs : forall s, P (SStr s))
  (Hf : forall n args p, Forall P args -> P (SFun n args p)) (s : sym) : P s :=
  match s with
  | SNum n => Hn n | SStr s => Hs s
  | SFun n args p => Hf n args p ((fix go (l : list sym) : Forall P l :=
      match l with [] => Forall_nil P | a :: r => Forall_cons a (sym_ind' P Hn Hs Hf a) (go r) end) args)
  end.

Definition syms_eqb := (fix go (l1 l2 : list sym) : bool :=
         match l1, l2 with
         | [], [] => true
         | x :: r, y :: s => sym_eqb x y && go r s
         | _, _ => false
         end).

Lemma sym_eqb_eq : forall a b, sym_eqb a b = true <-> a = b.
Proof.
  induction a as [n|s|n args p IH] using sym_ind'; intros b; destruct b as [m|t|m args2 q];
    cbn [sym_eqb]; try (split; discriminate).
  - rewrite Z.eqb_eq. split; congruence.
  - rewrite String.eqb_eq. split; congruence.
  - rewrite !andb_true_iff, String.eqb_eq, Bool.eqb_true_iff.
    assert (L : syms_eqb args args2 = true <-> args = args2).
    { revert args2. induction args as [|x r IHr]; intros [|y s]; cbn [syms_eqb]; try (split; discriminate || reflexivity).
      inversion_clear IH. fold syms_eqb. rewrite andb_true_iff, H, IHr by assumption. split; [intros [-> ->]; reflexivity|].
      intros E. injection E as -> ->. auto. }
    change ((n = m /\ p = q) /\ syms_eqb args args2 = true <-> SFun n args p = SFun m args2 q).
    rewrite L. split; [intros [[-> ->] ->]; reflexivity|]. intros E. injection E as -> -> ->. auto.
Qed.
Lemma sym_eqb_refl a : sym_eqb a a = true.
Proof. apply sym_eqb_eq. reflexivity. Qed.

Lemma sym_find_in s m v : sym_find s m = Some v -> In (s, v) m.
Proof. induction m as [|[s' v'] r IH]; cbn; [discriminate|]. destruct (sym_eqb s s') eqn:E.
  - intros H. injection H as ->. apply sym_eqb_eq in E. subst. auto.
  - auto. Qed.
Lemma sym_find_none s m : sym_find s m = None -> forall v, ~ In (s, v) m.
Proof. induction m as [|[s' v'] r IH]; cbn; [auto|]. destruct (sym_eqb s s') eqn:E; [discriminate|].
  intros H v [A|A]; [|eapply IH; eauto]. injection A as -> ->. rewrite sym_eqb_refl in E. discriminate. Qed.

(** A table maps each symbol to one variable, different symbols to different
    variables, and only uses existing variables. *)
Definition tab_wf (st : symtab) : Prop :=
  NoDup (map fst (st_map st)) /\ NoDup (map snd (st_map st)) /\
  forall s v, In (s, v) (st_map st) -> (v < st_next st)%nat.
Definition extends (st st' : symtab) : Prop := incl (st_map st) (st_map st') /\ (st_next st <= st_next st')%nat.

Lemma extends_refl st : extends st st. Proof. split; [apply incl_refl|lia]. Qed.
Lemma extends_trans a b c : extends a b -> extends b c -> extends a c.
Proof. intros [A1 A2] [B1 B2]. split; [eapply incl_tran; eauto|lia]. Qed.

Lemma add_variable_spec s st v st' : add_variable s st = Ok (v, st') ->
  extends st st' /\ In (s, v) (st_map st') /\ (tab_wf st -> tab_wf st').
Proof.
  unfold add_variable. destruct (sym_find s (st_map st)) as [w|] eqn:F; intros H; injection H as <- <-.
  - split; [apply extends_refl|]. split; [apply sym_find_in, F|auto].
  - split; [split; cbn; [apply incl_tl, incl_refl|lia]|]. split; [cbn; auto|].
    intros (W1 & W2 & W3). unfold tab_wf. cbn [st_map map fst snd st_next]. split; [|split].
    + constructor; [|exact W1]. intros A. apply in_map_iff in A. destruct A as ([s' v'] & E & A). cbn in E. subst s'.
      eapply sym_find_none; eauto.
    + constructor; [|exact W2]. intros A. apply in_map_iff in A. destruct A as ([s' v'] & E & A). cbn in E. subst v'.
      apply W3 in A. lia.
    + intros s' v' [E|A]; [injection E as <- <-; lia|]. apply W3 in A. lia.
Qed.

Lemma add_variable_no_ub s st : add_variable s st <> UB /\ forall e, add_variable s st <> Throw e.
Proof. unfold add_variable. destruct (sym_find _ _); split; congruence. Qed.

(** ** Values of term lists *)
Lemma terms_val_app {K} (kv : K -> Z) a b : terms_val kv (a ++ b) = terms_val kv a + terms_val kv b.
Proof. induction a as [|[c k] r IH]; cbn [terms_val app]; lia. Qed.

Lemma inv_all_cons {K} (t : Z * K) ts r : inv_all (t :: ts) = Ok r ->
  exists c r', safe_inv int32 (fst t) = Ok c /\ inv_all ts = Ok r' /\ r = (c, snd t) :: r'.
Proof. unfold inv_all. cbn [fold_right]. intros H. inv_ok. eauto 6. Qed.

Lemma inv_all_val {K} (kv : K -> Z) ts : forall r, inv_all ts = Ok r -> terms_val kv r = - terms_val kv ts.
Proof.
  induction ts as [|[c k] ts IH]; intros r H.
  - cbn in H. inv_ok. reflexivity.
  - apply inv_all_cons in H. destruct H as (c' & r' & H1 & H2 & ->). cbn in H1. apply safe_inv_val in H1.
    cbn [terms_val snd]. rewrite (IH _ H2). subst. lia.
Qed.

(** Compatibility of a key valuation with the key operations. *)
Definition kcompat {K} (ko : keyops K) (kv : K -> Z) (nu : var -> Z) : Prop :=
  kv (k_one ko) = 1 /\ (forall v, kv (k_var ko v) = nu v) /\
  (forall a b c, k_mul ko a b = Ok c -> kv c = kv a * kv b).

Lemma lkey_compat nu : kcompat lkey (key_val nu) nu.
Proof. unfold kcompat. cbn [lkey k_one k_var k_mul]. split; [reflexivity|]. split; [reflexivity|]. intros [a|] [b|] c H; cbn in H; inv_ok; cbn [key_val]; try destruct c; cbn [key_val]; lia. Qed.
Lemma prod_val_app nu a b : prod_val nu (a ++ b) = prod_val nu a * prod_val nu b.
Proof. induction a as [|v r IH]; cbn [prod_val app]; [lia|]. rewrite IH. lia. Qed.
Lemma nkey_compat nu : kcompat nkey (prod_val nu) nu.
Proof. unfold kcompat. cbn [nkey k_one k_var k_mul]. split; [reflexivity|]. split; [cbn; intros; lia|]. intros a b c H. inv_ok. apply prod_val_app. Qed.

Lemma mul_row_val {K} (ko : keyops K) kv nu l : kcompat ko kv nu -> forall rs r, mul_row ko l rs = Ok r ->
  terms_val kv r = (fst l * kv (snd l)) * terms_val kv rs.
Proof.
  intros (_ & _ & C). induction rs as [|[rc rk] rs IH]; cbn [mul_row]; intros r H.
  - inv_ok. cbn. lia.
  - inv_ok. cbn [fst snd] in *. apply safe_mul_val in H0. subst. cbn [terms_val].
    rewrite (C _ _ _ H1), (IH _ H2). lia.
Qed.
Lemma mul_all_val {K} (ko : keyops K) kv nu : kcompat ko kv nu -> forall ls rs r, mul_all ko ls rs = Ok r ->
  terms_val kv r = terms_val kv ls * terms_val kv rs.
Proof.
  intros C. induction ls as [|[lc lk] ls IH]; cbn [mul_all]; intros rs r H.
  - inv_ok. cbn. lia.
  - inv_ok. rewrite terms_val_app, (mul_row_val ko kv nu _ C _ _ H0), (IH _ _ H1). cbn [terms_val fst snd]. lia.
Qed.

(** ** Reading one element *)
Definition tab_agrees (rho : sym -> Z) (nu : var -> Z) (st : symtab) : Prop :=
  forall s v, In (s, v) (st_map st) -> nu v = rho s.
Lemma tab_agrees_ext rho nu st st' : extends st st' -> tab_agrees rho nu st' -> tab_agrees rho nu st.
Proof. intros [E _] A s v H. apply A, E, H. Qed.

Definition elem_spec {K} (kv : K -> Z) (nu : var -> Z) (D : (sym -> Z) -> tterm -> Z -> Prop) (t : tterm)
    (st : symtab) (res : list (Z * K)) (st' : symtab) : Prop :=
  extends st st' /\ (tab_wf st -> tab_wf st') /\
  forall rho, tab_agrees rho nu st' -> D rho t (terms_val kv res).

Lemma parse_var_spec {K} (ko : keyops K) kv nu t st res st' :
  kcompat ko kv nu ->
  (forall n, t <> TNum n) ->
  (forall name a b, t = TFun name [a; b] -> is_bin name = false) ->
  (forall a, t <> TFun "-" [a] /\ t <> TFun "+" [a]) ->
  (s <~ slift (evaluate t) ;; v <~ add_variable s ;; sret [(1, k_var ko v)]) st = Ok (res, st') ->
  elem_spec kv nu den t st res st'.
Proof.
  intros (C1 & C2 & C3) N1 N2 N3 H. inv_ok. apply evaluate_ground in H0.
  apply add_variable_spec in H1. destruct H1 as (A1 & A2 & A3).
  split; [exact A1|]. split; [exact A3|]. intros rho R.
  cbn [terms_val]. rewrite C2, (R _ _ A2). replace (1 * rho a + 0) with (rho a) by lia.
  apply d_var; auto.
Qed.

Lemma parse_elem_spec {K} (ko : keyops K) kv nu : kcompat ko kv nu ->
  forall t st res st', parse_elem ko t st = Ok (res, st') -> elem_spec kv nu den t st res st'.
Proof.
  intros C. pose proof C as (C1 & C2 & C3).
  induction t as [n|name|name args IH|args IH|args IH] using tterm_ind'; intros st res st' H.
  - cbn in H. inv_ok. split; [apply extends_refl|]. split; [auto|]. intros rho _. cbn [terms_val]. rewrite C1.
    replace (n * 1 + 0) with n by lia. constructor.
  - cbn [parse_elem] in H. eapply parse_var_spec; eauto; intros; try split; discriminate.
  - destruct args as [|a [|b [|c r]]].
    + eapply parse_var_spec; eauto; intros; try split; discriminate.
    + inversion_clear IH. cbn [parse_elem] in H.
      destruct (String.eqb_spec name "-") as [->|N1]; [|destruct (String.eqb_spec name "+") as [->|N2]].
      * inv_ok. destruct (H0 _ _ _ H2) as (E1 & E2 & E3). split; [exact E1|]. split; [exact E2|].
        intros rho R. rewrite (inv_all_val kv _ _ H). constructor. auto.
      * destruct (H0 _ _ _ H) as (E1 & E2 & E3). split; [exact E1|]. split; [exact E2|].
        intros rho R. constructor. auto.
      * eapply parse_var_spec; eauto; intros; try split; congruence.
    + inversion_clear IH. inversion_clear H1. clear H3. cbn [parse_elem] in H.
      destruct (String.eqb_spec name "+") as [->|N1]; [|destruct (String.eqb_spec name "-") as [->|N2];
        [|destruct (String.eqb_spec name "*") as [->|N3]]].
      * inv_ok. destruct (H0 _ _ _ H1) as (E1 & E2 & E3), (H2 _ _ _ H3) as (F1 & F2 & F3).
        split; [eapply extends_trans; eauto|]. split; [auto|]. intros rho R. rewrite terms_val_app.
        constructor; [apply E3; eapply tab_agrees_ext; eauto|auto].
      * inv_ok. destruct (H0 _ _ _ H1) as (E1 & E2 & E3), (H2 _ _ _ H3) as (F1 & F2 & F3).
        split; [eapply extends_trans; eauto|]. split; [auto|]. intros rho R.
        rewrite terms_val_app, (inv_all_val kv _ _ H4), Z.add_opp_r.
        constructor; [apply E3; eapply tab_agrees_ext; eauto|auto].
      * inv_ok. destruct (H0 _ _ _ H1) as (E1 & E2 & E3), (H2 _ _ _ H3) as (F1 & F2 & F3).
        split; [eapply extends_trans; eauto|]. split; [auto|]. intros rho R.
        rewrite (mul_all_val ko kv nu C _ _ _ H).
        constructor; [apply E3; eapply tab_agrees_ext; eauto|auto].
      * destruct (String.eqb name "**" || String.eqb name "/" || String.eqb name "\") eqn:B.
        -- inv_ok. apply evaluate_ground in H1. destruct a0; try discriminate. cbn [num_of] in H3. inv_ok.
           split; [apply extends_refl|]. split; [auto|]. intros rho _. cbn [terms_val]. rewrite C1.
           replace (a1 * 1 + 0) with a1 by lia. apply d_arith; [|exact H1].
           apply orb_true_iff in B. destruct B as [B|B]; [apply orb_true_iff in B; destruct B as [B|B]|]; apply String.eqb_eq in B; auto.
        -- eapply parse_var_spec; eauto; try (intros; try split; congruence).
           intros nm a' b' E. injection E as <- <- <-. unfold is_bin.
           apply orb_false_iff in B. destruct B as [B B3]. apply orb_false_iff in B. destruct B as [B1 B2].
           apply String.eqb_neq in N1, N2, N3. rewrite N1, N2, N3, B1, B2, B3. reflexivity.
    + eapply parse_var_spec; eauto; intros; try split; discriminate.
  - cbn [parse_elem] in H. eapply parse_var_spec; eauto; intros; try split; discriminate.
  - cbn in H. discriminate.
Qed.

Lemma parse_diff_side_spec {K} (ko : keyops K) kv nu sign t st res st' :
  kcompat ko kv nu -> (sign = 1 \/ sign = -1) -> parse_diff_side ko sign t st = Ok (res, st') ->
  extends st st' /\ (tab_wf st -> tab_wf st') /\
  forall rho, tab_agrees rho nu st' -> exists x, den_side rho t x /\ terms_val kv res = sign * x.
Proof.
  intros (C1 & C2 & C3) Hs H. unfold parse_diff_side in H. inv_ok. apply evaluate_ground in H0.
  destruct a as [n|str|n args p].
  - inv_ok. split; [apply extends_refl|]. split; [auto|]. intros rho _. exists n. split; [constructor; exact H0|].
    cbn [terms_val]. rewrite C1. destruct Hs; subst sign; cbn in H1; inv_ok; [lia|]. apply safe_inv_val in H1. lia.
  - inv_ok. apply add_variable_spec in H1. destruct H1 as (A1 & A2 & A3). split; [exact A1|]. split; [exact A3|].
    intros rho R. exists (rho (SStr str)). split; [apply ds_var; [discriminate|exact H0]|]. cbn [terms_val].
    rewrite C2, (R _ _ A2). lia.
  - inv_ok. apply add_variable_spec in H1. destruct H1 as (A1 & A2 & A3). split; [exact A1|]. split; [exact A3|].
    intros rho R. exists (rho (SFun n args p)). split; [apply ds_var; [discriminate|exact H0]|]. cbn [terms_val].
    rewrite C2, (R _ _ A2). lia.
Qed.

Lemma parse_diff_spec {K} (ko : keyops K) kv nu : kcompat ko kv nu ->
  forall t st res st', parse_diff ko t st = Ok (res, st') -> elem_spec kv nu den_diff t st res st'.
Proof.
  intros C t st res st' H. unfold parse_diff, op2 in H.
  destruct t as [ | |name [|a [|b [|c r]]]| | ]; try (cbn in H; discriminate).
  destruct (String.eqb_spec name "-") as [->|N]; [|cbn in H; discriminate]. inv_ok.
  apply (parse_diff_side_spec ko kv nu) in H0; auto. apply (parse_diff_side_spec ko kv nu) in H1; auto.
  destruct H0 as (E1 & E2 & E3), H1 as (F1 & F2 & F3).
  split; [eapply extends_trans; eauto|]. split; [auto|]. intros rho R.
  destruct (E3 rho) as (x & X1 & X2); [eapply tab_agrees_ext; eauto|]. destruct (F3 rho R) as (y & Y1 & Y2).
  rewrite terms_val_app, X2, Y2. replace (1 * x + -1 * y) with (x - y) by lia. constructor; assumption.
Qed.

Lemma parse_elem_list_spec {K} (kv : K -> Z) nu D f :
  (forall t st res st', f t st = Ok (res, st') -> elem_spec kv nu D t st res st') ->
  forall es st res st', parse_elem_list f es st = Ok (res, st') ->
  extends st st' /\ (tab_wf st -> tab_wf st') /\
  forall rho, tab_agrees rho nu st' -> den_elems (D rho) es (terms_val kv res).
Proof.
  intros F. induction es as [|[tuple cond] es IH]; cbn [parse_elem_list]; intros st res st' H.
  - inv_ok. split; [apply extends_refl|]. split; [auto|]. intros. constructor.
  - destruct tuple as [|t ts]; [cbn in H; discriminate|]. destruct cond; [|cbn in H; inv_ok; discriminate].
    inv_ok. destruct (F _ _ _ _ H1) as (E1 & E2 & E3). destruct (IH _ _ _ H2) as (G1 & G2 & G3).
    split; [eapply extends_trans; eauto|]. split; [auto|]. intros rho R. rewrite terms_val_app.
    constructor; [apply E3; eapply tab_agrees_ext; eauto|auto].
Qed.

(** ** Whole element lists with guard *)
Lemma parse_elems_sum_spec {K} (ko : keyops K) kv nu es guard st res st' : kcompat ko kv nu ->
  parse_elems_sum ko es guard st = Ok (res, st') ->
  extends st st' /\ (tab_wf st -> tab_wf st') /\
  forall rho, tab_agrees rho nu st' ->
    exists x y, den_elems (den rho) es x /\ (match guard with Some g => den rho g y | None => y = 0 end) /\
                terms_val kv res = x - y.
Proof.
  intros C H. unfold parse_elems_sum in H. inv_ok.
  destruct (parse_elem_list_spec kv nu den _ (parse_elem_spec ko kv nu C) _ _ _ _ H0) as (E1 & E2 & E3).
  destruct guard as [g|]; inv_ok.
  - destruct (parse_elem_spec ko kv nu C _ _ _ _ H1) as (F1 & F2 & F3).
    split; [eapply extends_trans; eauto|]. split; [auto|]. intros rho R.
    exists (terms_val kv a), (terms_val kv a0). split; [apply E3; eapply tab_agrees_ext; eauto|]. split; [auto|].
    rewrite terms_val_app, (inv_all_val kv _ _ H2). lia.
  - split; [exact E1|]. split; [exact E2|]. intros rho R. exists (terms_val kv a), 0. split; [auto|]. split; [reflexivity|lia].
Qed.

Lemma parse_elems_diff_spec {K} (ko : keyops K) kv nu es guard st res st' : kcompat ko kv nu ->
  parse_elems_diff ko es guard st = Ok (res, st') ->
  extends st st' /\ (tab_wf st -> tab_wf st') /\
  forall rho, tab_agrees rho nu st' ->
    exists x y, den_elems (den_diff rho) es x /\ (match guard with Some g => ground g (SNum y) | None => y = 0 end) /\
                terms_val kv res = x - y.
Proof.
  intros C H. unfold parse_elems_diff in H. inv_ok.
  destruct (parse_elem_list_spec kv nu den_diff _ (parse_diff_spec ko kv nu C) _ _ _ _ H1) as (E1 & E2 & E3).
  split; [|split].
  - destruct guard; inv_ok; exact E1.
  - destruct guard; inv_ok; exact E2.
  - intros rho R. pose proof C as (C1 & _). destruct guard as [g|]; inv_ok.
    + apply evaluate_ground in H2. destruct a1; try discriminate. cbn [num_of] in H3. inv_ok.
      exists (terms_val kv a0), a2. split; [auto|]. split; [exact H2|].
      apply safe_inv_val in H4. rewrite terms_val_app. cbn [terms_val]. rewrite C1. lia.
    + exists (terms_val kv a0), 0. split; [auto|]. split; [reflexivity|lia].
Qed.

(** ** No undefined behaviour on terms produced by clingo *)

(** Numbers are 32 bit and quoted names are well formed strings. *)
Fixpoint wf_term (t : tterm) : Prop :=
  match t with
  | TNum n => fits int32 n
  | TSym name => is_quoted name = true -> exists i s, inner name = Ok i /\ unquote i false = Ok s
  | TFun _ args | TTup args | TOther args =>
      (fix go (l : list tterm) : Prop := match l with [] => True | a :: r => wf_term a /\ go r end) args
  end.
Definition wf_args := (fix go (l : list tterm) : Prop := match l with [] => True | a :: r => wf_term a /\ go r end).

Definition num_fits (s : sym) : Prop := match s with SNum n => fits int32 n | _ => True end.
Definition safe_sym (o : outcome sym) : Prop := match o with Ok s => num_fits s | Throw _ => True | UB => False end.
Definition safe_z (o : outcome Z) : Prop := match o with Ok z => fits int32 z | Throw _ => True | UB => False end.

Lemma twos32 : twos int32. Proof. unfold twos; cbn; lia. Qed.
Lemma twos64 : twos int64. Proof. unfold twos; cbn; lia. Qed.
Lemma twos128 : twos int128. Proof. unfold twos; cbn; lia. Qed.

Ltac from_exact L := destruct L as [[? ->]|[? [? ->]]]; cbn; trivial.
Lemma safe_z_add a b : fits int32 a -> fits int32 b -> safe_z (safe_add int32 a b).
Proof. intros. from_exact (safe_add_exact int32 a b twos32 H H0). Qed.
Lemma safe_z_sub a b : fits int32 a -> fits int32 b -> safe_z (safe_sub int32 a b).
Proof. intros. from_exact (safe_sub_exact int32 a b twos32 H H0). Qed.
Lemma safe_z_mul a b : fits int32 a -> fits int32 b -> safe_z (safe_mul int32 a b).
Proof. intros. from_exact (safe_mul_exact int32 a b twos32 H H0). Qed.
Lemma safe_z_inv a : fits int32 a -> safe_z (safe_inv int32 a).
Proof. intros. from_exact (safe_inv_exact int32 a twos32 H). Qed.
Lemma safe_z_div a b : fits int32 a -> fits int32 b -> safe_z (safe_div int32 a b).
Proof. intros. destruct (safe_div_exact int32 a b twos32 H H0) as [(? & ? & ->)|(? & ? & ->)]; cbn; trivial. Qed.
Lemma safe_z_mod a b : fits int32 a -> fits int32 b -> safe_z (safe_mod int32 a b).
Proof. intros. destruct (safe_mod_exact int32 a b twos32 H H0) as [(? & ? & ->)|(? & ? & ->)]; cbn [safe_z]; trivial.
  destruct (Z.rem_bound_abs a b) as []; [assumption|]. unfold fits in *. cbn [imin imax int32] in *.
  pose proof (Z.rem_bound_abs a b H1). lia. Qed.
Lemma safe_z_pow a b : safe_z (safe_pow a b).
Proof. unfold safe_pow. destruct (a =? 0); cbn [safe_z]; trivial.
  set (r := if 0 <=? b then _ else _). clearbody r.
  destruct (imax int32 <? r) eqn:E1; cbn [safe_z]; trivial. destruct (r <? imin int32) eqn:E2; cbn [safe_z]; trivial. unfold fits. lia. Qed.
Lemma bin_op_safe name f a b : bin_op name = Some f -> fits int32 a -> fits int32 b -> safe_z (f a b).
Proof.
  unfold bin_op. intros H Ha Hb.
  destruct (String.eqb name "+"); [injection H as <-; apply safe_z_add; auto|].
  destruct (String.eqb name "-"); [injection H as <-; apply safe_z_sub; auto|].
  destruct (String.eqb name "*"); [injection H as <-; apply safe_z_mul; auto|].
  destruct (String.eqb name "/"); [injection H as <-; apply safe_z_div; auto|].
  destruct (String.eqb name "\"); [injection H as <-; apply safe_z_mod; auto|].
  destruct (String.eqb name "**"); [injection H as <-; apply safe_z_pow; auto|discriminate].
Qed.

Lemma eval_args_safe args : Forall (fun t => wf_term t -> safe_sym (evaluate t)) args -> wf_args args ->
  eval_args args <> UB.
Proof.
  induction args as [|a r IH]; intros F W; cbn [eval_args]; [discriminate|].
  inversion_clear F. destruct W as [W1 W2]. specialize (H W1). destruct (evaluate a); cbn [bind]; try easy.
  specialize (IH H0 W2). destruct (eval_args r); cbn [bind]; easy.
Qed.

Lemma evaluate_safe : forall t, wf_term t -> safe_sym (evaluate t).
Proof.
  induction t as [n|name|name args IH|args IH|args IH] using tterm_ind'; intros W.
  - exact W.
  - cbn [evaluate]. destruct (is_quoted name) eqn:Q; [|exact I]. destruct (W Q) as (i & s & -> & H). cbn [bind]. rewrite H. exact I.
  - change (wf_args args) in W. assert (EA := eval_args_safe args IH W).
    assert (G : forall nm, safe_sym (ss <- eval_args args ;; Ok (SFun nm ss true))).
    { intros nm. destruct (eval_args args); cbn; easy. }
    destruct args as [|a [|b [|c r]]].
    + apply (G name).
    + change (safe_sym
        (if String.eqb name "-" then
          s <- evaluate a ;;
          match s with
          | SNum n => r <- safe_inv int32 n ;; Ok (SNum r)
          | SFun n args pos => if Nat.ltb 0 (String.length n) then Ok (SFun n args (negb pos)) else Throw Syntax
          | SStr _ => Throw Syntax
          end
        else ss <- eval_args [a] ;; Ok (SFun name ss true))).
      destruct (String.eqb name "-"); [|apply G]. inversion_clear IH. destruct W as [W1 _]. specialize (H W1).
      destruct (evaluate a) as [[n|s|n args p]| |]; cbn [bind safe_sym] in *; try easy.
      * pose proof (safe_z_inv n H) as S. destruct (safe_inv int32 n); cbn in *; easy.
      * destruct (Nat.ltb 0 (String.length n)); exact I.
    + rewrite evaluate_fun2. destruct (bin_op name) as [f|] eqn:B.
      * unfold ev2. inversion_clear IH. inversion_clear H0. destruct W as (W1 & W2 & _).
        specialize (H W1). specialize (H1 W2).
        destruct (evaluate a) as [[n|s|n args p]| |]; cbn [bind safe_sym num_of] in *; try easy.
        destruct (evaluate b) as [[m|s|m args p]| |]; cbn [bind safe_sym num_of] in *; try easy.
        pose proof (bin_op_safe _ _ n m B H H1) as S. destruct (f n m); cbn in *; easy.
      * destruct (String.eqb name ".."); [exact I|apply G].
    + apply (G name).
  - change (wf_args args) in W. assert (EA := eval_args_safe args IH W).
    change (safe_sym (ss <- eval_args args ;; Ok (SFun EmptyString ss true))).
    destruct (eval_args args); cbn; easy.
  - exact I.
Qed.

Definition coefs_fit {K} (ts : list (Z * K)) : Prop := Forall (fun t => fits int32 (fst t)) ts.
Definition safe_terms {K} (o : outcome (list (Z * K))) : Prop :=
  match o with Ok ts => coefs_fit ts | Throw _ => True | UB => False end.
Definition safe_parse {K} (o : outcome (list (Z * K) * symtab)) : Prop :=
  match o with Ok (ts, _) => coefs_fit ts | Throw _ => True | UB => False end.

Lemma inv_all_safe {K} (ts : list (Z * K)) : coefs_fit ts -> safe_terms (inv_all ts).
Proof.
  induction 1 as [|[c k] r H F IH]; [constructor|]. unfold inv_all in *. cbn [fold_right fst snd] in *.
  pose proof (safe_z_inv c H) as S. destruct (safe_inv int32 c); cbn [bind safe_z] in *; try easy.
  destruct (fold_right _ _ r); cbn [bind safe_terms] in *; try easy. constructor; assumption.
Qed.

Definition kmul_safe {K} (ko : keyops K) : Prop := forall a b, k_mul ko a b <> UB.
Lemma mul_row_safe {K} (ko : keyops K) l rs : kmul_safe ko -> fits int32 (fst l) -> coefs_fit rs -> safe_terms (mul_row ko l rs).
Proof.
  intros C Hl. induction 1 as [|[c k] r H F IH]; cbn [mul_row fst snd]; [constructor|]. cbn [fst] in H.
  pose proof (safe_z_mul (fst l) c Hl H) as S. destruct (safe_mul int32 (fst l) c); cbn [bind safe_z] in *; try easy.
  specialize (C (snd l) k). destruct (k_mul ko (snd l) k); cbn [bind]; try easy.
  destruct (mul_row ko l r); cbn [bind safe_terms] in *; try easy. constructor; assumption.
Qed.
Lemma mul_all_safe {K} (ko : keyops K) ls rs : kmul_safe ko -> coefs_fit ls -> coefs_fit rs -> safe_terms (mul_all ko ls rs).
Proof.
  intros C H Hr. induction H as [|[c k] r H F IH]; cbn [mul_all]; [constructor|].
  pose proof (mul_row_safe ko (c, k) rs C H Hr) as S. destruct (mul_row ko (c, k) rs); cbn [bind safe_terms] in *; try easy.
  destruct (mul_all ko r rs); cbn [bind safe_terms] in *; try easy. apply Forall_app. split; assumption.
Qed.

Lemma parse_var_safe {K} (ko : keyops K) t st : wf_term t ->
  safe_parse ((s <~ slift (evaluate t) ;; v <~ add_variable s ;; sret [(1, k_var ko v)]) st).
Proof.
  intros W. apply evaluate_safe in W. unfold sbind, slift, sret. destruct (evaluate t); cbn in *; try easy.
  destruct (add_variable_no_ub a st) as [N1 N2]. destruct (add_variable a st) as [[v s2]| |]; cbn; try easy.
  repeat constructor; cbn; lia.
Qed.

Lemma parse_elem_safe {K} (ko : keyops K) : kmul_safe ko -> forall t st, wf_term t -> safe_parse (parse_elem ko t st).
Proof.
  intros C. induction t as [n|name|name args IH|args IH|args IH] using tterm_ind'; intros st W.
  - cbn. repeat constructor; apply W.
  - apply parse_var_safe, W.
  - destruct args as [|a [|b [|c r]]]; try (apply parse_var_safe, W).
    + inversion_clear IH. pose proof W as W0. change (wf_args [a]) in W0. destruct W0 as [W1 _]. cbn [parse_elem].
      destruct (String.eqb name "-"); [|destruct (String.eqb name "+"); [apply H, W1|apply parse_var_safe, W]].
      specialize (H st W1). unfold sbind, slift. destruct (parse_elem ko a st) as [[ra s1]| |]; cbn [safe_parse] in *; try easy.
      apply inv_all_safe in H. destruct (inv_all ra); cbn in *; easy.
    + inversion_clear IH. inversion_clear H0. pose proof W as W0. change (wf_args [a; b]) in W0. destruct W0 as (W1 & W2 & _). cbn [parse_elem].
      destruct (String.eqb name "+"); [|destruct (String.eqb name "-"); [|destruct (String.eqb name "*")]].
      * specialize (H st W1). unfold sbind, slift, sret. destruct (parse_elem ko a st) as [[ra s1]| |]; cbn [safe_parse] in *; try easy.
        specialize (H1 s1 W2). destruct (parse_elem ko b s1) as [[rb s2]| |]; cbn [safe_parse] in *; try easy.
        apply Forall_app. split; assumption.
      * specialize (H st W1). unfold sbind, slift, sret. destruct (parse_elem ko a st) as [[ra s1]| |]; cbn [safe_parse] in *; try easy.
        specialize (H1 s1 W2). destruct (parse_elem ko b s1) as [[rb s2]| |]; cbn [safe_parse] in *; try easy.
        apply inv_all_safe in H1. destruct (inv_all rb); cbn [safe_terms safe_parse] in *; try easy. apply Forall_app. split; assumption.
      * specialize (H st W1). unfold sbind, slift, sret. destruct (parse_elem ko a st) as [[ra s1]| |]; cbn [safe_parse] in *; try easy.
        specialize (H1 s1 W2). destruct (parse_elem ko b s1) as [[rb s2]| |]; cbn [safe_parse] in *; try easy.
        pose proof (mul_all_safe ko ra rb C H H1). destruct (mul_all ko ra rb); cbn in *; easy.
      * destruct (_ || _); [|apply parse_var_safe, W].
        pose proof (evaluate_safe _ W) as S. unfold sbind, slift, sret. destruct (evaluate (TFun name [a; b])) as [[n|s|n args p]| |]; cbn in *; try easy.
        repeat constructor; cbn; apply S.
  - apply parse_var_safe, W.
  - exact I.
Qed.

Lemma lkey_safe : kmul_safe lkey. Proof. intros [a|] [b|]; cbn; discriminate. Qed.
Lemma nkey_safe : kmul_safe nkey. Proof. intros a b; cbn; discriminate. Qed.

Definition wf_telem (e : telem) : Prop := Forall wf_term (fst e).

Lemma parse_elem_list_safe {K} (f : tterm -> SM symtab (list (Z * K))) :
  (forall t st, wf_term t -> safe_parse (f t st)) ->
  forall es st, Forall wf_telem es -> safe_parse (parse_elem_list f es st).
Proof.
  intros F. induction es as [|[[|t ts] cond] es IH]; intros st W; cbn [parse_elem_list]; [constructor|exact I|].
  inversion_clear W. unfold sbind, slift, sret, check_syntax. destruct cond; [|exact I].
  inversion_clear H. specialize (F t st H1). destruct (f t st) as [[r s1]| |]; cbn [safe_parse] in *; try easy.
  specialize (IH s1 H0). destruct (parse_elem_list f es s1) as [[rs s2]| |]; cbn [safe_parse] in *; try easy.
  apply Forall_app. split; assumption.
Qed.

Lemma parse_elems_sum_safe {K} (ko : keyops K) es guard st : kmul_safe ko ->
  Forall wf_telem es -> (forall g, guard = Some g -> wf_term g) -> safe_parse (parse_elems_sum ko es guard st).
Proof.
  intros C W G. unfold parse_elems_sum, sbind, slift, sret.
  pose proof (parse_elem_list_safe (parse_elem ko) (parse_elem_safe ko C) es st W) as S.
  destruct (parse_elem_list (parse_elem ko) es st) as [[r s1]| |]; cbn [safe_parse] in *; try easy.
  destruct guard as [g|]; [|exact S].
  pose proof (parse_elem_safe ko C g s1 (G g eq_refl)) as S2.
  destruct (parse_elem ko g s1) as [[rg s2]| |]; cbn [safe_parse] in *; try easy.
  apply inv_all_safe in S2. destruct (inv_all rg); cbn [safe_terms safe_parse] in *; try easy. apply Forall_app. split; assumption.
Qed.

Lemma parse_diff_safe {K} (ko : keyops K) t st : wf_term t -> safe_parse (parse_diff ko t st).
Proof.
  assert (S : forall sign t st, fits int32 sign -> wf_term t -> safe_parse (parse_diff_side ko sign t st)).
  { clear. intros sign t st Hs W. apply evaluate_safe in W. unfold parse_diff_side, sbind, slift, sret.
    destruct (evaluate t) as [[n|s|n args p]| |]; cbn [safe_sym num_fits] in *; try easy.
    - destruct (sign =? 1); [repeat constructor; apply W|].
      pose proof (safe_z_inv n W) as Z. destruct (safe_inv int32 n); cbn [safe_z safe_parse] in *; try easy. repeat constructor; apply Z.
    - destruct (add_variable_no_ub (SStr s) st). destruct (add_variable _ st) as [[v s1]| |]; cbn; try easy. repeat constructor; apply Hs.
    - destruct (add_variable_no_ub (SFun n args p) st). destruct (add_variable _ st) as [[v s1]| |]; cbn; try easy. repeat constructor; apply Hs. }
  intros W. unfold parse_diff, op2.
  destruct t as [ | |name [|a [|b [|c r]]]| | ]; try exact I.
  destruct (String.eqb name "-"); [|exact I]. change (wf_args [a; b]) in W. destruct W as (W1 & W2 & _).
  unfold sbind, sret. pose proof (S 1 a st ltac:(unfold fits; cbn; lia) W1) as S1.
  destruct (parse_diff_side ko 1 a st) as [[ra s1]| |]; cbn [safe_parse] in *; try easy.
  pose proof (S (-1) b s1 ltac:(unfold fits; cbn; lia) W2) as S2.
  destruct (parse_diff_side ko (-1) b s1) as [[rb s2]| |]; cbn [safe_parse] in *; try easy.
  apply Forall_app. split; assumption.
Qed.

Lemma parse_elems_diff_safe {K} (ko : keyops K) es guard st :
  Forall wf_telem es -> (forall g, guard = Some g -> wf_term g) -> safe_parse (parse_elems_diff ko es guard st).
Proof.
  intros W G. unfold parse_elems_diff, sbind, slift, sret, check_syntax. destruct (Nat.eqb _ _); [|exact I].
  pose proof (parse_elem_list_safe (parse_diff ko) (parse_diff_safe ko) es st W) as S.
  destruct (parse_elem_list (parse_diff ko) es st) as [[r s1]| |]; cbn [safe_parse] in *; try easy.
  destruct guard as [g|]; [|exact S].
  pose proof (evaluate_safe g (G g eq_refl)) as S2. destruct (evaluate g) as [[n|s|n args p]| |]; cbn [safe_sym num_fits num_of] in *; try easy.
  pose proof (safe_z_inv n S2) as Z. destruct (safe_inv int32 n); cbn [safe_z safe_parse] in *; try easy.
  apply Forall_app. split; [assumption|]. constructor; [exact Z|constructor].
Qed.
