(** Effects of propagate and check on order literals and bounds. *)
From Verif Require Import Base Util VarState VarStateProofs Terms TermsSpec Solver OrderSpec OrderProofs1 OrderProofs2 Orders Sum PropProofs ConSpec
  Distinct DistinctProofs2 Disjoint Objective Search SearchSpec SearchFrame SearchGrow SearchInv SearchInv3 SearchInv4 CheckFrame.
Open Scope Z_scope.

(** Something was sent to clasp. *)
Definition longer (s s' : state) : Prop := (length (log s) < length (log s'))%nat.

Section Grow.
Context (srt : (ival -> Z) -> list ival -> list ival) (O : oracle) (cfg : config) (chk sol : bool).
Notation tg := (tg O).

Lemma tg_len s s' : tg s s' -> (length (log s) <= length (log s'))%nat.
Proof. intros T. destruct (tg_log _ _ _ T) as (es & -> & _). rewrite app_length. lia. Qed.
Lemma longer_r s s1 s2 : longer s s1 -> tg s1 s2 -> longer s s2.
Proof. unfold longer. intros A B. apply tg_len in B. lia. Qed.
Lemma longer_l s s1 s2 : tg s s1 -> longer s1 s2 -> longer s s2.
Proof. unfold longer. intros A B. apply tg_len in A. lia. Qed.

(** ** Bounds *)
Lemma tg_propvars sgn ls : forall r s, tg s (snd (propagate_variables O cfg sgn r ls s)).
Proof.
  induction ls as [|l ls IH]; intros r s; cbn [propagate_variables]; [apply tg_refl|].
  destruct (is_true _ _ _); [apply tg_refl|]. pose proof (tg_clause O (if r =? TRUE_LIT then Static else Learnt) [- r; sgn * l] s) as A.
  destruct (add_clause _ _ _ _) as [ok s1]. cbn [snd] in A. destruct ok; [eapply tg_trans; [exact A|apply IH]|exact A].
Qed.
Lemma propvars_says sgn ls : forall r s s', propagate_variables O cfg sgn r ls s = (false, s') -> longer s s'.
Proof.
  induction ls as [|l ls IH]; intros r s s' E; cbn [propagate_variables] in E; [discriminate|].
  destruct (is_true _ _ _); [discriminate|]. unfold add_clause in E. destruct (o_answer _ _).
  - apply IH in E. unfold longer in *. cbn in E. lia.
  - injection E as <-. unfold longer. cbn. lia.
Qed.
Lemma propvars_vst sgn ls : forall r s, vst (snd (propagate_variables O cfg sgn r ls s)) = vst s /\ lmap (snd (propagate_variables O cfg sgn r ls s)) = lmap s.
Proof.
  induction ls as [|l ls IH]; intros r s; cbn [propagate_variables]; [auto|].
  destruct (is_true _ _ _); [auto|]. unfold add_clause. destruct (o_answer _ _); [|auto]. apply (IH _ (emit _ s)).
Qed.
Lemma level_lower_spec x v s : (forall y, lits (vst (level_update_lower x v s) y) = lits (vst s y)) /\
  lmap (level_update_lower x v s) = lmap s /\ nxt (level_update_lower x v s) = nxt s /\ log (level_update_lower x v s) = log s /\ fmap (level_update_lower x v s) = fmap s /\
  forall y, ub (vst (level_update_lower x v s) y) = ub (vst s y) /\ lb (vst (level_update_lower x v s) y) = if Nat.eqb y x then v + 1 else lb (vst s y).
Proof.
  unfold level_update_lower. cbv zeta. repeat split; try intros y;
    destruct (_ && _); match goal with |- context [if ?b then set_inl _ _ else _] => destruct b end;
    cbn [vst lmap nxt log fmap set_ldiff set_inl set_ulo set_vst set_vs]; try reflexivity; unfold upd; destruct (Nat.eqb_spec y x) as [->|]; reflexivity.
Qed.
Lemma level_upper_spec x v s : (forall y, lits (vst (level_update_upper x v s) y) = lits (vst s y)) /\
  lmap (level_update_upper x v s) = lmap s /\ nxt (level_update_upper x v s) = nxt s /\ log (level_update_upper x v s) = log s /\ fmap (level_update_upper x v s) = fmap s /\
  forall y, lb (vst (level_update_upper x v s) y) = lb (vst s y) /\ ub (vst (level_update_upper x v s) y) = if Nat.eqb y x then v else ub (vst s y).
Proof.
  unfold level_update_upper. cbv zeta. repeat split; try intros y;
    destruct (_ && _); match goal with |- context [if ?b then set_inu _ _ else _] => destruct b end;
    cbn [vst lmap nxt log fmap set_udiff set_inu set_uup set_vst set_vs]; try reflexivity; unfold upd; destruct (Nat.eqb_spec y x) as [->|]; reflexivity.
Qed.
Lemma level_lower_rest x v s : rest (level_update_lower x v s) = rest s.
Proof. unfold level_update_lower. cbv zeta. destruct (_ && _); match goal with |- context [if ?b then set_inl _ _ else _] => destruct b end; reflexivity. Qed.
Lemma level_lower_stk x v s : cur_level s = 0%nat -> forall y, lbs (vst (level_update_lower x v s) y) = lbs (vst s y) /\ ubs (vst (level_update_lower x v s) y) = ubs (vst s y).
Proof.
  intros L y. unfold level_update_lower. cbv zeta. rewrite L. cbn [Nat.ltb Nat.leb andb]. match goal with |- context [if ?b then set_inl _ _ else _] => destruct b end;
    cbn [vst set_ldiff set_inl set_vst set_vs]; unfold upd; destruct (Nat.eqb_spec y x) as [->|]; auto.
Qed.
Lemma tg_lower x v s : lb (vst s x) < v + 1 -> tg s (level_update_lower x v s).
Proof.
  intros L. destruct (level_lower_spec x v s) as (A & B & C & D & E & F). apply tg_still; auto using level_lower_rest, level_lower_stk.
  - intros k. unfold key. now rewrite B.
  - intros y. destruct (F y) as [-> ->]. destruct (Nat.eqb_spec y x) as [->|]; lia.
Qed.
Lemma level_upper_rest x v s : rest (level_update_upper x v s) = rest s.
Proof. unfold level_update_upper. cbv zeta. destruct (_ && _); match goal with |- context [if ?b then set_inu _ _ else _] => destruct b end; reflexivity. Qed.
Lemma level_upper_stk x v s : cur_level s = 0%nat -> forall y, lbs (vst (level_update_upper x v s) y) = lbs (vst s y) /\ ubs (vst (level_update_upper x v s) y) = ubs (vst s y).
Proof.
  intros L y. unfold level_update_upper. cbv zeta. rewrite L. cbn [Nat.ltb Nat.leb andb]. match goal with |- context [if ?b then set_inu _ _ else _] => destruct b end;
    cbn [vst set_udiff set_inu set_vst set_vs]; unfold upd; destruct (Nat.eqb_spec y x) as [->|]; auto.
Qed.
Lemma tg_upper x v s : v < ub (vst s x) -> tg s (level_update_upper x v s).
Proof.
  intros L. destruct (level_upper_spec x v s) as (A & B & C & D & E & F). apply tg_still; auto using level_upper_rest, level_upper_stk.
  - intros k. unfold key. now rewrite B.
  - intros y. destruct (F y) as [-> ->]. destruct (Nat.eqb_spec y x) as [->|]; lia.
Qed.

(** What a successful update of a bound achieves. *)
Record tightened (s s' : state) : Prop := {
  ti_lits : forall y, lits (vst s' y) = lits (vst s y);
  ti_lmap : lmap s' = lmap s }.
Lemma update_upper_tg x l v n s ok s' : update_upper O cfg x l v n s = (ok, s') ->
  tg s s' /\ (ok = false -> longer s s') /\ (ok = true -> tightened s s' /\ ub (vst s' x) <= v).
Proof.
  unfold update_upper. destruct (Z.ltb_spec v (lb (vst s x))).
  - pose proof (tg_get O cfg x (lb (vst s x) - 1) s) as A. destruct (get_literal _ _ _ _) as [g s1]. cbn [snd] in A.
    pose proof (tg_conflict O [g; - l] s1) as B. unfold add_clause in *. intros E. injection E as <- <-. split; [now apply tg_trans with s1|]. split; [|discriminate].
    intros _. apply longer_l with s1; [exact A|]. unfold longer, cc_propagate. destruct (o_answer _ _); cbn; lia.
  - set (s1 := if v <? _ then _ else _).
    assert (A : tg s s1 /\ tightened s s1 /\ ub (vst s1 x) <= v).
    { unfold s1. destruct (Z.ltb_spec v (ub (vst s x))).
      - split; [now apply tg_upper|]. destruct (level_upper_spec x v s) as (A & B & _ & _ & _ & F). split; [now constructor|].
        destruct (F x) as [_ ->]. rewrite Nat.eqb_refl. lia.
      - split; [apply tg_refl|]. split; [now constructor|lia]. }
    destruct A as (A & B & C). destruct (is_true _ _ _); [intros E; injection E as <- <-; now split|].
    intros E. pose proof (tg_propvars 1 (map snd (vwith_gt (vst s1 x) v)) l s1) as D. pose proof (propvars_vst 1 (map snd (vwith_gt (vst s1 x) v)) l s1) as (F & G).
    rewrite E in D, F, G. cbn [snd] in D, F, G. split; [now apply tg_trans with s1|]. split.
    + intros ->. apply longer_l with s1; [exact A|]. now apply propvars_says with (1 := E).
    + intros _. destruct B as [B1 B2]. split; [constructor; [intros y; now rewrite F|congruence]|now rewrite F].
Qed.
Lemma update_lower_tg x l v n s ok s' : update_lower O cfg x l v n s = (ok, s') ->
  tg s s' /\ (ok = false -> longer s s') /\ (ok = true -> tightened s s' /\ v < lb (vst s' x)).
Proof.
  unfold update_lower. destruct (Z.ltb_spec (ub (vst s x)) (v + 1)).
  - pose proof (tg_get O cfg x (ub (vst s x)) s) as A. destruct (get_literal _ _ _ _) as [g s1]. cbn [snd] in A.
    pose proof (tg_conflict O [- g; - l] s1) as B. unfold add_clause in *. intros E. injection E as <- <-. split; [now apply tg_trans with s1|]. split; [|discriminate].
    intros _. apply longer_l with s1; [exact A|]. unfold longer, cc_propagate. destruct (o_answer _ _); cbn; lia.
  - set (s1 := if _ <? v + 1 then _ else _).
    assert (A : tg s s1 /\ tightened s s1 /\ v < lb (vst s1 x)).
    { unfold s1. destruct (Z.ltb_spec (lb (vst s x)) (v + 1)).
      - split; [now apply tg_lower|]. destruct (level_lower_spec x v s) as (A & B & _ & _ & _ & F). split; [now constructor|].
        destruct (F x) as [_ ->]. rewrite Nat.eqb_refl. lia.
      - split; [apply tg_refl|]. split; [now constructor|lia]. }
    destruct A as (A & B & C). destruct (is_true _ _ _); [intros E; injection E as <- <-; now split|].
    intros E. pose proof (tg_propvars (-1) (map snd (vwith_lt (vst s1 x) v)) l s1) as D. pose proof (propvars_vst (-1) (map snd (vwith_lt (vst s1 x) v)) l s1) as (F & G).
    rewrite E in D, F, G. cbn [snd] in D, F, G. split; [now apply tg_trans with s1|]. split.
    + intros ->. apply longer_l with s1; [exact A|]. now apply propvars_says with (1 := E).
    + intros _. destruct B as [B1 B2]. split; [constructor; [intros y; now rewrite F|congruence]|now rewrite F].
Qed.

(** ** Facts *)
Lemma apply_fact_tg f s ok s' : apply_fact O cfg f s = (ok, s') ->
  tg s s' /\ (ok = false -> longer s s') /\ (ok = true -> tab s -> forall fs, cov (f :: fs) s -> cov fs s').
Proof.
  unfold apply_fact. destruct (if _ =? _ then _ else _) as [ok1 s1] eqn:E1.
  assert (A : tg s s1 /\ (ok1 = false -> longer s s1) /\ (ok1 = true -> tightened s s1)).
  { destruct (_ =? _).
    - destruct (update_upper_tg _ _ _ _ _ _ _ E1) as (A & B & C). split; [auto|]. split; [auto|]. intros Q. now apply C.
    - destruct (update_lower_tg _ _ _ _ _ _ _ E1) as (A & B & C). split; [auto|]. split; [auto|]. intros Q. now apply C. }
  destruct A as (A & B & C). destruct ok1; intros E; injection E as <- <-; [|split; [auto|]; split; [auto|discriminate]].
  specialize (C eq_refl). set (s2 := snd (update_litmap (f_var f) 0 (f_val f) s1)).
  assert (T2 : tg s s2) by (eapply tg_trans; [exact A|apply tg_litmap]).
  split; [eapply tg_trans; [exact T2|apply tg_erase]|]. split; [discriminate|].
  intros _ T fs CV x w l H N. apply erase_lits in H as [NE H]; [|now apply (tg_tab _ _ _ T2)]. change (In (w, l) (lits (vst s2 x))) in H. unfold s2 in H. rewrite litmap_vst in H.
  rewrite (ti_lits _ _ C) in H. destruct (CV x w l H N) as (g & [<-|G] & G1 & G2); [destruct NE; auto|]. exists g. auto.
Qed.
Lemma apply_facts_tg fs : forall s ok s', apply_facts O cfg fs s = (ok, s') ->
  exists s1, tg s s1 /\ (ok = false -> s' = s1 /\ longer s s') /\ (ok = true -> s' = set_fmap [] s1 /\ (tab s -> cov fs s -> cov [] s1)).
Proof.
  induction fs as [|f fs IH]; intros s ok s' E; cbn [apply_facts] in E.
  - injection E as <- <-. exists s. split; [apply tg_refl|]. split; [discriminate|]. auto.
  - destruct (apply_fact O cfg f s) as [ok1 s1] eqn:E1. destruct (apply_fact_tg f s ok1 s1 E1) as (A & B & C). destruct ok1.
    + destruct (IH s1 ok s' E) as (s2 & X1 & X2 & X3). exists s2. split; [now apply tg_trans with s1|]. split.
      * intros Q. destruct (X2 Q) as (-> & L). split; [auto|]. now apply longer_l with s1.
      * intros Q. destruct (X3 Q) as (-> & CV). split; [auto|]. intros T H. apply CV; [now apply (tg_tab _ _ _ A)|]. now apply C.
    + injection E as <- <-. exists s1. split; [auto|]. split; [auto|discriminate].
Qed.
Lemma tg_facts s ok s' : apply_facts O cfg (fmap s) s = (ok, s') -> tg s s' /\ (ok = false -> longer s s') /\ (ok = true -> fmap s' = []).
Proof.
  intros E. destruct (apply_facts_tg _ _ _ _ E) as (s1 & A & B & C). destruct ok.
  - destruct (C eq_refl) as (-> & CV). split; [|split; [discriminate|auto]]. constructor; try apply A.
    + intros T. apply tab_ext with s1; auto. now apply (tg_tab _ _ _ A).
    + intros T H. cbn [fmap set_fmap]. apply cov_ext with s1; auto.
    + auto.
    + intros L H. apply out_ext with s1; auto; [intros; cbn; lia|]. now apply (tg_out _ _ _ A).
  - destruct (B eq_refl) as (-> & L). split; [exact A|]. split; [auto|discriminate].
Qed.

(** ** Integration of a literal *)
(** The order literals with literal [l] agree with the bounds. *)
Definition holds (l : lit) (s : state) : Prop := forall x w k, In (w, k) (lits (vst s x)) -> Z.abs k <> 1 ->
  (k = l -> ub (vst s x) <= w) /\ (k = - l -> w < lb (vst s x)).
Lemma tg_holds l s s' : tg s s' -> tab s -> Z.abs l < nxt s -> holds l s -> holds l s'.
Proof.
  intros A T B H x w k I N. pose proof (tg_tight _ _ _ A x) as (L & U). apply (tg_lits _ _ _ A T) in I as [I|[I|(I & _)]].
  - destruct (H x w k I N) as (P & Q). split; intros ->; [specialize (P eq_refl)|specialize (Q eq_refl)]; lia.
  - contradiction.
  - split; intros ->; lia.
Qed.
Lemma valid_entry_lits s x w l : tab s -> In (w, l) (lits (vst s x)) -> Z.abs l <> 1 -> exists e, valid_entry s l = Some e /\ e_var e = x /\ e_val e = w.
Proof.
  intros T I N. apply T in I as [_ I]. specialize (I N). unfold key in I. unfold valid_entry, lookup. destruct (lmap s (Z.abs l)) as [e|]; [|discriminate].
  cbn in I. injection I as I1 I2 I3. exists e. rewrite I3, Bool.eqb_reflx. auto.
Qed.
Lemma update_domain_tg l s ok s' : update_domain O cfg l s = (ok, s') ->
  tg s s' /\ (ok = false -> longer s s') /\ (ok = true -> tab s -> below (nxt s) l -> holds l s') /\
  (ok = true -> l = TRUE_LIT -> fmap s' = []) /\ (ok = true -> fmap s = [] -> fmap s' = []).
Proof.
  unfold update_domain. destruct (if negb (l =? TRUE_LIT) && _ && _ then _ else _) as [l1 s1] eqn:E1.
  assert (A : tg s s1 /\ ((l1 = l /\ s1 = s) \/ (l1 = TRUE_LIT /\ (tab s -> Z.abs l <> 1 -> holds l s1)))).
  { destruct (negb (l =? TRUE_LIT) && Nat.eqb (dlevel O s) 0 && is_fixed O s l) eqn:Q; injection E1 as <- <-; [|split; [apply tg_refl|now left]].
    apply andb_true_iff in Q as [Q _]. apply andb_true_iff in Q as [Q1 Q2]. apply Nat.eqb_eq in Q2.
    assert (T1 : tg s (fix_literal l TRUE_LIT s)) by now apply tg_fix.
    assert (T2 : tg (fix_literal l TRUE_LIT s) (fix_literal (- l) (- TRUE_LIT) (fix_literal l TRUE_LIT s))).
    { apply tg_fix; auto. intros C. now rewrite (tg_level _ _ _ T1 C). }
    split; [now apply tg_trans with (fix_literal l TRUE_LIT s)|]. right. split; [auto|]. intros T N x w k I NK.
    pose proof (tg_tab _ _ _ T1 T) as TT. pose proof (fix_sub (- l) (- TRUE_LIT) _ TT eq_refl x w k NK I) as I1.
    assert (N2 : Z.abs (- l) <> 1) by lia.
    pose proof (fix_gone (- l) (- TRUE_LIT) _ TT eq_refl N2 x w k I). pose proof (fix_gone l TRUE_LIT s T eq_refl N x w k I1). split; intros; contradiction. }
  clear E1. destruct A as (A & B). destruct (l1 =? TRUE_LIT) eqn:L1.
  - intros E. destruct (tg_facts s1 ok s' E) as (F1 & F2 & F3). split; [now apply tg_trans with s1|]. split; [intros Q; apply longer_l with s1; auto|]. split; [|auto].
    intros Q T BL. destruct B as [(-> & ->)|(-> & H)].
    + apply Z.eqb_eq in L1. subst l. intros x w k I N. unfold TRUE_LIT. split; intros ->; lia.
    + destruct (Z.eq_dec (Z.abs l) 1) as [N|N]; [intros x w k I NK; split; intros ->; lia|].
      apply tg_holds with s1; auto; [now apply (tg_tab _ _ _ A)|]. pose proof (tg_nxt _ _ _ A). destruct BL. lia.
  - destruct B as [(-> & ->)|(-> & _)]; [|discriminate].
    destruct (match valid_entry s l with Some e => _ | None => _ end) as [ok1 s2] eqn:E1.
    assert (U : tg s s2 /\ (ok1 = false -> longer s s2) /\ (ok1 = true -> tightened s s2 /\ forall e, valid_entry s l = Some e -> ub (vst s2 (e_var e)) <= e_val e)).
    { destruct (valid_entry s l) as [e|].
      - destruct (update_upper_tg _ _ _ _ _ _ _ E1) as (X1 & X2 & X3). split; [auto|]. split; [auto|]. intros Q. destruct (X3 Q) as ([Y1 Y2] & Y3).
        split; [now constructor|]. intros e0 Q0. now injection Q0 as <-.
      - injection E1 as <- <-. split; [apply tg_refl|]. split; [discriminate|]. intros _. split; [now constructor|discriminate]. }
    destruct U as (U1 & U2 & U3). destruct ok1.
    2: { intros E. injection E as <- <-. split; [auto|]. split; [auto|]. split; [discriminate|]. split; discriminate. }
    intros E.
    assert (V : tg s2 s' /\ (ok = false -> longer s2 s') /\ (ok = true -> tightened s2 s' /\ forall e, valid_entry s2 (- l) = Some e -> e_val e < lb (vst s' (e_var e)))).
    { destruct (valid_entry s2 (- l)) as [e|].
      - destruct (update_lower_tg _ _ _ _ _ _ _ E) as (X1 & X2 & X3). split; [auto|]. split; [auto|]. intros Q. destruct (X3 Q) as ([Y1 Y2] & Y3).
        split; [now constructor|]. intros e0 Q0. now injection Q0 as <-.
      - injection E as <- <-. split; [apply tg_refl|]. split; [discriminate|]. intros _. split; [now constructor|discriminate]. }
    destruct V as (V1 & V2 & V3). split; [now apply tg_trans with s2|]. split; [intros Q; apply longer_l with s2; auto|].
    split; [|split].
    + intros Q T BL x w k I N. destruct (U3 eq_refl) as ([Y1 Y2] & Y3), (V3 Q) as ([Y1' Y2'] & Y3'). pose proof (tg_tight _ _ _ V1 x) as (_ & TI).
      rewrite Y1' in I. split; intros ->.
      * rewrite Y1 in I. destruct (valid_entry_lits s x w l T I N) as (e & EV & <- & <-). specialize (Y3 e EV). lia.
      * destruct (valid_entry_lits s2 x w (- l) (tg_tab _ _ _ U1 T) I N) as (e & EV & <- & <-). exact (Y3' e EV).
    + intros _ ->. discriminate.
    + intros Q F. assert (P : forall sgn ls r t, fmap (snd (propagate_variables O cfg sgn r ls t)) = fmap t).
      { intros sgn ls. induction ls as [|l0 ls IH]; intros r t; cbn [propagate_variables]; [auto|]. destruct (is_true _ _ _); [auto|]. unfold add_clause. destruct (o_answer _ _); [|auto]. apply (IH _ (emit _ t)). }
      assert (F2 : fmap s2 = []).
      { rewrite <- F. destruct (valid_entry s l) as [e|]; [|now injection E1 as <-]. unfold update_upper in E1. destruct (_ <? _).
        - destruct (get_literal _ _ _ _) as [g t]. destruct (add_clause _ _ _ _). discriminate.
        - set (t := if _ <? _ then _ else _) in E1. assert (FT : fmap t = fmap s) by (unfold t; destruct (_ <? _); [apply level_upper_spec|auto]).
          destruct (is_true _ _ _); [injection E1 as <-; auto|]. rewrite <- FT. pose proof (P 1 (map snd (vwith_gt (vst t (e_var e)) (e_val e))) l t) as X. now rewrite E1 in X. }
      rewrite <- F2. destruct (valid_entry s2 (- l)) as [e|]; [|now injection E as _ <-]. unfold update_lower in E. destruct (_ <? _).
      * destruct (get_literal _ _ _ _) as [g t]. destruct (add_clause _ _ _ _). injection E as <- _. discriminate.
      * set (t := if _ <? _ then _ else _) in E. assert (FT : fmap t = fmap s2) by (unfold t; destruct (_ <? _); [apply level_lower_spec|auto]).
        destruct (is_true _ _ _); [injection E as _ <-; auto|]. rewrite <- FT. pose proof (P (-1) (map snd (vwith_lt (vst t (e_var e)) (e_val e))) l t) as X. now rewrite E in X.
Qed.
End Grow.
