(** Searches keep solutions: the literals that explain the bounds, and the calls one after the other. *)
From Verif Require Import Base Util VarState VarStateProofs Terms TermsSpec Solver OrderSpec OrderProofs1 OrderProofs2 OrderProofs3 OrderProofs4 OrderProofs5 OrderProofs7 Orders Sum SumProofs2 PropProofs ConSpec
  Distinct DistinctProofs Disjoint DisjointProofs Objective Search SearchSpec SearchFrame SearchInv SearchInv3 SearchInv4 SearchInv5 SearchUndo SearchMain
  CheckSpec CheckFrame CheckGrow CheckSays CheckProofs FreshInv FreshCalls FreshSearch KeepCons KeepSpec KeepProofs KeepLoop.
From Coq Require Import Permutation Sorting.Sorted.
Open Scope Z_scope.

(** ** What a literal does to the bounds *)
Section Moves.
Context (O : oracle) (cfg : config).
Lemma pv_later sgn ls : forall r s s', propagate_variables O cfg sgn r ls s = (true, s') -> later O (log s) (log s').
Proof.
  induction ls as [|l ls IH]; intros r s s' E; cbn [propagate_variables] in E; [injection E as <-; apply later_refl|].
  destruct (is_true O s (sgn * l)); [injection E as <-; apply later_refl|]. destruct (add_clause _ _ _ _) as [ok s1] eqn:A. destruct ok; [|discriminate].
  apply later_trans with (log s1); [now apply add_clause_later in A|now apply IH in E].
Qed.

Lemma get_literal_bounds x v s g s' : get_literal cfg x v s = (g, s') -> forall y, lb (vst s' y) = lb (vst s y) /\ ub (vst s' y) = ub (vst s y).
Proof. intros E y. pose proof (only_get cfg x v s) as (A & _). rewrite E in A. cbn [snd] in A. now destruct (same3_bnds _ _ y A) as (-> & -> & _). Qed.

Record moved (s s' : state) (lo up : option (var * Z)) : Prop := {
  mv_grow : grow s s';
  mv_lb : forall y, lb (vst s' y) = lb (vst s y) \/ lo = Some (y, lb (vst s' y));
  mv_ub : forall y, ub (vst s' y) = ub (vst s y) \/ up = Some (y, ub (vst s' y)) }.
Lemma moved_refl s lo up : moved s s lo up.
Proof. constructor; auto using grow_refl. Qed.
Lemma upper_moves x l v n s ok s' : VarState.sorted (lits (vst s x)) -> update_upper O cfg x l v n s = (ok, s') -> moved s s' None (Some (x, v)) /\ (ok = true -> tightened s s' /\ later O (log s) (log s')).
Proof.
  intros W E. unfold update_upper in E. destruct (v <? lb (vst s x)).
  - destruct (get_literal cfg x _ s) as [g s1] eqn:GL. destruct (add_clause _ _ _ _) as [ok1 s2] eqn:A. injection E as <- <-. split; [|discriminate].
    assert (V : vst (if ok1 then emit EProp s2 else s2) = vst s1). { unfold add_clause in A. injection A as _ <-. now destruct ok1. }
    assert (B := get_literal_bounds x (lb (vst s x) - 1) s g s1 GL).
    constructor; rewrite ?V; [| intros y; left..].
    + intros y w k Y. rewrite V. revert y w k Y. apply get_literal_grow with cfg x (lb (vst s x) - 1) g; auto.
    + now destruct (B y).
    + now destruct (B y).
  - set (s1 := if v <? ub (vst s x) then level_update_upper x v s else s) in E.
    assert (A : tightened s s1 /\ log s1 = log s /\ (forall y, lb (vst s1 y) = lb (vst s y)) /\ forall y, ub (vst s1 y) = ub (vst s y) \/ (y = x /\ ub (vst s1 y) = v)).
    { unfold s1. destruct (v <? ub (vst s x)); [|split; [now constructor|auto]]. destruct (level_upper_spec x v s) as (A & B & _ & L & _ & F). split; [now constructor|]. split; auto.
      split; intros y; destruct (F y) as [F1 F2]; auto. rewrite F2. destruct (Nat.eqb_spec y x); auto. }
    destruct A as ([A1 A2] & A3 & A4 & A5).
    assert (B : vst s' = vst s1 /\ lmap s' = lmap s1 /\ (ok = true -> later O (log s1) (log s'))).
    { destruct (is_true O s1 n); [injection E as <- <-; split; auto; split; auto using later_refl|].
      pose proof (propvars_vst O cfg 1 (map snd (vwith_gt (vst s1 x) v)) l s1) as (F & G). rewrite E in F, G. split; auto. split; auto. intros ->. now apply pv_later in E. }
    destruct B as (B1 & B2 & B3). split.
    + constructor; rewrite ?B1.
      * intros y w k. now rewrite B1, A1.
      * intros y. left. apply A4.
      * intros y. destruct (A5 y) as [Q|[-> Q]]; auto. right. now rewrite Q.
    + intros Q. rewrite <- A3. split; auto. constructor; [intros y; now rewrite B1|congruence].
Qed.
Lemma lower_moves x l v n s ok s' : VarState.sorted (lits (vst s x)) -> update_lower O cfg x l v n s = (ok, s') -> moved s s' (Some (x, v + 1)) None /\ (ok = true -> tightened s s' /\ later O (log s) (log s')).
Proof.
  intros W E. unfold update_lower in E. destruct (ub (vst s x) <? v + 1).
  - destruct (get_literal cfg x _ s) as [g s1] eqn:GL. destruct (add_clause _ _ _ _) as [ok1 s2] eqn:A. injection E as <- <-. split; [|discriminate].
    assert (V : vst (if ok1 then emit EProp s2 else s2) = vst s1). { unfold add_clause in A. injection A as _ <-. now destruct ok1. }
    assert (B := get_literal_bounds x (ub (vst s x)) s g s1 GL).
    constructor; rewrite ?V; [| intros y; left..].
    + intros y w k Y. rewrite V. revert y w k Y. apply get_literal_grow with cfg x (ub (vst s x)) g; auto.
    + now destruct (B y).
    + now destruct (B y).
  - set (s1 := if lb (vst s x) <? v + 1 then level_update_lower x v s else s) in E.
    assert (A : tightened s s1 /\ log s1 = log s /\ (forall y, ub (vst s1 y) = ub (vst s y)) /\ forall y, lb (vst s1 y) = lb (vst s y) \/ (y = x /\ lb (vst s1 y) = v + 1)).
    { unfold s1. destruct (lb (vst s x) <? v + 1); [|split; [now constructor|auto]]. destruct (level_lower_spec x v s) as (A & B & _ & L & _ & F). split; [now constructor|]. split; auto.
      split; intros y; destruct (F y) as [F1 F2]; auto. rewrite F2. destruct (Nat.eqb_spec y x); auto. }
    destruct A as ([A1 A2] & A3 & A4 & A5).
    assert (B : vst s' = vst s1 /\ lmap s' = lmap s1 /\ (ok = true -> later O (log s1) (log s'))).
    { destruct (is_true O s1 (- n)); [injection E as <- <-; split; auto; split; auto using later_refl|].
      pose proof (propvars_vst O cfg (-1) (map snd (vwith_lt (vst s1 x) v)) l s1) as (F & G). rewrite E in F, G. split; auto. split; auto. intros ->. now apply pv_later in E. }
    destruct B as (B1 & B2 & B3). split.
    + constructor; rewrite ?B1.
      * intros y w k. now rewrite B1, A1.
      * intros y. destruct (A5 y) as [Q|[-> Q]]; auto. right. now rewrite Q.
      * intros y. left. apply A4.
    + intros Q. rewrite <- A3. split; auto. constructor; [intros y; now rewrite B1|congruence].
Qed.

Lemma moved_trans s s1 s2 lo up : moved s s1 None up -> moved s1 s2 lo None -> moved s s2 lo up.
Proof.
  intros [A1 A2 A3] [B1 B2 B3]. constructor.
  - now apply grow_trans with s1.
  - intros y. destruct (B2 y) as [->|]; auto. destruct (A2 y) as [->|]; [auto|discriminate].
  - intros y. destruct (B3 y) as [->|]; auto. discriminate.
Qed.
Lemma facts_later fs : forall s s', apply_facts O cfg fs s = (true, s') -> later O (log s) (log s').
Proof.
  assert (UU : forall x l v n s s', update_upper O cfg x l v n s = (true, s') -> later O (log s) (log s')).
  { intros x l v n s s' E. unfold update_upper in E. destruct (_ <? _); [destruct (get_literal _ _ _ _), (add_clause _ _ _ _); discriminate|].
    set (s1 := if v <? ub (vst s x) then _ else _) in E. assert (A : log s1 = log s) by (unfold s1; destruct (_ <? _); auto; apply level_upper_spec).
    rewrite <- A. destruct (is_true O s1 n); [injection E as <-; apply later_refl|now apply pv_later in E]. }
  assert (UL : forall x l v n s s', update_lower O cfg x l v n s = (true, s') -> later O (log s) (log s')).
  { intros x l v n s s' E. unfold update_lower in E. destruct (_ <? _); [destruct (get_literal _ _ _ _), (add_clause _ _ _ _); discriminate|].
    set (s1 := if lb (vst s x) <? v + 1 then _ else _) in E. assert (A : log s1 = log s) by (unfold s1; destruct (_ <? _); auto; apply level_lower_spec).
    rewrite <- A. destruct (is_true O s1 (- n)); [injection E as <-; apply later_refl|now apply pv_later in E]. }
  induction fs as [|f fs IH]; intros s s' E; cbn [apply_facts] in E; [injection E as <-; apply later_refl|].
  destruct (apply_fact O cfg f s) as [ok s1] eqn:A. destruct ok; [|discriminate]. apply later_trans with (log s1); [|now apply IH].
  unfold apply_fact in A. destruct (if f_lit f =? TRUE_LIT then _ else _) as [ok s2] eqn:B. destruct ok; [|discriminate]. apply (f_equal snd) in A. cbn [snd] in A. subst s1.
  unfold erase_lit. cbn [log set_vs set_vst]. rewrite update_litmap_log. destruct (f_lit f =? TRUE_LIT); [now apply UU in B|now apply UL in B].
Qed.
Lemma fix_log l t s : log (fix_literal l t s) = log s.
Proof. unfold fix_literal. destruct (valid_entry s l) as [e|]; auto. cbv zeta. unfold push_fact. cbn [log set_lmap set_fmap]. now rewrite update_litmap_log. Qed.

(** Without facts, a literal that is not the true literal. *)
Definition domain_above (l : lit) (s : state) : bool * state :=
  let '(ok, s) := match valid_entry s l with Some e => update_upper O cfg (e_var e) l (e_val e) (e_succ e) s | None => (true, s) end in
  if ok then match valid_entry s (- l) with Some e => update_lower O cfg (e_var e) l (e_val e) (e_prev e) s | None => (true, s) end else (false, s).
Lemma tightened_wf s s' : tightened s s' -> forall l, valid_entry s' l = valid_entry s l.
Proof. intros [_ A] l. unfold valid_entry, lookup. now rewrite A. Qed.
Lemma above_moves l s ok s' : wf_core s -> domain_above l s = (ok, s') ->
  grow s s' /\ (ok = true -> later O (log s) (log s')) /\ (forall y, lb (vst s' y) = lb (vst s y) \/ In (lb (vst s' y) - 1, - l) (lits (vst s y))) /\
  (forall y, ub (vst s' y) = ub (vst s y) \/ In (ub (vst s' y), l) (lits (vst s y))).
Proof.
  intros W E. unfold domain_above in E. destruct (match valid_entry s l with Some e => _ | None => _ end) as [ok1 s1] eqn:E1.
  assert (A : exists up, moved s s1 None up /\ (forall x v, up = Some (x, v) -> In (v, l) (lits (vst s x))) /\ (ok1 = true -> tightened s s1 /\ later O (log s) (log s1))).
  { destruct (valid_entry s l) as [e|] eqn:V.
    - destruct (valid_entry_spec s l e W V) as (V1 & V2 & _). exists (Some (e_var e, e_val e)). destruct (upper_moves _ _ _ _ _ _ _ (wf_sorted _ W _ V1) E1) as [M1 M2]. split; auto. split; [intros x v Q; now injection Q as <- <-|]. auto.
    - injection E1 as <- <-. exists None. split; [apply moved_refl|]. split; [discriminate|]. intros _. split; [now constructor|apply later_refl]. }
  destruct A as (up & M & MI & L1). destruct ok1.
  2:{ injection E as <- <-. destruct M as [M1 M2 M3]. split; auto. split; [discriminate|]. split; intros y.
      - destruct (M2 y) as [Q|Q]; [auto|discriminate].
      - destruct (M3 y) as [Q|Q]; auto. }
  destruct (L1 eq_refl) as [TI LA]. rewrite (tightened_wf _ _ TI) in E.
  assert (A : exists lo, moved s1 s' lo None /\ (forall x v, lo = Some (x, v) -> In (v - 1, - l) (lits (vst s1 x))) /\ (ok = true -> later O (log s1) (log s'))).
  { destruct (valid_entry s (- l)) as [e|] eqn:V.
    - destruct (valid_entry_spec s (- l) e W V) as (V1 & V2 & _). exists (Some (e_var e, e_val e + 1)). destruct (lower_moves (e_var e) l (e_val e) (e_prev e) s1 ok s') as [M1 M2]; auto; [rewrite (ti_lits _ _ TI); now apply W|]. split; auto. split.
      + intros x v Q. injection Q as <- <-. rewrite (ti_lits _ _ TI). now replace (e_val e + 1 - 1) with (e_val e) by lia.
      + intros Q. now apply M2.
    - injection E as <- <-. exists None. split; [apply moved_refl|]. split; [discriminate|]. intros _. apply later_refl. }
  destruct A as (lo & N & NI & LB). destruct (moved_trans _ _ _ _ _ M N) as [X1 X2 X3]. split; auto. split; [intros Q; apply later_trans with (log s1); auto|]. split; intros y.
  - destruct (X2 y) as [Q|Q]; auto. right. apply NI in Q. now rewrite (ti_lits _ _ TI) in Q.
  - destruct (X3 y) as [Q|Q]; auto.
Qed.
End Moves.

(** ** The literals that explain the bounds *)
Definition just1 (K : list (nat * lit)) (t s : state) : Prop := forall x,
  (lb (vst t x) = minb (vst t x) \/ exists n l, In (n, l) K /\ (n <= cur_level t)%nat /\ In (lb (vst t x) - 1, - l) (lits (vst s x))) /\
  (ub (vst t x) = maxb (vst t x) \/ exists n l, In (n, l) K /\ (n <= cur_level t)%nat /\ In (ub (vst t x), l) (lits (vst s x))).
Definition just (K : list (nat * lit)) (G : list state) (s : state) : Prop := forall t, In t (s :: G) -> just1 K t s.

Lemma vb_bnds v v' : vbounds v' = vbounds v -> lb v' = lb v /\ ub v' = ub v /\ minb v' = minb v /\ maxb v' = maxb v.
Proof. unfold vbounds, minb, maxb. intros H. injection H as -> -> -> ->. easy. Qed.
Lemma just1_mono K K' t t' s s' : (forall x, vbounds (vst t' x) = vbounds (vst t x)) -> (cur_level t <= cur_level t')%nat ->
  (forall n l, In (n, l) K -> (n <= cur_level t)%nat -> In (n, l) K') -> grow s s' -> just1 K t s -> just1 K' t' s'.
Proof.
  intros V C KK GR J x. destruct (vb_bnds _ _ (V x)) as (-> & -> & -> & ->). destruct (J x) as [J1 J2]. split.
  - destruct J1 as [J1|(n & l & A & B & D)]; auto. right. exists n, l. split; auto. split; [lia|auto].
  - destruct J2 as [J2|(n & l & A & B & D)]; auto. right. exists n, l. split; auto. split; [lia|auto].
Qed.
Lemma core_stk s : core [] s -> forall x, lbs (vst s x) = [] /\ ubs (vst s x) = [].
Proof.
  intros [B C] x. assert (L : cur_level s = 0%nat) by (unfold cur_level; now rewrite C).
  split; [destruct (lbs (vst s x)) as [|p r] eqn:E|destruct (ubs (vst s x)) as [|p r] eqn:E]; auto; exfalso.
  - pose proof (b_stk _ B x p) as Q. rewrite E, L in Q. specialize (Q (or_introl (or_introl eq_refl))). lia.
  - pose proof (b_stk _ B x p) as Q. rewrite E, L in Q. specialize (Q (or_intror (or_introl eq_refl))). lia.
Qed.
Lemma just_zero K s : core [] s -> just K [] s.
Proof. intros C t [<-|[]] x. destruct (core_stk s C x) as [A B]. unfold minb, maxb. rewrite A, B. auto. Qed.
Lemma just_same K G s s' : (forall x, vbounds (vst s' x) = vbounds (vst s x)) -> grow s s' -> cur_level s' = cur_level s -> just K G s -> just K G s'.
Proof.
  intros V GR C J t [<-|T].
  - apply (just1_mono K K s s' s s'); auto; [lia|]. apply J. now left.
  - apply just1_mono with K t s; auto. apply J. now right.
Qed.
Lemma just_push K G n s : just K G s -> just K (s :: G) (push_level n s) \/ (n <= cur_level s)%nat.
Proof.
  intros J. unfold push_level. destruct (Nat.ltb_spec (cur_level s) n) as [L|L]; auto. left. intros t T.
  destruct T as [<-|T].
  - match goal with |- just1 _ ?t _ => refine (just1_mono K K s t s t (fun _ => eq_refl) _ (fun _ _ I _ => I) (fun _ _ _ I => I) (J s (or_introl eq_refl))) end. cbn. lia.
  - apply (J t T).
Qed.
Lemma just_more K K' G s : (forall p, In p K -> In p K') -> just K G s -> just K' G s.
Proof. intros H J t T. apply just1_mono with K t s; auto using grow_refl. Qed.
Lemma core_min s1 G s : core (s1 :: G) s -> forall x, minb (vst s x) = minb (vst s1 x) /\ maxb (vst s x) = maxb (vst s1 x).
Proof.
  intros [_ (_ & OP & _)] x. destruct (o_lows _ _ OP) as (sg & _ & _ & Q1). destruct (o_ups _ _ OP) as (sg' & _ & _ & Q2). specialize (Q1 x). specialize (Q2 x). split.
  - destruct (in_dec Nat.eq_dec x sg) as [I|I].
    + destruct Q1 as [Q1 _]. specialize (Q1 I). unfold minb. rewrite Q1. destruct (lbs (vst s1 x)) as [|p r]; [reflexivity|]. now rewrite last_cons.
    + destruct Q1 as [_ Q1]. destruct (Q1 I) as (E1 & E2 & _). unfold minb. now rewrite E1, E2.
  - destruct (in_dec Nat.eq_dec x sg') as [I|I].
    + destruct Q2 as [Q2 _]. specialize (Q2 I). unfold maxb. rewrite Q2. destruct (ubs (vst s1 x)) as [|p r]; [reflexivity|]. now rewrite last_cons.
    + destruct Q2 as [_ Q2]. destruct (Q2 I) as (E1 & E2 & _). unfold maxb. now rewrite E1, E2.
Qed.
Lemma just_undo K s1 G s s' : core (s1 :: G) s -> veq s1 s' -> (forall x, lits (vst s' x) = lits (vst s x)) ->
  just K (s1 :: G) s -> just (filter (fun p => (fst p <=? cur_level s')%nat) K) G s'.
Proof.
  intros C V L J. assert (CU := veq_cur _ _ V). assert (GR : grow s s') by (intros x w l; now rewrite L).
  assert (KK : forall t, (cur_level t <= cur_level s1)%nat -> forall n l, In (n, l) K -> (n <= cur_level t)%nat -> In (n, l) (filter (fun p => (fst p <=? cur_level s')%nat) K)).
  { intros t T n l I N. apply filter_In. split; auto. apply Nat.leb_le. cbn [fst]. lia. }
  intros t [<-|T].
  - refine (just1_mono K _ s1 s' s s' (v_vb _ _ V) _ (KK s1 (le_n _)) GR (J s1 (or_intror (or_introl eq_refl)))). lia.
  - refine (just1_mono K _ t t s s' (fun _ => eq_refl) (le_n _) (KK t _) GR (J t (or_intror (or_intror T)))). destruct C as (_ & _ & _ & C). pose proof (core_levels G s1 C t T). lia.
Qed.
Lemma just_domain K s1 G s s' l : core (s1 :: G) s -> core (s1 :: G) s' -> cur_level s' = cur_level s -> In (cur_level s, l) K -> grow s s' ->
  (forall y, lb (vst s' y) = lb (vst s y) \/ In (lb (vst s' y) - 1, - l) (lits (vst s y))) ->
  (forall y, ub (vst s' y) = ub (vst s y) \/ In (ub (vst s' y), l) (lits (vst s y))) -> just K (s1 :: G) s -> just K (s1 :: G) s'.
Proof.
  intros C C' CU I GR ML MU J t [<-|T].
  - intros x. destruct (J s (or_introl eq_refl) x) as [J1 J2]. destruct (core_min _ _ _ C x) as [A1 A2], (core_min _ _ _ C' x) as [B1 B2]. rewrite CU, B1, B2, <- A1, <- A2. split.
    + destruct (ML x) as [->|Q]; [destruct J1 as [J1|(n & k & X & Y & Z)]; [auto|right; exists n, k; auto]|right; exists (cur_level s), l; auto].
    + destruct (MU x) as [->|Q]; [destruct J2 as [J2|(n & k & X & Y & Z)]; [auto|right; exists n, k; auto]|right; exists (cur_level s), l; auto].
  - apply just1_mono with K t s; auto. apply J. now right.
Qed.
Lemma just_justified O K G s : just K G s -> (forall l, In l (map snd K) -> o_true O (log s) l = true) -> justified O s.
Proof.
  intros J T x X. destruct (J s (or_introl eq_refl) x) as [J1 J2]. split; intros L.
  - destruct J1 as [J1|(n & l & A & B & C)]; [lia|]. exists (- l). split; auto. unfold is_false, is_true. rewrite Z.opp_involutive. apply T. apply in_map_iff. now exists (n, l).
  - destruct J2 as [J2|(n & l & A & B & C)]; [lia|]. exists l. split; auto. unfold is_true. apply T. apply in_map_iff. now exists (n, l).
Qed.
Lemma step_emit Base P e s : (forall I, ev_true I e) -> step Base P T2 s (emit e s).
Proof.
  intros E. constructor; cbn; auto; try lia.
  - now exists [e].
  - intros I nu (G1 & G2 & G3) OR H. exists I, nu. split; [easy|]. split; [easy|]. split; [|exact OR]. split; auto. split; auto. cbn. constructor; auto.
  - intros I nu (G1 & G2 & G3) OR. split; [|easy]. split; auto. split; auto. now inversion G3.
Qed.
