(** The initial simplification ends: clasp's trail grows with every round but the first, and only finitely many order literals can be added. *)
From Verif Require Import Base Util VarState VarStateProofs Terms TermsSpec Solver OrderSpec OrderProofs1 OrderProofs2 Orders Sum PropProofs ConSpec
  Distinct DistinctProofs2 Disjoint Nonlin Objective Search SearchSpec SearchFrame SearchGrow SearchInv SearchInv3 SearchInv4 SearchInv5 SearchMain
  CheckSpec CheckFrame CheckGrow CheckSays CheckProofs EndSpec EndProofs.
Open Scope Z_scope.

(** ** Values without order literals *)
Section Potential.
Context (O : oracle) (cfg : config) (lo : Z) (N : nat).
Definition hole (s : state) (x : var) (w : Z) : nat :=
  if (lb (vst s x) <=? w) && (w <? ub (vst s x)) && (match vfind (vst s x) w with None => true | Some _ => false end) then 1%nat else 0%nat.
Definition holes (s : state) : nat := spread (fun x => spread (fun i => hole s x (lo + Z.of_nat i)) N) (nvars s).
Definition pot (s : state) : nat := (new_lits (log s) + holes s)%nat.
Lemma holes_le s s' : nvars s' = nvars s -> (forall x w, (hole s' x w <= hole s x w)%nat) -> (holes s' <= holes s)%nat.
Proof. intros E H. unfold holes. rewrite E. apply spread_le. intros x _. apply spread_le. intros i _. apply H. Qed.
Lemma holes_lt s s' x w : nvars s' = nvars s -> (forall x w, (hole s' x w <= hole s x w)%nat) -> (x < nvars s)%nat -> lo <= w < lo + Z.of_nat N -> (hole s' x w < hole s x w)%nat ->
  (holes s' < holes s)%nat.
Proof.
  intros E H X W L. unfold holes. rewrite E. apply spread_lt with x; auto.
  - intros y _. apply spread_le. intros i _. apply H.
  - apply spread_lt with (Z.to_nat (w - lo)); [intros i _; apply H|lia|]. now replace (lo + Z.of_nat (Z.to_nat (w - lo))) with w by lia.
Qed.

(** States on the lowest level with bounds in the range. *)
Record base (s : state) : Prop := {
  ba_level : cur_level s = 0%nat;
  ba_stk : forall x, lbs (vst s x) = [] /\ ubs (vst s x) = [];
  ba_range : forall x, lo <= lb (vst s x) /\ ub (vst s x) <= lo + Z.of_nat N;
  ba_unused : forall x, (nvars s <= x)%nat -> ub (vst s x) <= lb (vst s x);
  ba_sorted : forall x, sorted (lits (vst s x)) }.
Definition shr (s s' : state) : Prop := base s -> base s' /\ (pot s' <= pot s)%nat /\ toff s' = toff s.
Lemma shr_refl s : shr s s.
Proof. intros B. auto. Qed.
Lemma shr_trans s s1 s2 : shr s s1 -> shr s1 s2 -> shr s s2.
Proof. intros A B H. destruct (A H) as (H1 & P1 & T1). destruct (B H1) as (H2 & P2 & T2). split; [exact H2|]. split; [lia|congruence]. Qed.
Lemma shr_tight s s' : lvls s' = lvls s -> nvars s' = nvars s -> toff s' = toff s -> new_lits (log s') = new_lits (log s) ->
  (base s -> forall x, lbs (vst s' x) = lbs (vst s x) /\ ubs (vst s' x) = ubs (vst s x) /\ lb (vst s x) <= lb (vst s' x) /\ ub (vst s' x) <= ub (vst s x) /\
    sorted (lits (vst s' x)) /\ forall w, vfind (vst s' x) w = None -> lb (vst s' x) <= w < ub (vst s' x) -> vfind (vst s x) w = None) -> shr s s'.
Proof.
  intros L V T G H B. specialize (H B). split; [|split; [|exact T]].
  - destruct B as [B1 B2 B3 B4 B5]. constructor.
    + unfold cur_level. now rewrite L.
    + intros x. destruct (H x) as (-> & -> & _). apply B2.
    + intros x. destruct (H x) as (_ & _ & H1 & H2 & _). specialize (B3 x). lia.
    + intros x X. rewrite V in X. destruct (H x) as (_ & _ & H1 & H2 & _). specialize (B4 x X). lia.
    + intros x. apply H.
  - unfold pot. rewrite G. assert (Q : (holes s' <= holes s)%nat); [|lia]. apply holes_le; auto. intros x w. destruct (H x) as (_ & _ & H1 & H2 & _ & H3). unfold hole.
    destruct (lb (vst s' x) <=? w) eqn:E1, (w <? ub (vst s' x)) eqn:E2, (vfind (vst s' x) w) eqn:E3; cbn; try lia.
    rewrite (H3 w E3) by lia. destruct (lb (vst s x) <=? w) eqn:E4, (w <? ub (vst s x)) eqn:E5; cbn; lia.
Qed.
Lemma shr_same s s' : vst s' = vst s -> lvls s' = lvls s -> nvars s' = nvars s -> toff s' = toff s -> new_lits (log s') = new_lits (log s) -> shr s s'.
Proof. intros V A B C D. apply shr_tight; auto. intros BA x. rewrite V. repeat split; auto; try lia. apply BA. Qed.
Lemma vfind_store x v l s y w : sorted (lits (vst s x)) -> vfind (vst (store_lit x v l s) y) w = if Nat.eqb y x && (w =? v) then Some l else vfind (vst s y) w.
Proof.
  intros S. unfold store_lit, set_vs, vfind. cbn [vst set_vst]. unfold upd. destruct (Nat.eqb_spec y x) as [->|NE]; cbn [andb]; [|reflexivity]. cbn [lits set_lits].
  rewrite m_set_find by exact S. reflexivity.
Qed.
Lemma store_bounds x v l s y : lb (vst (store_lit x v l s) y) = lb (vst s y) /\ ub (vst (store_lit x v l s) y) = ub (vst s y) /\
  lbs (vst (store_lit x v l s) y) = lbs (vst s y) /\ ubs (vst (store_lit x v l s) y) = ubs (vst s y).
Proof. unfold store_lit, set_vs. cbn [vst set_vst]. unfold upd. destruct (Nat.eqb_spec y x) as [->|]; now repeat split. Qed.
Lemma store_sorted x v l s : (forall y, sorted (lits (vst s y))) -> forall y, sorted (lits (vst (store_lit x v l s) y)).
Proof. intros S y. unfold store_lit, set_vs. cbn [vst set_vst]. unfold upd. destruct (Nat.eqb_spec y x) as [->|]; [cbn; now apply m_set_sorted|auto]. Qed.
Lemma shr_store x v l s : shr s (store_lit x v l s).
Proof.
  apply shr_tight; try reflexivity. intros B y. destruct (store_bounds x v l s y) as (-> & -> & -> & ->). repeat split; try lia.
  - apply store_sorted. apply B.
  - intros w. rewrite vfind_store by apply B. destruct (_ && _); [discriminate|auto].
Qed.
Lemma shr_erase x v s : ~ lb (vst s x) <= v < ub (vst s x) -> shr s (erase_lit x v s).
Proof.
  intros NB. apply shr_tight; try reflexivity. intros B y. unfold erase_lit, set_vs. cbn [vst set_vst]. unfold upd. destruct (Nat.eqb_spec y x) as [->|].
  - cbn [lb ub lbs ubs lits set_lits]. repeat split; try lia; [apply m_erase_sorted, B|]. intros w. unfold vfind. cbn [lits set_lits]. rewrite m_erase_find by apply B.
    destruct (Z.eqb_spec w v); [lia|auto].
  - repeat split; auto; try lia. apply B.
Qed.
Lemma litmap_toff x l v s : toff (snd (update_litmap x l v s)) = toff s /\ lvls (snd (update_litmap x l v s)) = lvls s /\ nvars (snd (update_litmap x l v s)) = nvars s.
Proof.
  unfold update_litmap. cbn [snd]. destruct (vlit_lt _ _ =? 0), (vlit_gt _ _ =? 0); cbn; auto.
  - now destruct (valid_entry _ _).
  - now destruct (valid_entry _ _).
  - destruct (valid_entry s _); cbn; now destruct (valid_entry _ _).
Qed.
Lemma shr_litmap x l v s : shr s (snd (update_litmap x l v s)).
Proof. destruct (litmap_toff x l v s) as (A & B & C). apply shr_same; auto; [apply litmap_vst|now rewrite litmap_log]. Qed.
Lemma shr_get x v s : shr s (snd (get_literal cfg x v s)).
Proof.
  intros B. unfold get_literal. destruct (ba_stk _ B x) as [S1 S2]. unfold minb, maxb. rewrite S1, S2.
  destruct (Z.ltb_spec v (lb (vst s x))); [now apply shr_refl|]. destruct (Z.leb_spec (ub (vst s x)) v); [now apply shr_refl|].
  destruct (vfind (vst s x) v) eqn:F; [now apply shr_refl|]. unfold add_literal. set (l := if sign_value cfg <=? v then - nxt s else nxt s).
  set (s1 := emit (ELit (nxt s)) (set_nxt (nxt s + 1) s)). set (s2 := store_lit x v l s1). cbn [snd].
  assert (B1 : base s1) by (destruct B; now constructor).
  assert (X : (x < nvars s)%nat). { destruct (le_lt_dec (nvars s) x) as [Q|Q]; [|exact Q]. pose proof (ba_unused _ B x Q). lia. }
  assert (P2 : base s2 /\ (pot s2 <= pot s)%nat /\ toff s2 = toff s).
  { destruct (shr_store x v l s1 B1) as (B2 & _ & T2). split; [exact B2|]. split; [|exact T2]. unfold pot. change (log s2) with (ELit (nxt s) :: log s). cbn [new_lits].
    assert (Q : (holes s2 < holes s)%nat); [|lia]. apply (holes_lt s s2 x v); auto.
    - intros y w. unfold hole. destruct (store_bounds x v l s1 y) as (E1 & E2 & _). fold s2 in E1, E2. rewrite E1, E2. unfold s2. rewrite vfind_store by apply B1.
      change (vst s1) with (vst s). destruct (Nat.eqb y x && (w =? v)); [rewrite andb_false_r; lia|lia].
    - pose proof (ba_range _ B x). lia.
    - unfold hole. destruct (store_bounds x v l s1 x) as (E1 & E2 & _). fold s2 in E1, E2. rewrite E1, E2. unfold s2. rewrite vfind_store by apply B1.
      rewrite Nat.eqb_refl, Z.eqb_refl. cbn [andb]. rewrite andb_false_r. change (vst s1) with (vst s). rewrite F. replace (lb (vst s x) <=? v) with true by lia. replace (v <? ub (vst s x)) with true by lia. cbn. lia. }
  destruct P2 as (B2 & P2 & T2).
  assert (Q : shr s2 (add_watch (- l) (add_watch l (litmap_add x v l s2)))).
  { unfold litmap_add. pose proof (shr_litmap x l v s2) as Q. destruct (update_litmap x l v s2) as [[p q] s3]. cbn [snd] in Q. apply shr_trans with (1 := Q). now apply shr_same. }
  destruct (Q B2) as (B3 & P3 & T3). split; [exact B3|]. split; [lia|congruence].
Qed.
Lemma shr_upd x v t s : shr s (snd (update_literal O cfg x v t s)).
Proof.
  unfold update_literal. pose proof (shr_get x v s) as SG.
  destruct t; [| |exact SG]; (destruct (0 <? dlevel O s)%nat; [exact SG|]); clear SG;
  (destruct (v <? minb _); [apply shr_refl|]); (destruct (maxb _ <=? v); [apply shr_refl|]); (destruct (vfind _ v); [apply shr_refl|]);
  match goal with |- context [update_litmap ?x ?l ?v ?st] => pose proof (shr_litmap x l v st) as HV; destruct (update_litmap x l v st) as [[p n] s1] end;
  cbn [snd] in HV |- *; (eapply shr_trans; [apply shr_store|]); (eapply shr_trans; [exact HV|]); now apply shr_same.
Qed.
Lemma shr_clause t c s : shr s (snd (add_clause O t c s)).
Proof. now apply shr_same. Qed.
Lemma shr_prop s : shr s (snd (cc_propagate O s)).
Proof. now apply shr_same. Qed.
Lemma shr_talk s s' : talk O cfg s s' -> shr s s'.
Proof.
  induction 1 as [s|s x v s' T IH|s x v t s' T IH|s t c s' T IH|s f i s' T IH]; [apply shr_refl|..]; apply (shr_trans _ _ _ IH).
  - apply shr_get.
  - apply shr_upd.
  - apply shr_clause.
  - now apply shr_same.
Qed.

(** ** Integration of literals and facts *)
Lemma level_lower_toff x v s : toff (level_update_lower x v s) = toff s.
Proof. unfold level_update_lower. cbv zeta. destruct (_ && _); match goal with |- context [if ?b then set_inl _ _ else _] => destruct b end; reflexivity. Qed.
Lemma level_upper_toff x v s : toff (level_update_upper x v s) = toff s.
Proof. unfold level_update_upper. cbv zeta. destruct (_ && _); match goal with |- context [if ?b then set_inu _ _ else _] => destruct b end; reflexivity. Qed.
Lemma shr_lower x v s : lb (vst s x) < v + 1 -> shr s (level_update_lower x v s).
Proof.
  intros L. destruct (level_lower_spec x v s) as (A & B & C & D & E & F). pose proof (level_lower_rest x v s) as R. injection R as R1 R2 _.
  apply shr_tight; auto using level_lower_toff; [now rewrite D|]. intros BA y. destruct (level_lower_stk x v s (ba_level _ BA) y) as [-> ->]. destruct (F y) as [-> ->]. rewrite A.
  repeat split; auto; [destruct (Nat.eqb_spec y x) as [->|]; lia|lia|apply BA|]. intros w. unfold vfind. now rewrite A.
Qed.
Lemma shr_upper x v s : v < ub (vst s x) -> shr s (level_update_upper x v s).
Proof.
  intros L. destruct (level_upper_spec x v s) as (A & B & C & D & E & F). pose proof (level_upper_rest x v s) as R. injection R as R1 R2 _.
  apply shr_tight; auto using level_upper_toff; [now rewrite D|]. intros BA y. destruct (level_upper_stk x v s (ba_level _ BA) y) as [-> ->]. destruct (F y) as [-> ->]. rewrite A.
  repeat split; auto; [lia|destruct (Nat.eqb_spec y x) as [->|]; lia|apply BA|]. intros w. unfold vfind. now rewrite A.
Qed.
Lemma shr_propvars sgn ls : forall r s, shr s (snd (propagate_variables O cfg sgn r ls s)).
Proof.
  induction ls as [|l ls IH]; intros r s; cbn [propagate_variables]; [apply shr_refl|]. destruct (is_true _ _ _); [apply shr_refl|].
  match goal with |- context [add_clause O ?t ?c s] => pose proof (shr_clause t c s) as A; destruct (add_clause O t c s) as [ok s1] end. cbn [snd] in A.
  destruct ok; [|exact A]. apply shr_trans with (1 := A). apply IH.
Qed.
Lemma shr_fail c s : shr s (let '(ok, s1) := add_clause O Learnt c s in if ok then snd (cc_propagate O s1) else s1).
Proof.
  pose proof (shr_clause Learnt c s) as A. destruct (add_clause O Learnt c s) as [ok s1]. cbn [snd] in A. destruct ok; [|exact A]. apply shr_trans with (1 := A). apply shr_prop.
Qed.
Lemma shr_update_upper x l v n s : shr s (snd (update_upper O cfg x l v n s)).
Proof.
  unfold update_upper. destruct (v <? lb (vst s x)).
  - pose proof (shr_get x (lb (vst s x) - 1) s) as A. destruct (get_literal _ _ _ _) as [g s1]. cbn [snd] in A. apply shr_trans with (1 := A).
    pose proof (shr_fail [g; - l] s1) as Q. destruct (add_clause O Learnt [g; - l] s1) as [ok s2]. exact Q.
  - set (s1 := if v <? ub _ then _ else _). assert (A : shr s s1). { unfold s1. destruct (Z.ltb_spec v (ub (vst s x))); [now apply shr_upper|apply shr_refl]. }
    apply shr_trans with (1 := A). destruct (is_true _ _ _); [apply shr_refl|apply shr_propvars].
Qed.
Lemma shr_update_lower x l v n s : shr s (snd (update_lower O cfg x l v n s)).
Proof.
  unfold update_lower. destruct (ub (vst s x) <? v + 1).
  - pose proof (shr_get x (ub (vst s x)) s) as A. destruct (get_literal _ _ _ _) as [g s1]. cbn [snd] in A. apply shr_trans with (1 := A).
    pose proof (shr_fail [- g; - l] s1) as Q. destruct (add_clause O Learnt [- g; - l] s1) as [ok s2]. exact Q.
  - set (s1 := if lb _ <? v + 1 then _ else _). assert (A : shr s s1). { unfold s1. destruct (Z.ltb_spec (lb (vst s x)) (v + 1)); [now apply shr_lower|apply shr_refl]. }
    apply shr_trans with (1 := A). destruct (is_true _ _ _); [apply shr_refl|apply shr_propvars].
Qed.
Lemma shr_fact f s : shr s (snd (apply_fact O cfg f s)).
Proof.
  unfold apply_fact. destruct (if f_lit f =? TRUE_LIT then _ else _) as [ok1 s1] eqn:E1.
  assert (A : shr s s1 /\ (ok1 = true -> ~ lb (vst s1 (f_var f)) <= f_val f < ub (vst s1 (f_var f)))).
  { destruct (_ =? _).
    - pose proof (shr_update_upper (f_var f) TRUE_LIT (f_val f) (f_prec f) s) as Q. rewrite E1 in Q. split; [exact Q|]. intros ->.
      destruct (update_upper_tg _ _ _ _ _ _ _ _ _ E1) as (_ & _ & C). destruct (C eq_refl). lia.
    - pose proof (shr_update_lower (f_var f) TRUE_LIT (f_val f) (f_prec f) s) as Q. rewrite E1 in Q. split; [exact Q|]. intros ->.
      destruct (update_lower_tg _ _ _ _ _ _ _ _ _ E1) as (_ & _ & C). destruct (C eq_refl). lia. }
  destruct A as [A B]. destruct ok1; [|exact A]. apply shr_trans with (1 := A). cbv zeta. cbn [snd].
  apply shr_trans with (1 := shr_litmap (f_var f) 0 (f_val f) s1). apply shr_erase. rewrite litmap_vst. now apply B.
Qed.
Lemma shr_facts fs : forall s, shr s (snd (apply_facts O cfg fs s)).
Proof.
  induction fs as [|f fs IH]; intros s; cbn [apply_facts]; [now apply shr_same|].
  pose proof (shr_fact f s) as A. destruct (apply_fact O cfg f s) as [ok s1]. cbn [snd] in A. destruct ok; [|exact A]. apply shr_trans with (1 := A). apply IH.
Qed.
Lemma shr_fix l t s : shr s (fix_literal l t s).
Proof.
  unfold fix_literal. destruct (valid_entry s l) as [e|]; [|apply shr_refl]. apply shr_trans with (1 := shr_store (e_var e) (e_val e) t s).
  apply shr_trans with (1 := shr_litmap (e_var e) t (e_val e) _). now apply shr_same.
Qed.
Lemma shr_domain l s : shr s (snd (update_domain O cfg l s)).
Proof.
  unfold update_domain. destruct (if negb (l =? TRUE_LIT) && _ && _ then _ else _) as [l1 s1] eqn:E1.
  assert (A : shr s s1). { destruct (_ && _); injection E1 as _ <-; [|apply shr_refl]. apply shr_trans with (1 := shr_fix l TRUE_LIT s). apply shr_fix. }
  apply shr_trans with (1 := A). destruct (l1 =? TRUE_LIT); [apply shr_facts|].
  destruct (match valid_entry s1 l1 with Some _ => _ | None => _ end) as [ok s2] eqn:E2.
  assert (B : shr s1 s2). { destruct (valid_entry s1 l1) as [e|]; [|injection E2 as _ <-; apply shr_refl]. pose proof (shr_update_upper (e_var e) l1 (e_val e) (e_succ e) s1) as Q. now rewrite E2 in Q. }
  apply shr_trans with (1 := B). destruct ok; [|apply shr_refl]. destruct (valid_entry s2 (- l1)) as [e|]; [apply shr_update_lower|apply shr_refl].
Qed.
Lemma shr_fixed6 s s' : fixed6 s s' -> toff s' = toff s -> shr s s'.
Proof. intros (A & _ & _ & B & _ & C) T. injection C as C1 C2 _. apply shr_same; auto. now rewrite B. Qed.
Lemma mark_toff c s : toff (mark_todo c s) = toff s.
Proof. unfold mark_todo. destruct (css s c) as [k|]; [|reflexivity]. destruct (negb _); [|reflexivity]. now destruct (c_todo k). Qed.
Lemma marks_toff l ps : forall s, toff (fold_left (fun s (p : lit * cid) => if fst p =? l then mark_todo (snd p) s else s) ps s) = toff s.
Proof. induction ps as [|p ps IH]; intros s; cbn [fold_left]; [reflexivity|]. rewrite IH. destruct (_ =? _); [apply mark_toff|reflexivity]. Qed.
Lemma shr_lit l s : shr s (snd (propagate_lit O cfg l s)).
Proof. unfold propagate_lit. eapply shr_trans; [|apply shr_domain]. apply shr_fixed6; [apply fixed6_marks|apply marks_toff]. Qed.
Lemma shr_lits ls : forall s, shr s (snd (propagate_lits O cfg ls s)).
Proof.
  induction ls as [|l ls IH]; intros s; cbn [propagate_lits]; [apply shr_refl|]. pose proof (shr_lit l s) as A. destruct (propagate_lit O cfg l s) as [ok s1]. cbn [snd] in A.
  destruct ok; [|exact A]. apply shr_trans with (1 := A). apply IH.
Qed.

(** ** Check *)
Lemma watches_toff n x d ws : forall s, toff (snd (update_watches n x d ws s)) = toff s.
Proof.
  induction ws as [|(i, c) ws IH]; intros s; cbn [update_watches]; [reflexivity|]. destruct (css s c) as [k|].
  - destruct (removable_at n k); [apply (IH (set_remw _ s))|]. destruct (cs_update i d k) as [b k1]. set (s2 := if b then _ else _).
    assert (A : toff s2 = toff s) by (unfold s2; destruct b; [now rewrite mark_toff|reflexivity]). pose proof (IH s2) as B. destruct (update_watches n x d ws s2) as [w s3]. cbn [snd] in *. congruence.
  - pose proof (IH s) as B. now destruct (update_watches n x d ws s) as [w s3].
Qed.
Lemma integrate_toff s : toff (integrate s) = toff s.
Proof.
  assert (C : forall x d s, toff (update_constraints x d s) = toff s).
  { intros x d t. unfold update_constraints. pose proof (watches_toff (cur_level t) x d (wat t x) t) as H. destruct (update_watches _ _ _ _ _) as [w t1]. exact H. }
  assert (U : forall xs s, toff (fold_left integrate_upper xs s) = toff s) by (induction xs as [|x xs IH]; intros t; cbn [fold_left]; [reflexivity|]; rewrite IH; apply (C x (udiff t x) t)).
  assert (L : forall xs s, toff (fold_left integrate_lower xs s) = toff s) by (induction xs as [|x xs IH]; intros t; cbn [fold_left]; [reflexivity|]; rewrite IH; apply (C x (ldiff t x) t)).
  unfold integrate. set (s1 := fold_left integrate_upper (inu s) s). change (toff (fold_left integrate_lower (inl s1) (set_inu [] s1)) = toff s). rewrite L. apply U.
Qed.
Context (srt : (ival -> Z) -> list ival -> list ival) (chk : bool).
Lemma shr_todo cs : forall ret s o s', run_todo srt O cfg chk cs ret s = (o, s') -> shr s s'.
Proof.
  induction cs as [|c cs IH]; intros ret s o s' E; cbn [run_todo] in E.
  { injection E as _ <-. apply shr_refl. }
  assert (A : shr s (clear_todo s c)). { apply shr_fixed6; [apply fixed6_clear|]. unfold clear_todo. now destruct (css s c). }
  apply (shr_trans _ _ _ A). clear A. set (s1 := clear_todo s c) in *. destruct ret; cbn [negb] in E; [|now apply IH in E].
  destruct (css s1 c) as [k|] eqn:K; [|injection E as _ <-; apply shr_refl]. destruct (is_false _ _ _).
  - apply IH in E. apply shr_trans with (2 := E). apply shr_talk, (mark_inactive_own O cfg c k s1 K).
  - destruct (prop_con srt O cfg chk c s1) as [o1 s2] eqn:P. assert (B : shr s1 s2) by (apply shr_talk, (prop_con_frame O cfg srt chk c k s1 o1 s2 K P)).
    destruct o1 as [b|e|]; [|now injection E as _ <-..]. apply IH in E. now apply shr_trans with s2.
Qed.
Lemma shr_loop n : forall s o s', check_loop srt O cfg chk n s = Some (o, s') -> shr s s' /\ (o = Ok true -> tod s' = []).
Proof.
  induction n as [|n IH]; intros s o s' E; cbn [check_loop] in E; [discriminate|].
  assert (A : shr s (snd (if is_nil (fmap s) then (true, s) else update_domain O cfg TRUE_LIT s))) by (destruct (is_nil _); [apply shr_refl|apply shr_domain]).
  destruct (if is_nil (fmap s) then _ else _) as [ok s1]. cbn [snd] in A. destruct ok; cbn [negb] in E; [|injection E as <- <-; split; [exact A|discriminate]].
  assert (B : shr s (integrate s1)) by (apply shr_trans with (1 := A); apply shr_fixed6; [apply fixed6_integrate|apply integrate_toff]).
  destruct (run_todo srt O cfg chk (tod (integrate s1)) true (integrate s1)) as [o1 s3] eqn:R. apply shr_todo in R. assert (C := shr_trans _ _ _ B R).
  destruct o1 as [b|e|]; [|injection E as <- <-; split; [exact C|discriminate]..].
  assert (D : shr s (set_tod [] s3)) by (apply shr_trans with (1 := C); now apply shr_same).
  destruct (negb b || is_nil _); [injection E as <- <-; now split|]. destruct (IH _ _ _ E) as [X Y]. split; [now apply shr_trans with (set_tod [] s3)|exact Y].
Qed.

(** ** Simplification *)
Context (B : nat) (TB : trail_limited O B) (TG : trail_grows O) (CA : calm O).
Lemma trail_app es lg : Forall within es -> (length (o_trail O lg) <= length (o_trail O (es ++ lg)))%nat.
Proof. induction 1 as [|e es H F IH]; [apply le_n|]. cbn [app]. pose proof (TG (es ++ lg) e H). lia. Qed.
Lemma trail_tg s s' : tg O s s' -> (length (o_trail O (log s)) <= length (o_trail O (log s')))%nat.
Proof. intros T. destruct (tg_log _ _ _ T) as (es & -> & F & _). now apply trail_app. Qed.

(** One round. *)
Lemma round_ends n s : ground s -> base s -> dlevel O s = 0%nat -> (room s <= n)%nat ->
  (forall s', ground s' -> base s' -> dlevel O s' = 0%nat -> tod s' = [] -> (room s' <= room s)%nat -> (pot s' <= pot s)%nat ->
    (toff s' <= length (o_trail O (log s')))%nat -> toff s' = length (o_trail O (EProp :: log s)) ->
    (toff s' <> toff s \/ tod s <> []) -> solver_simplify srt O cfg chk n s' <> None) ->
  solver_simplify srt O cfg chk (S n) s <> None.
Proof.
  intros H BA D R K. cbn [solver_simplify]. unfold cc_propagate. set (s1 := emit EProp s). destruct (o_answer O (log s1)); cbn [negb]; [|discriminate].
  assert (G1 : ground s1). { destruct H as [H1 H2 H3]. constructor; auto. apply sinv_only with (2 := H1). apply only_emit. }
  assert (B1 : base s1) by (destruct BA; now constructor).
  assert (D1 : dlevel O s1 = 0%nat) by (unfold dlevel in *; cbn; rewrite CA; [exact D|exact Logic.I]).
  set (tr := o_trail O (log s1)) in *. destruct (Nat.eqb (toff s1) (length tr) && is_nil (tod s1)) eqn:Q; [discriminate|].
  assert (NQ : length tr <> toff s \/ tod s <> []).
  { apply andb_false_iff in Q as [Q|Q]; [left; apply Nat.eqb_neq in Q; change (toff s1) with (toff s) in Q; congruence|right]. change (tod s1) with (tod s) in Q. now destruct (tod s). }
  clear Q. set (ls := skipn (toff s1) tr).
  destruct (propagate_sinv O cfg [] ls s1 (gr_inv _ G1)) as [[L _]|[_ S2]]; [intros L; lia|lia|].
  assert (PL : push_level (dlevel O s1) s1 = s1) by (unfold push_level; now rewrite D1).
  destruct (solver_propagate O cfg ls s1) as [ok s2] eqn:E2. cbn [snd] in S2.
  destruct (tg_propagate O cfg ls s1 ok s2 E2) as (T2 & _). rewrite PL in T2.
  assert (H2 := shr_lits ls s1). unfold solver_propagate in E2. rewrite PL in E2. rewrite E2 in H2. cbn [snd] in H2. destruct (H2 B1) as (B2 & P2 & TO2).
  destruct ok; cbn [negb]; [|discriminate]. set (s3 := set_toff (length tr) s2).
  assert (T3 : tg O s1 s3) by (apply tg_trans with s2; [exact T2|now apply tg_fixed6]).
  assert (S3 : sinv [] s3) by now apply only_sinv_toff.
  assert (G3 := ground_tg O s1 s3 G1 T3 S3). assert (B3 : base s3) by (destruct B2; now constructor).
  assert (D3 : dlevel O s3 = 0%nat) by (rewrite (tg_level _ _ _ T3 CA); exact D1).
  assert (R3 := room_tg O s1 s3 T3). change (room s1) with (room s) in R3.
  assert (C3 : solver_check srt O cfg chk (S n) s3 <> None).
  { apply check_ends with []; auto; [apply G3|rewrite (gr_level _ G3); lia|rewrite (gr_level _ G3); lia|right; apply G3|lia]. }
  destruct (solver_check srt O cfg chk (S n) s3) as [[o4 s4]|] eqn:E4; [|easy]. destruct o4 as [[]| |]; try discriminate.
  destruct (tg_check _ _ _ _ _ _ _ _ E4) as (T4 & _). destruct (solver_check_sinv srt O cfg chk [] (S n) s3 (Ok true) s4 S3 E4) as [_ S4]. specialize (S4 true eq_refl).
  unfold solver_check in E4. rewrite D3, (gr_level _ G3) in E4. cbn [Nat.eqb negb andb] in E4. destruct (shr_loop _ _ _ _ E4) as [H4 TD]. specialize (TD eq_refl). destruct (H4 B3) as (B4 & P4 & TO4).
  assert (T14 : tg O s1 s4) by now apply tg_trans with s3. apply K; auto.
  - now apply ground_tg with O s3.
  - rewrite (tg_level _ _ _ T14 CA). exact D1.
  - pose proof (room_tg O s3 s4 T4). lia.
  - change (pot s3) with (pot s2) in P4. change (pot s1) with (pot s) in P2. lia.
  - rewrite TO4. apply (trail_tg _ _ T14).
  - rewrite TO4. exact NQ.
Qed.
Lemma simplify_go m : forall s n, ground s -> base s -> dlevel O s = 0%nat -> tod s = [] -> (toff s <= length (o_trail O (log s)))%nat ->
  (B + pot s <= toff s + m)%nat -> (m + room s < n)%nat -> solver_simplify srt O cfg chk n s <> None.
Proof.
  induction m as [|m IH]; intros s n H BA D TD TO PM L; (destruct n as [|n]; [lia|]); apply round_ends; auto; try lia;
  intros s' H' BA' D' TD' R' P' TO' TE' [NE|NE]; try easy.
  all: pose proof (TB (EProp :: log s)) as T1; pose proof (TG (log s) EProp Logic.I) as T2; cbn [new_lits] in T1; unfold pot in PM, P' ; fold (pot s') in P'; cbn in T1.
  - exfalso. unfold pot in P'. lia.
  - apply IH; auto; unfold pot in *; lia.
Qed.
Lemma simplify_ends s : ground s -> base s -> dlevel O s = 0%nat -> forall n, (B + pot s + room s + 1 < n)%nat -> solver_simplify srt O cfg chk n s <> None.
Proof.
  intros H BA D n L. destruct n as [|n]; [lia|]. apply round_ends; auto; [lia|]. intros s' H' BA' D' TD' R' P' TO' TE' _.
  apply simplify_go with (B + pot s)%nat; auto; lia.
Qed.
Lemma simplify_fuel n : forall k s r, solver_simplify srt O cfg chk n s = Some r -> (n <= k)%nat -> solver_simplify srt O cfg chk k s = Some r.
Proof.
  induction n as [|n IH]; intros k s r E L; [discriminate|]. destruct k as [|k]; [lia|]. cbn [solver_simplify] in E |- *. destruct (cc_propagate O s) as [ok s1].
  destruct (negb ok); [exact E|]. destruct (_ && _); [exact E|]. destruct (solver_propagate O cfg _ s1) as [ok2 s2]. destruct (negb ok2); [exact E|].
  set (s3 := set_toff _ s2) in *. destruct (solver_check srt O cfg chk (S n) s3) as [q|] eqn:C; [|discriminate].
  rewrite (check_fuel srt O cfg chk (S n) (S k) s3 q C L). destruct q as [[[]| |] s4]; auto. apply IH; [exact E|lia].
Qed.
End Potential.
