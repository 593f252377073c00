(** Steps and well-formedness for bounds and update_domain_. *)
From Verif Require Import Base Util VarState VarStateProofs Terms TermsSpec Solver OrderSpec OrderProofs1 OrderProofs2 OrderProofs3.
From Coq Require Import Sorting.Sorted.
Open Scope Z_scope.

Lemma propagate_variables_log O cfg sgn ls : forall r s ok s', propagate_variables O cfg sgn r ls s = (ok, s') -> exists lg, s' = set_log lg s.
Proof.
  induction ls as [|z ls IH]; intros r s ok s' E; cbn [propagate_variables] in E.
  - injection E as <- <-. exists (log s). now destruct s.
  - destruct (is_true O s (sgn * z)). { injection E as <- <-. exists (log s). now destruct s. }
    destruct (add_clause _ _ _ s) as [ok1 s1] eqn:A. injection A as _ <-. destruct ok1.
    + apply IH in E as (lg & ->). now exists lg.
    + injection E as <- <-. eexists. reflexivity.
Qed.

Lemma minb_nil v : lbs v = [] -> minb v = lb v.
Proof. unfold minb. now intros ->. Qed.
Lemma maxb_nil v : ubs v = [] -> maxb v = ub v.
Proof. unfold maxb. now intros ->. Qed.
Lemma last_cons_ne {A} (a d : A) l : l <> [] -> last (a :: l) d = last l d.
Proof. now destruct l. Qed.

(** The bounds after Level::update_upper: the lowest level of the upper bound only changes on level 0. *)
Lemma luu_lits x v s y : lits (vst (level_update_upper x v s) y) = lits (vst s y).
Proof. unfold level_update_upper. destruct (_ && _); cbn; destruct (udiff s x =? 0); cbn; unfold upd; now destruct (Nat.eqb_spec y x) as [->|]. Qed.
Lemma luu_minb x v s y : minb (vst (level_update_upper x v s) y) = minb (vst s y).
Proof. unfold level_update_upper. destruct (_ && _); cbn; destruct (udiff s x =? 0); cbn; unfold upd; now destruct (Nat.eqb_spec y x) as [->|]. Qed.
Lemma luu_lb x v s y : lb (vst (level_update_upper x v s) y) = lb (vst s y) /\ lbs (vst (level_update_upper x v s) y) = lbs (vst s y).
Proof. unfold level_update_upper. destruct (_ && _); cbn; destruct (udiff s x =? 0); cbn; unfold upd; now destruct (Nat.eqb_spec y x) as [->|]. Qed.
Lemma luu_other x v s y : y <> x -> vst (level_update_upper x v s) y = vst s y.
Proof. intros N. unfold level_update_upper. destruct (_ && _); cbn; destruct (udiff s x =? 0); cbn; now apply upd_other. Qed.
Lemma luu_ub x v s : ub (vst (level_update_upper x v s) x) = v.
Proof. unfold level_update_upper. destruct (_ && _); cbn; destruct (udiff s x =? 0); cbn; now rewrite upd_same. Qed.
Lemma luu_rest x v s : same2 s (level_update_upper x v s) /\ fmap (level_update_upper x v s) = fmap s /\ lmap (level_update_upper x v s) = lmap s /\
  log (level_update_upper x v s) = log s /\ nxt (level_update_upper x v s) = nxt s.
Proof. unfold level_update_upper. destruct (_ && _); cbn; destruct (udiff s x =? 0); cbn; csplit; reflexivity. Qed.
Lemma luu_maxb x v s : cur_level s <> 0%nat -> maxb (vst (level_update_upper x v s) x) = maxb (vst s x).
Proof.
  intros N. unfold level_update_upper. destruct (negb (pushed _ _)) eqn:P.
  - replace (0 <? cur_level s)%nat with true by lia. cbn. destruct (udiff s x =? 0); cbn; rewrite upd_same; unfold maxb; cbn [ubs];
    destruct (ubs (vst s x)); try easy; now rewrite last_cons_ne.
  - rewrite Bool.andb_false_r. cbn. destruct (udiff s x =? 0); cbn; rewrite upd_same; unfold maxb; cbn [ubs ub];
    destruct (ubs (vst s x)); try easy.
Qed.
Lemma luu_maxb0 x v s : cur_level s = 0%nat -> ubs (vst s x) = [] ->
  maxb (vst (level_update_upper x v s) x) = v /\ ubs (vst (level_update_upper x v s) x) = [].
Proof.
  intros N E. unfold level_update_upper. rewrite N. cbn. destruct (udiff s x =? 0); cbn; rewrite upd_same; unfold maxb; cbn; now rewrite E.
Qed.

Lemma lul_lits x v s y : lits (vst (level_update_lower x v s) y) = lits (vst s y).
Proof. unfold level_update_lower. destruct (_ && _); cbn; destruct (ldiff s x =? 0); cbn; unfold upd; now destruct (Nat.eqb_spec y x) as [->|]. Qed.
Lemma lul_maxb x v s y : maxb (vst (level_update_lower x v s) y) = maxb (vst s y).
Proof. unfold level_update_lower. destruct (_ && _); cbn; destruct (ldiff s x =? 0); cbn; unfold upd; now destruct (Nat.eqb_spec y x) as [->|]. Qed.
Lemma lul_ub x v s y : ub (vst (level_update_lower x v s) y) = ub (vst s y) /\ ubs (vst (level_update_lower x v s) y) = ubs (vst s y).
Proof. unfold level_update_lower. destruct (_ && _); cbn; destruct (ldiff s x =? 0); cbn; unfold upd; now destruct (Nat.eqb_spec y x) as [->|]. Qed.
Lemma lul_other x v s y : y <> x -> vst (level_update_lower x v s) y = vst s y.
Proof. intros N. unfold level_update_lower. destruct (_ && _); cbn; destruct (ldiff s x =? 0); cbn; now apply upd_other. Qed.
Lemma lul_lb x v s : lb (vst (level_update_lower x v s) x) = v + 1.
Proof. unfold level_update_lower. destruct (_ && _); cbn; destruct (ldiff s x =? 0); cbn; now rewrite upd_same. Qed.
Lemma lul_rest x v s : same2 s (level_update_lower x v s) /\ fmap (level_update_lower x v s) = fmap s /\ lmap (level_update_lower x v s) = lmap s /\
  log (level_update_lower x v s) = log s /\ nxt (level_update_lower x v s) = nxt s.
Proof. unfold level_update_lower. destruct (_ && _); cbn; destruct (ldiff s x =? 0); cbn; csplit; reflexivity. Qed.
Lemma lul_minb x v s : cur_level s <> 0%nat -> minb (vst (level_update_lower x v s) x) = minb (vst s x).
Proof.
  intros N. unfold level_update_lower. destruct (negb (pushed _ _)) eqn:P.
  - replace (0 <? cur_level s)%nat with true by lia. cbn. destruct (ldiff s x =? 0); cbn; rewrite upd_same; unfold minb; cbn [lbs];
    destruct (lbs (vst s x)); try easy; now rewrite last_cons_ne.
  - rewrite Bool.andb_false_r. cbn. destruct (ldiff s x =? 0); cbn; rewrite upd_same; unfold minb; cbn [lbs lb];
    destruct (lbs (vst s x)); try easy.
Qed.
Lemma lul_minb0 x v s : cur_level s = 0%nat -> lbs (vst s x) = [] ->
  minb (vst (level_update_lower x v s) x) = v + 1 /\ lbs (vst (level_update_lower x v s) x) = [].
Proof.
  intros N E. unfold level_update_lower. rewrite N. cbn. destruct (ldiff s x =? 0); cbn; rewrite upd_same; unfold minb; cbn; now rewrite E.
Qed.

(** Well-formedness depends only on the literals, the table, the log and the stacks on level 0. *)
Lemma wf_core_bounds s s' : wf_core s -> nvars s' = nvars s -> nxt s' = nxt s -> lmap s' = lmap s -> log s' = log s -> cur_level s' = cur_level s ->
  (forall y, lits (vst s' y) = lits (vst s y)) ->
  (cur_level s = 0%nat -> forall y, (y < nvars s)%nat -> lbs (vst s' y) = [] /\ ubs (vst s' y) = []) -> wf_core s'.
Proof.
  intros [W1 W2 W3 W4 W5 W6] E1 E2 E3 E4 E5 EL ET. constructor; rewrite ?E1, ?E2, ?E4.
  - easy.
  - intros y Hy. rewrite EL. now apply W2.
  - intros y w l Hy H. rewrite EL in H. rewrite E3. now apply W3.
  - intros k e H. rewrite E3 in H. rewrite EL. now apply W4.
  - easy.
  - rewrite E5. exact ET.
Qed.
Lemma wf_facts_lits fs s s' : wf_facts fs s -> nvars s' = nvars s -> (forall y, lits (vst s' y) = lits (vst s y)) -> wf_facts fs s'.
Proof.
  intros [F1 F2 F3] E EL. constructor; auto.
  - intros f Hf. rewrite E, EL. now apply F1.
  - intros x w l. rewrite E, EL. apply F3.
Qed.

Section Steps.
Context (O : oracle) (cfg : config) (Base : interp -> Prop) (n0 : Z).
Notation good := (good Base).
Notation step := (step Base).
Context (BO : base_ok Base n0).

(** A change of bounds that only matters on level 0, where it follows. *)
Lemma bounds_step s s' : log s' = log s -> nxt s' = nxt s -> nvars s' = nvars s ->
  (forall y, lits (vst s' y) = lits (vst s y)) ->
  (forall I nu, good s I -> order_ok s I nu -> forall y, (y < nvars s)%nat -> minb (vst s' y) <= nu y <= maxb (vst s' y)) ->
  (forall y, (y < nvars s)%nat -> minb (vst s y) <= minb (vst s' y) /\ maxb (vst s' y) <= maxb (vst s y)) ->
  step T2 T2 s s'.
Proof.
  intros L N V EL H1 H2.
  assert (G : forall I, good s' I <-> good s I) by (intros I; unfold OrderSpec.good; now rewrite L).
  constructor; try lia.
  - now exists [].
  - intros I nu HG HO _. exists I, nu. split; [easy|]. split; [easy|]. split; [now apply G|].
    intros y Hy. rewrite V in Hy. split; [now apply (H1 I nu)|]. intros w l. rewrite EL. now apply HO.
  - intros I nu HG HO. split; [now apply G|]. split; [|easy]. intros y Hy. destruct (HO y ltac:(lia)) as [A B].
    split; [specialize (H2 y Hy); lia|]. intros w l. rewrite <- EL. apply B.
Qed.

Definition up_state (x : var) (v : Z) (s : state) : state := if v <? ub (vst s x) then level_update_upper x v s else s.
Definition lo_state (x : var) (v : Z) (s : state) : state := if lb (vst s x) <? v + 1 then level_update_lower x v s else s.

Record ub_post (s s' : state) : Prop := {
  ub_wf : wf_core s';
  ub_wff : forall fs, wf_facts fs s -> wf_facts fs s';
  ub_step : step T2 T2 s s';
  ub_same : same2 s s';
  ub_fmap : fmap s' = fmap s }.

Lemma conflict_ok x l s (pos : bool) (b : Z) : wf_core s -> (x < nvars s)%nat -> n0 <= nxt s -> below (nxt s) l ->
  (forall I nu, good s I -> order_ok s I nu -> lit_true I l -> if pos then nu x <= b else b < nu x) ->
  forall g s1 c t ok s2 s', get_literal cfg x b s = (g, s1) -> c = [if pos then g else - g; - l] ->
  add_clause O t c s1 = (ok, s2) -> s' = (if ok then snd (cc_propagate O s2) else s2) ->
  ub_post s s' /\ (forall y, vbounds (vst s' y) = vbounds (vst s y)).
Proof.
  intros W Hx Hn Bl Hl g s1 c t ok s2 s' G -> A ->.
  destruct (get_literal_ok cfg Base n0 BO x b s g s1 W Hx Hn G) as [W1 WF1 S1 SM1 L1].
  pose proof (st_nxt _ _ _ _ _ S1) as Nx.
  assert (Hx1 : (x < nvars s1)%nat) by now rewrite (same_nvars _ _ SM1).
  assert (Bg : below (nxt s1) g) by now apply lit_means_below with x b.
  assert (S2 : step T2 T2 s1 s2).
  { eapply step_weaken; [apply (add_clause_step O Base _ _ _ _ _ T2 A)|easy|easy].
    intros I nu HG HO _. rewrite clause2_true. destruct (st_bwd _ _ _ _ _ S1 I nu HG HO) as (G0 & O0 & _).
    destruct (lit_true_dec I l) as [R|R]; [|right; apply lit_true_neg; [apply Bl|easy]]. left.
    specialize (Hl I nu G0 O0 R). pose proof (lit_means_ok s1 g x b I nu Hx1 L1 (proj1 (proj2 HG)) HO) as M.
    destruct pos; [now apply M|]. apply lit_true_neg; [apply Bg|]. rewrite M. lia. }
  assert (Fc : Forall (below (nxt s1)) [if pos then g else - g; - l]).
  { constructor; [destruct pos; [easy|now apply below_neg]|]. constructor; [|constructor]. apply below_neg. now apply below_mono with (nxt s). }
  pose proof (add_clause_core O _ _ _ _ _ A W1 Fc) as W2.
  assert (SM2 : same s1 s2) by (injection A as _ <-; apply same_emit).
  assert (WF2 : forall fs, wf_facts fs s1 -> wf_facts fs s2) by (injection A as _ <-; intros fs [F1 F2 F3]; now constructor).
  destruct ok; cbn [cc_propagate snd].
  - split.
    + constructor.
      * destruct W2 as [V1 V2 V3 V4 V5 V6]. constructor; auto. cbn. now constructor.
      * intros fs F. destruct (WF2 fs (WF1 fs F)) as [F1 F2 F3]. now constructor.
      * apply step_trans_T with s1; [easy|]. apply step_trans_T with s2; [easy|].
        eapply step_weaken; [apply (emit_step Base EProp s2 T2)|easy|easy]. easy.
      * apply same2_trans with s1; [now apply same_same2|]. apply same2_trans with s2; now apply same_same2.
      * cbn. rewrite (same_fmap _ _ SM2). apply (same_fmap _ _ SM1).
    + intros y. cbn. rewrite (proj2 SM2 y). apply SM1.
  - split.
    + constructor; auto.
      * now apply step_trans_T with s1.
      * apply same2_trans with s1; now apply same_same2.
      * cbn. rewrite (same_fmap _ _ SM2). apply (same_fmap _ _ SM1).
    + intros y. cbn. rewrite (proj2 SM2 y). apply SM1.
Qed.

Lemma update_upper_ok x l v succ s ok s' : wf_core s -> (x < nvars s)%nat -> n0 <= nxt s -> below (nxt s) l ->
  (forall I nu, good s I -> order_ok s I nu -> lit_true I l -> nu x <= v) ->
  (cur_level s = 0%nat -> forall I, good s I -> lit_true I l) ->
  update_upper O cfg x l v succ s = (ok, s') ->
  ub_post s s' /\
  (v < lb (vst s x) -> ok = false /\ forall y, vbounds (vst s' y) = vbounds (vst s y)) /\
  (lb (vst s x) <= v -> exists lg, s' = set_log lg (up_state x v s)).
Proof.
  intros W Hx Hn Bl Hl H0 E. unfold update_upper in E. destruct (v <? lb (vst s x)) eqn:C.
  - destruct (get_literal cfg x (lb (vst s x) - 1) s) as [g s1] eqn:G.
    destruct (add_clause O Learnt [g; - l] s1) as [ok1 s2] eqn:A. injection E as <- <-.
    assert (Hc : forall I nu, good s I -> order_ok s I nu -> lit_true I l -> nu x <= lb (vst s x) - 1) by (intros I nu HG HO R; specialize (Hl I nu HG HO R); lia).
    destruct (conflict_ok x l s true (lb (vst s x) - 1) W Hx Hn Bl Hc _ _ _ _ _ _ _ G eq_refl A eq_refl) as (P1 & P2).
    split; [easy|]. split; [|lia]. intros _. split; [easy|]. exact P2.
  - fold (up_state x v s) in E. set (s1 := up_state x v s) in *.
    destruct (luu_rest x v s) as (R1 & R2 & R3 & R4 & R5).
    assert (Q : same2 s s1 /\ fmap s1 = fmap s /\ lmap s1 = lmap s /\ log s1 = log s /\ nxt s1 = nxt s).
    { unfold s1, up_state. destruct (v <? ub (vst s x)); [easy|]. csplit; auto using same2_refl. }
    clear R1 R2 R3 R4 R5. destruct Q as (R1 & R2 & R3 & R4 & R5).
    assert (EL : forall y, lits (vst s1 y) = lits (vst s y)).
    { intros y. unfold s1, up_state. destruct (v <? ub (vst s x)); [apply luu_lits|easy]. }
    assert (W1 : wf_core s1).
    { apply wf_core_bounds with s; auto; [now apply same2_nvars|now apply same2_cur|].
      intros C0 y Hy. destruct (wf_top s W C0 y Hy) as [T1 T3]. unfold s1, up_state. destruct (v <? ub (vst s x)); [|easy].
      destruct (luu_lb x v s y) as [_ ->]. split; [easy|]. destruct (Nat.eq_dec y x) as [->|Ny]; [now apply luu_maxb0|].
      now rewrite luu_other. }
    assert (WF1 : forall fs, wf_facts fs s -> wf_facts fs s1).
    { intros fs F. apply wf_facts_lits with s; auto. now apply same2_nvars. }
    assert (S1 : step T2 T2 s s1).
    { unfold s1, up_state. destruct (v <? ub (vst s x)) eqn:C2; [|apply step_refl; now right].
      destruct (luu_rest x v s) as (Q1 & Q2 & Q3 & Q4 & Q5).
      apply bounds_step; auto; [now apply same2_nvars|intros y; apply luu_lits| |].
      - intros I nu HG HO y Hy. rewrite luu_minb. destruct (HO y Hy) as [HB _]. destruct (Nat.eq_dec y x) as [->|Ny].
        + destruct (Nat.eq_dec (cur_level s) 0) as [C0|C0].
          * destruct (luu_maxb0 x v s C0) as [-> _]; [now apply (wf_top s W C0)|].
            specialize (Hl I nu HG HO (H0 C0 I HG)). lia.
          * now rewrite luu_maxb.
        + rewrite (luu_other x v s y Ny). easy.
      - intros y Hy. rewrite luu_minb. split; [lia|]. destruct (Nat.eq_dec y x) as [->|Ny].
        + destruct (Nat.eq_dec (cur_level s) 0) as [C0|C0].
          * destruct (wf_top s W C0 x Hx) as [_ T3]. destruct (luu_maxb0 x v s C0 T3) as [-> _]. rewrite (maxb_nil _ T3). lia.
          * rewrite luu_maxb by easy. lia.
        + rewrite (luu_other x v s y Ny). lia. }
    assert (P1 : ub_post s s1) by now constructor.
    destruct (is_true O s1 succ).
    { injection E as <- <-. split; [easy|]. split; [lia|]. intros _. exists (log s1). now destruct s1. }
    assert (Hx1 : (x < nvars s1)%nat) by now rewrite (same2_nvars _ _ R1).
    assert (Sm : sorted (lits (vst s1 x))) by now apply W1.
    destruct (propagate_variables_ok O cfg Base x 1 (vwith_gt (vst s1 x) v) v l s1 ok s') as (V1 & V2 & V3 & V4 & V5 & V6 & V7); auto.
    + now rewrite R5.
    + intros w z H. unfold vwith_gt in H. now apply filter_In in H.
    + pose proof (filter_sorted (fun e => v <? fst e) _ Sm) as F. unfold vwith_gt. clear -F.
      induction F as [|a r F IH H]; constructor; auto. eapply Forall_impl; [|exact H]. intros b Hb. unfold klt in Hb; lia.
    + apply Forall_forall. intros [w z] H. unfold vwith_gt in H. apply filter_In in H as [_ H]. cbn [fst] in *. lia.
    + intros I nu HG HO R. cbn. destruct (st_bwd _ _ _ _ _ S1 I nu HG HO) as (G0 & O0 & _). now apply (Hl I).
    + split.
      * constructor; auto.
        -- now apply step_trans_T with s1.
        -- apply same2_trans with s1; [easy|now apply same_same2].
        -- now rewrite (same_fmap _ _ V4).
      * split; [lia|]. intros _. now apply propagate_variables_log in E.
Qed.

Lemma update_lower_ok x l v prev s ok s' : wf_core s -> (x < nvars s)%nat -> n0 <= nxt s -> below (nxt s) l ->
  (forall I nu, good s I -> order_ok s I nu -> lit_true I l -> v < nu x) ->
  (cur_level s = 0%nat -> forall I, good s I -> lit_true I l) ->
  update_lower O cfg x l v prev s = (ok, s') ->
  ub_post s s' /\
  (ub (vst s x) < v + 1 -> ok = false /\ forall y, vbounds (vst s' y) = vbounds (vst s y)) /\
  (v + 1 <= ub (vst s x) -> exists lg, s' = set_log lg (lo_state x v s)).
Proof.
  intros W Hx Hn Bl Hl H0 E. unfold update_lower in E. destruct (ub (vst s x) <? v + 1) eqn:C.
  - destruct (get_literal cfg x (ub (vst s x)) s) as [g s1] eqn:G.
    destruct (add_clause O Learnt [- g; - l] s1) as [ok1 s2] eqn:A. injection E as <- <-.
    assert (Hc : forall I nu, good s I -> order_ok s I nu -> lit_true I l -> ub (vst s x) < nu x) by (intros I nu HG HO R; specialize (Hl I nu HG HO R); lia).
    destruct (conflict_ok x l s false (ub (vst s x)) W Hx Hn Bl Hc _ _ _ _ _ _ _ G eq_refl A eq_refl) as (P1 & P2).
    split; [easy|]. split; [|lia]. intros _. split; [easy|]. exact P2.
  - fold (lo_state x v s) in E. set (s1 := lo_state x v s) in *.
    destruct (lul_rest x v s) as (R1 & R2 & R3 & R4 & R5).
    assert (Q : same2 s s1 /\ fmap s1 = fmap s /\ lmap s1 = lmap s /\ log s1 = log s /\ nxt s1 = nxt s).
    { unfold s1, lo_state. destruct (lb (vst s x) <? v + 1); [easy|]. csplit; auto using same2_refl. }
    clear R1 R2 R3 R4 R5. destruct Q as (R1 & R2 & R3 & R4 & R5).
    assert (EL : forall y, lits (vst s1 y) = lits (vst s y)).
    { intros y. unfold s1, lo_state. destruct (lb (vst s x) <? v + 1); [apply lul_lits|easy]. }
    assert (W1 : wf_core s1).
    { apply wf_core_bounds with s; auto; [now apply same2_nvars|now apply same2_cur|].
      intros C0 y Hy. destruct (wf_top s W C0 y Hy) as [T1 T3]. unfold s1, lo_state. destruct (lb (vst s x) <? v + 1); [|easy].
      destruct (lul_ub x v s y) as [_ ->]. split; [|easy]. destruct (Nat.eq_dec y x) as [->|Ny]; [now apply lul_minb0|].
      now rewrite lul_other. }
    assert (WF1 : forall fs, wf_facts fs s -> wf_facts fs s1).
    { intros fs F. apply wf_facts_lits with s; auto. now apply same2_nvars. }
    assert (S1 : step T2 T2 s s1).
    { unfold s1, lo_state. destruct (lb (vst s x) <? v + 1) eqn:C2; [|apply step_refl; now right].
      destruct (lul_rest x v s) as (Q1 & Q2 & Q3 & Q4 & Q5).
      apply bounds_step; auto; [now apply same2_nvars|intros y; apply lul_lits| |].
      - intros I nu HG HO y Hy. rewrite lul_maxb. destruct (HO y Hy) as [HB _]. destruct (Nat.eq_dec y x) as [->|Ny].
        + destruct (Nat.eq_dec (cur_level s) 0) as [C0|C0].
          * destruct (lul_minb0 x v s C0) as [-> _]; [now apply (wf_top s W C0)|].
            specialize (Hl I nu HG HO (H0 C0 I HG)). lia.
          * now rewrite lul_minb.
        + rewrite (lul_other x v s y Ny). easy.
      - intros y Hy. rewrite lul_maxb. split; [|lia]. destruct (Nat.eq_dec y x) as [->|Ny].
        + destruct (Nat.eq_dec (cur_level s) 0) as [C0|C0].
          * destruct (wf_top s W C0 x Hx) as [T3 _]. destruct (lul_minb0 x v s C0 T3) as [-> _]. rewrite (minb_nil _ T3). lia.
          * rewrite lul_minb by easy. lia.
        + rewrite (lul_other x v s y Ny). lia. }
    assert (P1 : ub_post s s1) by now constructor.
    destruct (is_true O s1 (- prev)).
    { injection E as <- <-. split; [easy|]. split; [lia|]. intros _. exists (log s1). now destruct s1. }
    assert (Hx1 : (x < nvars s1)%nat) by now rewrite (same2_nvars _ _ R1).
    assert (Sm : sorted (lits (vst s1 x))) by now apply W1.
    destruct (propagate_variables_ok O cfg Base x (- 1) (vwith_lt (vst s1 x) v) v l s1 ok s') as (V1 & V2 & V3 & V4 & V5 & V6 & V7); auto.
    + now rewrite R5.
    + intros w z H. unfold vwith_lt in H. rewrite <- in_rev in H. now apply filter_In in H.
    + pose proof (descending_rev _ (filter_sorted (fun e => fst e <? v) _ Sm)) as F. unfold vwith_lt. clear -F.
      induction F as [|a r F IH H]; constructor; auto. eapply Forall_impl; [|exact H]. intros b Hb; cbv beta in *; lia.
    + apply Forall_forall. intros [w z] H. unfold vwith_lt in H. rewrite <- in_rev in H. apply filter_In in H as [_ H]. cbn [fst] in *. lia.
    + intros I nu HG HO R. cbn. destruct (st_bwd _ _ _ _ _ S1 I nu HG HO) as (G0 & O0 & _). now apply (Hl I).
    + split.
      * constructor; auto.
        -- now apply step_trans_T with s1.
        -- apply same2_trans with s1; [easy|now apply same_same2].
        -- now rewrite (same_fmap _ _ V4).
      * split; [lia|]. intros _. now apply propagate_variables_log in E.
Qed.
End Steps.
