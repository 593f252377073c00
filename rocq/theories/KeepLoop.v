(** The loop of check and the callback keep solutions. *)
From Verif Require Import Base Util VarState VarStateProofs Terms TermsSpec Solver OrderSpec OrderProofs1 OrderProofs2 OrderProofs3 OrderProofs4 OrderProofs5 OrderProofs7 Orders Sum SumProofs2 PropProofs ConSpec
  Distinct DistinctProofs Disjoint DisjointProofs Objective Search SearchSpec SearchFrame SearchInv SearchInv3 SearchInv4 SearchInv5
  CheckSpec CheckFrame CheckGrow CheckSays CheckProofs FreshInv FreshCalls KeepCons KeepSpec KeepProofs.
From Coq Require Import Permutation Sorting.Sorted.
Open Scope Z_scope.

Lemma watches_mbound n x d ws : forall s, mbound (snd (update_watches n x d ws s)) = mbound s.
Proof.
  assert (M : forall c s, mbound (mark_todo c s) = mbound s).
  { intros c s. unfold mark_todo. destruct (css s c) as [k|]; auto. destruct (negb _); auto. cbv zeta. now destruct (c_todo k). }
  induction ws as [|(i, c) ws IH]; intros s; cbn [update_watches]; auto. destruct (css s c) as [k|].
  - destruct (removable_at n k).
    + now rewrite IH.
    + destruct (cs_update i d k) as [b k1]. set (s1 := if b then mark_todo c (set_cs c k1 s) else set_cs c k1 s).
      assert (A : mbound s1 = mbound s) by (unfold s1; destruct b; rewrite ?M; reflexivity). specialize (IH s1). destruct (update_watches n x d ws s1) as [w t]. cbn [snd] in *. congruence.
  - specialize (IH s). destruct (update_watches n x d ws s) as [w t]. exact IH.
Qed.
Lemma integrate_mbound s : mbound (integrate s) = mbound s.
Proof.
  assert (A : forall x d s, mbound (update_constraints x d s) = mbound s).
  { intros x d t. unfold update_constraints. pose proof (watches_mbound (cur_level t) x d (wat t x) t) as H. destruct (update_watches _ _ _ _ _) as [w t1]. exact H. }
  assert (B : forall xs s, mbound (fold_left integrate_upper xs s) = mbound s).
  { induction xs as [|x xs IH]; intros t; cbn [fold_left]; auto. rewrite IH. apply (A x (udiff t x) t). }
  assert (C : forall xs s, mbound (fold_left integrate_lower xs s) = mbound s).
  { induction xs as [|x xs IH]; intros t; cbn [fold_left]; auto. rewrite IH. apply (A x (ldiff t x) t). }
  unfold integrate. cbv zeta. change (mbound (fold_left integrate_lower (inl (set_inu [] (fold_left integrate_upper (inu s) s))) (set_inu [] (fold_left integrate_upper (inu s) s))) = mbound s).
  rewrite C. apply (B (inu s) s).
Qed.
Lemma core_bounds_ok G s : core G s -> bounds_ok s.
Proof. intros C x X. destruct (core_range G s C x). pose proof (b_bnd s (core_b _ _ C) x X). lia. Qed.
Lemma top_justified O s : wf_core s -> cur_level s = 0%nat -> justified O s.
Proof. intros W L x X. destruct (wf_top s W L x X) as [A B]. unfold minb, maxb. rewrite A, B. split; intros; lia. Qed.

Section Keep.
Context (srt : (ival -> Z) -> list ival -> list ival) (SP : forall f l, Permutation (srt f l) l) (SS : forall f l, StronglySorted Z.le (map f (srt f l))).
Context (O : oracle) (cfg : config) (chk sol : bool) (Base : interp -> Prop) (n0 : Z).
Context (BO : base_ok Base n0) (CO : clasp_ok O Base) (U : units_pos O) (CA : calm O).
Context (guard : bool) (SO : guard = true -> steady O).
Context (s0 : state) (PD : forall c k, css s0 c = Some k -> posted s0 (c_def k)) (DV : forall c k, css s0 c = Some k -> Forall (fun x => x < nvars s0)%nat (cvars (c_def k))).
Notation step := (step Base).
Notation pstep := (pstep O Base).
Notation ready := (ready O n0).
Notation inner := (inner O n0 guard s0).
Notation D := (demands guard s0).

Lemma step_seq P s s1 s2 : dep (nxt s) (nvars s) P -> step P T2 s s1 -> step P T2 s1 s2 -> step P T2 s s2.
Proof. intros A B C. apply step_trans with (5 := B) (6 := C); try easy; tauto. Qed.
Lemma step_any P s s' : step T2 T2 s s' -> step P T2 s s'.
Proof. intros A. now apply step_weaken with T2 T2. Qed.
Lemma ready_fixed6 s s' : fixed6 s s' -> ready s -> ready s'.
Proof.
  intros F [A B C N]. assert (NV := fixed6_nv _ _ F). pose proof F as (F1 & F2 & F3 & F4 & _). constructor.
  - now apply fixed6_wf with s.
  - intros x. rewrite NV, F1. unfold is_false, is_true. rewrite F4. apply B.
  - intros x. rewrite NV, F1. apply C.
  - now rewrite F3.
Qed.
Lemma inner_fixed6 G s s' : fixed6 s s' -> inner G s -> core G s' -> dinv G s' -> cons s s' -> inner G s'.
Proof.
  intros F [A1 A2 A3 A4 A5 A6 A7 A8 A9] C' D' CN. pose proof F as (F1 & F2 & F3 & F4 & _). constructor; auto.
  - now apply ready_fixed6 with s.
  - now rewrite F1.
  - now apply cons_trans with s.
  - now apply ivs_cons with s.
  - unfold dlevel. rewrite F4. exact A7.
  - now rewrite F3.
  - now rewrite (fixed6_nv _ _ F).
Qed.
Lemma inner_dep G s mb : inner G s -> dep (nxt s) (nvars s) (D mb).
Proof. intros I. apply (D_dep O); auto; [apply I|now rewrite (in_nv _ _ _ _ _ _ I)]. Qed.

(** Levels and facts. *)
Definition fc (s : state) : Prop := (cur_level s <= dlevel O s)%nat /\ ((0 < dlevel O s)%nat -> fmap s = []).
Lemma fc_tg s s' : tg O s s' -> fc s -> fc s'.
Proof.
  intros T [A B]. unfold fc. rewrite (tg_level O _ _ T CA), (cur_lvls _ _ (tg_lvls _ _ _ T)). split; auto. intros L. apply (tg_fmap _ _ _ T CA); auto.
Qed.

Record kept (s s' : state) : Prop := {
  kp_core : wf_core s';
  kp_step : step (D (mbound s')) T2 s s';
  kp_up : (0 < cur_level s)%nat -> (forall y, vbounds (vst s' y) = vbounds (vst s y)) /\ grow s s';
  kp_mb : mb_le (mbound s) (mbound s') }.

Lemma facts_keep G s ok s1 : sinv G s -> inner G s -> fc s -> (if is_nil (fmap s) then (true, s) else update_domain O cfg TRUE_LIT s) = (ok, s1) ->
  wf_core s1 /\ step T2 T2 s s1 /\ mbound s1 = mbound s /\ ((0 < cur_level s)%nat -> s1 = s) /\ sinv G s1 /\ fc s1 /\ (ok = true -> inner G s1).
Proof.
  intros S I F E. destruct (is_nil (fmap s)) eqn:N.
  - injection E as <- <-. split; [apply I|]. split; [apply step_refl; now right|]. auto.
  - assert (L0 : dlevel O s = 0%nat). { destruct (Nat.eq_dec (dlevel O s) 0) as [Q|Q]; auto. destruct F as [_ F]. rewrite F in N by lia. discriminate. }
    assert (C0 : cur_level s = 0%nat) by (destruct F; lia).
    destruct (update_domain_ok O cfg Base n0 BO CO TRUE_LIT s ok s1) as [A1 A2 A3 A4 A5 _ _]; auto; try (apply I).
    { discriminate. } { apply (cl_one _ _ CO). } { rewrite L0, C0. tauto. }
    assert (S1 : sinv G s1). { pose proof (update_domain_sinv O cfg G TRUE_LIT s S) as Q. now rewrite E in Q. }
    pose proof (update_domain_tg O cfg TRUE_LIT s ok s1 E) as (T & _).
    assert (CL : cur_level s1 = 0%nat) by now rewrite (cur_lvls _ _ (tg_lvls _ _ _ T)).
    split; auto. split; auto. split; [now apply (same2_get mbound)|]. split; [intros; lia|]. split; auto. split; [now apply fc_tg with s|]. intros ->.
    assert (CN : cons s s1). { apply cons_css. pose proof (domain_css O cfg TRUE_LIT s) as Q. now rewrite E in Q. }
    destruct I as [I1 I2 I3 I4 I5 I6 I7 I8 I9]. constructor.
    + apply S1.
    + pose proof (dinv_update_domain O cfg G TRUE_LIT s I2) as Q. now rewrite E in Q.
    + constructor; auto.
      * now apply top_justified.
      * now apply core_bounds_ok with G, S1.
      * pose proof (st_nxt _ _ _ _ _ A2). pose proof (rd_nxt _ _ _ I3). lia.
    + intros x. pose proof (tg_tight _ _ _ T x). pose proof (I4 x). lia.
    + now apply cons_trans with s.
    + now apply ivs_cons with s.
    + rewrite (tg_level O _ _ T CA). exact I7.
    + pose proof (st_nxt _ _ _ _ _ A2). lia.
    + now rewrite (same2_nvars _ _ A3).
Qed.

Lemma loop_keep G n : forall s b s', sinv G s -> inner G s -> fc s -> check_loop srt O cfg chk n s = Some (Ok b, s') -> kept s s' /\ mbound s' = mbound s.
Proof.
  induction n as [|n IH]; intros s b s' S I F E; cbn [check_loop] in E; [discriminate|].
  destruct (if is_nil (fmap s) then _ else _) as [ok s1] eqn:E1. destruct (facts_keep G s ok s1 S I F E1) as (A1 & A2 & A3 & A4 & A5 & A6 & A7).
  destruct ok; cbn [negb] in E.
  2:{ injection E as <- <-. split; auto. constructor; auto.
      - now apply step_any.
      - intros L. rewrite (A4 L). split; auto using grow_refl.
      - rewrite A3. apply mb_le_refl. }
  specialize (A7 eq_refl). destruct (integrate_sinv G s1 A5) as [B1 B2]. assert (F2 := fixed6_integrate s1).
  assert (I2 : inner G (integrate s1)).
  { apply (inner_fixed6 G s1); auto; [apply B1|apply dinv_integrate; auto; apply A7|apply cons_integrate]. }
  assert (FC2 : fc (integrate s1)) by (apply fc_tg with s1; auto using tg_fixed6). assert (M2 := integrate_mbound s1).
  set (s2 := integrate s1) in *. destruct (run_todo srt O cfg chk (tod s2) true s2) as [o s3] eqn:R. destruct o as [ret|e|]; [|discriminate..].
  destruct (run_todo_inv srt O cfg chk G _ _ _ _ _ (in_core _ _ _ _ _ _ I2) B2 (tod_ok_run _ _ (proj2 B1)) R) as (C1 & C2 & C3 & C4).
  assert (P := run_keep srt SP SS O cfg chk Base n0 BO CO U guard SO s0 PD DV G (tod s2) true s2 ret s3 I2 B2 (tod_ok_run _ _ (proj2 B1)) R).
  assert (F4 : fixed6 s3 (set_tod [] s3)) by now repeat split.
  assert (DE := inner_dep G s (mbound s) I).
  assert (ST : step (D (mbound s)) T2 s (set_tod [] s3)).
  { apply step_seq with s1; [exact DE|now apply step_any|]. rewrite <- A3 in *. apply step_seq with s2; [apply (inner_dep G _ _ A7)|now apply fixed6_step|]. rewrite <- M2.
    apply step_seq with s3; [apply (inner_dep G _ _ I2)|apply P|now apply fixed6_step]. }
  assert (W4 : wf_core (set_tod [] s3)) by (apply fixed6_core with s3; auto; apply P).
  assert (UP : (0 < cur_level s)%nat -> (forall y, vbounds (vst (set_tod [] s3) y) = vbounds (vst s y)) /\ grow s (set_tod [] s3)).
  { intros L. pose proof (A4 L) as ->. destruct F2 as (FV & _). split.
    - intros y. cbn [vst set_tod]. rewrite (proj2 (ps_same _ _ _ _ _ _ P)). now rewrite FV.
    - intros x w l X. apply (ps_grow _ _ _ _ _ _ P). now rewrite FV. }
  assert (M4 : mbound (set_tod [] s3) = mbound s). { cbn [mbound set_tod]. rewrite (same3_mbound _ _ C3). congruence. }
  set (s4 := set_tod [] s3) in *. destruct (negb ret || is_nil (fmap s4)) eqn:Q.
  - injection E as <- <-. split; auto. constructor; auto; rewrite M4; auto. apply mb_le_refl.
  - apply orb_false_iff in Q as [Q1 Q2]. apply negb_false_iff in Q1 as ->.
    assert (I3 : inner G s3).
    { apply (inner_pstep O Base n0 CO guard SO s0 G s2 s3 _ I2 P); auto; [apply (dinv_run_todo srt O cfg chk G _ _ _ _ _ (in_core _ _ _ _ _ _ I2) B2 (tod_ok_run _ _ (proj2 B1)) (in_dinv _ _ _ _ _ _ I2) R)|].
      apply (cons_run_todo srt SP O cfg chk _ _ _ _ _ R). }
    assert (S4 : sinv G s4) by (apply set_tod_sinv; auto; apply tod_run_nil; now apply (C4 true)).
    assert (I4 : inner G s4). { apply (inner_fixed6 G s3); auto; [apply S4| |now apply cons_css]. apply dinv_fields with s3; auto. apply I3. }
    assert (FC4 : fc s4). { apply fc_tg with s2; auto. apply tg_trans with s3; [now apply tg_todo in R|now apply tg_fixed6]. }
    destruct (IH s4 b s' S4 I4 FC4 E) as [[K1 K2 K3 K4] MB]. assert (ME : mbound s' = mbound s) by congruence. split; auto. constructor; auto.
    + rewrite ME in *. apply step_seq with s4; auto.
    + intros L. destruct (UP L) as [U1 U2]. destruct (K3 ltac:(unfold s4; change (cur_level (set_tod [] s3)) with (cur_level s3); rewrite (same3_cur _ _ C3), (fixed6_cur _ _ F2), (A4 L); exact L)) as [V1 V2].
      split; [intros y; now rewrite V1|now apply grow_trans with s4].
    + rewrite ME. apply mb_le_refl.
Qed.

(** ** The final check *)
Record free (s s' : state) : Prop := {
  fr_core : wf_core s';
  fr_step : step T2 T2 s s';
  fr_bnds : forall y, vbounds (vst s' y) = vbounds (vst s y);
  fr_grow : grow s s';
  fr_nv : nvars s' = nvars s;
  fr_mb : mbound s' = mbound s }.
Lemma free_refl s : wf_core s -> free s s.
Proof. intros W. constructor; auto using grow_refl. apply step_refl. now right. Qed.
Lemma free_trans s s1 s2 : free s s1 -> free s1 s2 -> free s s2.
Proof.
  intros [A1 A2 A3 A4 A5 A6] [B1 B2 B3 B4 B5 B6]. constructor; auto; try congruence.
  - now apply step_trans_T with s1.
  - now apply grow_trans with s1.
Qed.
Lemma split_free x s : wf_core s -> (x < nvars s)%nat -> n0 <= nxt s -> free s (snd (split cfg x s)).
Proof.
  intros W X N. unfold split. destruct (is_assigned _); [now apply free_refl|]. destruct (get_literal cfg x _ s) as [l s1] eqn:E. cbn [snd].
  destruct (get_literal_ok cfg Base n0 BO x _ s l s1 W X N E) as [A B C S F]. constructor; auto.
  - apply S.
  - apply get_literal_grow with cfg x (midpoint 32 (lb (vst s x)) (ub (vst s x))) l; auto. now apply W.
  - now apply same_nvars.
  - now apply (same_get mbound).
Qed.
Lemma free_nxt s s' : free s s' -> nxt s <= nxt s'.
Proof. intros F. apply (fr_step _ _ F). Qed.
Lemma every_free xs : forall r s, wf_core s -> (forall x, In x xs -> (x < nvars s)%nat) -> n0 <= nxt s -> free s (snd (split_every cfg xs r s)).
Proof.
  induction xs as [|x xs IH]; intros r s W X N; cbn [split_every]; [now apply free_refl|].
  assert (A := split_free x s W (X x (or_introl eq_refl)) N). destruct (split cfg x s) as [b s1]. cbn [snd] in A. apply free_trans with s1; auto.
  apply IH; [apply A| |apply free_nxt in A; lia]. intros y Y. rewrite (fr_nv _ _ A). apply X. now right.
Qed.
Lemma first_free xs : forall s, wf_core s -> (forall x, In x xs -> (x < nvars s)%nat) -> n0 <= nxt s -> free s (snd (split_first cfg xs s)).
Proof.
  induction xs as [|x xs IH]; intros s W X N; cbn [split_first]; [now apply free_refl|].
  assert (A := split_free x s W (X x (or_introl eq_refl)) N). destruct (split cfg x s) as [b s1]. cbn [snd] in A. destruct b.
  - apply free_trans with s1; auto. destruct A as [[W1 W2 W3 W4 W5 W6] _ _ _ _ _]. constructor; auto; [now constructor|apply step_silent; auto; now right|intros y w l Y; exact Y].
  - apply free_trans with s1; auto. apply IH; [apply A| |apply free_nxt in A; lia]. intros y Y. rewrite (fr_nv _ _ A). apply X. now right.
Qed.
Lemma full_free s o s' : wf_core s -> (slast s <= nvars s)%nat -> n0 <= nxt s -> solver_check_full O cfg sol s = (o, s') -> free s s'.
Proof.
  intros W L N E. unfold solver_check_full in E. destruct (if split_all cfg then _ else _) as [b s1] eqn:Q.
  assert (A : free s s1).
  { destruct (split_all cfg).
    - pose proof (every_free (seq 0 (nvars s)) false s W) as H. rewrite Q in H. apply H; auto. intros x. rewrite in_seq. lia.
    - pose proof (first_free (seq (slast s) (nvars s - slast s) ++ seq 0 (slast s)) s W) as H. rewrite Q in H. apply H; auto. intros x. rewrite in_app_iff, !in_seq. lia. }
  destruct b; [|destruct sol]; injection E; intros; subst; auto.
Qed.

(** ** The callback *)
Lemma minimize_mb c m b l s s' : check_minimize c m b l s = Ok s' -> mb_le (mbound s) (mbound s').
Proof.
  unfold check_minimize. destruct (b =? no_bound); [intros E; injection E as <-; apply mb_le_refl|].
  destruct (iadd _ _ _) as [z|e|]; [|discriminate..]. cbn [bind]. intros E. injection E as <-. unfold update_minimize.
  assert (M : forall c s, mbound (mark_todo c s) = mbound s).
  { intros d t. unfold mark_todo. destruct (css t d) as [k|]; auto. destruct (negb _); auto. cbv zeta. now destruct (c_todo k). }
  destruct (mbound s) as [b0|] eqn:B; [|exact Logic.I]. destruct (z <? b0) eqn:L.
  - rewrite M. cbn. exists z. split; [reflexivity|lia].
  - destruct (_ <? _)%nat; [rewrite M|]; cbn [mbound set_mlevel]; rewrite B; apply mb_le_refl.
Qed.
Lemma kept_free s s1 s2 : dep (nxt s) (nvars s) (D (mbound s1)) -> kept s s1 -> free s1 s2 -> kept s s2.
Proof.
  intros DE [A1 A2 A3 A4] [B1 B2 B3 B4 B5 B6]. constructor; auto; rewrite ?B6; auto.
  - apply step_seq with s1; auto. now apply step_any.
  - intros L. destruct (A3 L) as [C1 C2]. split; [intros y; now rewrite B3|now apply grow_trans with s1].
Qed.
Lemma check_keep G fuel m bound s s' : sinv G s -> inner G s -> fc s -> (slast s <= nvars s)%nat ->
  prop_check srt O cfg chk sol fuel m bound s = Some (Ok tt, s') -> kept s s'.
Proof.
  intros S I F SL E. unfold prop_check in E. set (q := match m with Some (c, m) => check_minimize c m bound (dlevel O s) s | None => Ok s end) in E.
  destruct q as [s1|e|] eqn:Q; [|discriminate..].
  assert (A : fixed6 s s1 /\ sinv G s1 /\ dinv G s1 /\ cons s s1 /\ mb_le (mbound s) (mbound s1)).
  { unfold q in Q. destruct m as [[c m]|].
    - split; [now apply tg_minimize in Q|]. split; [now apply (minimize_sinv G c m bound (dlevel O s) s s1 S)|]. split; [apply (dinv_minimize G c m bound (dlevel O s) s s1 (in_dinv _ _ _ _ _ _ I) Q)|].
      split; [now apply cons_minimize in Q|now apply minimize_mb in Q].
    - injection Q as <-. split; [apply fixed6_refl|]. split; auto. split; [apply I|]. split; [apply cons_refl|apply mb_le_refl]. }
  destruct A as (A1 & A2 & A3 & A4 & A5). assert (I1 : inner G s1) by (apply (inner_fixed6 G s); auto; apply A2).
  assert (F1 : fc s1) by (apply fc_tg with s; auto using tg_fixed6).
  assert (LIFT : forall s2, kept s1 s2 -> kept s s2).
  { intros s2 [K1 K2 K3 K4]. constructor; auto.
    - apply step_seq with s1; auto; [apply (inner_dep G s _ I)|now apply fixed6_step].
    - rewrite <- (fixed6_cur _ _ A1). destruct A1 as (V & _). intros L. destruct (K3 L) as [X Y]. rewrite V in X. split; auto. intros x w l. rewrite <- V. apply Y.
    - destruct (mbound s) as [b|]; [|exact Logic.I]. destruct A5 as (b1 & B1 & L1). rewrite B1 in K4. destruct K4 as (b2 & B2 & L2). exists b2. split; auto. lia. }
  destruct (solver_check srt O cfg chk fuel s1) as [[o2 s2]|] eqn:C; [|discriminate].
  assert (K : forall b, o2 = Ok b -> kept s1 s2).
  { intros b ->. unfold solver_check in C. destruct (_ && _) in C.
    - injection C as <- <-. constructor; [apply I1|apply fixed6_step, fixed6_refl|auto using grow_refl|apply mb_le_refl].
    - now apply (loop_keep G fuel s1 b). }
  destruct o2 as [b|e|]; [|discriminate..]. specialize (K b eq_refl). destruct b; [|injection E as <-; auto].
  destruct (_ && _) in E; [|injection E as <-; auto]. injection E as E.
  apply LIFT. apply kept_free with s2; auto; [apply (inner_dep G s1 _ I1)|].
  destruct (tg_check srt O cfg chk fuel s1 (Ok true) s2 C) as (T & _).
  apply full_free with (Ok tt); auto; [apply K| |].
  - rewrite (tg_nv _ _ _ T). apply (tg_last _ _ _ T). destruct A1 as (_ & _ & _ & _ & _ & R). injection R as _ R1 R2. now rewrite R1, R2.
  - pose proof (tg_nxt _ _ _ T). pose proof (rd_nxt _ _ _ (in_ready _ _ _ _ _ _ I1)). lia.
Qed.
End Keep.
