(** States of the solver in which a search can start. *)
From Verif Require Import Base Util UtilProofs IntervalSet IntervalSetProofs VarState VarStateProofs Terms TermsSpec TermsProofs Solver OrderSpec
  OrderProofs1 OrderProofs2 OrderProofs3 OrderProofs5 OrderProofs6 OrderProofs7 OrderProofs8 Orders Sum PropProofs ConSpec SumProofs SumProofs2 Translate TranslateProofs
  Distinct DistinctProofs DistinctProofs2 Objective ObjectiveProofs Search SearchSpec SearchFrame SearchGrow SearchInv SearchInv3 SearchInv4 SearchInv5 SearchSetup SearchMain
  Builder BuilderSpec BuilderProofs Translation TranslationSpec TranslationProofs TranslationProofs2 CheckSpec CheckFrame InitFrame.
Open Scope Z_scope.

Section Ready.
Context (srt : (ival -> Z) -> list ival -> list ival) (O : oracle) (cfg : config) (chk sol : bool).
Definition asked (s : state) (l : lit) : Prop := In (EWatch l) (log s).
Record ready (s : state) : Prop := {
  rd_reach : reachable srt chk sol O cfg s;
  rd_level : cur_level s = 0%nat;
  rd_settled : settled s;
  rd_vars : forall x, (nvars s <= x)%nat -> lits (vst s x) = [] /\ ub (vst s x) <= lb (vst s x);
  rd_last : (slast s <= nvars s)%nat;
  rd_range : forall x, MIN_VAL <= lb (vst s x) /\ ub (vst s x) <= MAX_VAL;
  rd_watch : forall x w l, In (w, l) (lits (vst s x)) -> Z.abs l <> 1 -> asked s l /\ asked s (- l) }.

Lemma top_stacks s : reachable srt chk sol O cfg s -> cur_level s = 0%nat -> forall x, lbs (vst s x) = [] /\ ubs (vst s x) = [].
Proof.
  intros R L x. destruct (reachable_sinv srt chk sol O cfg s R) as (G & [C _]). apply (core_cur G s C) in L as E0. subst G. destruct C as [B _].
  split; [destruct (lbs (vst s x)) as [|p r] eqn:E|destruct (ubs (vst s x)) as [|p r] eqn:E]; auto; exfalso;
    pose proof (b_stk _ B x p) as Q; rewrite E, L in Q; [specialize (Q (or_introl (or_introl eq_refl)))|specialize (Q (or_intror (or_introl eq_refl)))]; lia.
Qed.
Lemma ready_out s : ready s -> wf s -> out s.
Proof.
  intros R [W _]. constructor.
  - intros k q E. unfold key in E. destruct (lmap s k) as [e|] eqn:M; [|discriminate]. injection E as <-. cbn. apply (wf_lmap _ W) in M. tauto.
  - intros x L. destruct (rd_vars _ R x L) as (A & B). destruct (top_stacks s (rd_reach _ R) (rd_level _ R) x) as (C & D). auto.
Qed.
Lemma ready_started s : ready s -> wf s -> started srt O cfg chk sol (asked s) s.
Proof. intros [A B C D E F G] W. now constructor. Qed.

Lemma ready_init n : ready (set_nxt n init_state).
Proof.
  constructor; try reflexivity; try (intros; cbn; auto; lia).
  - apply re_step with init_state; [apply re_init|]. apply cb_literals; [reflexivity|]. repeat split.
  - repeat split.
  - intros x _. cbn. split; [reflexivity|lia].
Qed.
Lemma ready_fd s s' : fd s s' -> ready s -> ready s'.
Proof.
  intros [[LO WG] DG] [A B C D E F G]. pose proof LO as (S3 & CS & IN). pose proof (proj2 S3) as VB.
  assert (Q : lvls s' = lvls s /\ nvars s' = nvars s /\ slast s' = slast s /\ (inl s', inu s', ldiff s', udiff s') = (inl s, inu s, ldiff s, udiff s)).
  { split; [now apply (same3_get lvls)|]. split; [now apply (same3_get nvars)|]. split; [now apply (same3_get slast)|]. now apply (same3_get (fun s => (inl s, inu s, ldiff s, udiff s))). }
  destruct Q as (Q1 & Q2 & Q3 & Q4). injection Q4 as Q4 Q5 Q6 Q7.
  assert (LU : forall x, lb (vst s' x) = lb (vst s x) /\ ub (vst s' x) = ub (vst s x)) by (intros x; specialize (VB x); unfold vbounds in VB; injection VB; auto).
  constructor.
  - apply re_step with s; auto. now apply cb_literals.
  - unfold cur_level in *. now rewrite Q1.
  - unfold settled. rewrite Q4, Q5, Q6, Q7. exact C.
  - intros x L. rewrite Q2 in L. destruct (D x L) as (D1 & D2). destruct (top_stacks s A B x) as (X1 & X2).
    rewrite (DG x); [auto|]. unfold minb, maxb. rewrite X1, X2. exact D2.
  - rewrite Q2, Q3. exact E.
  - intros x. destruct (LU x) as [-> ->]. apply F.
  - destruct WG as ((es & L & _) & W). intros x w l I N. apply W in I as [I|[I|I]]; [|lia|exact I].
    unfold asked in *. rewrite L. destruct (G x w l I N). split; apply in_or_app; now right.
Qed.
Lemma removal_slast rm s : slast (remove_constraints rm s) = slast s.
Proof.
  unfold remove_constraints. cbv zeta. cbn.
  assert (F : forall (f : state -> cid -> state) l, (forall s c, slast (f s c) = slast s) -> forall s, slast (fold_left f l s) = slast s).
  { intros f l H. induction l as [|c l IH]; intros u; [reflexivity|]. cbn [fold_left]. rewrite IH. apply H. }
  rewrite F by (intros u c; unfold clear_todo; now destruct (css u c)). cbn. rewrite F by (intros u c; unfold activate; now destruct (css u c)). reflexivity.
Qed.
Lemma ready_variable mn mx s : MIN_VAL <= mn -> mn <= mx -> mx <= MAX_VAL -> ready s -> ready (snd (add_variable mn mx s)).
Proof.
  intros M1 M2 M3 [A B C D E F G]. constructor.
  - apply re_step with s; auto. now apply cb_variable.
  - exact B.
  - destruct C as (C1 & C2 & C3). repeat split; auto; cbn; unfold upd; destruct (Nat.eqb_spec x (nvars s)); auto; apply C3.
  - intros x L. change (S (nvars s) <= x)%nat in L. cbn. unfold upd. destruct (Nat.eqb_spec x (nvars s)) as [->|]; [lia|]. apply D. lia.
  - change (slast s <= S (nvars s))%nat. lia.
  - intros x. cbn. unfold upd. destruct (Nat.eqb_spec x (nvars s)) as [->|]; [now split|apply F].
  - intros x w l. cbn. unfold upd. destruct (Nat.eqb_spec x (nvars s)) as [->|]; [easy|apply G].
Qed.
Lemma add_con_slast c d s : slast (add_constraint c d s) = slast s.
Proof.
  unfold add_constraint. destruct (css s c); [reflexivity|]. cbv zeta. set (s1 := set_l2c _ _). destruct (add_watches_spec c (cs_watches d) s1) as [F _]. set (s2 := fold_left _ _ _) in *.
  unfold mark_todo. repeat match goal with |- context [match ?q with _ => _ end] => destruct q end; try (rewrite F; reflexivity); cbn; rewrite F; reflexivity.
Qed.
Lemma ready_con c d s : Forall (fun x => x < nvars s)%nat (cvars d) -> ready s -> ready (add_constraint c d s).
Proof.
  intros V R. destruct (css s c) as [k|] eqn:K; [unfold add_constraint; now rewrite K|].
  destruct (add_con_state c d s K) as (E1 & E2 & E3 & E4 & E5 & E6 & E7 & E8 & E9 & E10). destruct R as [A B C D E F G]. constructor.
  - apply re_step with s; auto. now apply cb_constraint.
  - unfold cur_level in *. now rewrite E7.
  - auto.
  - rewrite E1, E4. exact D.
  - rewrite E4, add_con_slast. exact E.
  - rewrite E1. exact F.
  - unfold asked. rewrite E1, E2. exact G.
Qed.
Lemma ready_det rm s : ready s -> ready (remove_constraints rm s).
Proof.
  intros [A B C D E F G]. destruct (removal_ok rm s) as (Q & Q1 & _). pose proof (removal_slast rm s) as SL.
  assert (RE : reachable srt chk sol O cfg (remove_constraints rm s)) by (apply re_step with s; auto; now apply cb_detach).
  set (s' := remove_constraints rm s) in *. clearbody s'. injection Q as E1 E2 E3 E4 E5 E6 E7. constructor.
  - exact RE.
  - unfold cur_level in *. now rewrite E7.
  - auto.
  - rewrite E1, E4. exact D.
  - rewrite E4, SL. exact E.
  - rewrite E1. exact F.
  - unfold asked. rewrite E1, E2. exact G.
Qed.
Lemma ready_tmin s : ready s -> ready (set_tmin true s).
Proof. intros [A B C D E F G]. constructor; auto. apply re_step with s; auto. now apply cb_translated. Qed.
Lemma mv_ready s s' : mv s s' -> ready s -> ready s'.
Proof.
  intros M R. induction M as [|s1 s2 M IH F|mn mx s1 M IH M1 M2 M3|c d s1 M IH F|rm s1 M IH|s1 M IH]; auto.
  - now apply ready_fd with s1.
  - now apply ready_variable.
  - now apply ready_con.
  - now apply ready_det.
  - now apply ready_tmin.
Qed.
End Ready.

(** ** The translation *)
Section Translation.
Context (O : oracle) (cfg : config) (Base : interp -> Prop) (n0 : Z) (BO : base_ok Base n0) (CO : clasp_ok O Base).
Context (dlimit mlimit : Z) (order : bool) (ch : cid -> choice).
Lemma current_asg s k l es : c_def k = CDistinct l es -> current O s k -> (forall x, (x < nvars s)%nat -> lb (vst s x) <= ub (vst s x)) ->
  Forall (fun x => x < nvars s)%nat (cvars (c_def k)) -> forall a, In a (c_asg k) -> fst a <= snd a.
Proof.
  intros D C B V. unfold current in C. rewrite D in C, V. cbn [cvars] in V. destruct C as [_ C].
  assert (LE : forall e, In e es -> fst (dist_init s e) <= snd (dist_init s e)).
  { intros e He. unfold dist_init. cbn [fst snd]. assert (Q : sum_lo s (snd e) <= sum_hi s (snd e)); [|lia].
    apply sum_lo_hi. apply Forall_forall. intros x Hx. apply B. rewrite Forall_forall in V. apply V. apply in_concat. exists (map snd (snd e)). split; [|exact Hx]. now apply (in_map (fun e : delem => map snd (snd e))). }
  destruct C as [->|[_ F]].
  - intros a Ha. apply in_map_iff in Ha as (e & <- & He). now apply LE.
  - clear V D. revert LE F. generalize (c_asg k). intros asg0 LE F. induction F as [|a e asg es' Q F IH]; [easy|]. intros a' [<-|Ha].
    + pose proof (LE e (or_introl eq_refl)). lia.
    + apply IH; auto. intros e' He. apply LE. now right.
Qed.
Lemma mv_translate1 c d k s q s' : top_ready O n0 s -> con_ok (nxt s) (nvars s) d -> css s c = Some k -> c_def k = d -> current O s k ->
  translate1 O cfg dlimit mlimit ch c s = (q, s') -> (forall e, q <> Throw e) -> q <> UB -> mv s s'.
Proof.
  intros R [_ V] K D C E NT NU. unfold translate1 in E. rewrite K in E. destruct (c_def k) as [l rhs es|ad es|l es|l es|l ca x y cb z rhs] eqn:DK.
  - pose proof (mv_translate_sum O cfg (ch_weight (ch c)) (ch_clauses (ch c)) (ch_literals (ch c)) k s) as H.
    destruct (translate_sum _ _ _ _ _ _ _) as [[p|e|] s1]; injection E as <- <-; exact H.
  - destruct (translate_minimize cfg mlimit (ad, es) s) as [[b s1]|e|] eqn:M; injection E as <- <-; [|now elim (NT e)|easy]. now apply mv_translate_min in M.
  - pose proof (mv_translate_distinct O cfg dlimit k s) as H. rewrite E in H. apply H. rewrite <- DK in D. apply (current_asg s k l es); auto.
    + apply R.
    + now rewrite D.
  - injection E as <- <-. apply mv_refl.
  - injection E as <- <-. apply mv_refl.
Qed.
Lemma mv_tloop b n : forall w r w', winv O Base n0 b w -> tloop O cfg dlimit mlimit ch n w = Some (Ok r, w') -> mv (w_s w) (w_s w').
Proof.
  induction n as [|n IH]; intros [kp rm rest id s] r w' W E; cbn [tloop w_rest w_kept w_rm w_id w_s] in *.
  { destruct rest as [|[c d] rest]; [|discriminate]. injection E as <- <-. apply mv_refl. }
  destruct rest as [|[c d] rest]; [injection E as <- <-; apply mv_refl|].
  destruct (winv_add O Base n0 b kp rm c d rest id s W) as (W1 & k & K1 & K2 & K3). set (s1 := add_constraint c d s) in *.
  assert (NV : nvars s1 = nvars s). { unfold s1. destruct (css s c) eqn:K; [unfold add_constraint; now rewrite K|]. now destruct (add_con_state c d s K) as (_ & _ & _ & Q & _). }
  destruct (translate1 O cfg dlimit mlimit ch c s1) as [q s2] eqn:E1.
  assert (Co : con_ok (nxt s1) (nvars s1) d). { pose proof (ws_con _ _ _ (wi_sem _ _ _ _ _ W1)) as Q. unfold all in Q. cbn [w_kept w_rm w_rest w_s] in Q. rewrite !Forall_app in Q. destruct Q as (_ & _ & Q). now inversion_clear Q. }
  pose proof (translate1_ok O cfg Base n0 BO CO dlimit mlimit ch c d k s1 (wi_top _ _ _ _ _ W1) (wi_f _ _ _ _ _ W1) Co K1 K2 K3 q s2 E1) as T.
  destruct q as [[[ok r1] cs]|e|]; try discriminate.
  assert (M : mv s s2).
  { apply mv_trans with s1; [apply mv_con; [apply mv_refl|]; rewrite <- NV; apply Co|]. apply (mv_translate1 c d k s1 (Ok (ok, r1, cs)) s2); auto; try discriminate. apply (wi_top _ _ _ _ _ W1). }
  assert (Kc : css s1 c <> None) by congruence.
  destruct (winv_step O Base n0 CO ch b kp rm c d rest id s1 s2 ok r1 cs W1 Kc T) as [S1 S2]. destruct ok; cbn [negb] in E; [|injection E as <- <-; exact M].
  specialize (S2 eq_refl). apply mv_trans with s2; [exact M|]. destruct r1; exact (IH _ _ _ S2 E).
Qed.
Lemma mv_orders1 m : forall prev s, mv s (snd (order_clauses1 O prev m s)).
Proof.
  induction m as [|[w l] m IH]; intros prev s; cbn [order_clauses1]; [apply mv_refl|]. destruct (_ =? _); [apply IH|].
  pose proof (mv_clause O Learnt [- prev; l] s) as H. destruct (add_clause O Learnt [- prev; l] s) as [ok s1]. cbn [snd] in H. destruct ok; [|exact H]. apply mv_trans with s1; auto.
Qed.
Lemma mv_orders xs : forall s, mv s (snd (order_clauses O xs s)).
Proof.
  induction xs as [|x xs IH]; intros s; cbn [order_clauses]; [apply mv_refl|]. pose proof (mv_orders1 (lits (vst s x)) (- TRUE_LIT) s) as H.
  destruct (order_clauses1 _ _ _ _) as [ok s1]. cbn [snd] in H. destruct ok; [|exact H]. apply mv_trans with s1; auto.
Qed.
Lemma mv_translate n b r b' : translatable O n0 b -> solver_translate O cfg dlimit mlimit order ch n b = Some (Ok r, b') -> mv (b_s b) (b_s b').
Proof.
  intros T E. pose proof (start_inv O Base n0 b T) as W. unfold solver_translate in E.
  destruct (tloop O cfg dlimit mlimit ch n (mkw [] [] (b_cs b) (b_id b) (b_s b))) as [[q w]|] eqn:E1; [|discriminate].
  destruct q as [q|e|]; try discriminate. pose proof (mv_tloop b n _ _ _ W E1) as M. cbn [w_s] in M. destruct q.
  - match type of E with context [if order then order_clauses O (seq 0 (nvars ?q)) _ else _] => set (s1 := q) in E end.
    assert (M1 : mv (w_s w) s1). { unfold s1. destruct (w_rm w); [apply mv_refl|]. apply mv_det, mv_refl. }
    destruct (if order then order_clauses O (seq 0 (nvars s1)) s1 else (true, s1)) as [ok' s'] eqn:E2.
    assert (M2 : mv s1 s'). { destruct order; [|injection E2 as _ <-; apply mv_refl]. pose proof (mv_orders (seq 0 (nvars s1)) s1) as H. now rewrite E2 in H. }
    assert (E' : mkb s' (w_kept w) (w_id w) = b') by congruence. rewrite <- E'. cbn [b_s]. apply mv_trans with (w_s w); auto. now apply mv_trans with s1.
  - assert (E' : mkb (w_s w) (w_kept w ++ w_rm w ++ w_rest w) (w_id w) = b') by congruence. rewrite <- E'. exact M.
Qed.
End Translation.
