(** What init does with the objective function: it is translated or it stays. *)
From Verif Require Import Base Util VarState Terms TermsSpec Solver OrderSpec OrderProofs1 Sum PropProofs ConSpec Distinct Objective Search SearchSpec Builder BuilderSpec BuilderProofs
  Translation TranslationSpec TranslationProofs TranslationProofs2 Init InitSpec InitFrame InitReady.
Open Scope Z_scope.

Lemma tmin_activate cs : forall s, tmin (fold_left activate cs s) = tmin s.
Proof. induction cs as [|c cs IH]; intros s; [reflexivity|]. cbn [fold_left]. rewrite IH. unfold activate. destruct (css s c); reflexivity. Qed.
Lemma tmin_clear cs : forall s, tmin (fold_left clear_todo cs s) = tmin s.
Proof. induction cs as [|c cs IH]; intros s; [reflexivity|]. cbn [fold_left]. rewrite IH. unfold clear_todo. destruct (css s c); reflexivity. Qed.
Lemma tmin_removal rm s : tmin (remove_constraints rm s) = tmin s.
Proof. unfold remove_constraints. cbv zeta. cbn [tmin set_css set_l2c set_tod]. rewrite tmin_clear. cbn [tmin set_ina]. now rewrite tmin_activate. Qed.
Lemma tmin_add c d s : tmin (add_constraint c d s) = tmin s.
Proof.
  assert (W : forall ws s, tmin (fold_left (add_var_watch c) ws s) = tmin s) by (induction ws as [|w ws IH]; intros u; [reflexivity|]; cbn [fold_left]; now rewrite IH).
  assert (M : forall u, tmin (mark_todo c u) = tmin u) by (intros u; unfold mark_todo; destruct (css u c) as [k|]; [destruct (negb (marked_inactive k)), (c_todo k)|]; reflexivity).
  unfold add_constraint. destruct (css s c); [reflexivity|]. now rewrite M, W.
Qed.
Lemma tmin_mono s s' : mv s s' -> tmin s = true -> tmin s' = true.
Proof.
  induction 1 as [|s1 s2 _ IH [[[A _] _] _]|mn mx s1 _ IH M1 M2 M3|c d s1 _ IH F|rm s1 _ IH|s1 _ IH]; intros H; auto.
  - rewrite (same3_get tmin (fun _ => eq_refl) _ _ A). auto.
  - rewrite tmin_add. auto.
  - rewrite tmin_removal. auto.
Qed.

Section Objective.
Context (O : oracle) (cfg : config) (Base : interp -> Prop) (n0 : Z) (BO : base_ok Base n0) (CO : clasp_ok O Base).
Context (dlimit mlimit : Z) (order : bool) (ch : cid -> choice).

Lemma min_elems_tmin es : forall s s', min_elems cfg es s = Ok s' -> tmin s = true -> tmin s' = true.
Proof. intros s s' E. apply tmin_mono. now apply mv_min_elems in E. Qed.
Lemma translated_tmin c d k s rm cs s' : css s c = Some k -> c_def k = d -> translate1 O cfg dlimit mlimit ch c s = (Ok (true, rm, cs), s') ->
  (exists a es, d = CMin a es) -> rm = true -> tmin s' = true.
Proof.
  intros K D E (a & es & X) R. unfold translate1 in E. rewrite K, D, X in E. destruct (translate_minimize cfg mlimit (a, es) s) as [[b s1]|e|] eqn:M; try discriminate.
  injection E as E1 _ E3. subst b s1. rewrite R in M. unfold translate_minimize in M. destruct (_ || _); [|discriminate].
  destruct (min_elems _ _ _) as [s2|e|] eqn:Q; cbn [bind] in M; try discriminate. injection M as <-. now apply min_elems_tmin in Q.
Qed.
Lemma tloop_kept b n : forall w w', winv O Base n0 b w -> tloop O cfg dlimit mlimit ch n w = Some (Ok true, w') ->
  incl (w_kept w) (w_kept w') /\ forall c a es, In (c, CMin a es) (w_rest w) -> In (c, CMin a es) (w_kept w') \/ tmin (w_s w') = true.
Proof.
  induction n as [|n IH]; intros [kp rm rest id s] w' W E; cbn [tloop w_rest w_kept w_rm w_id w_s] in *.
  { destruct rest as [|[c d] rest]; [|discriminate]. injection E as <-. split; [apply incl_refl|easy]. }
  destruct rest as [|[c d] rest]; [injection E as <-; split; [apply incl_refl|easy]|].
  destruct (winv_add O Base n0 b kp rm c d rest id s W) as (W1 & k & K1 & K2 & K3). set (s1 := add_constraint c d s) in *.
  destruct (translate1 O cfg dlimit mlimit ch c s1) as [q s2] eqn:E1.
  assert (Co : con_ok (nxt s1) (nvars s1) d). { pose proof (ws_con _ _ _ (wi_sem _ _ _ _ _ W1)) as Q. unfold all in Q. cbn [w_kept w_rm w_rest w_s] in Q. rewrite !Forall_app in Q. destruct Q as (_ & _ & Q). now inversion_clear Q. }
  pose proof (translate1_ok O cfg Base n0 BO CO dlimit mlimit ch c d k s1 (wi_top _ _ _ _ _ W1) (wi_f _ _ _ _ _ W1) Co K1 K2 K3 q s2 E1) as T.
  destruct q as [[[ok r1] cs]|e|]; try discriminate. assert (Kc : css s1 c <> None) by congruence.
  destruct (winv_step O Base n0 CO ch b kp rm c d rest id s1 s2 ok r1 cs W1 Kc T) as [S1 S2]. destruct ok; cbn [negb] in E; [|discriminate]. specialize (S2 eq_refl).
  destruct r1.
  - destruct (IH _ _ S2 E) as [A B]. cbn [w_kept w_rest] in *. split; [exact A|]. intros c' a es [H|H]; [|apply B, in_or_app; now left]. injection H as -> ->. right.
    pose proof (mv_tloop O cfg Base n0 BO CO dlimit mlimit ch b n _ _ _ S2 E) as M. cbn [w_s] in M. apply (tmin_mono _ _ M). apply (translated_tmin c' _ k s1 true cs s2 K1 K2 E1); eauto.
  - destruct (IH _ _ S2 E) as [A B]. cbn [w_kept w_rest] in *. split; [intros p Hp; apply A, in_or_app; now left|]. intros c' a es [H|H]; [|apply B, in_or_app; now left]. injection H as -> ->. left.
    apply A, in_or_app. right. now left.
Qed.
Lemma translate_kept n b b' c a es : translatable O n0 b -> solver_translate O cfg dlimit mlimit order ch n b = Some (Ok true, b') ->
  In (c, CMin a es) (b_cs b) -> tmin (b_s b') = false -> In (c, CMin a es) (b_cs b').
Proof.
  intros T E H F. pose proof (start_inv O Base n0 b T) as W. pose proof (mv_translate O cfg Base n0 BO CO dlimit mlimit order ch n b true b' T E) as M. unfold solver_translate in E.
  destruct (tloop O cfg dlimit mlimit ch n (mkw [] [] (b_cs b) (b_id b) (b_s b))) as [[q w]|] eqn:E1; [|discriminate].
  destruct q as [[|]|e|]; try discriminate; cbn in E.
  destruct (tloop_kept b n _ _ W E1) as [_ K]. specialize (K c a es H).
  match type of E with context [if order then order_clauses O (seq 0 (nvars ?q)) _ else _] => set (s1 := q) in E end.
  assert (M1 : mv (w_s w) s1). { unfold s1. destruct (w_rm w); [apply mv_refl|]. apply mv_det, mv_refl. }
  destruct (if order then order_clauses O (seq 0 (nvars s1)) s1 else (true, s1)) as [ok' s'] eqn:E2.
  assert (M2 : mv s1 s'). { destruct order; [|injection E2 as _ <-; apply mv_refl]. pose proof (mv_orders O (seq 0 (nvars s1)) s1) as X. now rewrite E2 in X. }
  assert (E' : mkb s' (w_kept w) (w_id w) = b') by congruence. rewrite <- E' in F |- *. cbn [b_s b_cs] in *. destruct K as [K|K]; [exact K|].
  apply (tmin_mono _ _ M1) in K. apply (tmin_mono _ _ M2) in K. congruence.
Qed.
End Objective.
