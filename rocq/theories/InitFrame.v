(** Steps of the initialisation as steps of a history. *)
From Verif Require Import Base Util UtilProofs IntervalSet IntervalSetProofs VarState VarStateProofs Terms TermsSpec TermsProofs Solver OrderSpec
  OrderProofs1 OrderProofs2 OrderProofs3 OrderProofs5 OrderProofs6 OrderProofs7 OrderProofs8 Sum PropProofs ConSpec SumProofs SumProofs2 Translate TranslateProofs
  Distinct DistinctProofs DistinctProofs2 Objective ObjectiveProofs Search SearchSpec SearchFrame SearchGrow SearchInv5 SearchSetup Builder BuilderSpec BuilderProofs
  Translation TranslationSpec TranslationProofs TranslationProofs2.
Open Scope Z_scope.

(** Variables with at most one value get no order literals. *)
Definition deg (s s' : state) : Prop := forall x, maxb (vst s x) <= minb (vst s x) -> vst s' x = vst s x.
Lemma deg_refl s : deg s s.
Proof. now intros x. Qed.
Lemma deg_trans s s1 s2 : deg s s1 -> deg s1 s2 -> deg s s2.
Proof. intros A B x H. rewrite <- (A x H). apply B. now rewrite (A x H). Qed.
Lemma deg_vst s s' : vst s' = vst s -> deg s s'.
Proof. intros E x _. now rewrite E. Qed.
Definition fd (s s' : state) : Prop := fr s s' /\ deg s s'.
Lemma fd_refl s : fd s s.
Proof. split; [apply fr_refl|apply deg_refl]. Qed.
Lemma fd_trans s s1 s2 : fd s s1 -> fd s1 s2 -> fd s s2.
Proof. intros [A1 A2] [B1 B2]. split; [now apply fr_trans with s1|now apply deg_trans with s1]. Qed.

Inductive mv (s : state) : state -> Prop :=
| mv_refl : mv s s
| mv_lits s1 s2 : mv s s1 -> fd s1 s2 -> mv s s2
| mv_var mn mx s1 : mv s s1 -> MIN_VAL <= mn -> mn <= mx -> mx <= MAX_VAL -> mv s (snd (add_variable mn mx s1))
| mv_con c d s1 : mv s s1 -> Forall (fun x => x < nvars s1)%nat (cvars d) -> mv s (add_constraint c d s1)
| mv_det rm s1 : mv s s1 -> mv s (remove_constraints rm s1)
| mv_tmin s1 : mv s s1 -> mv s (set_tmin true s1).
Lemma mv_trans s s1 s2 : mv s s1 -> mv s1 s2 -> mv s s2.
Proof.
  intros A B. induction B as [|u v B IH F|mn mx u B IH M1 M2 M3|c d u B IH F|rm u B IH|u B IH]; auto.
  - now apply mv_lits with u.
  - apply mv_var; auto.
  - apply mv_con; auto.
  - apply mv_det; auto.
  - apply mv_tmin; auto.
Qed.
Lemma mv_fd s s' : fd s s' -> mv s s'.
Proof. apply mv_lits, mv_refl. Qed.
Lemma mv_emit e s : within e -> mv s (emit e s).
Proof. intros W. apply mv_fd. split; [split; [apply only_emit|now apply wgrow_emit]|]. now apply deg_vst. Qed.
Lemma mv_variable mn mx s : MIN_VAL <= mn -> mn <= mx -> mx <= MAX_VAL -> mv s (snd (add_variable mn mx s)).
Proof. apply mv_var, mv_refl. Qed.
Definition fits_var (a : Z * Z) : Prop := MIN_VAL <= fst a /\ fst a <= snd a /\ snd a <= MAX_VAL.

(** ** Frames of translations *)
Section Frames.
Context (O : oracle) (cfg : config).
Lemma store_deg x v l s u : vst u = vst s -> (minb (vst s x) <= v < maxb (vst s x)) -> deg s (store_lit x v l u).
Proof.
  intros E B y H. unfold store_lit. cbn. unfold upd. destruct (Nat.eqb_spec y x) as [->|N]; [lia|now rewrite E].
Qed.
Lemma deg_get x v s : deg s (snd (get_literal cfg x v s)).
Proof.
  unfold get_literal. destruct (v <? minb (vst s x)) eqn:A; [apply deg_refl|]. destruct (maxb (vst s x) <=? v) eqn:B; [apply deg_refl|].
  destruct (vfind _ _); [apply deg_refl|]. cbn [add_literal]. set (l := if _ <=? _ then _ else _). cbn [snd].
  set (u := emit _ _). assert (Eu : vst u = vst s) by reflexivity. clearbody u.
  apply deg_trans with (store_lit x v l u); [apply store_deg; auto; lia|]. apply deg_vst.
  unfold litmap_add. pose proof (litmap_vst x l v (store_lit x v l u)) as Q. destruct (update_litmap _ _ _ _) as [[p n] s1]. exact Q.
Qed.
Lemma deg_upd x v t s : deg s (snd (update_literal O cfg x v t s)).
Proof.
  unfold update_literal.
  assert (F : forall t, deg s (snd (if (0 <? dlevel O s)%nat then get_literal cfg x v s else if v <? minb (vst s x) then (- TRUE_LIT, s) else if maxb (vst s x) <=? v then (TRUE_LIT, s) else
     match vfind (vst s x) v with Some l => (l, s) | None => let l := match t with TTrue => TRUE_LIT | _ => - TRUE_LIT end in let s := store_lit x v l s in
        let '((p, n), s) := update_litmap x l v s in (l, push_fact (mkf l x v (match t with TTrue => n | _ => p end)) s) end))).
  { intros t'. destruct (0 <? _)%nat; [apply deg_get|]. destruct (v <? minb (vst s x)) eqn:A; [apply deg_refl|]. destruct (maxb (vst s x) <=? v) eqn:B; [apply deg_refl|].
    destruct (vfind _ _); [apply deg_refl|]. cbv zeta. set (l := match t' with TTrue => _ | _ => _ end). 
    apply deg_trans with (store_lit x v l s); [apply store_deg; auto; lia|]. apply deg_vst.
    pose proof (litmap_vst x l v (store_lit x v l s)) as Q. destruct (update_litmap _ _ _ _) as [[p n] s1]. exact Q. }
  destruct t; [apply (F TTrue)|apply (F TFalse)|apply deg_get].
Qed.
Lemma fd_get x v s : fd s (snd (get_literal cfg x v s)).
Proof. split; [apply fr_get|apply deg_get]. Qed.
Lemma fd_upd x v t s : fd s (snd (update_literal O cfg x v t s)).
Proof. split; [apply fr_upd|apply deg_upd]. Qed.
Lemma fd_clause t c s : fd s (snd (add_clause O t c s)).
Proof. split; [apply fr_clause|now apply deg_vst]. Qed.
Lemma fd_literal s : fd s (snd (add_literal s)).
Proof. split; [apply fr_literal|now apply deg_vst]. Qed.
Lemma mv_get x v s : mv s (snd (get_literal cfg x v s)).
Proof. apply mv_fd, fd_get. Qed.
Lemma mv_clause t c s : mv s (snd (add_clause O t c s)).
Proof. apply mv_fd, fd_clause. Qed.
Lemma mv_literal s : mv s (snd (add_literal s)).
Proof. apply mv_fd, fd_literal. Qed.
Lemma mv_weight l wl b s : mv s (snd (add_weight O l wl b s)).
Proof. unfold add_weight. destruct (is_false _ _ _); [apply mv_refl|now apply mv_emit]. Qed.

Ltac step H E := match type of E with
  | get_literal _ ?x ?v ?s = (_, ?s1) => assert (H : mv s s1) by (pose proof (mv_get x v s) as HH; rewrite E in HH; exact HH)
  | add_clause _ ?t ?c ?s = (_, ?s1) => assert (H : mv s s1) by (pose proof (mv_clause t c s) as HH; rewrite E in HH; exact HH)
  | add_literal ?s = (_, ?s1) => assert (H : mv s s1) by (pose proof (mv_literal s) as HH; rewrite E in HH; exact HH)
  | add_weight _ ?l ?wl ?b ?s = (_, ?s1) => assert (H : mv s s1) by (pose proof (mv_weight l wl b s) as HH; rewrite E in HH; exact HH)
  end.

Lemma mv_weight_vals co x vs : forall s, mv s (snd (weight_vals cfg co x vs s)).
Proof.
  induction vs as [|i r IH]; intros s; cbn [weight_vals]; [apply mv_refl|].
  destruct (get_literal cfg x i s) as [g s1] eqn:E1. step H1 E1. specialize (IH s1). destruct (weight_vals cfg co x r s1) as [wl s2]. cbn [snd] in *. now apply mv_trans with s1.
Qed.
Lemma mv_weight_lits slack es : forall s, mv s (snd (weight_lits cfg slack es s)).
Proof.
  induction es as [|[co x] r IH]; intros s; cbn [weight_lits]; [apply mv_refl|].
  match goal with |- context [weight_vals cfg co x ?vs s] => pose proof (mv_weight_vals co x vs s) as H1; destruct (weight_vals cfg co x vs s) as [w1 s1] end.
  specialize (IH s1). destruct (weight_lits cfg slack r s1) as [w2 s2]. cbn [snd] in *. now apply mv_trans with s1.
Qed.
Lemma mv_weight_translate l es slack s : mv s (snd (weight_translate O cfg l es slack s)).
Proof.
  unfold weight_translate. pose proof (mv_weight_lits slack es s) as H1. destruct (weight_lits cfg slack es s) as [wl s1]. cbn [snd] in H1.
  destruct (_ && _); [|exact H1]. destruct (add_weight O l wl slack s1) as [ok s2] eqn:E. step H2 E. cbn [snd]. now apply mv_trans with s1.
Qed.
Lemma mv_vloop f co x d n : (forall l a b s, mv s (snd (f l a b s))) -> forall w lower upper s, mv s (snd (vloop cfg f co x d n w lower upper s)).
Proof.
  intros F. induction n as [|n IH]; intros w lower upper s; cbn [vloop]; [apply mv_refl|].
  destruct (get_literal cfg x w s) as [g s1] eqn:E1. step H1 E1.
  pose proof (F (if 0 <? co then g else - g) lower upper s1) as H2. destruct (f _ lower upper s1) as [[[|]| |] s2]; cbn [snd] in *; try now apply mv_trans with s1.
  apply mv_trans with s1; auto. apply mv_trans with s2; auto.
Qed.
Lemma mv_clause_elems lo es : forall cl lower upper s, mv s (snd (clause_elems O cfg lo es cl lower upper s)).
Proof.
  induction es as [|[co x] r IH]; intros cl lower upper s; cbn [clause_elems].
  - destruct (lower <? 0); [|apply mv_refl]. destruct lo; [apply mv_refl|]. destruct (add_clause O Learnt cl s) as [ok s1] eqn:E. step H E. exact H.
  - destruct (lower <? 0).
    { destruct lo; [apply mv_refl|]. destruct (add_clause O Learnt cl s) as [ok s1] eqn:E. step H E. exact H. }
    destruct (0 <? co); apply mv_vloop; intros l a b s1; apply IH.
Qed.
Lemma mv_translate_sum w cl lo k s : mv s (snd (translate_sum O cfg w cl lo k s)).
Proof.
  unfold translate_sum. destruct (c_def k); try apply mv_refl. destruct (_ || _); [apply mv_refl|]. destruct w.
  { match goal with |- context [weight_translate O cfg ?l ?es ?b s] => pose proof (mv_weight_translate l es b s) as H; destruct (weight_translate O cfg l es b s) end. exact H. }
  destruct cl; [|apply mv_refl]. unfold clause_translate.
  match goal with |- context [clause_elems O cfg ?a ?b ?c ?d ?e s] => pose proof (mv_clause_elems a b c d e s) as H; destruct (clause_elems O cfg a b c d e s) as [[| |] s1] end; exact H.
Qed.
Lemma mv_dist_lit v de s : mv s (snd (dist_lit O cfg v de s)).
Proof.
  unfold dist_lit. destruct de as [[f c] [x|]]; [|apply mv_refl].
  destruct (get_literal cfg x _ s) as [a s1] eqn:E1. step H1 E1. destruct (get_literal cfg x _ s1) as [b s2] eqn:E2. step H2 E2.
  assert (H12 : mv s s2) by now apply mv_trans with s1. destruct (a =? _); [exact H12|]. destruct (- b =? _); [exact H12|].
  destruct (add_literal s2) as [l s3] eqn:E3. step H3 E3. assert (H13 : mv s s3) by now apply mv_trans with s2.
  destruct (add_clause O Learnt _ s3) as [ok1 s4] eqn:E4. step H4 E4. assert (H14 : mv s s4) by now apply mv_trans with s3. destruct ok1; [|exact H14].
  destruct (add_clause O Learnt _ s4) as [ok2 s5] eqn:E5. step H5 E5. assert (H15 : mv s s5) by now apply mv_trans with s4. destruct ok2; [|exact H15].
  destruct (add_clause O Learnt _ s5) as [ok3 s6] eqn:E6. step H6 E6. cbn [snd]. now apply mv_trans with s5.
Qed.
Lemma mv_dist_wlits v l : forall s, mv s (snd (dist_wlits O cfg v l s)).
Proof.
  induction l as [|[d de] r IH]; intros s; cbn [dist_wlits]; [apply mv_refl|]. destruct (contains d v); [|apply IH].
  pose proof (mv_dist_lit v de s) as H1. destruct (dist_lit O cfg v de s) as [[ok l] s1]. cbn [snd] in H1. destruct ok; [|exact H1].
  specialize (IH s1). destruct (dist_wlits O cfg v r s1) as [[ok wl] s2]. cbn [snd] in *. now apply mv_trans with s1.
Qed.
Lemma mv_dist_weights clit l cnt : forall s, mv s (snd (dist_weights O cfg clit cnt l s)).
Proof.
  induction cnt as [|[v n] r IH]; intros s; cbn [dist_weights]; [apply mv_refl|]. destruct (n <=? 1)%nat; [apply IH|].
  pose proof (mv_dist_wlits v l s) as H1. destruct (dist_wlits O cfg v l s) as [[ok wl] s1]. cbn [snd] in H1. destruct ok; [|exact H1].
  destruct (add_weight O clit wl 1 s1) as [ok s2] eqn:E2. step H2 E2. assert (H12 : mv s s2) by now apply mv_trans with s1. destruct ok; [|exact H12].
  apply mv_trans with s2; auto.
Qed.
Lemma mv_dist_var e a s : fits_var a -> mv s (snd (dist_var e a s)).
Proof.
  intros (A1 & A2 & A3). unfold dist_var. pose proof (mv_variable (fst a) (snd a) s A1 A2 A3) as H. cbn [add_variable] in *. destruct (snd e) as [|[co x] [|]]; try exact H. apply mv_refl.
Qed.
Lemma mv_dist_vars cnt l : forall s, Forall (fun q => fits_var (snd (fst q))) l -> mv s (snd (dist_vars cnt l s)).
Proof.
  induction l as [|[[e a] d] r IH]; intros s F; cbn [dist_vars]; [apply mv_refl|]. inversion_clear F as [|? ? F1 F2]. cbn [fst snd] in F1.
  destruct (if _ && _ then dist_var e a s else _) as [[de cs] s1] eqn:E.
  assert (H : mv s s1). { destruct (_ && _); [pose proof (mv_dist_var e a s F1) as H; rewrite E in H; exact H|]. injection E as _ _ <-. apply mv_refl. }
  specialize (IH s1 F2). destruct (dist_vars cnt r s1) as [[des css] s2]. cbn [snd] in *. now apply mv_trans with s1.
Qed.
Lemma mv_translate_distinct limit k s : (forall a, In a (c_asg k) -> fst a <= snd a) -> mv s (snd (translate_distinct O cfg limit k s)).
Proof.
  intros HA. unfold translate_distinct. destruct (c_def k); try apply mv_refl. destruct (negb _) eqn:Est; [apply mv_refl|]. cbv zeta.
  assert (FV : forall a, In a (c_asg k) -> fits_var a).
  { apply negb_false_iff in Est. unfold dist_estimate in Est. apply andb_true_iff in Est as [Est _]. rewrite forallb_forall in Est. intros a Ha. specialize (Est a Ha). specialize (HA a Ha). repeat split; lia. }
  match goal with |- context [dist_vars ?c ?l s] => pose proof (mv_dist_vars c l s) as H1; destruct (dist_vars c l s) as [[des cs] s1] end. cbn [snd] in H1.
  match goal with |- context [dist_weights O cfg ?a ?b ?c s1] => pose proof (mv_dist_weights a c b s1) as H2; destruct (dist_weights O cfg a b c s1) as [ok s2] end.
  cbn [snd] in *. apply mv_trans with s1; auto. apply H1. apply Forall_forall. intros [[e a] d] Hq. apply in_combine_l in Hq. cbn [fst snd]. apply FV. now apply in_combine_r in Hq.
Qed.
Lemma mv_min_values co x vs : forall s, mv s (min_values cfg co x vs s).
Proof.
  induction vs as [|v r IH]; intros s; cbn [min_values]; [apply mv_refl|]. destruct (get_literal cfg x v s) as [l s1] eqn:E1. step H1 E1.
  apply mv_trans with s1; auto. apply mv_trans with (emit (EMin (- l) co 0) s1); [now apply mv_emit|]. apply IH.
Qed.
Lemma mv_min_elems es : forall s s', min_elems cfg es s = Ok s' -> mv s s'.
Proof.
  induction es as [|[co x] r IH]; intros s s' E; cbn [min_elems] in E; [injection E as <-; apply mv_refl|].
  apply bind_ok in E as (p & Ep & E). apply IH in E. eapply mv_trans; [|exact E]. eapply mv_trans; [|apply mv_min_values]. now apply mv_emit.
Qed.
Lemma mv_translate_min limit m s b s' : translate_minimize cfg limit m s = Ok (b, s') -> mv s s'.
Proof.
  unfold translate_minimize. destruct (_ || _); [|intros E; injection E as _ <-; apply mv_refl]. intros E. apply bind_ok in E as (s1 & E1 & E). injection E as _ <-.
  apply mv_min_elems in E1. eapply mv_trans; [|exact E1]. apply mv_trans with (set_tmin true s); [|now apply mv_emit].
  apply mv_tmin, mv_refl.
Qed.
End Frames.
