From Verif Require Import Base Util UtilProofs IntervalSet IntervalSetProofs VarState VarStateProofs Terms TermsSpec TermsProofs Solver OrderSpec
  OrderProofs1 OrderProofs2 OrderProofs3 OrderProofs5 OrderProofs6 OrderProofs7 OrderProofs8 Sum PropProofs ConSpec SumProofs SumProofs2 Translate TranslateProofs
  Distinct DistinctProofs DistinctProofs2 Objective ObjectiveProofs Search SearchSpec SearchFrame SearchGrow SearchSetup Builder BuilderSpec BuilderProofs
  Translation TranslationSpec.
Open Scope Z_scope.

(** ** Frames *)
Definition keep (s : state) := (css s, ina s, tod s, l2c s, lvls s, mbound s, fmap s).
Record prep (s s' : state) : Prop := {
  pp_keep : keep s' = keep s;
  pp_grow : wgrow s s';
  pp_nv : (nvars s <= nvars s')%nat;
  pp_settled : settled s -> settled s';
  pp_bnds : forall x, (x < nvars s)%nat -> vbounds (vst s' x) = vbounds (vst s x) }.
Lemma prep_refl s : prep s s.
Proof. constructor; auto. apply wgrow_refl. Qed.
Lemma prep_trans s s1 s2 : prep s s1 -> prep s1 s2 -> prep s s2.
Proof.
  intros [A1 A2 A3 A4 A5] [B1 B2 B3 B4 B5]. constructor; auto; try lia.
  - now rewrite B1.
  - now apply wgrow_trans with s1.
  - intros x Hx. rewrite B5 by lia. auto.
Qed.
Lemma prep_same s s' : same s s' -> wgrow s s' -> prep s s'.
Proof.
  intros S W. constructor; auto.
  - exact (same_get keep ltac:(easy) s s' S).
  - now rewrite (same_get nvars ltac:(easy) s s' S).
  - intros H. unfold settled in *.
    rewrite (same_get inl ltac:(easy) s s' S), (same_get inu ltac:(easy) s s' S), (same_get ldiff ltac:(easy) s s' S), (same_get udiff ltac:(easy) s s' S). exact H.
  - intros x _. apply S.
Qed.
Lemma prep_emit e s : within e -> prep s (emit e s).
Proof. intros W. apply prep_same; [apply same_emit|now apply wgrow_emit]. Qed.
Lemma prep_variable mn mx s : prep s (snd (add_variable mn mx s)).
Proof.
  cbn [add_variable snd]. constructor; auto.
  - split; [exists []; split; [reflexivity|constructor]|]. intros x w l H. left. cbn in H. unfold upd in H. destruct (Nat.eqb x (nvars s)); [destruct H|exact H].
  - cbn. lia.
  - intros (S1 & S2 & S3). split; [exact S1|]. split; [exact S2|]. intros y. cbn. unfold upd. destruct (Nat.eqb y (nvars s)); [now split|apply S3].
  - intros x Hx. cbn. now rewrite upd_other by lia.
Qed.

Section Frames.
Context (O : oracle) (cfg : config).
Lemma prep_get x v s : prep s (snd (get_literal cfg x v s)).
Proof. apply prep_same; [apply get_literal_same|apply get_literal_wgrow]. Qed.
Lemma prep_clause t c s : prep s (snd (add_clause O t c s)).
Proof. now apply prep_emit. Qed.
Lemma prep_literal s : prep s (snd (add_literal s)).
Proof. apply prep_same; [now split|apply wgrow_literal]. Qed.
Lemma prep_weight l wl b s : prep s (snd (add_weight O l wl b s)).
Proof. unfold add_weight. destruct (is_false _ _ _); [apply prep_refl|now apply prep_emit]. Qed.

Ltac step H E := match type of E with
  | get_literal _ ?x ?v ?s = (_, ?s1) => assert (H : prep s s1) by (pose proof (prep_get x v s) as HH; rewrite E in HH; exact HH)
  | add_clause _ ?t ?c ?s = (_, ?s1) => assert (H : prep s s1) by (pose proof (prep_clause t c s) as HH; rewrite E in HH; exact HH)
  | add_literal ?s = (_, ?s1) => assert (H : prep s s1) by (pose proof (prep_literal s) as HH; rewrite E in HH; exact HH)
  | add_weight _ ?l ?wl ?b ?s = (_, ?s1) => assert (H : prep s s1) by (pose proof (prep_weight l wl b s) as HH; rewrite E in HH; exact HH)
  end.

Lemma prep_weight_vals co x vs : forall s, prep s (snd (weight_vals cfg co x vs s)).
Proof.
  induction vs as [|i r IH]; intros s; cbn [weight_vals]; [apply prep_refl|].
  destruct (get_literal cfg x i s) as [g s1] eqn:E1. step H1 E1. specialize (IH s1). destruct (weight_vals cfg co x r s1) as [wl s2]. cbn [snd] in *. now apply prep_trans with s1.
Qed.
Lemma prep_weight_lits slack es : forall s, prep s (snd (weight_lits cfg slack es s)).
Proof.
  induction es as [|[co x] r IH]; intros s; cbn [weight_lits]; [apply prep_refl|].
  match goal with |- context [weight_vals cfg co x ?vs s] => pose proof (prep_weight_vals co x vs s) as H1; destruct (weight_vals cfg co x vs s) as [w1 s1] end.
  specialize (IH s1). destruct (weight_lits cfg slack r s1) as [w2 s2]. cbn [snd] in *. now apply prep_trans with s1.
Qed.
Lemma prep_weight_translate l es slack s : prep s (snd (weight_translate O cfg l es slack s)).
Proof.
  unfold weight_translate. pose proof (prep_weight_lits slack es s) as H1. destruct (weight_lits cfg slack es s) as [wl s1]. cbn [snd] in H1.
  destruct (_ && _); [|exact H1]. destruct (add_weight O l wl slack s1) as [ok s2] eqn:E. step H2 E. cbn [snd]. now apply prep_trans with s1.
Qed.
Lemma prep_vloop f co x d n : (forall l a b s, prep s (snd (f l a b s))) -> forall w lower upper s, prep s (snd (vloop cfg f co x d n w lower upper s)).
Proof.
  intros F. induction n as [|n IH]; intros w lower upper s; cbn [vloop]; [apply prep_refl|].
  destruct (get_literal cfg x w s) as [g s1] eqn:E1. step H1 E1.
  pose proof (F (if 0 <? co then g else - g) lower upper s1) as H2. destruct (f _ lower upper s1) as [[[|]| |] s2]; cbn [snd] in *; try now apply prep_trans with s1.
  apply prep_trans with s1; auto. apply prep_trans with s2; auto.
Qed.
Lemma prep_clause_elems lo es : forall cl lower upper s, prep s (snd (clause_elems O cfg lo es cl lower upper s)).
Proof.
  induction es as [|[co x] r IH]; intros cl lower upper s; cbn [clause_elems].
  - destruct (lower <? 0); [|apply prep_refl]. destruct lo; [apply prep_refl|]. destruct (add_clause O Learnt cl s) as [ok s1] eqn:E. step H E. exact H.
  - destruct (lower <? 0).
    { destruct lo; [apply prep_refl|]. destruct (add_clause O Learnt cl s) as [ok s1] eqn:E. step H E. exact H. }
    destruct (0 <? co); apply prep_vloop; intros l a b s1; apply IH.
Qed.
Lemma prep_translate_sum w cl lo k s : prep s (snd (translate_sum O cfg w cl lo k s)).
Proof.
  unfold translate_sum. destruct (c_def k); try apply prep_refl. destruct (_ || _); [apply prep_refl|]. destruct w.
  { match goal with |- context [weight_translate O cfg ?l ?es ?b s] => pose proof (prep_weight_translate l es b s) as H; destruct (weight_translate O cfg l es b s) end. exact H. }
  destruct cl; [|apply prep_refl]. unfold clause_translate.
  match goal with |- context [clause_elems O cfg ?a ?b ?c ?d ?e s] => pose proof (prep_clause_elems a b c d e s) as H; destruct (clause_elems O cfg a b c d e s) as [[| |] s1] end; exact H.
Qed.
Lemma prep_dist_lit v de s : prep s (snd (dist_lit O cfg v de s)).
Proof.
  unfold dist_lit. destruct de as [[f c] [x|]]; [|apply prep_refl].
  destruct (get_literal cfg x _ s) as [a s1] eqn:E1. step H1 E1. destruct (get_literal cfg x _ s1) as [b s2] eqn:E2. step H2 E2.
  assert (H12 : prep s s2) by now apply prep_trans with s1. destruct (a =? _); [exact H12|]. destruct (- b =? _); [exact H12|].
  destruct (add_literal s2) as [l s3] eqn:E3. step H3 E3. assert (H13 : prep s s3) by now apply prep_trans with s2.
  destruct (add_clause O Learnt _ s3) as [ok1 s4] eqn:E4. step H4 E4. assert (H14 : prep s s4) by now apply prep_trans with s3. destruct ok1; [|exact H14].
  destruct (add_clause O Learnt _ s4) as [ok2 s5] eqn:E5. step H5 E5. assert (H15 : prep s s5) by now apply prep_trans with s4. destruct ok2; [|exact H15].
  destruct (add_clause O Learnt _ s5) as [ok3 s6] eqn:E6. step H6 E6. cbn [snd]. now apply prep_trans with s5.
Qed.
Lemma prep_dist_wlits v l : forall s, prep s (snd (dist_wlits O cfg v l s)).
Proof.
  induction l as [|[d de] r IH]; intros s; cbn [dist_wlits]; [apply prep_refl|]. destruct (contains d v); [|apply IH].
  pose proof (prep_dist_lit v de s) as H1. destruct (dist_lit O cfg v de s) as [[ok l] s1]. cbn [snd] in H1. destruct ok; [|exact H1].
  specialize (IH s1). destruct (dist_wlits O cfg v r s1) as [[ok wl] s2]. cbn [snd] in *. now apply prep_trans with s1.
Qed.
Lemma prep_dist_weights clit l cnt : forall s, prep s (snd (dist_weights O cfg clit cnt l s)).
Proof.
  induction cnt as [|[v n] r IH]; intros s; cbn [dist_weights]; [apply prep_refl|]. destruct (n <=? 1)%nat; [apply IH|].
  pose proof (prep_dist_wlits v l s) as H1. destruct (dist_wlits O cfg v l s) as [[ok wl] s1]. cbn [snd] in H1. destruct ok; [|exact H1].
  destruct (add_weight O clit wl 1 s1) as [ok s2] eqn:E2. step H2 E2. assert (H12 : prep s s2) by now apply prep_trans with s1. destruct ok; [|exact H12].
  apply prep_trans with s2; auto.
Qed.
Lemma prep_dist_var e a s : prep s (snd (dist_var e a s)).
Proof.
  unfold dist_var. pose proof (prep_variable (fst a) (snd a) s) as H. cbn [add_variable] in *. destruct (snd e) as [|[co x] [|]]; try exact H. apply prep_refl.
Qed.
Lemma prep_dist_vars cnt l : forall s, prep s (snd (dist_vars cnt l s)).
Proof.
  induction l as [|[[e a] d] r IH]; intros s; cbn [dist_vars]; [apply prep_refl|].
  destruct (if negb (is_nil (snd e)) && existsb (fun v => (1 <? count_of cnt v)%nat) (values d) then dist_var e a s else ((fst e, 1, None), [], s)) as [[de cs] s1] eqn:E.
  assert (H : prep s s1). { destruct (_ && _); [pose proof (prep_dist_var e a s) as H; rewrite E in H; exact H|]. injection E as _ _ <-. apply prep_refl. }
  specialize (IH s1). destruct (dist_vars cnt r s1) as [[des css] s2]. cbn [snd] in *. now apply prep_trans with s1.
Qed.
Lemma prep_translate_distinct limit k s : prep s (snd (translate_distinct O cfg limit k s)).
Proof.
  unfold translate_distinct. destruct (c_def k); try apply prep_refl. destruct (negb _); [apply prep_refl|]. cbv zeta.
  match goal with |- context [dist_vars ?c ?l s] => pose proof (prep_dist_vars c l s) as H1; destruct (dist_vars c l s) as [[des cs] s1] end. cbn [snd] in H1.
  match goal with |- context [dist_weights O cfg ?a ?b ?c s1] => pose proof (prep_dist_weights a c b s1) as H2; destruct (dist_weights O cfg a b c s1) as [ok s2] end.
  cbn [snd] in *. now apply prep_trans with s1.
Qed.
Lemma prep_min_values co x vs : forall s, prep s (min_values cfg co x vs s).
Proof.
  induction vs as [|v r IH]; intros s; cbn [min_values]; [apply prep_refl|]. destruct (get_literal cfg x v s) as [l s1] eqn:E1. step H1 E1.
  apply prep_trans with s1; auto. apply prep_trans with (emit (EMin (- l) co 0) s1); [now apply prep_emit|]. apply IH.
Qed.
Lemma prep_min_elems es : forall s s', min_elems cfg es s = Ok s' -> prep s s'.
Proof.
  induction es as [|[co x] r IH]; intros s s' E; cbn [min_elems] in E; [injection E as <-; apply prep_refl|].
  apply bind_ok in E as (p & Ep & E). apply IH in E. eapply prep_trans; [|exact E]. eapply prep_trans; [|apply prep_min_values]. now apply prep_emit.
Qed.
Lemma prep_translate_min limit m s b s' : translate_minimize cfg limit m s = Ok (b, s') -> prep s s'.
Proof.
  unfold translate_minimize. destruct (_ || _); [|intros E; injection E as _ <-; apply prep_refl]. intros E. apply bind_ok in E as (s1 & E1 & E). injection E as _ <-.
  apply prep_min_elems in E1. eapply prep_trans; [|exact E1]. apply prep_trans with (set_tmin true s); [|now apply prep_emit].
  constructor; auto. now apply wgrow_same.
Qed.
End Frames.
(** ** One constraint *)
Section One.
Context (O : oracle) (cfg : config) (Base : interp -> Prop) (n0 : Z).
Context (BO : base_ok Base n0) (CO : clasp_ok O Base).
Notation good := (good Base).
Notation step := (step Base).
Notation holds := (holds Base).
Notation pstep := (pstep O Base).
Notation top_ready := (top_ready O n0).

Record tres (d : constr) (s s' : state) (ok rm : bool) (cs : list constr) : Prop := {
  tx_wf : wf s';
  tx_nxt : nxt s <= nxt s';
  tx_prep : prep s s';
  tx_top : ok = true -> top_ready s' /\ later O (log s) (log s');
  tx_plain : plain (nvars s') cs;
  tx_len : (length cs < rounds1 d)%nat;
  tx_keep : ok = true -> rm = false -> cs = [];
  tx_fwd : forall I nu, good s I -> order_ok s I nu -> csem None d I nu ->
    exists J nu', agree_below (nxt s) I J /\ ext_nu (nvars s) nu nu' /\ good s' J /\ order_ok s' J nu' /\ Forall (fun d => csem None d J nu') cs;
  tx_bwd : forall I nu, good s' I -> order_ok s' I nu -> good s I /\ order_ok s I nu /\
    (ok = true -> rm = true -> Forall (fun d => csem None d I nu) cs -> csem None d I nu) }.

Lemma tres_same d s ok : top_ready s -> tres d s s ok false [].
Proof.
  intros R. constructor; auto.
  - apply R.
  - lia.
  - apply prep_refl.
  - intros _. split; [easy|constructor].
  - constructor.
  - destruct d; cbn; lia.
  - intros I nu G Od _. exists I, nu. split; [apply agree_refl|]. split; [easy|]. split; [easy|]. split; [easy|constructor].
  - intros I nu G Od. split; [easy|]. split; [easy|]. discriminate.
Qed.
Lemma tres_pstep d s s' ok rm : top_ready s -> prep s s' -> pstep (csem None d) s s' ok -> (ok = true -> rm = true -> holds s' (csem None d)) -> tres d s s' ok rm [].
Proof.
  intros R Pp Ps H. constructor; auto.
  - apply Ps.
  - apply (ps_step _ _ _ _ _ _ Ps).
  - intros ->. split; [now apply (top_pstep O Base n0 CO) with (1 := Ps)|now apply Ps].
  - constructor.
  - destruct d; cbn; lia.
  - intros I nu G Od S. destruct (st_fwd _ _ _ _ _ (ps_step _ _ _ _ _ _ Ps) I nu G Od S) as (J & nu' & A & B & C & D). exists J, nu'. auto.
  - intros I nu G Od. destruct (st_bwd _ _ _ _ _ (ps_step _ _ _ _ _ _ Ps) I nu G Od) as (A & B & _). split; [easy|]. split; [easy|]. intros K1 K2 _. now apply (H K1 K2).
Qed.
Lemma sum_tres w cl lo l rhs es k s r s' : top_ready s -> c_def k = CSum l rhs es -> con_ok (nxt s) (nvars s) (CSum l rhs es) -> current O s k ->
  translate_sum O cfg w cl lo k s = (r, s') -> exists ok rm, r = Ok (ok, rm) /\ tres (CSum l rhs es) s s' ok rm [].
Proof.
  intros R KD [Bl V] C E. unfold current in C. rewrite KD in C. destruct C as [Nz C]. cbn [c_lit cvars] in *.
  assert (EO : elems_ok s es).
  { rewrite Forall_map in V. unfold elems_ok. rewrite Forall_forall in *. intros e He. split; [now apply Nz|now apply V]. }
  destruct (translate_sum_gen O cfg Base n0 BO CO w cl lo l rhs es k s r s' R KD EO Bl C E) as (ok & rm & -> & A & B).
  rewrite KD in A, B. change (csem (mbound s) (CSum l rhs es)) with (csem None (CSum l rhs es)) in A, B. exists ok, rm. split; [easy|].
  apply tres_pstep; auto. pose proof (prep_translate_sum O cfg w cl lo k s) as Pp. now rewrite E in Pp.
Qed.

(** Distinct constraints with a false literal. *)
Definition de_ok (s : state) (p : iset * (Z * Z * option var)) : Prop := match snd p with (_, c, Some x) => c <> 0 /\ (x < nvars s)%nat | _ => True end.
Lemma de_pstep Q s s' b l : pstep Q s s' b -> Forall (de_ok s) l -> Forall (de_ok s') l.
Proof. intros R. apply Forall_impl. intros [d [[f c] [x|]]]; unfold de_ok; cbn [snd]; auto. intros [A B]. split; auto. now apply (nvars_pstep O Base) with (1 := R). Qed.
Lemma wlits_frame (P : interp -> (var -> Z) -> Prop) v l : forall s ok wl s', dep (nxt s) (nvars s) P -> top_ready s -> fmap s = [] -> Forall (de_ok s) l ->
  dist_wlits O cfg v l s = ((ok, wl), s') -> pstep P s s' ok /\ fmap s' = fmap s.
Proof.
  induction l as [|[d de] l IH]; intros s ok wl s' D R F0 F E; cbn [dist_wlits] in E.
  { injection E as <- <- <-. split; [apply pstep_refl, R|easy]. }
  inversion_clear F as [|? ? Fd F']. destruct (contains d v); [|eapply IH; eauto].
  destruct (dist_lit O cfg v de s) as [[ok1 l1] s1] eqn:E1.
  assert (L : pstep P s s1 ok1 /\ fmap s1 = fmap s).
  { destruct de as [[f c] [x|]]; cbn [snd] in Fd.
    - destruct Fd as [F1 F2]. destruct (dist_lit_ok O cfg Base n0 BO CO P v f c x s ok1 l1 s1 D R F0 F2 F1 E1) as (Q1 & Q2 & _). auto.
    - injection E1 as <- <- <-. split; [apply pstep_refl, R|easy]. }
  destruct L as (L1 & L2). destruct ok1; [|injection E as <- <- <-; split; easy].
  destruct (dist_wlits O cfg v l s1) as [[ok2 wl2] s2] eqn:E2. injection E as <- <- <-.
  destruct (IH s1 ok2 wl2 s2) as (J1 & J2); auto.
  { now apply (dep_pstep O Base) with (1 := L1). } { now apply (top_pstep O Base n0 CO) with (1 := L1). } { now rewrite L2. } { now apply (de_pstep P s s1 true). }
  split; [apply (pstep_trans O Base) with s1; auto|congruence].
Qed.
Lemma weights_frame (P : interp -> (var -> Z) -> Prop) clit l cnt : forall s ok s', dep (nxt s) (nvars s) P -> top_ready s -> fmap s = [] -> Forall (de_ok s) l ->
  is_false O s clit = true -> dist_weights O cfg clit cnt l s = (ok, s') -> pstep P s s' ok.
Proof.
  induction cnt as [|[v n] cnt IH]; intros s ok s' D R F0 F Fl E; cbn [dist_weights] in E.
  { injection E as <- <-. apply pstep_refl, R. }
  destruct (n <=? 1)%nat; [now apply IH|]. destruct (dist_wlits O cfg v l s) as [[ok1 wl] s1] eqn:E1.
  destruct (wlits_frame P v l s ok1 wl s1 D R F0 F E1) as (A1 & A2). destruct ok1; [|injection E as <- <-; exact A1].
  assert (Fl1 : is_false O s1 clit = true) by now apply (false_pstep O Base CO) with (1 := A1).
  unfold add_weight in E. rewrite Fl1 in E. apply (pstep_trans O Base) with s1; auto. apply IH; auto.
  - now apply (dep_pstep O Base) with (1 := A1).
  - now apply (top_pstep O Base n0 CO) with (1 := A1).
  - now rewrite A2.
  - now apply (de_pstep P s s1 true).
Qed.
Lemma vars_frame s0 cnt l : top_ready s0 -> forall s des cs s', vext s0 s -> top_ready s ->
  Forall (fun q => elems_ok s0 (snd (fst (fst q))) /\ fst (snd (fst q)) <= fst (dist_init s0 (fst (fst q))) /\ snd (dist_init s0 (fst (fst q))) <= snd (snd (fst q))) l ->
  dist_vars cnt l s = (des, cs, s') ->
  vext s s' /\ top_ready s' /\ plain (nvars s') cs /\ (length cs <= 2 * length l)%nat /\ length des = length l /\
  (forall I nu, order_ok s I nu -> exists nu', ext_nu (nvars s) nu nu' /\ order_ok s' I nu' /\ csok cs nu') /\
  Forall (fun de => match de with (_, c, Some x) => c <> 0 /\ (x < nvars s')%nat | _ => True end) des.
Proof.
  intros R0. induction l as [|[[e a] d] l IH]; intros s des cs s' X R F E.
  { injection E as <- <- <-. split; [apply vext_refl|]. split; [easy|]. split; [constructor|]. split; [cbn; lia|]. split; [easy|]. split; [|constructor].
    intros I nu Od. exists nu. split; [easy|]. split; [easy|constructor]. }
  inversion_clear F as [|? ? F1 F2]. cbn [fst snd] in F1. destruct F1 as (F1 & La & Ua). cbn [dist_vars] in E.
  destruct (if negb (is_nil (snd e)) && existsb (fun v => (1 <? count_of cnt v)%nat) (values d) then dist_var e a s else ((fst e, 1, None), [], s)) as [[de cs1] s1] eqn:E1.
  destruct (dist_vars cnt l s1) as [[des2 cs2] s2] eqn:E2. injection E as <- <- <-.
  assert (A : vext s s1 /\ top_ready s1 /\ plain (nvars s1) cs1 /\ (length cs1 <= 2)%nat /\
    (forall I nu, order_ok s I nu -> exists nu', ext_nu (nvars s) nu nu' /\ order_ok s1 I nu' /\ csok cs1 nu') /\
    match de with (_, c, Some x) => c <> 0 /\ (x < nvars s1)%nat | _ => True end).
  { destruct (negb (is_nil (snd e)) && existsb (fun v => (1 <? count_of cnt v)%nat) (values d)) eqn:C.
    - apply andb_true_iff in C as (C & _). assert (Ne : snd e <> []) by (intros Q; rewrite Q in C; discriminate).
      destruct (dist_var_ok O Base n0 s0 e a s de cs1 s1 cnt R0 X R F1 Ne La Ua E1) as (A1 & A2 & A3 & A4 & (_ & _ & A5)).
      split; [easy|]. split; [easy|]. split; [easy|]. split; [|split; [easy|]].
      + unfold dist_var in E1. cbn [add_variable] in E1. destruct (snd e) as [|[co x] [|]]; injection E1 as _ <- _; cbn; lia.
      + destruct de as [[f c] [x|]]; [|easy]. now destruct A5 as (B1 & B2 & _).
    - injection E1 as <- <- <-. split; [apply vext_refl|]. split; [easy|]. split; [constructor|]. split; [cbn; lia|]. split; [|easy].
      intros I nu Od. exists nu. split; [easy|]. split; [easy|constructor]. }
  destruct A as (A1 & A2 & A3 & A4 & A5 & A6).
  destruct (IH s1 des2 cs2 s2) as (B1 & B2 & B3 & B4 & B5 & B6 & B7); auto. { now apply vext_trans with s. }
  pose proof (vx_nv _ _ A1) as Hn1. pose proof (vx_nv _ _ B1) as Hn2.
  split; [now apply vext_trans with s1|]. split; [easy|]. split; [|split; [|split; [|split]]].
  - apply Forall_app. split; [now apply plain_mono with (nvars s1)|easy].
  - rewrite app_length. cbn [length]. lia.
  - cbn. now rewrite B5.
  - intros I nu Od. destruct (A5 I nu Od) as (nu1 & C1 & C2 & C3). destruct (B6 I nu1 C2) as (nu2 & D1 & D2 & D3). exists nu2. split.
    { intros y Hy. rewrite (D1 y) by lia. now apply C1. }
    split; [easy|]. apply csok_app. split; [|easy]. apply (csok_ext (nvars s1)) with nu1; auto.
  - constructor; [|easy]. destruct de as [[f c] [x|]]; auto. destruct A6. split; auto. lia.
Qed.
Lemma distinct_done d cs s s1 s2 ok : top_ready s -> con_ok (nxt s) (nvars s) d -> vext s s1 -> top_ready s1 -> plain (nvars s1) cs -> (length cs < rounds1 d)%nat ->
  (forall I nu, order_ok s I nu -> exists nu', ext_nu (nvars s) nu nu' /\ order_ok s1 I nu' /\ csok cs nu') -> prep s s2 ->
  (dep (nxt s1) (nvars s1) (fun I nu => csok cs nu /\ csem None d I nu) -> pstep (fun I nu => csok cs nu /\ csem None d I nu) s1 s2 ok /\
    (ok = true -> forall I nu, good s2 I -> order_ok s2 I nu -> good s I -> order_ok s I nu -> csok cs nu -> csem None d I nu)) ->
  tres d s s2 ok ok cs.
Proof.
  intros R Co X R1 Pl Ln Fw Pp H. pose proof (vx_nv _ _ X) as Hn. pose proof (vx_nxt _ _ X) as Hx. pose proof (vx_log _ _ X) as Hl.
  assert (Dd : dep (nxt s) (nvars s) (csem None d)) by now apply csem_dep.
  assert (D : dep (nxt s1) (nvars s1) (fun I nu => csok cs nu /\ csem None d I nu)).
  { intros I J nu nu' Ag En (H1 & H2). split; [now apply (csok_ext (nvars s1) cs nu)|]. rewrite Hx in Ag. apply (Dd I J nu nu'); auto. intros y Hy. apply En. lia. }
  destruct (H D) as (B1 & B2). pose proof (st_nv _ _ _ _ _ (ps_step _ _ _ _ _ _ B1)) as Hn2. pose proof (st_nxt _ _ _ _ _ (ps_step _ _ _ _ _ _ B1)) as Hx2.
  constructor; auto.
  - apply B1.
  - lia.
  - intros ->. split; [now apply (top_pstep O Base n0 CO) with (1 := B1)|]. rewrite <- Hl. now apply B1.
  - now apply plain_mono with (nvars s1).
  - congruence.
  - intros I nu G Od S. destruct (Fw I nu Od) as (nu1 & C1 & C2 & C3).
    assert (G1 : good s1 I) by (unfold OrderSpec.good in *; now rewrite Hl).
    destruct (st_fwd _ _ _ _ _ (ps_step _ _ _ _ _ _ B1) I nu1 G1 C2) as (J & nu2 & D1 & D2 & D3 & D4).
    { split; [easy|]. apply (Dd I I nu nu1); auto. apply agree_refl. }
    exists J, nu2. split; [now rewrite <- Hx|]. split; [intros y Hy; rewrite (D2 y) by lia; now apply C1|]. split; [easy|]. split; [easy|].
    apply (csok_csem (nvars s1)); [easy|apply D3|]. now apply (csok_ext (nvars s1) cs nu1).
  - intros I nu G Od. destruct (st_bwd _ _ _ _ _ (ps_step _ _ _ _ _ _ B1) I nu G Od) as (G1 & O1 & _). destruct (vext_bwd Base s s1 I nu X G1 O1) as (G0 & O0).
    split; [easy|]. split; [easy|]. intros K _ Hc. apply (csok_csem (nvars s1)) in Hc; [|easy|apply G]. now apply (B2 K).
Qed.
Lemma distinct_tres limit clit es k s r s' : top_ready s -> fmap s = [] -> c_def k = CDistinct clit es -> con_ok (nxt s) (nvars s) (CDistinct clit es) -> current O s k ->
  translate_distinct O cfg limit k s = (r, s') -> exists ok rm cs, r = Ok (ok, rm, cs) /\ tres (CDistinct clit es) s s' ok rm cs.
Proof.
  intros R F0 KD [Bl V] C E. unfold current in C. rewrite KD in C. destruct C as [Nz C]. cbn [c_lit cvars] in *.
  assert (EO : Forall (fun e => elems_ok s (snd e)) es).
  { rewrite Forall_forall in *. intros e He. unfold elems_ok. rewrite Forall_forall. intros t Ht. split; [specialize (Nz e He); rewrite Forall_forall in Nz; now apply Nz|].
    apply V. apply in_concat. exists (map snd (snd e)). split; [apply in_map_iff; now exists e|now apply in_map]. }
  pose proof (prep_translate_distinct O cfg limit k s) as Pp. rewrite E in Pp. cbn [snd] in Pp.
  assert (E' := E). unfold translate_distinct in E'. rewrite KD in E'. destruct (negb _) eqn:Est.
  { injection E' as <- <-. exists true, false, []. split; [easy|]. now apply tres_same. }
  match type of E' with context [dist_vars ?c ?l s] => set (cnt := c) in *; set (ql := l) in *; destruct (dist_vars cnt ql s) as [[des cs] s1] eqn:E1 end.
  match type of E' with context [dist_weights O cfg clit cnt ?l s1] => set (wl := l) in *; destruct (dist_weights O cfg clit cnt wl s1) as [ok s2] eqn:E2 end.
  injection E' as <- <-. exists ok, ok, cs. split; [easy|].
  assert (LA : length (c_asg k) = length es /\ Forall2 (fun a e => fst a <= fst (dist_init s e) /\ snd (dist_init s e) <= snd a) (c_asg k) es).
  { destruct C as [->|[_ C]]; [split; [apply map_length|]|split; [clear - C; induction C; cbn; auto|exact C]].
    clear. induction es; constructor; auto. lia. }
  destruct LA as [LA LB].
  assert (QL : length ql = length es) by (unfold ql; rewrite !combine_length, map_length, combine_length; lia).
  assert (QF : Forall (fun q => elems_ok s (snd (fst (fst q))) /\ fst (snd (fst q)) <= fst (dist_init s (fst (fst q))) /\ snd (dist_init s (fst (fst q))) <= snd (snd (fst q))) ql).
  { unfold ql. apply Forall_forall. intros [[e a] d] Hq. apply in_combine_l in Hq. cbn [fst snd]. split; [rewrite Forall_forall in EO; now apply EO, in_combine_l with (1 := Hq)|].
    clear - LB Hq. revert Hq. induction LB as [|a0 e0 la le H LB IH]; cbn; [easy|]. intros [Q|Q]; [injection Q as <- <-; exact H|auto]. }
  destruct (vars_frame s cnt ql R s des cs s1 (vext_refl s) R QF E1) as (A1 & A2 & A3 & A4 & A5 & A6 & A7).
  assert (DF : Forall (de_ok s1) wl).
  { unfold wl. apply Forall_forall. intros [d de] Hq. apply in_combine_r in Hq. rewrite Forall_forall in A7. exact (A7 de Hq). }
  assert (LN : (length cs < rounds1 (CDistinct clit es))%nat) by (cbn [rounds1]; lia).
  assert (F1 : fmap s1 = []) by (rewrite (vx_fmap _ _ A1); exact F0).
  apply distinct_done with s1; auto; [now split|]. intros D. destruct C as [Ea|[Fl _]].
  - unfold wl in *; clear wl. unfold ql in *; clear ql. unfold cnt in *; clear cnt. rewrite Ea in E1, E2.
    match type of E1 with context [map ?f (combine es (map (dist_init s) es))] => assert (ED : map f (combine es (map (dist_init s) es)) = map (edomain s) es) end.
    { clear. induction es as [|e es IH]; [easy|]. cbn [map combine fst snd]. now rewrite IH. }
    rewrite ED in E1, E2. rewrite entries in E1. set (cnt := dist_counts (map (edomain s) es)) in *.
    destruct (dist_vars_ok O Base n0 s cnt es R s des cs s1 (vext_refl s) R EO E1) as (_ & _ & _ & _ & A8).
    assert (Fw : Forall iwf (map (edomain s) es)).
    { apply Forall_map. eapply Forall_impl; [|exact EO]. intros e H. apply (edomain_ok s e (elem_bounds O n0 s _ R H)). }
    destruct (dist_counts_ok _ Fw) as (Sc & Hc). fold cnt in Sc, Hc.
    destruct (dist_weights_ok O cfg Base n0 BO CO (fun I nu => csok cs nu /\ csem None (CDistinct clit es) I nu) (csok cs) cnt clit (combine (map (edomain s) es) des) es cnt s1 ok s2) as (B1 & B2); auto.
    { rewrite (vx_nxt _ _ A1). exact Bl. } { intros v n. now apply count_in. }
    { intros I nu _ _ [H1 H2]. split; [easy|]. intros T. now apply clashes_nodup, H2. }
    split; [easy|]. intros -> I nu G2 O2 G Od Hcs T. apply (clashes_nodup es nu). apply (NoDup_count_occ Z.eq_dec). intros v.
    pose proof (count_le O n0 s I nu es v R EO Od) as Hle. rewrite <- Hc in Hle. destruct (le_lt_dec (count_of cnt v) 1) as [Q|Q]; [lia|].
    apply (B2 eq_refl I nu G2 O2 Hcs T v (count_of cnt v)); [apply count_pos; lia|easy].
  - assert (Fl1 : is_false O s1 clit = true). { unfold is_false, is_true in *. now rewrite (vx_log _ _ A1). }
    split; [now apply (weights_frame _ clit wl cnt)|]. intros _ I nu _ _ G Od _ T. exfalso. apply (top_false O Base CO s clit I); auto; [apply Bl|apply R].
Qed.
Lemma top_tmin s : top_ready s -> top_ready (set_tmin true s).
Proof. intros [[A1 A2] B C D F0]. constructor; auto. split; [destruct A1; now constructor|destruct A2; now constructor]. Qed.
Lemma min_tres mlimit adj es s b s' : top_ready s -> con_ok (nxt s) (nvars s) (CMin adj es) -> translate_minimize cfg mlimit (adj, es) s = Ok (b, s') -> tres (CMin adj es) s s' true b [].
Proof.
  intros R [_ V] E. pose proof (prep_translate_min cfg mlimit (adj, es) s b s' E) as Pp.
  unfold translate_minimize in E. destruct (_ || _).
  2:{ injection E as <- <-. now apply tres_same. }
  assert (E' : exists a, min_elems cfg es (emit (EMin TRUE_LIT (- adj) 0) (set_tmin true s)) = Ok a /\ b = true /\ s' = a).
  { apply bind_ok in E as (a & E1 & E2). exists a. split; [exact E1|]. now injection E2 as <- <-. }
  destruct E' as (a & E1 & -> & ->). pose proof (top_tmin s R) as R0.
  set (s1 := emit _ (set_tmin true s)) in E1. 
  assert (R1 : pstep T2 (set_tmin true s) s1 true) by (apply pstep_min; apply R0).
  destruct (min_elems_ok O cfg Base n0 BO CO T2 es s1 a) as (R2 & _); auto; [easy|now apply (top_pstep O Base n0 CO T2) with (1 := R1)|..].
  { cbn [cvars] in V. rewrite Forall_map in V. exact V. }
  assert (R12 : pstep T2 (set_tmin true s) a true) by (apply (pstep_trans O Base) with s1; easy).
  destruct R12 as [Q1 Q2 Q3 Q4 Q5]. destruct Q2 as [S1 S2 S3 S4 S5]. constructor; auto.
  - intros _. split; [|now apply Q5]. apply (top_pstep O Base n0 CO T2 (set_tmin true s)); auto. constructor; auto. now constructor.
  - constructor.
  - intros I nu G Od _. destruct (S4 I nu G Od Logic.I) as (J & nu' & A & B & C & D). exists J, nu'. auto.
  - intros I nu G Od. destruct (S5 I nu G Od) as (A & B & _). split; [exact A|]. split; [exact B|]. intros _ _ _. exact Logic.I.
Qed.
End One.
