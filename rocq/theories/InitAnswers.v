(** Searches after initialisation: accepted answers are solutions, and no solution within the bound of the objective function is lost. *)
From Verif Require Import Base Util UtilProofs VarState VarStateProofs Terms TermsSpec Solver OrderSpec
  OrderProofs1 OrderProofs2 OrderProofs3 Orders Sum PropProofs ConSpec SumProofs2
  Distinct Objective ObjectiveSpec ObjectiveProofs Search SearchSpec SearchFrame SearchGrow SearchInv SearchInv3 SearchInv4 SearchInv5 SearchSetup SearchMain
  Builder BuilderSpec BuilderProofs Translation TranslationSpec CheckSpec CheckFrame CheckGrow CheckSays CheckProofs FreshInv FreshSearch
  KeepCons KeepSpec KeepProofs KeepMain Init InitSpec InitFrame InitBuild InitReady InitDist InitSimplify InitRun InitMain InitTranslate InitSession InitProofs.
From Coq Require Import Permutation Sorting.Sorted.
Open Scope Z_scope.

Section Answers.
Context (isrt : (ival -> Z) -> list ival -> list ival) (SP : forall f l, Permutation (isrt f l) l) (SS : forall f l, StronglySorted Z.le (map f (isrt f l))).
Context (O : oracle) (cfg : config) (chk sol : bool) (Base : interp -> Prop) (n0 : Z).
Context (BO : base_ok Base n0) (CO : clasp_ok O Base) (U : units_pos O) (CA : calm O).
Context (srt : list (Z * var) -> list (Z * var)) (PS : forall es, Permutation (srt es) es).
Notation start := (start isrt O cfg chk sol n0 srt).

Definition reading (lg : list event) : interp := fun i => o_true O lg i.

Lemma reading_lit s l : total O s -> below (nxt s) l -> lit_true (reading (log s)) l <-> o_true O (log s) l = true.
Proof.
  intros [_ T] B. unfold lit_true, reading. destruct (Z.ltb_spec 0 l) as [P|P]; [reflexivity|]. rewrite (T l B). now destruct (o_true O (log s) (- l)).
Qed.
Lemma condition_csem s d : (lit_true (reading (log s)) (c_lit d) -> condition (mbound s) d (value s)) -> csem None d (reading (log s)) (value s).
Proof. destruct d; cbn; auto. Qed.

Lemma answer_sound ops b K s fuel m bound s' : start ops b -> session isrt O cfg chk sol (b_s b) K Going s -> in_order O s ->
  (forall l, In l (map snd K) -> o_true O (log s) l = true) -> total O s -> reported O (asked (b_s b)) K s -> o_total O (log s) = true ->
  sol = true -> prop_check isrt O cfg chk sol fuel m bound s = Some (Ok tt, s') ->
  (exists es, log s' = es ++ log s /\ Exists news es) \/
  (log s' = log s /\ nxt s' = nxt s /\ solution O s' /\
   (good Base s' (reading (log s')) -> models Base b (reading (log s')) (value s')) /\
   forall c a es, In (c, CMin a es) (b_cs b) -> condition (mbound s') (CMin a es) (value s')).
Proof.
  intros ST SE IO TR TO RE OT SL E.
  pose proof (session_both isrt O cfg chk sol CA (asked (b_s b)) (b_s b) (st_started _ _ _ _ _ _ _ _ _ ST) K Going s SE) as (SR & K2 & g & C & -> & ->).
  destruct (check_accepts isrt O cfg chk sol CA (asked (b_s b)) K s fuel m bound s' SR IO TO RE OT E) as [N|(L & SO & SA)]; [now left|right].
  specialize (SA SL). pose proof (tg_prop_check _ _ _ _ _ _ _ _ _ _ _ E) as A.
  assert (NX : nxt s' = nxt s) by (apply (tg_same O s s' A); rewrite L; reflexivity).
  assert (NG : false = true -> (0 < dlevel O s)%nat) by discriminate.
  pose proof (co_check isrt O cfg chk sol false (b_s b) fuel m bound K s s' C IO TR NG E) as C'.
  assert (NO : false = true -> steady O) by discriminate.
  destruct (course_kinv isrt SP SS O cfg chk sol Base n0 BO CO U CA false NO (b_s b) (st_posted _ _ _ _ _ _ _ _ _ ST) (asked (b_s b)) (st_started _ _ _ _ _ _ _ _ _ ST) (st_n0 _ _ _ _ _ _ _ _ _ ST) _ _ s' C') as (G & I).
  assert (TO' : total O s') by (unfold total; now rewrite L, NX).
  pose proof (ki_core _ _ _ _ _ _ _ _ I) as WC.
  assert (CS : forall c d, In (c, d) (b_cs b) -> lit_true (reading (log s')) (c_lit d) -> condition (mbound s') d (value s')).
  { intros c d Hc Hl. pose proof (proj1 (bo_reg _ (st_ok _ _ _ _ _ _ _ _ _ ST) c d) Hc) as (k & Hk & Hd).
    pose proof (ki_cons _ _ _ _ _ _ _ _ I c) as CC. rewrite Hk in CC. destruct (css s' c) as [k'|] eqn:Hk'; [|easy]. destruct CC as [CC _].
    assert (D : c_def k' = d) by congruence.
    pose proof (core_b _ _ (proj1 (h_inv _ _ _ _ (ki_hist _ _ _ _ _ _ _ _ I)))) as BC.
    assert (HL : In (c_lit d, c) (l2c s')) by (apply (b_l2c _ BC); exists k'; split; [exact Hk'|now rewrite D]).
    destruct (SA (c_lit d) c HL) as (k2 & H2 & _ & H3).
    - apply reading_lit; auto. pose proof (st_ok _ _ _ _ _ _ _ _ _ ST) as OK. pose proof (bo_cons _ OK) as F. rewrite Forall_forall in F. destruct (F _ Hc) as [[F1 F2] _]. cbn [snd] in *.
      split; auto. pose proof (ki_nxt _ _ _ _ _ _ _ _ I). lia.
    - rewrite Hk' in H2. injection H2 as <-. now rewrite D in H3. }
  split; [exact L|]. split; [exact NX|]. split; [exact SO|]. split.
  - intros GO. assert (OO : order_ok s' (reading (log s')) (value s')).
    { intros x Hx. split; [now apply (so_range _ _ SO)|]. intros w l Hw. destruct (wf_lits _ WC x w l Hx Hw) as [B _]. rewrite reading_lit by auto. now apply (so_order _ _ SO). }
    destruct (st_bwd _ _ _ _ _ (ki_step _ _ _ _ _ _ _ _ I) _ _ GO OO) as (G0 & O0 & _).
    split; [exact G0|]. split; [exact O0|]. apply Forall_forall. intros [c d] Hc. cbn [snd]. apply condition_csem. eauto.
  - intros c a es Hc. apply (CS c _ Hc). cbn [c_lit]. apply reading_lit; [exact TO'|split; [discriminate|apply WC]|]. apply TO'.
Qed.

Lemma answer_kept ops b K p s I nu m nu0 : start ops b -> session isrt O cfg chk sol (b_s b) K p s -> Forall (op_tidy m) ops -> ext_nu m nu0 nu ->
  good Base (b_s b) I -> order_ok (b_s b) I nu -> Forall (fun q => demand false None (snd q) I nu) (b_cs b) ->
  (forall a es bd, objective srt ops a es -> mbound s = Some bd -> terms_val (key_val nu0) (min_terms (calls ops)) + a <= bd) ->
  exists J nu', agree_below (nxt (b_s b)) I J /\ ext_nu (nvars (b_s b)) nu nu' /\ good Base s J /\ order_ok s J nu'.
Proof.
  intros ST SE OT EN GO OO DE OB.
  pose proof (session_both isrt O cfg chk sol CA (asked (b_s b)) (b_s b) (st_started _ _ _ _ _ _ _ _ _ ST) K p s SE) as (SR & K2 & g & C & _).
  assert (NO : false = true -> steady O) by discriminate.
  pose proof (course_keeps isrt SP SS O cfg chk sol Base n0 BO CO U CA false NO (b_s b) (st_posted _ _ _ _ _ _ _ _ _ ST) (asked (b_s b)) (st_started _ _ _ _ _ _ _ _ _ ST) (st_n0 _ _ _ _ _ _ _ _ _ ST) _ _ s C) as S.
  apply (st_fwd _ _ _ _ _ S I nu GO OO). intros c k Hk.
  assert (Hc : In (c, c_def k) (b_cs b)) by (apply (bo_reg _ (st_ok _ _ _ _ _ _ _ _ _ ST)); eauto).
  rewrite Forall_forall in DE. pose proof (DE _ Hc) as D0. cbn [snd] in D0. destruct (c_def k) as [| a es| | |] eqn:D; auto.
  cbn [demand condition]. destruct (mbound s) as [bd|] eqn:MB; [|easy].
  pose proof (st_obj _ _ _ _ _ _ _ _ _ ST _ _ _ Hc) as OJ. pose proof (OB a es bd OJ eq_refl) as LE.
  pose proof (prepare_step srt PS None _ _ nu0 OJ) as PR. cbn [cost flipped] in PR.
  destruct (objective_ok srt PS ops m a es 2 OT eq_refl OJ) as [_ [_ V]]. cbn [cvars] in V.
  assert (LV : lval nu es = lval nu0 es).
  { clear - V EN. induction es as [|[co x] es IH]; [reflexivity|]. cbn [map snd] in V. inversion_clear V. cbn [lval]. rewrite IH by auto. now rewrite (EN x) by auto. }
  rewrite LV. lia.
Qed.
End Answers.
