(** The first step from the calls of the parser to the answers (C47): Propagator::init and a search of clasp with its callbacks.
    The hypotheses collected in [setting] are about the C++ library (sorting) and about clasp; those in [first] say that the solver
    is new, that clasp is on its top level and how [init] was called.  [P] is what the calls demand ([run], see C08). *)
From Verif Require Import Base Util IntervalSet UtilProofs VarState VarStateProofs Terms TermsSpec Solver OrderSpec OrderProofs1 OrderProofs2 OrderProofs8 Orders Sum PropProofs ConSpec
  Distinct DistinctProofs2 Disjoint DisjointProofs Objective ObjectiveSpec ObjectiveProofs Search SearchSpec SearchInv5 Builder BuilderSpec Translation TranslationSpec CheckSpec KeepSpec
  Init InitSpec InitReady InitSimplify InitRun InitProofs InitAnswers Demo DemoSearch Prop_Check.
From Coq Require Import Permutation Sorting.Sorted.
Open Scope Z_scope.

Section First.
Context (isrt : (ival -> Z) -> list ival -> list ival) (O : oracle) (cfg : config) (check_state check_solution : bool) (Base : interp -> Prop) (n0 : Z).
Context (srt : list (Z * var) -> list (Z * var)) (dlimit mlimit : Z) (order : bool) (ch : cid -> choice).

(** Sorting, the program of clasp (it mentions the literals below [n0]) and clasp itself; see the trusted base. *)
Notation setting := ((forall f l, Permutation (isrt f l) l) /\ (forall f l, StronglySorted Z.le (map f (isrt f l))) /\ (forall es, Permutation (srt es) es) /\
  base_ok Base n0 /\ clasp_ok O Base /\ units_pos O /\ calm O /\ trail_ok O).
(** A new solver next to a program with the literals below [n]. *)
Notation fresh n := (mkb (set_nxt n init_state) [] 0%nat).
(** The parser has made the calls [ops] for a program over the literals [K] and [init] has returned [r]. *)
Definition first (n : Z) (K : Z -> Prop) (ops : list bop) (K' : Z -> Prop) (b1 : bld) (P : interp -> (var -> Z) -> Prop) (fuel : nat) (r : bool) (b : bld) (m : option (cid * mincon)) : Prop :=
  1 < n /\ n0 <= n /\ (forall i, K i -> 0 < i < n) /\ stays_top O (set_nxt n init_state) /\
  run O cfg srt K (fresh n) ops K' b1 P /\ Forall (op_tidy (nvars (b_s b1))) ops /\
  init isrt O cfg check_state srt dlimit mlimit order ch fuel ops (fresh n) = Some (Ok r, b, m).

Lemma fresh_top n : 1 < n -> n0 <= n -> stays_top O (set_nxt n init_state) -> top O n0 (fresh n).
Proof.
  intros N N0 S. constructor; auto; [|now repeat split]. constructor; [|constructor|intros c H; now elim H| |constructor].
  - split; split; cbn; try easy; try (intros; lia). constructor.
  - intros c d. cbn. split; [easy|]. intros (k & H & _). discriminate.
Qed.
Lemma fresh_models n I nu : Base I -> I 1 = true -> models Base (fresh n) I nu.
Proof. intros B I1. split; [split; [exact B|split; [exact I1|constructor]]|]. split; [|constructor]. intros x Hx. cbn in Hx. lia. Qed.

Lemma first_main n K ops K' b1 P fuel r b m : setting -> first n K ops K' b1 P fuel r b m ->
  (forall I nu, Base I -> I 1 = true -> P I nu -> firmly ops I nu ->
    exists J nu', (forall i, K' i -> J i = I i) /\ ext_nu (nvars (b_s b1)) nu nu' /\ good Base (b_s b) J /\ order_ok (b_s b) J nu' /\
      (r = true -> Forall (fun p => demand false None (snd p) J nu') (b_cs b))) /\
  (forall I nu, models Base b I nu -> P I nu) /\
  (r = true -> start isrt O cfg check_state check_solution n0 srt ops b /\ (forall i, K' i -> i < nxt (b_s b)) /\ (nvars (b_s b1) <= nvars (b_s b))%nat /\ (forall c a es, m = Some (c, (a, es)) -> In (c, CMin a es) (b_cs b))).
Proof.
  intros (SP & SS & PS & BO & CO & U & CA & TO) (N & N0 & KB & ST & R & T & E).
  destruct (init_main isrt SP SS O cfg check_state check_solution Base n0 BO CO U CA TO srt PS dlimit mlimit order ch fuel K (fresh n) ops K' b1 P r b m
    (fresh_top n N N0 ST) KB eq_refl (ready_init isrt O cfg check_state check_solution n) (young_init n) R T E) as (A & B & C).
  split; [|split; [|exact C]].
  - intros I nu BI I1 p F. now apply A; [apply fresh_models|..].
  - intros I nu M. now apply B.
Qed.

(** If init succeeds a search can start; C28 and C46 are about such searches. *)
Theorem C47_start n K ops K' b1 P fuel b m : setting -> first n K ops K' b1 P fuel true b m ->
  started isrt O cfg check_state check_solution (asked (b_s b)) (b_s b) /\ (forall c k, css (b_s b) c = Some k -> posted (b_s b) (c_def k)).
Proof. intros S F. destruct (first_main n K ops K' b1 P fuel true b m S F) as (_ & _ & A). destruct (A eq_refl) as [[A1 A2 A3 A4 A5] _]. auto. Qed.

(** Whenever check accepts a total assignment of clasp, the assignment satisfies the calls together with the values of the
    variables, and the objective function is not above the bound. *)
Theorem C47_sound n K ops K' b1 P fuel b m L s fuel' m' bound s' : setting -> first n K ops K' b1 P fuel true b m ->
  check_solution = true -> session isrt O cfg check_state check_solution (b_s b) L Going s -> in_order O s ->
  (forall l, In l (map snd L) -> o_true O (log s) l = true) -> total O s -> reported O (asked (b_s b)) L s -> o_total O (log s) = true ->
  prop_check isrt O cfg check_state check_solution fuel' m' bound s = Some (Ok tt, s') ->
  (exists es, log s' = es ++ log s /\ Exists news es) \/
  (log s' = log s /\ (forall x, (x < nvars s')%nat -> lb (vst s' x) = ub (vst s' x)) /\
   let I := fun i => o_true O (log s') i in
   (good Base s' I -> P I (value s')) /\
   forall c a es bd, In (c, CMin a es) (b_cs b) -> mbound s' = Some bd -> terms_val (key_val (value s')) (min_terms (calls ops)) + a <= bd).
Proof.
  intros S F SL SE IO TR TO RE OT E. destruct (first_main n K ops K' b1 P fuel true b m S F) as (_ & B & A). destruct (A eq_refl) as [ST _].
  destruct S as (SP & SS & PS & BO & CO & U & CA & _).
  destruct (answer_sound isrt SP SS O cfg check_state check_solution Base n0 BO CO U CA srt ops b L s fuel' m' bound s' ST SE IO TR TO RE OT SL E) as [X|(X1 & X2 & X3 & X4 & X5)]; [now left|right].
  split; [exact X1|]. split; [apply X3|]. cbv zeta. split; [intros G; apply B, X4, G|]. intros c a es bd Hc MB.
  pose proof (st_obj _ _ _ _ _ _ _ _ _ ST _ _ _ Hc) as OJ. pose proof (prepare_step srt PS None _ _ (value s') OJ) as PR. cbn [cost flipped] in PR.
  specialize (X5 c a es Hc). cbn [condition] in X5. rewrite MB in X5. lia.
Qed.

(** The full property has no condition [firmly]; without it it is false of the code (C47_conditional_refuted below).  The three theorems
    below are partial in this respect only; C47_firmly says when the condition holds anyway.

    Every solution whose objective is within the bound is still a solution of what clasp knows, at any point of the search, also
    after conflicts; new literals and variables get suitable values. *)
Theorem C47_complete_partial n K ops K' b1 P fuel b m L p s I nu : setting -> first n K ops K' b1 P fuel true b m ->
  session isrt O cfg check_state check_solution (b_s b) L p s ->
  Base I -> I 1 = true -> P I nu -> firmly ops I nu ->
  (forall a es bd, prepare_minimize srt None (min_terms (calls ops)) = Ok (Some (a, es)) -> mbound s = Some bd -> terms_val (key_val nu) (min_terms (calls ops)) + a <= bd) ->
  exists J nu', (forall i, K' i -> J i = I i) /\ ext_nu (nvars (b_s b1)) nu nu' /\ good Base s J /\ order_ok s J nu'.
Proof.
  intros S F SE BI I1 HP FI OB. destruct (first_main n K ops K' b1 P fuel true b m S F) as (FW & _ & A). destruct (A eq_refl) as (ST & KN & NV & _).
  destruct (FW I nu BI I1 HP FI) as (J & nu1 & AJ & X1 & GJ & OJ & DJ). specialize (DJ eq_refl).
  destruct S as (SP & SS & PS & BO & CO & U & CA & _). destruct F as (_ & _ & _ & _ & _ & T & _).
  destruct (answer_kept isrt SP SS O cfg check_state check_solution Base n0 BO CO U CA srt PS ops b L p s J nu1 (nvars (b_s b1)) nu ST SE T X1 GJ OJ DJ OB) as (J2 & nu2 & A2 & X2 & G2 & O2).
  exists J2, nu2. split; [intros i Hi; rewrite <- (AJ i Hi); symmetry; apply A2, KN, Hi|]. split; [|split; [exact G2|exact O2]].
  intros x Hx. rewrite (X2 x) by lia. now apply X1.
Qed.
(** So if clasp finds that nothing satisfies what it knows, there are no solutions within the bound. *)
Corollary C47_unsat_partial n K ops K' b1 P fuel b m L p s : setting -> first n K ops K' b1 P fuel true b m ->
  session isrt O cfg check_state check_solution (b_s b) L p s -> (forall J, ~ good Base s J) ->
  forall I nu, Base I -> I 1 = true -> P I nu -> firmly ops I nu ->
  exists a es bd, prepare_minimize srt None (min_terms (calls ops)) = Ok (Some (a, es)) /\ mbound s = Some bd /\ bd < terms_val (key_val nu) (min_terms (calls ops)) + a.
Proof.
  intros S F SE NG I nu BI I1 HP FI.
  pose proof (fun OB => C47_complete_partial n K ops K' b1 P fuel b m L p s I nu S F SE BI I1 HP FI OB) as X.
  destruct (prepare_minimize srt None (min_terms (calls ops))) as [[[a es]|]| |] eqn:EM.
  2-4: destruct X as (J & _ & _ & _ & G & _); [discriminate|now elim (NG J)].
  destruct (mbound s) as [bd|] eqn:MB; [|destruct X as (J & _ & _ & _ & G & _); [discriminate|now elim (NG J)]].
  exists a, es, bd. split; [reflexivity|]. split; [reflexivity|]. apply Z.nle_gt. intros LE. destruct X as (J & _ & _ & _ & G & _); [|now elim (NG J)].
  intros a' es' bd' Q1 Q2. injection Q1 as <- <-. injection Q2 as <-. exact LE.
Qed.
(** The same if init itself reports a conflict. *)
Theorem C47_failed_partial n K ops K' b1 P fuel r b m I nu : setting -> first n K ops K' b1 P fuel r b m -> Base I -> I 1 = true -> P I nu -> firmly ops I nu ->
  exists J nu', (forall i, K' i -> J i = I i) /\ ext_nu (nvars (b_s b1)) nu nu' /\ good Base (b_s b) J /\ order_ok (b_s b) J nu'.
Proof.
  intros S F BI I1 HP FI. destruct (first_main n K ops K' b1 P fuel r b m S F) as (FW & _ & _).
  destruct (FW I nu BI I1 HP FI) as (J & nu1 & AJ & X1 & GJ & OJ & _). exists J, nu1. auto.
Qed.
(** The objective handed to the search is a constraint of the solver under the number that comes with it, so that what the search
    does with this number (Minimize constraints, C25) concerns this objective. *)
Theorem C47_objective_kept n K ops K' b1 P fuel b c a es : setting -> first n K ops K' b1 P fuel true b (Some (c, (a, es))) -> In (c, CMin a es) (b_cs b).
Proof. intros S F. destruct (first_main n K ops K' b1 P fuel true b _ S F) as (_ & _ & A). destruct (A eq_refl) as (_ & _ & _ & H). now apply H. Qed.
End First.
Print Assumptions C47_objective_kept.
Print Assumptions C47_start.
Print Assumptions C47_sound.
Print Assumptions C47_complete_partial.
Print Assumptions C47_unsat_partial.
Print Assumptions C47_failed_partial.

(** [firmly] only adds something for conditional distinct and disjoint constraints over more than two elements and conditional products, and excludes coefficients
    below -1 of the third variable of a product. *)
Lemma run_holds O cfg srt K b ops K' b' P : run O cfg srt K b ops K' b' P -> forall I nu c, P I nu -> In (POp c) ops -> call_holds I nu c.
Proof.
  induction 1 as [K b|K b o ops b1 K' b' P _ _ _ IH]; intros I nu c HP H; [easy|]. destruct HP as [A B], H as [->|H]; [exact A|]. now apply (IH I nu).
Qed.
Theorem C47_firmly O cfg srt K b ops K' b' P I nu : run O cfg srt K b ops K' b' P -> P I nu ->
  (forall c, In (POp c) ops -> match c with
     | BDistinct l es => l = TRUE_LIT \/ (length es <= 2)%nat | BDisjoint l es => l = TRUE_LIT \/ (length es <= 2)%nat
     | BNonlin l ca _ _ cc _ _ _ => (l = TRUE_LIT /\ - 1 <= cc) \/ ca = 0 | _ => True end) -> firmly ops I nu.
Proof.
  intros R HP F c H. specialize (F c H). pose proof (run_holds _ _ _ _ _ _ _ _ _ R I nu c HP H) as C. destruct c as [| |l ca| l es|l es| | | | |]; (split; [cbn [third_ok]; auto|]); cbn [firm] in *; auto.
  - destruct F as [[_ F]|F]; [auto|]. intros N. now elim N.
  - destruct F as [[-> _]|F]; [now destruct (ca =? 0)|]. now rewrite (proj2 (Z.eqb_eq _ _) F).
  - destruct F as [->|F]; [now destruct (_ <? _)%nat|]. now rewrite (proj2 (Nat.ltb_ge _ _) F).
  - destruct F as [->|F]; [now destruct (_ <? _)%nat|]. now rewrite (proj2 (Nat.ltb_ge _ _) F).
Qed.
Print Assumptions C47_firmly.

(** *** What init returns *)
Section Returned.
Context (isrt : (ival -> Z) -> list ival -> list ival) (O : oracle) (cfg : config) (check_state : bool).
Context (srt : list (Z * var) -> list (Z * var)) (dlimit mlimit : Z) (order : bool) (ch : cid -> choice).
Notation build := (build O cfg srt).
Notation init := (init isrt O cfg check_state srt dlimit mlimit order ch).
Lemma build_cons o ops b ok b1 : build [o] b = Ok (ok, b1) -> build (o :: ops) b = if ok then build ops b1 else Ok (false, b1).
Proof.
  destruct o as [c| |x y]; cbn [Builder.build]; intros E; [|assert (ok = true) as -> by congruence; match goal with |- Builder.build _ _ _ _ ?x = _ => assert (x = b1) as -> by congruence end; reflexivity..].
  destruct (build1 O cfg srt c b) as [[[|] b2]| |]; cbn [bind negb] in *; try discriminate; injection E as <- <-; reflexivity.
Qed.
Lemma build_first pre o post : forall b b1 b2, build pre b = Ok (true, b1) -> build [o] b1 = Ok (false, b2) -> build (pre ++ o :: post) b = Ok (false, b2).
Proof.
  induction pre as [|o1 pre IH]; intros b b1 b2 E1 E2.
  - cbn in E1. injection E1 as <-. exact (build_cons o post b false b2 E2).
  - destruct (build [o1] b) as [[ok b0]| |] eqn:E; [|destruct o1 as [c| |x y]; cbn [Builder.build] in E, E1; try discriminate; destruct (build1 O cfg srt c b) as [[[|] ?]| |]; discriminate..].
    change ((o1 :: pre) ++ o :: post) with (o1 :: (pre ++ o :: post)). rewrite (build_cons _ pre _ _ _ E) in E1. rewrite (build_cons _ _ _ _ _ E). destruct ok; [|discriminate E1]. now apply (IH b0 b1).
Qed.
(** If one of the calls is refused, init reports a conflict and leaves everything as it is then. *)
Theorem C47_refused n pre o post b b1 b2 : build pre b = Ok (true, b1) -> build [o] b1 = Ok (false, b2) -> init n (pre ++ o :: post) b = Some (Ok false, b2, None).
Proof. intros E1 E2. unfold Init.init. now rewrite (build_first pre o post b b1 b2 E1 E2). Qed.
(** The objective function is handed to the search unless it has been translated, that is given to clasp. *)
Theorem C47_objective n ops b b' m : init n ops b = Some (Ok true, b', m) ->
  exists mo : option mincon, prepare_minimize srt None (min_terms (calls ops)) = Ok mo /\ (tmin (b_s b') = true -> m = None) /\ (tmin (b_s b') = false -> option_map snd m = mo).
Proof.
  unfold Init.init. intros E. destruct (build ops b) as [[[|] b1]| |]; try discriminate. destruct (solver_simplify isrt O cfg check_state n (b_s b1)) as [[[[|]| |] s]|]; try discriminate.
  destruct (prepare_minimize srt None (min_terms (calls ops))) as [mo| |]; try discriminate. exists mo. split; [reflexivity|]. cbv zeta in E.
  destruct (solver_translate O cfg dlimit mlimit order ch n _) as [[[[|]| |] b2]|]; try discriminate. injection E as <- <-.
  assert (T : tmin (b_s (watch_all b2)) = tmin (b_s b2)).
  { unfold watch_all. cbn [b_s]. generalize (b_s b2) as s0. induction (b_cs b2) as [|p l IH]; intros s0; [reflexivity|]. cbn [fold_left]. rewrite IH. reflexivity. }
  rewrite T. split; intros ->; [reflexivity|]. destruct mo; reflexivity.
Qed.
End Returned.
Print Assumptions C47_refused.
Print Assumptions C47_objective.

(** ** Example *)

(** x, y and z between 0 and 2 and different, x + y <= 1 if literal 2 holds, x is minimized; clasp decides 2 and y <= 1. *)
Definition iD (n : nat) : list Z := match n with 0%nat => [] | 1%nat => [2] | _ => [2; -4] end.
Definition iclasp := phases_total iD.
Definition iops : list bop := [PVar 0 2; PVar 0 2; PVar 0 2; POp (BSum 2 [(1, 0%nat); (1, 1%nat)] 1 false);
  POp (BDistinct 1 [([(1, 0%nat)], 0); ([(1, 1%nat)], 0); ([(1, 2%nat)], 0)]); POp (BMin 1 (Some 0%nat))].
Definition ich (c : cid) : choice := mkch false false false.
Local Notation i_fresh := (mkb (set_nxt 3 init_state) [] 0%nat).
Local Notation i_init := (init isort iclasp demo_cfg false (fun x => x) 0 0 true ich 20 iops i_fresh).
Definition ib : bld := match i_init with Some (_, b, _) => b | None => i_fresh end.
Definition im : option (cid * mincon) := Some (2%nat, (0, [(1, 0%nat)])).
Local Notation ichk s := (prop_check isort iclasp demo_cfg false true 20 im 0 s).
Local Notation ichecked s := (match ichk s with Some (Ok tt, s') => s' | _ => s end).
Local Notation iprop ls s := (snd (solver_propagate iclasp demo_cfg ls s)).
Definition i1 : state := ichecked (iprop [1] (b_s ib)).
Definition i2 : state := ichecked (iprop [-3] i1).
Definition i3 : state := ichecked (iprop [2] (emit (ECall 1) i2)).
Definition i4 : state := ichecked (iprop [-4] (emit (ECall 2) i3)).
Definition i5 : state := iprop [5] i4.
Definition i6 : state := ichecked i5.
Definition iK (i : Z) : Prop := 0 < i < 3.
Definition iI (i : Z) : bool := (i =? 1) || (i =? 2).
Definition inu (x : var) : Z := match x with 0%nat => 0 | 1%nat => 1 | _ => 2 end.
Local Notation L5 := [(2%nat, 5); (2%nat, -4); (1%nat, 2); (0%nat, -3); (0%nat, 1)].
Local Notation isess := (session isort iclasp demo_cfg false true (b_s ib)).

Lemma iD_cons n l : In l (1 :: iD n) -> In (- l) (1 :: iD n) -> False.
Proof. destruct n as [|[|n]]; cbn; lia. Qed.
Lemma i_one {A} : 1%nat = 0%nat -> A.
Proof. discriminate. Qed.
Lemma iclasp_ok : clasp_ok iclasp (fun _ => True).
Proof.
  constructor; cbn [iclasp phases_total phases o_true o_fixed o_level o_answer].
  - intros lg. apply d_in_spec. generalize (ph_level lg). intros n. induction lg; [now left|now apply d_mono].
  - intros lg l A B. apply d_in_spec in A, B. now apply (d_cons 1 (iD (ph_level lg)) (iD_cons (ph_level lg)) i_one lg l).
  - intros lg l I A B _ I1 F. apply d_in_spec in A. destruct B as [B|B].
    + rewrite B in A. apply (d_top 0 (iD 0) (fun _ => eq_refl) lg I l eq_refl A I1 F).
    + apply Z.eqb_eq in B. assert (C : l = 1 \/ l = -1) by lia. destruct C as [->| ->]; [exact I1|]. exfalso.
      apply (d_cons 1 (iD (ph_level lg)) (iD_cons (ph_level lg)) i_one lg (-1) A). generalize (ph_level lg). intros n. cbn. clear. induction lg; [now left|now apply d_mono].
  - intros lg e Q. destruct e; try easy.
  - intros lg e l Q A. apply d_in_spec in A. apply d_in_spec. destruct e; try easy; cbn [ph_level]; now apply d_mono.
  - auto.
  - intros lg l. now rewrite Z.abs_opp.
Qed.
Lemma iclasp_units : units_pos iclasp.
Proof.
  intros lg t c l _ A I H. cbn [iclasp phases_total phases o_true o_answer ph_level] in *. pose proof (demo_units 1 (iD (ph_level lg)) lg t c l) as Q. cbn [demo o_true o_answer] in Q. auto.
Qed.
Lemma iclasp_calm : calm iclasp.
Proof. intros lg e H. destruct e; try easy. Qed.
Lemma d_trail D lg : (forall l, In l D -> l <> 0) -> rev (d_true D lg) <> [] /\ Forall (fun l => l <> 0 /\ d_in (d_true D lg) l = true) (rev (d_true D lg)).
Proof.
  intros DN. assert (H1 : In 1 (d_true D lg)) by (induction lg; [now left|now apply d_mono]).
  assert (HN : forall l, In l (d_true D lg) -> l <> 0).
  { clear H1. induction lg as [|e lg IH]; intros l H; [destruct H as [<-|H]; [lia|now apply DN]|]. destruct e; auto. cbn in H. destruct (d_open (d_true D lg) c) as [|k r] eqn:E; auto. destruct (forallb _ r); auto.
    destruct H as [<-|H]; auto. assert (Q : In k (d_open (d_true D lg) c)) by (rewrite E; now left). apply d_open_spec in Q as (Q & _ & N). intros ->. auto. }
  split; [intros E; apply in_rev in H1; rewrite E in H1; easy|]. apply Forall_forall. intros l H. apply in_rev in H. split; auto. now apply d_in_spec.
Qed.
Lemma iclasp_trail : trail_ok iclasp.
Proof. intros lg. apply (d_trail (iD (ph_level lg)) lg). intros l. destruct (ph_level lg) as [|[|n]]; cbn; lia. Qed.
Lemma within_level es : Forall within es -> ph_level (es ++ []) = 0%nat.
Proof. induction 1 as [|e es W F IH]; [reflexivity|]. destruct e; try easy. Qed.

(** The hypotheses: about sorting and clasp, about the calls ... *)
Example C47_setting : (forall f l, Permutation (isort f l) l) /\ (forall f l, StronglySorted Z.le (map f (isort f l))) /\ (forall es : list (Z * var), Permutation es es) /\
  base_ok (fun _ => True) 2 /\ clasp_ok iclasp (fun _ => True) /\ units_pos iclasp /\ calm iclasp /\ trail_ok iclasp.
Proof.
  split; [exact isort_perm|]. split; [exact isort_sorted|]. split; [reflexivity|]. split; [easy|]. split; [exact iclasp_ok|]. split; [exact iclasp_units|]. split; [exact iclasp_calm|exact iclasp_trail].
Qed.
Definition iafter (o : bop) (b : bld) : bld := match build iclasp demo_cfg (fun x => x) [o] b with Ok (_, b') => b' | _ => b end.
Lemma irun_step (K : Z -> Prop) b o ops b1 K' b' P : op_ok K b o -> (match build iclasp demo_cfg (fun x => x) [o] b with Ok (true, _) => true | _ => false end) = true -> b1 = iafter o b ->
  run iclasp demo_cfg (fun x => x) (knows o b K) b1 ops K' b' P -> run iclasp demo_cfg (fun x => x) K b (o :: ops) K' b' (fun I nu => op_holds b o I nu /\ P I nu).
Proof. intros A E -> R. apply run_cons with (iafter o b); auto. unfold iafter. destruct (build _ _ _ _ _) as [[[|] q]| |]; try discriminate. reflexivity. Qed.
Lemma init_ok (x : option (outcome bool * bld * option (cid * mincon))) : (match x with Some (Ok true, _, Some (2%nat, (0, [(1, 0%nat)]))) => true | _ => false end) = true ->
  x = Some (Ok true, match x with Some (_, b, _) => b | None => i_fresh end, im).
Proof.
  destruct x as [[[[[|]| |] b] [[c [a es]]|]]|]; try discriminate. destruct c as [|[|[|c]]]; try discriminate. destruct a; try discriminate.
  destruct es as [|[[|q|q] [|x]] [|e es]]; try discriminate; try (destruct q; discriminate). destruct q; try discriminate. reflexivity.
Qed.
Lemma ib_ok : i_init = Some (Ok true, ib, im).
Proof. apply (init_ok i_init). vm_compute. reflexivity. Qed.
(** The objective is constraint 2. *)
Example C47_kept : im = Some (2%nat, (0, [(1, 0%nat)])) /\ existsb (fun p => match p with (2%nat, CMin 0 [(1, 0%nat)]) => true | _ => false end) (b_cs ib) = true.
Proof. split; [reflexivity|vm_compute; reflexivity]. Qed.
(** The objective is handed over; a call that is refused and then a call that is not made. *)
Example C47_returned : tmin (b_s ib) = false /\ option_map snd im = Some (0, [(1, 0%nat)]) /\
  init isort iclasp demo_cfg false (fun x => x) 0 0 true ich 20 [PVar 0 2; POp (BSum 1 [(1, 0%nat)] (-1) false); PVar 0 2] i_fresh =
  Some (Ok false, match build iclasp demo_cfg (fun x => x) [PVar 0 2; POp (BSum 1 [(1, 0%nat)] (-1) false)] i_fresh with Ok (_, b) => b | _ => i_fresh end, None).
Proof.
  split; [vm_compute; reflexivity|]. split; [reflexivity|].
  apply (C47_refused isort iclasp demo_cfg false (fun x => x) 0 0 true ich 20 [PVar 0 2] (POp (BSum 1 [(1, 0%nat)] (-1) false)) [PVar 0 2] i_fresh (snd (on_s (add_variable 0 2) i_fresh))); [reflexivity|vm_compute; reflexivity].
Qed.
Lemma var_ok x b : (x <? nvars (b_s b))%nat = true -> (x < nvars (b_s b))%nat.
Proof. apply Nat.ltb_lt. Qed.
Definition ia1 : bld := iafter (PVar 0 2) i_fresh.
Definition ia2 : bld := iafter (PVar 0 2) ia1.
Definition ia3 : bld := iafter (PVar 0 2) ia2.
Definition ia4 : bld := iafter (POp (BSum 2 [(1, 0%nat); (1, 1%nat)] 1 false)) ia3.
Definition ia5 : bld := iafter (POp (BDistinct 1 [([(1, 0%nat)], 0); ([(1, 1%nat)], 0); ([(1, 2%nat)], 0)])) ia4.
Definition ia6 : bld := iafter (POp (BMin 1 (Some 0%nat))) ia5.
Local Ltac variable := apply var_ok; vm_compute; reflexivity.
Lemma i_run : exists P, run iclasp demo_cfg (fun x => x) iK i_fresh iops iK ia6 P /\ P iI inu.
Proof.
  eexists. split.
  - apply irun_step with ia1; [cbn; lia|vm_compute; reflexivity|reflexivity|].
    apply irun_step with ia2; [cbn; lia|vm_compute; reflexivity|reflexivity|].
    apply irun_step with ia3; [cbn; lia|vm_compute; reflexivity|reflexivity|].
    apply irun_step with ia4; [split; [unfold iK; cbn; lia|]; repeat (apply Forall_cons; [split; [discriminate|variable]|]); apply Forall_nil|vm_compute; reflexivity|reflexivity|].
    apply irun_step with ia5; [split; [unfold iK; cbn; lia|]; repeat (apply Forall_cons; [apply Forall_cons; [variable|apply Forall_nil]|]); apply Forall_nil|vm_compute; reflexivity|reflexivity|].
    apply irun_step with ia6; [exact Logic.I|vm_compute; reflexivity|reflexivity|]. apply run_nil.
  - cbn [op_holds]. replace (nvars (b_s i_fresh)) with 0%nat by reflexivity. replace (nvars (b_s ia1)) with 1%nat by (vm_compute; reflexivity). replace (nvars (b_s ia2)) with 2%nat by (vm_compute; reflexivity).
    split; [cbn; lia|]. split; [cbn; lia|]. split; [cbn; lia|]. split; [split; [intros _; vm_compute; discriminate|discriminate]|]. split; [|split; exact Logic.I].
    intros _ i j e1 e2 L A B. destruct i as [|[|[|i]]], j as [|[|[|j]]]; try lia; cbn in A, B; try (destruct j; discriminate); try (destruct i; discriminate); injection A as <-; injection B as <-; vm_compute; discriminate.
Qed.
Lemma i_tidy : Forall (op_tidy (nvars (b_s ia6))) iops.
Proof.
  replace (nvars (b_s ia6)) with 3%nat by (vm_compute; reflexivity). repeat apply Forall_cons; [..|apply Forall_nil]; cbn [op_tidy call_tidy]; unfold MIN_VAL, MAX_VAL; try lia.
  - split; [|exact Logic.I]. cbn. repeat constructor; cbn; lia.
  - split; [|exact Logic.I]. repeat apply Forall_cons; [..|apply Forall_nil]; cbn; (split; [repeat constructor; discriminate|repeat constructor; auto]).
Qed.
Example C47_first : exists P, first isort iclasp demo_cfg false 2 (fun x => x) 0 0 true ich 3 iK iops iK ia6 P 20 true ib im /\ P iI inu /\ firmly iops iI inu /\ nvars (b_s ia6) = 3%nat.
Proof.
  destruct i_run as (P & R & HP). exists P. split; [|split; [exact HP|split; [|vm_compute; reflexivity]]].
  - split; [lia|]. split; [lia|]. split; [intros i H; exact H|]. split; [intros es W; now apply within_level|]. split; [exact R|]. split; [exact i_tidy|].
    exact ib_ok.
  - apply (C47_firmly _ _ _ _ _ _ _ _ _ iI inu R HP). intros c H. cbn in H. repeat (destruct H as [H|H]; [try discriminate; injection H as <-; auto|]). easy.
Qed.
(** ... and about the search: the assignment x = 0, y = 1, z = 2 is accepted with bound 0. *)
Local Ltac isettle := split; [vm_compute; reflexivity|]; split; [vm_compute; reflexivity|]; intros x; destruct x as [|[|[|x]]]; split; vm_compute; reflexivity.
Definition ioks s := match ichk s with Some (Ok tt, _) => true | _ => false end.
Lemma ichecked_ok s : ioks s = true -> ichk s = Some (Ok tt, ichecked s).
Proof. unfold ioks. intros H. destruct (ichk s) as [[[[]| |] s']|]; try discriminate. reflexivity. Qed.
Lemma i_check K s : ioks s = true -> Nat.eqb (cur_level s) (dlevel iclasp s) && ((0 <? cur_level (ichecked s))%nat || is_nil (fmap (ichecked s))) && forallb (fun p => o_true iclasp (log s) (snd p)) K = true ->
  isess K Going s -> isess K Going (ichecked s).
Proof.
  intros H L R. apply andb_prop in L as [L L3]. apply andb_prop in L as [L L2]. apply Nat.eqb_eq in L. rewrite forallb_forall in L3.
  assert (Q : (if (0 <? cur_level (ichecked s))%nat || is_nil (fmap (ichecked s)) then Going else Over) = Going) by (rewrite L2; reflexivity).
  refine (eq_rect _ (fun p => isess K p (ichecked s)) _ _ Q).
  eapply ss_check with (fuel := 20%nat) (m := im) (bound := 0); [exact R|split; lia| |now apply ichecked_ok].
  intros l M. apply in_map_iff in M as (p & <- & M). now apply L3.
Qed.
Lemma i_prop n K l s : cur_level (iprop [l] s) = n -> fst (solver_propagate iclasp demo_cfg [l] s) = true ->
  negb (l =? 0) && (Z.abs l <? nxt s) && forallb (fun p => o_true iclasp (log s) (snd p)) ((n, l) :: K) = true -> in_order iclasp s -> isess K Going s ->
  isess ((n, l) :: K) Going (iprop [l] s).
Proof.
  intros <- H B Q R. apply andb_prop in B as [B F]. apply andb_prop in B as [B1 B2]. rewrite forallb_forall in F.
  apply (ss_propagate isort iclasp demo_cfg false true (b_s ib) [l] true K s (iprop [l] s)); [exact R|exact Q| | |].
  - constructor; [|constructor]. unfold below. lia.
  - intros m [[<-|[]]|M]; [apply (F _ (or_introl eq_refl))|]. apply in_map_iff in M as (p & <- & M). apply F. now right.
  - rewrite (surjective_pairing (solver_propagate iclasp demo_cfg [l] s)). cbn [fst snd]. now rewrite H.
Qed.
Local Ltac iordered := split; [vm_compute; lia|intros _; split; [isettle|vm_compute; reflexivity]].
Lemma i_session : isess L5 Going i5.
Proof.
  assert (A1 : isess [(0%nat, 1)] Going i1) by (apply i_check; [vm_compute; reflexivity|vm_compute; reflexivity|]; apply (i_prop 0 [] 1); [vm_compute; reflexivity..|iordered|apply ss_start]).
  assert (A2 : isess [(0%nat, -3); (0%nat, 1)] Going i2) by (apply i_check; [vm_compute; reflexivity|vm_compute; reflexivity|]; apply (i_prop 0 _ (-3)); [vm_compute; reflexivity..|split; [vm_compute; lia|intros Q; exfalso; revert Q; vm_compute; lia]|exact A1]).
  assert (A3 : isess [(1%nat, 2); (0%nat, -3); (0%nat, 1)] Going i3) by (apply i_check; [vm_compute; reflexivity|vm_compute; reflexivity|]; apply (i_prop 1 _ 2); [vm_compute; reflexivity..|iordered|apply ss_call, A2]).
  assert (A4 : isess [(2%nat, -4); (1%nat, 2); (0%nat, -3); (0%nat, 1)] Going i4) by (apply i_check; [vm_compute; reflexivity|vm_compute; reflexivity|]; apply (i_prop 2 _ (-4)); [vm_compute; reflexivity..|iordered|apply ss_call, A3]).
  apply (i_prop 2 _ 5); [vm_compute; reflexivity..|split; [vm_compute; lia|intros Q; exfalso; revert Q; vm_compute; lia]|exact A4].
Qed.
Lemma i_reported_check (W : lit -> Prop) K s : forallb (fun e => match e with EWatch l => negb (o_true iclasp (log s) l) || existsb (Z.eqb l) (map snd K) | _ => true end) (log s) = true ->
  (forall l, W l -> In (EWatch l) (log s)) -> reported iclasp W K s.
Proof.
  intros H HW l HI HT. assert (HJ : In (EWatch l) (log s)) by (destruct HI; auto). rewrite forallb_forall in H. specialize (H _ HJ). cbn beta iota in H. rewrite HT in H. apply existsb_exists in H. destruct H as (m & HM & E).
  apply Z.eqb_eq in E. now subst m.
Qed.
Lemma i_total_check n s : nxt s = Z.of_nat n -> o_true iclasp (log s) 1 = true ->
  forallb (fun k => Bool.eqb (o_true iclasp (log s) (Z.of_nat k)) (negb (o_true iclasp (log s) (- Z.of_nat k)))) (seq 1 (n - 1)) = true -> total iclasp s.
Proof.
  intros N T H. split; [exact T|]. intros l (L0 & L1). rewrite forallb_forall in H. specialize (H (Z.to_nat (Z.abs l))).
  assert (M : In (Z.to_nat (Z.abs l)) (seq 1 (n - 1))) by (apply in_seq; lia). specialize (H M). apply Bool.eqb_prop in H. rewrite Z2Nat.id in H by lia.
  destruct (Z.abs_eq_or_opp l) as [E|E]; rewrite E in H; [exact H|]. rewrite Z.opp_involutive in H. rewrite H. now rewrite Bool.negb_involutive.
Qed.
Lemma ev_all (I : interp) lg : forallb (fun e => match e with EClause _ c => existsb (fun l => if 0 <? l then I l else negb (I (- l))) c | EWeight _ _ _ => false | _ => true end) lg = true -> Forall (ev_true I) lg.
Proof.
  induction lg as [|e lg IH]; intros F; constructor; cbn [forallb] in F; apply andb_prop in F as [F1 F2]; auto. destruct e; try exact Logic.I; try discriminate. apply existsb_exists in F1 as (l & H1 & H2). exists l. split; auto.
  unfold lit_true. destruct (0 <? l); auto. now apply negb_true_iff.
Qed.
Example C47_search : isess L5 Going i5 /\ in_order iclasp i5 /\ (forall l, In l (map snd L5) -> o_true iclasp (log i5) l = true) /\ total iclasp i5 /\ reported iclasp (asked (b_s ib)) L5 i5 /\
  o_total iclasp (log i5) = true /\ ichk i5 = Some (Ok tt, i6) /\ log i6 = log i5 /\ good (fun _ => True) i6 (fun i => o_true iclasp (log i6) i) /\
  map (value i6) [0%nat; 1%nat; 2%nat] = [0; 1; 2] /\ mbound i6 = Some 0 /\ In (2%nat, CMin 0 [(1, 0%nat)]) (b_cs ib).
Proof.
  split; [exact i_session|]. split; [split; [vm_compute; lia|intros Q; exfalso; revert Q; vm_compute; lia]|].
  split; [intros l H; repeat (destruct H as [<-|H]; [vm_compute; reflexivity|]); easy|].
  split; [apply (i_total_check 6); vm_compute; reflexivity|].
  split. { apply i_reported_check; [vm_compute; reflexivity|]. unfold asked. assert (Q : log i5 = firstn (length (log i5) - 5) (log i5) ++ log (b_s ib)) by (vm_compute; reflexivity). rewrite Q. intros l H. apply in_or_app. right. exact H. }
  split; [vm_compute; reflexivity|]. split; [apply ichecked_ok; vm_compute; reflexivity|]. split; [vm_compute; reflexivity|]. split.
  { split; [exact Logic.I|]. split; [vm_compute; reflexivity|].
    apply ev_all. vm_compute. reflexivity. }
  split; [vm_compute; reflexivity|]. split; [vm_compute; reflexivity|]. replace (b_cs ib) with [(0%nat, CSum 2 1 [(1, 0%nat); (1, 1%nat)]); (1%nat, CDistinct 1 [(0, [(1, 0%nat)]); (0, [(1, 1%nat)]); (0, [(1, 2%nat)])]); (2%nat, CMin 0 [(1, 0%nat)])] by (vm_compute; reflexivity).
  cbn. auto.
Qed.

(** ** Conditional constraints *)

(** x, y and z are 1 or 2, and 1 if literal 3 holds; they are different if literal 2 holds.  The program implies literal 3, which clasp finds out
    during the search, on the top level. *)
Definition rD (lg : list event) : list Z := if existsb (fun e => match e with ECall _ => true | _ => false end) lg then [3] else [].
Definition rclasp : oracle :=
  mko (fun lg l => d_in (d_true (rD lg) lg) l) (fun lg l => d_in (d_true (rD lg) lg) l || d_in (d_true (rD lg) lg) (- l))
      (fun _ _ => 0%nat) (fun _ => 0%nat) (fun lg => d_answer (rD lg) lg) (fun lg => rev (d_true (rD lg) lg)) (fun _ => false).
Definition rBase (I : interp) : Prop := I 3 = true.
Definition rdist : bcall := BDistinct 2 [([(1, 0%nat)], 0); ([(1, 1%nat)], 0); ([(1, 2%nat)], 0)].
Definition rsum (x : var) : bcall := BSum 3 [(1, x)] 1 false.
Definition rops : list bop := [PVar 1 2; PVar 1 2; PVar 1 2; POp (rsum 0%nat); POp (rsum 1%nat); POp (rsum 2%nat); POp rdist].
Local Notation r_fresh := (mkb (set_nxt 4 init_state) [] 0%nat).
Local Notation r_init := (init isort rclasp demo_cfg false (fun x => x) 0 0 false ich 20 rops r_fresh).
Definition rb : bld := match r_init with Some (_, b, _) => b | None => r_fresh end.
Definition r1 : state := snd (solver_propagate rclasp demo_cfg [-4; -5; -6] (emit (ECall 0) (b_s rb))).
Definition r2 : state := match prop_check isort rclasp demo_cfg false true 20 None 0 r1 with Some (Ok tt, s') => s' | _ => r1 end.
Definition rK (i : Z) : Prop := 0 < i < 4.
Definition rI (i : Z) : bool := (i =? 1) || (i =? 3).
Definition rnu (x : var) : Z := 1.

Lemma rD_cases lg : rD lg = [] \/ rD lg = [3].
Proof. unfold rD. destruct (existsb _ lg); auto. Qed.
Lemma rD_cons lg l : In l (1 :: rD lg) -> In (- l) (1 :: rD lg) -> False.
Proof. destruct (rD_cases lg) as [->| ->]; cbn; lia. Qed.
Lemma rD_quiet lg e : quiet rclasp lg e -> rD (e :: lg) = rD lg.
Proof. unfold rD. destruct e; try easy. Qed.
Lemma r_top D lg I l : (forall k, In k (1 :: D) -> lit_true I k) -> In l (d_true D lg) -> Forall (ev_true I) lg -> lit_true I l.
Proof.
  intros HD. revert l. induction lg as [|e lg IH]; intros l H F; [now apply HD|]. inversion F as [|? ? F1 F2]; subst. destruct e; auto. cbn in H. destruct (d_open (d_true D lg) c) as [|k r] eqn:E; [now apply IH|].
  destruct (forallb (Z.eqb k) r) eqn:FB; [|now apply IH]. destruct H as [<-|H]; [|now apply IH]. cbn in F1. destruct F1 as (q & Q1 & Q2). destruct (Z.eq_dec q k) as [->|Nq]; [easy|]. exfalso.
  assert (K : ~ In q (k :: r)). { intros [A|A]; [now subst|]. rewrite forallb_forall in FB. apply FB in A. apply Z.eqb_eq in A. congruence. }
  assert (K0 : In k (d_open (d_true D lg) c)) by (rewrite E; now left). apply d_open_spec in K0 as (_ & _ & K0). assert (Nz : q <> 0) by (intros ->; tauto).
  rewrite <- E, d_open_spec in K. destruct (in_dec Z.eq_dec (- q) (d_true D lg)) as [A|A]; [|tauto]. apply IH in A; auto. apply lit_true_neg in A; [tauto|easy].
Qed.
Lemma rclasp_ok : clasp_ok rclasp rBase.
Proof.
  constructor; cbn [rclasp o_true o_fixed o_level o_answer].
  - intros lg. apply d_in_spec. generalize (rD lg). intros D. induction lg; [now left|now apply d_mono].
  - intros lg l A B. apply d_in_spec in A, B. now apply (d_cons 1 (rD lg) (rD_cons lg) i_one lg l).
  - intros lg l I A _ B I1 F. apply d_in_spec in A. apply (r_top (rD lg) lg); auto. intros k. destruct (rD_cases lg) as [->| ->]; cbn [In]; intros H; [destruct H as [<-|[]]; exact I1|]. destruct H as [<-|[<-|[]]]; [exact I1|exact B].
  - easy.
  - intros lg e l Q A. rewrite (rD_quiet lg e Q). apply d_in_spec in A. apply d_in_spec. now apply d_mono.
  - intros lg e l Q A. rewrite (rD_quiet lg e Q). apply orb_prop in A. apply orb_true_intro. rewrite !d_in_spec in *. destruct A; [left|right]; now apply d_mono.
  - intros lg l A. rewrite Z.opp_involutive, orb_comm. exact A.
Qed.
Lemma rclasp_setting : (forall f l, Permutation (isort f l) l) /\ (forall f l, StronglySorted Z.le (map f (isort f l))) /\ (forall es : list (Z * var), Permutation es es) /\
  base_ok rBase 4 /\ clasp_ok rclasp rBase /\ units_pos rclasp /\ calm rclasp /\ trail_ok rclasp.
Proof.
  split; [exact isort_perm|]. split; [exact isort_sorted|]. split; [reflexivity|]. split; [intros I J A H; unfold rBase; rewrite <- A by lia; exact H|]. split; [exact rclasp_ok|].
  split; [intros lg t c l H; cbn in H; lia|]. split; [intros lg e _; reflexivity|].
  intros lg. apply (d_trail (rD lg) lg). intros l. destruct (rD_cases lg) as [->| ->]; cbn; lia.
Qed.
Definition rafter (o : bop) (b : bld) : bld := match build rclasp demo_cfg (fun x => x) [o] b with Ok (_, b') => b' | _ => b end.
Lemma rrun_step (K : Z -> Prop) b o ops b1 K' b' P : op_ok K b o -> (match build rclasp demo_cfg (fun x => x) [o] b with Ok (true, _) => true | _ => false end) = true -> b1 = rafter o b ->
  run rclasp demo_cfg (fun x => x) (knows o b K) b1 ops K' b' P -> run rclasp demo_cfg (fun x => x) K b (o :: ops) K' b' (fun I nu => op_holds b o I nu /\ P I nu).
Proof. intros A E -> R. apply run_cons with (rafter o b); auto. unfold rafter. destruct (build _ _ _ _ _) as [[[|] q]| |]; try discriminate. reflexivity. Qed.
Definition ra1 : bld := rafter (PVar 1 2) r_fresh.
Definition ra2 : bld := rafter (PVar 1 2) ra1.
Definition ra3 : bld := rafter (PVar 1 2) ra2.
Definition ra4 : bld := rafter (POp (rsum 0%nat)) ra3.
Definition ra5 : bld := rafter (POp (rsum 1%nat)) ra4.
Definition ra6 : bld := rafter (POp (rsum 2%nat)) ra5.
Definition ra7 : bld := rafter (POp rdist) ra6.
Lemma r_run : exists P, run rclasp demo_cfg (fun x => x) rK r_fresh rops rK ra7 P /\ P rI rnu.
Proof.
  eexists. split.
  - do 3 (eapply rrun_step; [cbn; lia|vm_compute; reflexivity|reflexivity|]). fold ra1 ra2 ra3.
    apply rrun_step with ra4; [split; [unfold rK; cbn; lia|]; apply Forall_cons; [split; [discriminate|variable]|apply Forall_nil]|vm_compute; reflexivity|reflexivity|].
    apply rrun_step with ra5; [split; [unfold rK; cbn; lia|]; apply Forall_cons; [split; [discriminate|variable]|apply Forall_nil]|vm_compute; reflexivity|reflexivity|].
    apply rrun_step with ra6; [split; [unfold rK; cbn; lia|]; apply Forall_cons; [split; [discriminate|variable]|apply Forall_nil]|vm_compute; reflexivity|reflexivity|].
    apply rrun_step with ra7; [split; [unfold rK; cbn; lia|]; repeat (apply Forall_cons; [apply Forall_cons; [variable|apply Forall_nil]|]); apply Forall_nil|vm_compute; reflexivity|reflexivity|].
    apply run_nil.
  - cbn [op_holds]. do 3 (split; [unfold rnu; lia|]). do 3 (split; [split; [intros _; vm_compute; discriminate|discriminate]|]). split; [|exact Logic.I]. intros H. discriminate.
Qed.
Lemma r_tidy : Forall (op_tidy (nvars (b_s ra7))) rops.
Proof.
  replace (nvars (b_s ra7)) with 3%nat by (vm_compute; reflexivity). repeat apply Forall_cons; [..|apply Forall_nil]; cbn [op_tidy call_tidy rsum rdist]; unfold MIN_VAL, MAX_VAL; try lia.
  1-3: split; [|exact Logic.I]; cbn; repeat constructor; auto.
  split; [|exact Logic.I]. repeat apply Forall_cons; [..|apply Forall_nil]; cbn; (split; [repeat constructor; discriminate|repeat constructor; auto]).
Qed.
Lemma rinit_ok (x : option (outcome bool * bld * option (cid * mincon))) : (match x with Some (Ok true, _, None) => true | _ => false end) = true ->
  x = Some (Ok true, match x with Some (_, b, _) => b | None => r_fresh end, None).
Proof. destruct x as [[[[[|]| |] b] [m|]]|]; try discriminate. reflexivity. Qed.
Lemma rb_ok : r_init = Some (Ok true, rb, None).
Proof. apply (rinit_ok r_init). vm_compute. reflexivity. Qed.
Lemma rprop_ok (x : bool * state) : fst x = true -> x = (true, snd x).
Proof. destruct x as [[|] ?]; try discriminate. reflexivity. Qed.
Lemma rcheck_ok (x : option (outcome unit * state)) d : (match x with Some (Ok tt, _) => true | _ => false end) = true -> x = Some (Ok tt, match x with Some (Ok tt, s') => s' | _ => d end).
Proof. destruct x as [[[[]| |] ?]|]; try discriminate. reflexivity. Qed.
Lemma r_session : exists p, session isort rclasp demo_cfg false true (b_s rb) [(0%nat, -4); (0%nat, -5); (0%nat, -6)] p r2.
Proof.
  assert (A : session isort rclasp demo_cfg false true (b_s rb) [(0%nat, -4); (0%nat, -5); (0%nat, -6)] Going r1).
  { pose proof (ss_propagate isort rclasp demo_cfg false true (b_s rb) [-4; -5; -6] true [] (emit (ECall 0) (b_s rb)) r1) as Q. cbv iota in Q. replace (cur_level r1) with 0%nat in Q by (vm_compute; reflexivity). apply Q; clear Q.
    - apply ss_call, ss_start.
    - split; [vm_compute; lia|]. intros H. exfalso. revert H. vm_compute. lia.
    - replace (nxt (emit (ECall 0) (b_s rb))) with 7 by (vm_compute; reflexivity). repeat apply Forall_cons; [..|apply Forall_nil]; unfold below; lia.
    - intros l [H|[]]. repeat (destruct H as [<-|H]; [vm_compute; reflexivity|]). easy.
    - unfold r1. apply rprop_ok. vm_compute. reflexivity. }
  eexists. eapply ss_check with (fuel := 20%nat) (m := None) (bound := 0); [exact A| | |].
  - split; [vm_compute; lia|]. intros H. exfalso. revert H. vm_compute. lia.
  - intros l H. repeat (destruct H as [<-|H]; [vm_compute; reflexivity|]). easy.
  - unfold r2. apply rcheck_ok. vm_compute. reflexivity.
Qed.
(** Without the condition [firmly] C47_complete_partial is false: literal 2 may be false and then x = y = z = 1 is a solution, but as soon as clasp has derived
    literal 3 on the top level no assignment is left. *)
Theorem C47_conditional_refuted : exists isrt O cfg Base n0 srt dlimit mlimit order ch n K ops K' b1 P fuel b m L p s I nu,
  ((forall f l, Permutation (isrt f l) l) /\ (forall f l, StronglySorted Z.le (map f (isrt f l))) /\ (forall es, Permutation (srt es) es) /\
   base_ok Base n0 /\ clasp_ok O Base /\ units_pos O /\ calm O /\ trail_ok O) /\
  first isrt O cfg false n0 srt dlimit mlimit order ch n K ops K' b1 P fuel true b m /\ session isrt O cfg false true (b_s b) L p s /\
  mbound s = None /\ Base I /\ I 1 = true /\ P I nu /\ forall J, ~ good Base s J.
Proof.
  destruct r_run as (P & R & HP). destruct r_session as (p & SE).
  exists isort, rclasp, demo_cfg, rBase, 4, (fun x => x), 0, 0, false, ich, 4, rK, rops, rK, ra7, P, 20%nat, rb, None, [(0%nat, -4); (0%nat, -5); (0%nat, -6)], p, r2, rI, rnu.
  split; [exact rclasp_setting|]. split.
  { split; [lia|]. split; [lia|]. split; [intros i H; exact H|]. split; [intros es _; reflexivity|]. split; [exact R|]. split; [exact r_tidy|exact rb_ok]. }
  split; [exact SE|]. split; [vm_compute; reflexivity|]. split; [reflexivity|]. split; [reflexivity|]. split; [exact HP|].
  intros J (_ & J1 & F). assert (Q : firstn 1 (log r2) = [EClause Learnt [-1]]) by (vm_compute; reflexivity). destruct (log r2) as [|e lg]; [discriminate|]. cbn in Q. injection Q as ->.
  inversion_clear F as [|? ? F1 _]. destruct F1 as (l & [<-|[]] & H). unfold lit_true in H. cbn in H. congruence.
Qed.
Print Assumptions C47_conditional_refuted.
