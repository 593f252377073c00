(** From the theory atoms of a program to its answers (C49): parsing on the real builder, Propagator::init and a search of clasp with its
    callbacks.  [setting] is as in C47: it is about the C++ library and about clasp. *)
From Coq Require Import String.
From Verif Require Import Base Util IntervalSet UtilProofs VarState VarStateProofs Terms TermsSpec TermsProofs2 Statements StatementsSpec StatementsProofs
  Solver OrderSpec OrderProofs1 OrderProofs2 OrderProofs8 Orders Sum PropProofs ConSpec
  Distinct DistinctProofs2 Disjoint DisjointProofs Objective ObjectiveSpec ObjectiveProofs Search SearchSpec SearchInv5 Builder BuilderSpec Translation TranslationSpec CheckSpec KeepSpec
  Init InitSpec InitReady InitSimplify InitRun InitProofs InitAnswers Demo DemoSearch Prop_Check Prop_Init ParseRun ParseRunSpec ParseRunProofs ParseRunNonlin ParseRunMain ParseRunFail ParseRunDefined.
From Coq Require Import Permutation Sorting.Sorted.
Open Scope Z_scope.

Local Notation objective := StatementsSpec.objective.

Section Answers.
Context (isrt : (ival -> Z) -> list ival -> list ival) (O : oracle) (cfg : config) (check_state check_solution : bool) (Base : interp -> Prop) (n0 : Z).
Context (srt : list (Z * var) -> list (Z * var)) (mn mx dlimit mlimit : Z) (order : bool) (ch : cid -> choice).
Notation setting := ((forall f l, Permutation (isrt f l) l) /\ (forall f l, StronglySorted Z.le (map f (isrt f l))) /\ (forall es, Permutation (srt es) es) /\
  base_ok Base n0 /\ clasp_ok O Base /\ units_pos O /\ calm O /\ trail_ok O).
Notation fresh n := (mkb (set_nxt n init_state) [] 0%nat).

(** The options min-int and max-int are within the range of values.  The program with the theory atoms [atoms] over the literals below [n]
    has been parsed and [init] has returned [r]. *)
Definition program (n : Z) (atoms : list tatom) (s1 : pr) (fuel : nat) (r : bool) (b : bld) (m : option (cid * mincon)) : Prop :=
  mn <= mx /\ (MIN_VAL <= mn /\ mx <= MAX_VAL) /\ 1 < n /\ n0 <= n /\ stays_top O (set_nxt n init_state) /\
  Forall (fun a => below n (a_lit a)) atoms /\ Forall covered atoms /\
  p_parse O cfg srt mn mx atoms (mkpr (mksymtab [] 0) (fresh n) []) = Ok (true, s1) /\
  init isrt O cfg check_state srt dlimit mlimit order ch fuel (p_ops s1) (fresh n) = Some (Ok r, b, m).

Lemma program_first n atoms s1 fuel r b m : setting -> program n atoms s1 fuel r b m ->
  tab_wf (p_tab s1) /\ st_next (p_tab s1) = nvars (b_s (p_b s1)) /\
  exists K' P, first isrt O cfg check_state n0 srt dlimit mlimit order ch n (fun i => 0 < i < n) (p_ops s1) K' (p_b s1) P fuel r b m /\ (forall i, 0 < i < n -> K' i) /\
    (forall I nu, Base I -> I 1 = true -> P I nu -> answers mn mx (p_tab s1) atoms (name_val (p_tab s1) nu) I) /\
    ((forall c, In (POp c) (p_ops s1) -> third_ok c) -> forall I rho, Base I -> I 1 = true -> answers mn mx (p_tab s1) atoms rho I -> Forall (fun a => holds_firmly rho a I) atoms ->
      exists J, same_on n I J /\ Base J /\ J 1 = true /\ P J (clamp mn mx (p_tab s1) rho) /\ firmly (p_ops s1) J (clamp mn mx (p_tab s1) rho)) /\
    (forall rho nu, tab_agrees rho nu (p_tab s1) -> objective rho atoms (terms_val (key_val nu) (min_terms (calls (p_ops s1))))).
Proof.
  intros (_ & _ & PS & BO & CO & _) (MX & MR & N & N0 & ST & LB & CV & H & E).
  destruct (parse_main O cfg srt mn mx Base n0 BO CO PS MX MR n atoms s1 H N N0 ST LB CV) as (W & NX & K' & P & R & T & KK & A). split; [exact W|]. split; [exact NX|].
  exists K', P. split; [|split; [exact KK|exact A]]. unfold first. split; [exact N|]. split; [exact N0|]. split; [intros i Hi; exact Hi|]. split; [exact ST|]. split; [exact R|]. split; [exact T|exact E].
Qed.

(** Whenever check accepts a total assignment of clasp, the values of the named variables are within the range and make every theory
    atom mean what it should; the objective function written in the program is not above the bound. *)
Theorem C49_sound n atoms s1 fuel b m L s fuel' m' bound s' : setting -> program n atoms s1 fuel true b m ->
  check_solution = true -> session isrt O cfg check_state check_solution (b_s b) L Going s -> in_order O s ->
  (forall l, In l (map snd L) -> o_true O (log s) l = true) -> total O s -> reported O (asked (b_s b)) L s -> o_total O (log s) = true ->
  prop_check isrt O cfg check_state check_solution fuel' m' bound s = Some (Ok tt, s') ->
  (exists es, log s' = es ++ log s /\ Exists news es) \/
  (log s' = log s /\ (forall x, (x < nvars s')%nat -> lb (vst s' x) = ub (vst s' x)) /\
   let I := fun i => o_true O (log s') i in
   let rho := name_val (p_tab s1) (value s') in
   (good Base s' I -> answers mn mx (p_tab s1) atoms rho I) /\
   forall c a es bd, In (c, CMin a es) (b_cs b) -> mbound s' = Some bd -> exists x, objective rho atoms x /\ x + a <= bd).
Proof.
  intros S F SL SE IO TR TO RE OT E. destruct (program_first n atoms s1 fuel true b m S F) as (W & _ & K' & P & FI & _ & A & _ & OB).
  destruct (C47_sound isrt O cfg check_state check_solution Base n0 srt dlimit mlimit order ch n _ _ K' _ P fuel b m L s fuel' m' bound s' S FI SL SE IO TR TO RE OT E) as [X|(X1 & X2 & X3 & X4)]; [now left|right].
  split; [exact X1|]. split; [exact X2|]. cbv zeta. split.
  - intros G. apply A; [apply G|apply G|apply X3, G].
  - intros c a es bd Hc MB. eexists. split; [apply OB; apply name_val_agrees, W|now apply X4 with c es].
Qed.

(** Conversely, every answer whose objective is within the bound is kept as a solution of what clasp knows, at any point of the search.
    The full property has no condition [holds_firmly] (see C47_conditional_refuted: without it it is false of the code) and no
    condition [third_ok] (the coefficient of the third variable of a product, see C24), and also covers empty domains. *)
Theorem C49_complete_partial n atoms s1 fuel b m L p s I rho : setting -> program n atoms s1 fuel true b m ->
  session isrt O cfg check_state check_solution (b_s b) L p s -> (forall c, In (POp c) (p_ops s1) -> third_ok c) ->
  Base I -> I 1 = true -> answers mn mx (p_tab s1) atoms rho I -> Forall (fun a => holds_firmly rho a I) atoms ->
  (forall a es bd x, prepare_minimize srt None (min_terms (calls (p_ops s1))) = Ok (Some (a, es)) -> mbound s = Some bd -> objective rho atoms x -> x + a <= bd) ->
  exists J nu, (forall i, 0 < i < n -> J i = I i) /\ (forall name v, In (name, v) (st_map (p_tab s1)) -> nu v = rho name) /\ good Base s J /\ order_ok s J nu.
Proof.
  intros S F SE TH BI I1 HA HF OB. destruct (program_first n atoms s1 fuel true b m S F) as (W & NX & K' & P & FI & KK & _ & B & C).
  destruct (B TH I rho BI I1 HA HF) as (J & SO & BJ & J1 & HP & FM). pose proof (clamp_agrees mn mx _ rho W (proj1 HA)) as TA.
  destruct (C47_complete_partial isrt O cfg check_state check_solution Base n0 srt dlimit mlimit order ch n _ _ K' _ P fuel b m L p s J _ S FI SE BJ J1 HP FM) as (J2 & nu2 & A2 & X2 & G2 & O2).
  { intros a es bd EP MB. apply (OB a es bd); auto. }
  exists J2, nu2. split; [|split; [|split; [exact G2|exact O2]]].
  - intros i Hi. rewrite (A2 i (KK i Hi)). symmetry. now apply SO.
  - intros name v Hv. rewrite X2; [now apply TA|]. rewrite <- NX. apply (proj2 (proj2 W) _ _ Hv).
Qed.
(** So if clasp finds that nothing satisfies what it knows, there is no answer within the bound. *)
Corollary C49_unsat_partial n atoms s1 fuel b m L p s : setting -> program n atoms s1 fuel true b m ->
  session isrt O cfg check_state check_solution (b_s b) L p s -> (forall J, ~ good Base s J) -> (forall c, In (POp c) (p_ops s1) -> third_ok c) ->
  forall I rho, Base I -> I 1 = true -> answers mn mx (p_tab s1) atoms rho I -> Forall (fun a => holds_firmly rho a I) atoms ->
  exists a es bd x, prepare_minimize srt None (min_terms (calls (p_ops s1))) = Ok (Some (a, es)) /\ mbound s = Some bd /\ objective rho atoms x /\ bd < x + a.
Proof.
  intros S F SE NG TH I rho BI I1 HA HF. destruct (program_first n atoms s1 fuel true b m S F) as (W & NX & K' & P & FI & KK & _ & B & C).
  destruct (B TH I rho BI I1 HA HF) as (J & _ & BJ & J1 & HP & FM). pose proof (clamp_agrees mn mx _ rho W (proj1 HA)) as TA.
  destruct (C47_unsat_partial isrt O cfg check_state check_solution Base n0 srt dlimit mlimit order ch n _ _ K' _ P fuel b m L p s S FI SE NG J _ BJ J1 HP FM) as (a & es & bd & X1 & X2 & X3).
  exists a, es, bd. eexists. split; [exact X1|]. split; [exact X2|]. split; [apply C, TA|exact X3].
Qed.
(** The same if init itself reports a conflict after the program has been parsed. *)
Theorem C49_failed_partial n atoms s1 fuel r b m I rho : setting -> program n atoms s1 fuel r b m -> (forall c, In (POp c) (p_ops s1) -> third_ok c) ->
  Base I -> I 1 = true -> answers mn mx (p_tab s1) atoms rho I -> Forall (fun a => holds_firmly rho a I) atoms ->
  exists J nu, (forall i, 0 < i < n -> J i = I i) /\ (forall name v, In (name, v) (st_map (p_tab s1)) -> nu v = rho name) /\ good Base (b_s b) J /\ order_ok (b_s b) J nu.
Proof.
  intros S F TH BI I1 HA HF. destruct (program_first n atoms s1 fuel r b m S F) as (W & NX & K' & P & FI & KK & _ & B & C).
  destruct (B TH I rho BI I1 HA HF) as (J & SO & BJ & J1 & HP & FM). pose proof (clamp_agrees mn mx _ rho W (proj1 HA)) as TA.
  destruct (C47_failed_partial isrt O cfg check_state check_solution Base n0 srt dlimit mlimit order ch n _ _ K' _ P fuel r b m J _ S FI BJ J1 HP FM) as (J2 & nu2 & A2 & X2 & G2 & O2).
  exists J2, nu2. split; [|split; [|split; [exact G2|exact O2]]].
  - intros i Hi. rewrite (A2 i (KK i Hi)). symmetry. now apply SO.
  - intros name v Hv. rewrite X2; [now apply TA|]. rewrite <- NX. apply (proj2 (proj2 W) _ _ Hv).
Qed.
(** The parser may itself report a conflict; it then leaves the remaining theory atoms unread and init ends.  Here every answer is kept too,
    so if clasp is right about the conflict there is none.  Still missing are empty domains, sums with several products
    and sums with products in the body. *)
Theorem C49_rejected_partial n atoms s1 I rho : setting -> mn <= mx /\ (MIN_VAL <= mn /\ mx <= MAX_VAL) -> 1 < n /\ n0 <= n -> stays_top O (set_nxt n init_state) ->
  Forall (fun a => below n (a_lit a)) atoms -> Forall covered atoms ->
  p_parse O cfg srt mn mx atoms (mkpr (mksymtab [] 0) (fresh n) []) = Ok (false, s1) ->
  Base I -> I 1 = true -> answers mn mx (p_tab s1) atoms rho I ->
  exists J nu, (forall i, 0 < i < n -> J i = I i) /\ (forall name v, In (name, v) (st_map (p_tab s1)) -> nu v = rho name) /\
    good Base (b_s (p_b s1)) J /\ order_ok (b_s (p_b s1)) J nu.
Proof.
  intros (_ & _ & PS & BO & CO & _) [MX MR] [N N0] ST LB CV H BI I1 HA.
  destruct (parse_fail O cfg srt mn mx Base n0 n atoms s1 BO CO PS MX MR H N N0 ST LB CV I rho BI I1 HA) as (J & SO & TA & G & OK & _).
  exists J, (clamp mn mx (p_tab s1) rho). split; [intros i Hi; symmetry; now apply SO|]. split; [exact TA|]. split; [exact G|exact OK].
Qed.
Corollary C49_contradiction_partial n atoms s1 : setting -> mn <= mx /\ (MIN_VAL <= mn /\ mx <= MAX_VAL) -> 1 < n /\ n0 <= n -> stays_top O (set_nxt n init_state) ->
  Forall (fun a => below n (a_lit a)) atoms -> Forall covered atoms ->
  p_parse O cfg srt mn mx atoms (mkpr (mksymtab [] 0) (fresh n) []) = Ok (false, s1) -> (forall J, ~ good Base (b_s (p_b s1)) J) ->
  forall I rho, Base I -> I 1 = true -> ~ answers mn mx (p_tab s1) atoms rho I.
Proof.
  intros S M N ST LB CV H NG I rho BI I1 HA. destruct (C49_rejected_partial n atoms s1 I rho S M N ST LB CV H BI I1 HA) as (J & nu & _ & _ & G & _). exact (NG J G).
Qed.
(** A search can start, as for C47. *)
Theorem C49_start n atoms s1 fuel b m : setting -> program n atoms s1 fuel true b m ->
  started isrt O cfg check_state check_solution (asked (b_s b)) (b_s b).
Proof.
  intros S F. destruct (program_first n atoms s1 fuel true b m S F) as (_ & _ & K' & P & FI & _).
  apply (C47_start isrt O cfg check_state check_solution Base n0 srt dlimit mlimit order ch n _ _ K' _ P fuel b m S FI).
Qed.
End Answers.
Print Assumptions C49_sound.
Print Assumptions C49_complete_partial.
Print Assumptions C49_unsat_partial.
Print Assumptions C49_failed_partial.
Print Assumptions C49_rejected_partial.
Print Assumptions C49_contradiction_partial.
Print Assumptions C49_start.

(** The objective function has one value. *)
Theorem C49_objective rho atoms x y : objective rho atoms x -> objective rho atoms y -> x = y.
Proof. intros A. now apply objective_fun. Qed.
Print Assumptions C49_objective.

(** A condition on the text for the one about products in [covered]. *)
Theorem C49_one_product a : (written_products a <= 1)%nat -> forall t, one_product_atom a t.
Proof. exact (one_product_written a). Qed.
Print Assumptions C49_one_product.

(** Parsing has no undefined behaviour, whatever clasp answers and whatever has been parsed before: no machine operation of the parser and of
    the calls it makes overflows, no constant is taken for a variable, and no conversion of a constraint fails to end.  The numbers of the program are
    32 bit and quoted strings are decodable ([wf_term], see C06); all kinds of atoms are included. *)
Theorem C49_defined O cfg srt mn mx atoms s :
  Forall (fun a => Forall wf_telem (a_elems a) /\ forall op g, a_guard a = Some (op, g) -> wf_term g) atoms -> p_parse O cfg srt mn mx atoms s <> UB.
Proof. intros W. now apply parse_defined. Qed.
Print Assumptions C49_defined.

(** ** Example *)

(** With values between 0 and 2: [&sum { x; y; z; -z } <= 1] if literal 2 holds, [&distinct { x; y; z }] and [&minimize { x }].  The parser makes
    the calls of the example of C47; the answer found there is x = 0, y = 1, z = 2. *)
Local Open Scope string_scope.
Definition aprog : list tatom :=
  [mkatom (KSum false) [([TSym "x"], true); ([TSym "y"], true); ([TSym "z"], true); ([TFun "-" [TSym "z"]], true)] (Some (RLe, TNum 1)) 2;
   mkatom KDistinct [([TSym "x"], true); ([TSym "y"], true); ([TSym "z"], true)] None 1;
   mkatom KMinimize [([TSym "x"], true)] None 1].
Local Close Scope string_scope.
Local Notation a_parse := (p_parse iclasp demo_cfg (fun x => x) 0 2 aprog (mkpr (mksymtab [] 0) (mkb (set_nxt 3 init_state) [] 0%nat) [])).
Definition a1 : pr := match a_parse with Ok (_, s) => s | _ => mkpr (mksymtab [] 0) (mkb (set_nxt 3 init_state) [] 0%nat) [] end.
Lemma parsed_ok (x : outcome (bool * pr)) d : (match x with Ok (true, _) => true | _ => false end) = true -> x = Ok (true, match x with Ok (_, s) => s | _ => d end).
Proof. destruct x as [[[|] s]| |]; try discriminate. reflexivity. Qed.
Lemma a1_ops : p_ops a1 = iops. Proof. vm_compute. reflexivity. Qed.
Definition arho (s : sym) : Z := if sym_eqb s (SFun "y" [] true) then 1 else if sym_eqb s (SFun "z" [] true) then 2 else 0.

(** A program with numbers at the limits, a product and a disjoint statement; without its last sum, which is too large, it is parsed. *)
Local Open Scope string_scope.
Definition wprog : list tatom :=
  (aprog ++ [mkatom (KNsum true) [([TFun "*" [TSym "x"; TFun "*" [TNum 1073741823; TSym "y"]]], true); ([TNum (-1073741823)], true)] (Some (RNe, TNum 0)) 2;
             mkatom KDisjoint [([TFun "@" [TSym "x"; TNum 1073741823]], true); ([TFun "@" [TSym "y"; TNum 1073741823]], true)] None 2;
             mkatom (KSum true) [([TFun "*" [TNum 2147483647; TNum 2]], true)] (Some (RGt, TNum (-2147483648))) 1])%list.
Local Close Scope string_scope.
Local Notation w_start := (mkpr (mksymtab [] 0) (mkb (set_nxt 3 init_state) [] 0%nat) []).
Example C49_well_formed : Forall (fun a => Forall wf_telem (a_elems a) /\ forall op g, a_guard a = Some (op, g) -> wf_term g) wprog /\
  match p_parse iclasp demo_cfg (fun x => x) 0 2 wprog w_start with Throw _ => True | _ => False end /\
  match p_parse iclasp demo_cfg (fun x => x) 0 2 (firstn 5 wprog) w_start with Ok (true, s) => (6 < length (p_ops s))%nat | _ => False end.
Proof.
  split; [|split; [vm_compute; exact Logic.I|vm_compute; lia]].
  repeat (apply Forall_cons; [split; [repeat (apply Forall_cons; [repeat constructor; try discriminate; try (unfold fits; cbn; lia)|]); apply Forall_nil|cbn; intros op g E; try discriminate E; injection E as <- <-; cbn; unfold fits; cbn; lia]|]).
  apply Forall_nil.
Qed.

Example C49_program : program isort iclasp demo_cfg false 2 (fun x => x) 0 2 0 0 true ich 3 aprog a1 20 true ib im.
Proof.
  split; [lia|]. split; [unfold MIN_VAL, MAX_VAL; lia|]. split; [lia|]. split; [lia|]. split; [intros es W; now apply within_level|].
  split; [repeat (apply Forall_cons; [cbn; unfold below; lia|]); apply Forall_nil|]. split; [repeat (apply Forall_cons; [exact Logic.I|]); apply Forall_nil|].
  split; [unfold a1; apply parsed_ok; vm_compute; reflexivity|]. rewrite a1_ops. exact ib_ok.
Qed.
Lemma a_sym (x : string) : In x ["x"; "y"; "z"]%string -> den arho (TSym x) (arho (SFun x [] true)).
Proof. intros H. apply d_var; try discriminate; [intros a; split; discriminate|]. apply g_const. intros i. cbn in H. destruct H as [<-|[<-|[<-|[]]]]; split; discriminate. Qed.
Local Ltac name := apply a_sym; cbn; auto.
(** ... and the answer, also seen as a solution given in advance; its objective is 0. *)
Example C49_answers : answers 0 2 (p_tab a1) aprog arho iI /\ Forall (fun a => holds_firmly arho a iI) aprog /\ objective arho aprog 0 /\
  map (name_val (p_tab a1) (value i6)) [SFun "x" [] true; SFun "y" [] true; SFun "z" [] true] = [0; 1; 2].
Proof.
  assert (D : atom_means arho (nth 1 aprog (mkatom KOther [] None 1)) iI).
  { exists [0; 1; 2]. split; [|intros _; repeat constructor; cbn; lia]. repeat apply Forall2_cons; [..|apply Forall2_nil]; [apply (ed arho (TSym "x") [] 0)|apply (ed arho (TSym "y") [] 1)|apply (ed arho (TSym "z") [] 2)]; name. }
  split; [|split; [|split]].
  - split.
    + intros s v _. unfold arho. destruct (sym_eqb s (SFun "y" [] true)), (sym_eqb s (SFun "z" [] true)); lia.
    + apply Forall_cons; [|apply Forall_cons; [exact D|apply Forall_cons; [exact Logic.I|apply Forall_nil]]].
      exists RLe, (TNum 1), (0 + (1 + (2 + (- (2) + 0)))), 1. split; [reflexivity|]. split; [|split; [constructor|split; [intros _; cbn; lia|discriminate]]].
      apply de_cons; [name|]. apply de_cons; [name|]. apply de_cons; [name|]. apply de_cons; [apply (d_neg arho (TSym "z") 2); name|]. apply de_nil.
  - apply Forall_cons; [exact Logic.I|]. apply Forall_cons; [right; exact D|]. apply Forall_cons; [exact Logic.I|apply Forall_nil].
  - apply o_skip; [discriminate..|]. apply o_skip; [discriminate..|]. apply (o_min arho _ [] 0 0); [reflexivity| |constructor]. apply (de_cons _ _ [] [] 0 0); [name|constructor].
  - vm_compute. reflexivity.
Qed.
Lemma no_news (lg es : list event) : lg = (es ++ lg)%list -> Exists news es -> False.
Proof. intros E X. apply (f_equal (@length event)) in E. rewrite app_length in E. destruct X; cbn [length] in E; lia. Qed.
(** The search is the one of C47_search; with it C49_sound gives that x = 0, y = 1, z = 2 is an answer with objective 0. *)
Example C49_demo : let I := fun i => o_true iclasp (log i6) i in let rho := name_val (p_tab a1) (value i6) in
  answers 0 2 (p_tab a1) aprog rho I /\ exists x, objective rho aprog x /\ x <= 0.
Proof.
  destruct C47_search as (A1 & A2 & A3 & A4 & A5 & A6 & A7 & A8 & A9 & _ & A11 & A12).
  destruct (C49_sound isort iclasp demo_cfg false true (fun _ => True) 2 (fun x => x) 0 2 0 0 true ich 3 aprog a1 20 ib im _ i5 20 im 0 i6 C47_setting C49_program eq_refl A1 A2 A3 A4 A5 A6 A7) as [(es & E & X)|(_ & _ & X & Y)].
  - exfalso. rewrite A8 in E. exact (no_news _ _ E X).
  - split; [exact (X A9)|]. destruct (Y _ _ _ _ A12 A11) as (x & O1 & O2). exists x. split; [exact O1|lia].
Qed.

(** The contradictory facts [&sum { x } <= 0] and [&sum { x } >= 1]: the second one is refused, so the third atom is not read. *)
Local Open Scope string_scope.
Definition cprog : list tatom :=
  [mkatom (KSum false) [([TSym "x"], true)] (Some (RLe, TNum 0)) 1; mkatom (KSum false) [([TSym "x"], true)] (Some (RGe, TNum 1)) 1; mkatom KDistinct [([TSym "x"], true); ([TSym "y"], true)] None 2].
Local Close Scope string_scope.
Local Notation c_parse := (p_parse iclasp demo_cfg (fun x => x) 0 2 cprog (mkpr (mksymtab [] 0) (mkb (set_nxt 3 init_state) [] 0%nat) [])).
Definition c1 : pr := match c_parse with Ok (_, s) => s | _ => mkpr (mksymtab [] 0) (mkb (set_nxt 3 init_state) [] 0%nat) [] end.
Lemma refused_ok (x : outcome (bool * pr)) d : (match x with Ok (false, _) => true | _ => false end) = true -> x = Ok (false, match x with Ok (_, s) => s | _ => d end).
Proof. destruct x as [[[|] s]| |]; try discriminate. reflexivity. Qed.
Lemma c1_log : log (b_s (p_b c1)) = [EClause Learnt [-1; -1]; EClause Learnt [-1; 1]]. Proof. vm_compute. reflexivity. Qed.
Lemma c_none (J : interp) : J 1 = true -> ~ Forall (ev_true J) [EClause Learnt [-1; -1]; EClause Learnt [-1; 1]].
Proof. intros J1 F. inversion_clear F as [|? ? X _]. destruct X as (l & [<-|[<-|[]]] & T); unfold lit_true in T; cbn in T; congruence. Qed.
Example C49_refused I rho : I 1 = true -> ~ answers 0 2 (p_tab c1) cprog rho I.
Proof.
  intros I1. apply (C49_contradiction_partial isort iclasp demo_cfg (fun _ => True) 2 (fun x => x) 0 2 3 cprog c1 C47_setting); [..|exact Logic.I|exact I1].
  - split; [lia|unfold MIN_VAL, MAX_VAL; lia].
  - lia.
  - intros es W. now apply within_level.
  - repeat (apply Forall_cons; [cbn; unfold below; lia|]); apply Forall_nil.
  - repeat (apply Forall_cons; [exact Logic.I|]); apply Forall_nil.
  - unfold c1. apply refused_ok. vm_compute. reflexivity.
  - intros J (_ & J1 & F). rewrite c1_log in F. exact (c_none J J1 F).
Qed.

(** A fact with a product, [&nsum { x*(y+1); z; -x } <= 3], which becomes x * y + z <= 3. *)
Local Open Scope string_scope.
Definition nprog : list tatom :=
  [mkatom (KNsum false) [([TFun "*" [TSym "x"; TFun "+" [TSym "y"; TNum 1]]], true); ([TSym "z"], true); ([TFun "-" [TSym "x"]], true)] (Some (RLe, TNum 3)) 1].
Local Close Scope string_scope.
Local Notation n_parse := (p_parse iclasp demo_cfg (fun x => x) 0 2 nprog (mkpr (mksymtab [] 0) (mkb (set_nxt 3 init_state) [] 0%nat) [])).
Definition n1 : pr := match n_parse with Ok (_, s) => s | _ => mkpr (mksymtab [] 0) (mkb (set_nxt 3 init_state) [] 0%nat) [] end.
Local Notation nops := [PVar 0 2; PVar 0 2; PVar 0 2; POp (BNonlin 1 1 (Some 0%nat) (Some 1%nat) 1 (Some 2%nat) 3 false)].
Lemma n1_ops : p_ops n1 = nops. Proof. vm_compute. reflexivity. Qed.
Lemma n1_tab : p_tab n1 = mksymtab [(SFun "z" [] true, 2%nat); (SFun "y" [] true, 1%nat); (SFun "x" [] true, 0%nat)] 3%nat. Proof. vm_compute. reflexivity. Qed.
Local Notation n_init := (init isort iclasp demo_cfg false (fun x => x) 0 0 true ich 20 nops (mkb (set_nxt 3 init_state) [] 0%nat)).
Definition nb : bld := match n_init with Some (_, b, _) => b | None => mkb init_state [] 0%nat end.
Lemma inited_ok (x : option (outcome bool * bld * option (cid * mincon))) d : (match x with Some (Ok true, _, None) => true | _ => false end) = true ->
  x = Some (Ok true, match x with Some (_, b, _) => b | None => d end, None).
Proof. destruct x as [[[[[|]| |] b] [m|]]|]; try discriminate. reflexivity. Qed.
Example C49_product : program isort iclasp demo_cfg false 2 (fun x => x) 0 2 0 0 true ich 3 nprog n1 20 true nb None /\ (forall c, In (POp c) (p_ops n1) -> third_ok c).
Proof.
  split.
  - split; [lia|]. split; [unfold MIN_VAL, MAX_VAL; lia|]. split; [lia|]. split; [lia|]. split; [intros es W; now apply within_level|].
    split; [repeat (apply Forall_cons; [cbn; unfold below; lia|]); apply Forall_nil|]. split; [apply Forall_cons; [|apply Forall_nil]; split; [reflexivity|apply C49_one_product; vm_compute; repeat constructor]|].
    split; [unfold n1; apply parsed_ok; vm_compute; reflexivity|]. rewrite n1_ops. unfold nb. apply inited_ok. vm_compute. reflexivity.
  - rewrite n1_ops. intros c H. cbn [In] in H. destruct H as [H|[H|[H|[H|[]]]]]; try discriminate. injection H as <-. cbn [third_ok]. lia.
Qed.
(** x = 1, y = 2 and z = 1 is an answer, so init keeps it as a solution of what clasp knows. *)
Definition nrho (s : sym) : Z := if sym_eqb s (SFun "y" [] true) then 2 else 1.
Lemma n_sym (x : string) : In x ["x"; "y"; "z"]%string -> den nrho (TSym x) (nrho (SFun x [] true)).
Proof. intros H. apply d_var; try discriminate; [intros a; split; discriminate|]. apply g_const. intros i. cbn in H. destruct H as [<-|[<-|[<-|[]]]]; split; discriminate. Qed.
Local Ltac nname := apply n_sym; cbn; auto.
Example C49_kept : exists J nu, map nu [0%nat; 1%nat; 2%nat] = [1; 2; 1] /\ good (fun _ => True) (b_s nb) J /\ order_ok (b_s nb) J nu.
Proof.
  assert (D : atom_means nrho (nth 0 nprog (mkatom KOther [] None 1)) iI).
  { exists RLe, (TNum 3), (1 * (2 + 1) + (1 + (- (1) + 0))), 3. split; [reflexivity|]. split; [|split; [constructor|split; [intros _; cbn; lia|discriminate]]].
    apply de_cons; [apply d_mul; [nname|apply d_add; [nname|constructor]]|]. apply de_cons; [nname|]. apply de_cons; [apply (d_neg nrho (TSym "x") 1); nname|]. apply de_nil. }
  destruct (C49_complete_partial isort iclasp demo_cfg false true (fun _ => True) 2 (fun x => x) 0 2 0 0 true ich 3 nprog n1 20 nb None [] Going (b_s nb) iI nrho C47_setting (proj1 C49_product) (ss_start _ _ _ _ _ _) (proj2 C49_product) Logic.I eq_refl) as (J & nu & _ & N & G & O).
  - split; [|apply Forall_cons; [exact D|apply Forall_nil]]. intros s v _. unfold nrho. destruct (sym_eqb s (SFun "y" [] true)); lia.
  - apply Forall_cons; [|apply Forall_nil]. split; [discriminate|exact D].
  - rewrite n1_ops. intros a es bd x E. exfalso. revert E. vm_compute. discriminate.
  - exists J, nu. split; [|split; [exact G|exact O]]. rewrite n1_tab in N. cbn [map]. rewrite (N _ 2%nat (or_introl eq_refl)), (N _ 1%nat (or_intror (or_introl eq_refl))), (N _ 0%nat (or_intror (or_intror (or_introl eq_refl)))). reflexivity.
Qed.
