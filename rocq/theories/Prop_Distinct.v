(** Distinct constraints: C19, C20 and C21.

    [csem] (ConSpec.v) is what a constraint means: if its literal is true, the elements, each a
    fixed part plus a linear expression, have pairwise different values.  [ready], [top_ready] are
    the conditions on states of C15 to C18.  [dist_ok s c k clit es] (DistinctProofs.v) says that
    constraint [c] has the literal [clit] and elements [es] over existing variables with non-zero
    coefficients, and that the stored bounds of all elements that are not marked dirty are up to
    date.  [units O] (OrderProofs8.v) says that clasp makes the last open literal of a clause true. *)
From Verif Require Import Base Util IntervalSet VarState VarStateProofs Terms TermsSpec Solver OrderSpec OrderProofs1 OrderProofs2 OrderProofs5 OrderProofs6 OrderProofs7
  Orders OrderProofs8 Demo Sum PropProofs ConSpec SumProofs SumProofs2 Translate TranslateProofs Distinct DistinctProofs DistinctProofs2 DemoReady.
Open Scope Z_scope.
Local Ltac check := vm_compute; repeat split; try reflexivity; intros; try discriminate.

Definition different (es : list delem) (nu : var -> Z) : Prop :=
  ForallOrdPairs (fun e f => fst e + lval nu (snd e) <> fst f + lval nu (snd f)) es.

(** ** C19 *)

(** Propagation keeps all solutions in which the elements are pairwise different. *)
Theorem C19_sound O cfg Base n0 c k clit es s r s' : base_ok Base n0 -> clasp_ok O Base ->
  ready O n0 s -> dist_ok s c k clit es -> prop_distinct O cfg c s = (r, s') ->
  (exists b, r = Ok b) /\ wf s' /\ step Base (fun _ nu => different es nu) T2 s s' /\
  (forall x, lb (vst s' x) = lb (vst s x) /\ ub (vst s' x) = ub (vst s x)).
Proof.
  intros BO CO R K E. destruct (prop_distinct_ok O cfg Base n0 BO CO false c k clit es s r s' R K ltac:(discriminate) E) as ([[A B C _ _] D _ _] & _).
  split; [exact D|]. split; [exact A|]. split; [apply step_weaken with (1 := B); [intros I nu _ _ H _; exact H|easy]|].
  intros x. destruct (same3_bnds _ _ x C) as (H1 & H2 & _). now split.
Qed.
Print Assumptions C19_sound.
(** If moreover the literal of the constraint is true then the clauses also keep the solutions
    in which it is false. *)
Theorem C19_guarded O cfg Base n0 c k clit es s r s' : base_ok Base n0 -> clasp_ok O Base ->
  ready O n0 s -> dist_ok s c k clit es -> is_true O s clit = true -> prop_distinct O cfg c s = (r, s') ->
  step Base (csem None (CDistinct clit es)) T2 s s'.
Proof.
  intros BO CO R K T E.
  assert (S : lit_safe O clit s). { intros s2 L _. apply (later_is_true O Base CO s s2 clit L T). }
  destruct (prop_distinct_ok O cfg Base n0 BO CO true c k clit es s r s' R K (fun _ => S) E) as ([[A B C _ _] D _ _] & _).
  apply step_weaken with (1 := B); [|easy]. intros I nu _ _ H. intros H1. apply H, H1. reflexivity.
Qed.
Print Assumptions C19_guarded.
(** The same holds for an open literal as long as it does not become fixed while the constraint is propagated. *)
Theorem C19_open O cfg Base n0 c k clit es s r s' : base_ok Base n0 -> clasp_ok O Base ->
  ready O n0 s -> dist_ok s c k clit es -> (forall lg, later O (log s) lg -> o_fixed O lg clit = false) -> prop_distinct O cfg c s = (r, s') ->
  step Base (csem None (CDistinct clit es)) T2 s s'.
Proof.
  intros BO CO R K T E.
  assert (S : lit_safe O clit s).
  { intros s2 L H. exfalso. apply (cl_fixneg _ _ CO) in H. rewrite Z.opp_involutive in H. rewrite (T _ L) in H. discriminate. }
  destruct (prop_distinct_ok O cfg Base n0 BO CO true c k clit es s r s' R K (fun _ => S) E) as ([[A B C _ _] D _ _] & _).
  apply step_weaken with (1 := B); [|easy]. intros I nu _ _ H. intros H1. apply H, H1. reflexivity.
Qed.
Print Assumptions C19_open.

(** x0 in 0..4, x1 = 4, x2 in 0..5; literal 2 for x0 > 3 and literal 3 are decided on level 1; the elements
    x0 + 1 and x2 must differ if 3: as x0 + 1 is now 5, x2 <= 4 is derived. *)
Definition dx_ops := [OpVar 0 4; OpVar 4 4; OpVar 0 5; OpGet 0 3; OpLit].
Definition dx_es : list delem := [(1, [(1, 0%nat)]); (0, [(1, 2%nat)])].
Definition dx_k := mkcst (CDistinct 3 dx_es) 0 true 0 0 [(1, 5); (0, 5)] [0%nat] [] [0%nat] [] false.
Definition dx_O := demo 1 [2; 3].
Definition dx_state := demo_state 1 [2; 3] dx_ops [OpTrue 2] (one dx_k).
Lemma dx_clasp : clasp_ok dx_O (fun _ => True).
Proof. apply demo_clasp; [reflexivity|discriminate]. Qed.
Lemma dx_wf : wf dx_state.
Proof.
  apply demo_wf; [exact dx_clasp| |vm_compute; reflexivity| |vm_compute; reflexivity].
  - check; lia.
  - check.
Qed.
Lemma dx_ready : ready dx_O 2 dx_state.
Proof. apply ready_b_ok; [exact dx_wf|vm_compute; reflexivity]. Qed.
Lemma dx_dist : dist_ok dx_state 0%nat dx_k 3 dx_es.
Proof.
  constructor; try (vm_compute; reflexivity).
  - repeat (constructor; [repeat (constructor; [cbn [fst snd]; replace (nvars dx_state) with 3%nat by (vm_compute; reflexivity); lia|]); constructor|]). constructor.
  - vm_compute. split; [discriminate|reflexivity].
  - intros [|[|i]] e a H1 H2 H3; cbn in H1, H2, H3; [tauto| |destruct i; discriminate]. injection H1 as <-. injection H2 as <-. vm_compute. reflexivity.
  - repeat constructor.
Qed.
Example C19_demo : clasp_ok dx_O (fun _ => True) /\ ready dx_O 2 dx_state /\ dist_ok dx_state 0%nat dx_k 3 dx_es /\ is_true dx_O dx_state 3 = true /\
  let r := prop_distinct dx_O demo_cfg 0%nat dx_state in
  fst r = Ok true /\ hd (ELit 0) (log (snd r)) = EClause Learnt [-3; -2; -4] /\ lits (vst (snd r) 2%nat) = [(4, -4)].
Proof.
  split; [exact dx_clasp|]. split; [exact dx_ready|]. split; [exact dx_dist|]. split; [vm_compute; reflexivity|]. vm_compute. repeat split; reflexivity.
Qed.

(** If the literal is open on the top level then the first clause can make it false and the next ones
    are added without it (constraints.cc 1153-1156): solutions in which the constraint is not active are lost.
    Here x0 = x1 = x2 = 0 and literal 2 is open; everything is a solution if 2 is false, but after
    the propagation there is no solution. *)
Definition dy_es : list delem := [(0, [(1, 0%nat)]); (0, [(1, 1%nat)]); (0, [(1, 2%nat)])].
Definition dy_k := mkcst (CDistinct 2 dy_es) 0 true 0 0 [(0, 0); (0, 0); (0, 0)] [] [] [0%nat; 1%nat; 2%nat] [] false.
Definition dy_state := demo_state 0 [] [OpVar 0 0; OpVar 0 0; OpVar 0 0; OpLit] [] (one dy_k).
Lemma dy_clasp : clasp_ok (demo 0 []) (fun _ => True).
Proof. apply demo_clasp; reflexivity. Qed.
Lemma dy_wf : wf dy_state.
Proof. apply demo_wf; [exact dy_clasp|check; lia|vm_compute; reflexivity|check|vm_compute; reflexivity]. Qed.
Lemma dy_ready : ready (demo 0 []) 2 dy_state.
Proof. apply ready_b_ok; [exact dy_wf|vm_compute; reflexivity]. Qed.
Lemma dy_dist : dist_ok dy_state 0%nat dy_k 2 dy_es.
Proof.
  constructor; try (vm_compute; reflexivity).
  - repeat (constructor; [repeat (constructor; [cbn [fst snd]; replace (nvars dy_state) with 3%nat by (vm_compute; reflexivity); lia|]); constructor|]). constructor.
  - vm_compute. split; [discriminate|reflexivity].
  - intros [|[|[|i]]] e a H1 H2 H3; cbn in H1, H2; try (injection H1 as <-; injection H2 as <-; vm_compute; reflexivity). destruct i; discriminate.
  - repeat constructor.
Qed.
Theorem C19_literal_refuted : exists (O : oracle) (cfg : config) (s s' : state) (c : cid) (k : cst) (clit : Z) (es : list delem) (I : interp) (nu : var -> Z),
  clasp_ok O (fun _ => True) /\ units O /\ ready O 2 s /\ dist_ok s c k clit es /\ is_false O s clit = false /\
  prop_distinct O cfg c s = (Ok false, s') /\
  good (fun _ => True) s I /\ order_ok s I nu /\ csem None (CDistinct clit es) I nu /\
  forall J, ~ good (fun _ => True) s' J.
Proof.
  exists (demo 0 []), demo_cfg, dy_state, (snd (prop_distinct (demo 0 []) demo_cfg 0%nat dy_state)), 0%nat, dy_k, 2, dy_es, (fun i => i =? 1), (fun _ => 0).
  split; [exact dy_clasp|]. split; [apply demo_units|]. split; [exact dy_ready|]. split; [exact dy_dist|]. split; [vm_compute; reflexivity|].
  split; [vm_compute; reflexivity|]. split.
  { split; [easy|]. split; [reflexivity|]. replace (log dy_state) with [ELit 2] by (vm_compute; reflexivity). now constructor. }
  split.
  { intros x Hx. assert (V : x = 0%nat \/ x = 1%nat \/ x = 2%nat) by (replace (nvars dy_state) with 3%nat in Hx by (vm_compute; reflexivity); lia).
    destruct V as [->|[->| ->]]; (split; [vm_compute; split; discriminate|now vm_compute]). }
  split; [discriminate|]. intros J (_ & J1 & H).
  replace (log (snd (prop_distinct (demo 0 []) demo_cfg 0%nat dy_state))) with [EClause Learnt [-1]; EClause Learnt [-2; -1]; ELit 2] in H by (vm_compute; reflexivity).
  inversion H as [|? ? H1 _]; subst. destruct H1 as (l & [<-|[]] & T). cbn in T. congruence.
Qed.

(** ** C20 *)

(** A change of a bound marks the element for propagation and for recalculation, and no mark is lost. *)
Theorem C20_marked : forall i k b k', i <> 0 -> dist_update i k = (b, k') -> let idx := Z.to_nat (Z.abs i - 1) in
  b = true /\ c_def k' = c_def k /\ c_asg k' = c_asg k /\ In idx (c_dirty k') /\ In idx (c_tlo k' ++ c_tup k') /\
  (forall j, In j (c_dirty k) -> In j (c_dirty k')) /\ (forall j, In j (c_tlo k ++ c_tup k) -> In j (c_tlo k' ++ c_tup k')).
Proof.
  intros i k b k' N E idx.
  assert (A : forall a l, In a (add_once a l)).
  { intros a l. unfold add_once, memb. destruct (existsb _ l) eqn:X; [|apply in_or_app; right; now left].
    apply existsb_exists in X as (y & H & Y). now apply Nat.eqb_eq in Y as ->. }
  assert (B : forall a j l, In j l -> In j (add_once a l)).
  { intros a j l H. unfold add_once. destruct (memb a l); [easy|]. apply in_or_app. now left. }
  unfold dist_update in E. fold idx in E. destruct (0 <? i); injection E as <- <-; cbn;
    (split; [easy|]); (split; [easy|]); (split; [easy|]); (split; [apply A|]); (split; [apply in_or_app; auto|]); (split; [intros; now apply B|]);
    intros j H; apply in_app_or in H as [H|H]; apply in_or_app; auto.
Qed.
Print Assumptions C20_marked.
Example C20_marked_demo : dist_update (-2) (mkcst (CDistinct 2 [(0, [(1, 0%nat)]); (0, [(-1, 1%nat)])]) 0 true 0 0 [(0, 4); (1, 3)] [] [] [0%nat] [] false) =
  (true, mkcst (CDistinct 2 [(0, [(1, 0%nat)]); (0, [(-1, 1%nat)])]) 0 true 0 0 [(0, 4); (1, 3)] [1%nat] [1%nat] [0%nat] [] false).
Proof. reflexivity. Qed.

(** Two elements whose variables are assigned and that have the same value lead to a conflict, if
    one of them was marked for propagation (because one of its bounds changed). *)
Theorem C20_conflict O cfg Base n0 c k clit es s r s' i j ei ej : base_ok Base n0 -> clasp_ok O Base -> units O ->
  (forall t lg, o_answer O (EClause t [] :: lg) = false) ->
  ready O n0 s -> dist_ok s c k clit es -> is_true O s clit = true ->
  i <> j -> nth_error es i = Some ei -> nth_error es j = Some ej ->
  (forall x, In x (map snd (snd ei)) \/ In x (map snd (snd ej)) -> lb (vst s x) = ub (vst s x)) ->
  fst ei + lval (fun x => lb (vst s x)) (snd ei) = fst ej + lval (fun x => lb (vst s x)) (snd ej) ->
  In i (c_tlo k ++ c_tup k) -> prop_distinct O cfg c s = (r, s') -> r = Ok false.
Proof.
  intros BO CO U UE R K T N Hi Hj A V I E.
  destruct (prop_distinct_ok O cfg Base n0 BO CO false c k clit es s r s' R K ltac:(discriminate) E) as (_ & C).
  apply (C (conj U (conj UE T)) i j I). split; [easy|]. exists ei, ej. split; [easy|]. split; [easy|].
  assert (F : forall ts, (forall x, In x (map snd ts) -> lb (vst s x) = ub (vst s x)) -> sum_lo s ts = lval (fun x => lb (vst s x)) ts /\ sum_hi s ts = lval (fun x => lb (vst s x)) ts).
  { induction ts as [|[co x] ts IH]; intros H; [easy|]. unfold sum_lo, sum_hi. cbn [map zsum fold_right lval]. fold (zsum (map (hi_of s) ts)) (zsum (map (lo_of s) ts)).
    destruct IH as (I1 & I2); [intros y Hy; apply H; now right|]. unfold sum_lo, sum_hi in I1, I2. rewrite I1, I2. specialize (H x (or_introl eq_refl)).
    unfold lo_of, hi_of. cbn [fst snd]. destruct (0 <? co); lia. }
  destruct (F (snd ei)) as (F1 & F2); [intros; apply A; now left|]. destruct (F (snd ej)) as (F3 & F4); [intros; apply A; now right|].
  unfold dist_init. cbn [fst snd]. rewrite F1, F2, F3, F4. split; [lia|]. now rewrite V.
Qed.
Print Assumptions C20_conflict.
(** The elements x0 + 1 and 9 - x1 in the state of C19_demo are both 5. *)
Definition dz_es : list delem := [(1, [(1, 0%nat)]); (9, [(-1, 1%nat)])].
Definition dz_k := mkcst (CDistinct 3 dz_es) 0 true 0 0 [(1, 5); (5, 5)] [0%nat] [] [0%nat] [] false.
Definition dz_state := set_css (one dz_k) dx_state.
Lemma dz_dist : dist_ok dz_state 0%nat dz_k 3 dz_es.
Proof.
  constructor; try (vm_compute; reflexivity).
  - repeat (constructor; [repeat (constructor; [cbn [fst snd]; replace (nvars dz_state) with 3%nat by (vm_compute; reflexivity); lia|]); constructor|]). constructor.
  - vm_compute. split; [discriminate|reflexivity].
  - intros [|[|i]] e a H1 H2 H3; cbn in H1, H2, H3; [tauto| |destruct i; discriminate]. injection H1 as <-. injection H2 as <-. vm_compute. reflexivity.
  - repeat constructor.
Qed.
Lemma demo_empty n D t lg : o_answer (demo n D) (EClause t [] :: lg) = false.
Proof. reflexivity. Qed.
Example C20_demo : ready dx_O 2 dz_state /\ dist_ok dz_state 0%nat dz_k 3 dz_es /\ is_true dx_O dz_state 3 = true /\
  (forall t lg, o_answer dx_O (EClause t [] :: lg) = false) /\
  let r := prop_distinct dx_O demo_cfg 0%nat dz_state in fst r = Ok false /\ hd (ELit 0) (log (snd r)) = EClause Learnt [-3; -2; -1].
Proof.
  split; [apply ready_css, dx_ready|]. split; [exact dz_dist|]. split; [vm_compute; reflexivity|]. split; [apply demo_empty|]. vm_compute. split; reflexivity.
Qed.

(** The final check accepts exactly the total assignments with pairwise different values. *)
Theorem C20_check c k clit es s : css s c = Some k -> c_def k = CDistinct clit es ->
  (check_full_distinct c s = Ok tt <->
   (forall e t, In e es -> In t (snd e) -> lb (vst s (snd t)) = ub (vst s (snd t))) /\ different es (fun x => lb (vst s x))).
Proof.
  intros K KD. unfold check_full_distinct. rewrite K, KD, check_values_ok.
  pose proof (clashes_nodup es (fun x => lb (vst s x))) as N. unfold clashes, differ, eval in N. unfold different. rewrite N.
  split; [intros (A & B & _); now split|intros (A & B); now split; [|split]].
Qed.
Print Assumptions C20_check.
Example C20_check_demo : check_full_distinct 0%nat dz_state = Throw Logic /\
  check_full_distinct 0%nat (set_css (one (mkcst (CDistinct 3 [(1, [(1, 0%nat)]); (7, [(-1, 1%nat)])]) 0 true 0 0 [] [] [] [] [] false)) dx_state) = Ok tt.
Proof. vm_compute. split; reflexivity. Qed.

(** Elements that have their values when the constraint is added (constraints.cc 799-827) are not marked and never
    compared: the constraint that 3, 3 and x0 are different is propagated without effect; only the final check fails. *)
Definition dw_es : list delem := [(3, []); (3, []); (0, [(1, 0%nat)])].
Definition dw_k := mkcst (CDistinct 1 dw_es) 0 true 0 0 (map (dist_init dy_state) dw_es) [] [] [] [] false.
Definition dw_state := set_css (one dw_k) dy_state.
Theorem C20_initial_refuted : exists (O : oracle) (cfg : config) (s s' : state) (c : cid) (k : cst) (clit : Z) (es : list delem),
  clasp_ok O (fun _ => True) /\ units O /\ ready O 2 s /\ dist_ok s c k clit es /\ is_true O s clit = true /\
  (forall nu, ~ different es nu) /\
  prop_distinct O cfg c s = (Ok true, s') /\ log s' = log s /\ vst s' = vst s /\ check_full_distinct c s = Throw Logic.
Proof.
  exists (demo 0 []), demo_cfg, dw_state, (snd (prop_distinct (demo 0 []) demo_cfg 0%nat dw_state)), 0%nat, dw_k, 1, dw_es.
  split; [exact dy_clasp|]. split; [apply demo_units|]. split; [apply ready_css, dy_ready|]. split.
  { constructor; try (vm_compute; reflexivity).
    - repeat (constructor; [repeat (constructor; [cbn [fst snd]; replace (nvars dw_state) with 3%nat by (vm_compute; reflexivity); lia|]); constructor|]). constructor.
    - vm_compute. split; [discriminate|reflexivity].
    - intros [|[|[|i]]] e a H1 H2 H3; cbn in H1, H2; try (injection H1 as <-; injection H2 as <-; vm_compute; reflexivity). destruct i; discriminate.
    - constructor. }
  split; [vm_compute; reflexivity|]. split; [intros nu H; inversion H as [|? ? H1 _]; subst; inversion H1 as [|? ? H2 _]; subst; now apply H2|].
  split; [vm_compute; reflexivity|]. split; [vm_compute; reflexivity|]. split; vm_compute; reflexivity.
Qed.

(** ** C21 *)

(** The translation keeps all solutions, with suitable values for the variables and literals it
    introduces; if the constraint is removed then all remaining solutions that satisfy the
    added linear constraints satisfy it, for every limit.  Bounds are up to date and
    no facts are pending, as after the propagation that precedes the translation (solver.cc 565-669). *)
Theorem C21_translation O cfg Base n0 limit k clit es s r s' : base_ok Base n0 -> clasp_ok O Base ->
  top_ready O n0 s -> fmap s = [] -> c_def k = CDistinct clit es -> c_asg k = map (dist_init s) es -> below (nxt s) clit ->
  (forall e t, In e es -> In t (snd e) -> fst t <> 0 /\ (snd t < nvars s)%nat) ->
  translate_distinct O cfg limit k s = (r, s') ->
  exists ok removed cs, r = Ok (ok, removed, cs) /\ wf s' /\ (ok = true -> removed = false -> s' = s /\ cs = []) /\
    Forall (fun d => exists rhs ts, d = CSum TRUE_LIT rhs ts) cs /\
    (forall I nu, good Base s I -> order_ok s I nu -> csem None (CDistinct clit es) I nu ->
      exists J nu', agree_below (nxt s) I J /\ ext_nu (nvars s) nu nu' /\ good Base s' J /\ order_ok s' J nu' /\ Forall (fun d => csem None d J nu') cs) /\
    (removed = true -> forall I nu, good Base s' I -> order_ok s' I nu -> Forall (fun d => csem None d I nu) cs ->
      good Base s I /\ order_ok s I nu /\ csem None (CDistinct clit es) I nu).
Proof.
  intros BO CO R F KD KA Bl Hes E.
  assert (EO : Forall (fun e => elems_ok s (snd e)) es). { apply Forall_forall. intros e He. apply Forall_forall. intros t Ht. now apply (Hes e). }
  destruct (translate_distinct_ok O cfg Base n0 BO CO limit k s r s' clit es R F KD EO Bl KA E) as (ok & rm & cs & A1 & A2 & A3 & A4 & A5 & A6).
  exists ok, rm, cs. split; [exact A1|]. split; [exact A2|]. split; [exact A4|]. split; [|now split].
  eapply Forall_impl; [|exact A3]. intros [l rhs ts| | | |]; try easy. intros (-> & _). now exists rhs, ts.
Qed.
Print Assumptions C21_translation.

(** 2 x0, x1 + x2 and 3 must differ, with x0 in 0..2, x1 in 0..1 and x2 in 1..2: a variable x3 for x1 + x2 is added;
    the value 2 is shared by 2 x0 and x3, the value 3 by x3 and the constant. *)
Definition dt_es : list delem := [(0, [(2, 0%nat)]); (0, [(1, 1%nat); (1, 2%nat)]); (3, [])].
Definition dt_ops := [OpVar 0 2; OpVar 0 1; OpVar 1 2; OpLit].
Definition dt_k0 := mkcst (CDistinct 2 dt_es) 0 true 0 0 [(0, 4); (1, 3); (3, 3)] [] [] [] [] false.
Definition dt_state := demo_state 0 [] dt_ops [] (one dt_k0).
Example C21_demo : top_ready (demo 0 []) 2 dt_state /\ fmap dt_state = [] /\ c_asg dt_k0 = map (dist_init dt_state) dt_es /\
  let r := translate_distinct (demo 0 []) demo_cfg 1000 dt_k0 dt_state in
  fst r = Ok (true, true, [CSum 1 0 [(-1, 3%nat); (1, 1%nat); (1, 2%nat)]; CSum 1 0 [(1, 3%nat); (-1, 1%nat); (-1, 2%nat)]]) /\
  filter (fun e => match e with EClause _ _ | EWeight _ _ _ => true | _ => false end) (log (snd r)) =
    [EWeight 2 [(6, 1); (1, 1)] 1; EWeight 2 [(5, 1); (8, 1)] 1; EClause Learnt [7; -8]; EClause Learnt [-6; -8]; EClause Learnt [6; -7; 8];
     EClause Learnt [4; -5]; EClause Learnt [-3; -5]; EClause Learnt [3; -4; 5]].
Proof.
  split; [apply top_b_ok; [|vm_compute; reflexivity]|].
  { apply demo_wf; [exact dy_clasp|check; lia|vm_compute; reflexivity|check|vm_compute; reflexivity]. }
  vm_compute. repeat split; reflexivity.
Qed.

(** The variables that are introduced have bounds in the supported range, for every limit. *)
Theorem C21_range O cfg limit k s r s' : (forall a, In a (c_asg k) -> fst a <= snd a) -> translate_distinct O cfg limit k s = (r, s') ->
  forall x, (nvars s <= x < nvars s')%nat -> MIN_VAL <= lb (vst s' x) <= MAX_VAL /\ MIN_VAL <= ub (vst s' x) <= MAX_VAL.
Proof. intros A E. exact (translate_distinct_valid O cfg limit k s r s' A E). Qed.
Print Assumptions C21_range.
Example C21_range_demo : (forall a, In a (c_asg dt_k0) -> fst a <= snd a) /\ nvars dt_state = 3%nat /\
  nvars (snd (translate_distinct (demo 0 []) demo_cfg 1000 dt_k0 dt_state)) = 4%nat.
Proof. split; [intros a [<-|[<-|[<-|[]]]]; vm_compute; discriminate|]. vm_compute. now split. Qed.

(** With a pending fact the test for [b == -TRUE_LIT] (constraints.cc 901-902) can succeed and yields a wrong
    literal: x0 in 0..3 with the fact x0 <= 1 not yet integrated, x1 in 2..3 and x0 != x1; the literal used for x0 = 2 is the
    one for x0 <= 2, so x1 = 2 is excluded.  (This needs a constraint kept from an earlier step and
    facts added since then without any other change, as the solver otherwise integrates facts before it translates.) *)
Definition df_es : list delem := [(0, [(1, 0%nat)]); (0, [(1, 1%nat)])].
Definition df_k := mkcst (CDistinct 1 df_es) 0 true 0 0 [(0, 3); (2, 3)] [] [] [] [] false.
Definition df_state := demo_state 0 [] [OpVar 0 3; OpVar 2 3; OpSimple 1 1 0 1 false] [] (one df_k).
Definition df_res := translate_distinct (demo 0 []) demo_cfg 1000 df_k df_state.
Theorem C21_facts_refuted : exists (O : oracle) (cfg : config) (k : cst) (es : list delem) (s s' : state) (I : interp) (nu : var -> Z),
  clasp_ok O (fun _ => True) /\ top_ready O 2 s /\ c_def k = CDistinct TRUE_LIT es /\ c_asg k = map (dist_init s) es /\
  translate_distinct O cfg 1000 k s = (Ok (true, true, []), s') /\
  good (fun _ => True) s I /\ order_ok s I nu /\ csem None (CDistinct TRUE_LIT es) I nu /\
  ~ exists J nu', agree_below (nxt s) I J /\ ext_nu (nvars s) nu nu' /\ good (fun _ => True) s' J /\ order_ok s' J nu'.
Proof.
  exists (demo 0 []), demo_cfg, df_k, df_es, df_state, (snd df_res), (fun _ => true), (fun x => match x with 1%nat => 2 | _ => 0 end).
  split; [exact dy_clasp|]. split; [apply top_b_ok; [|vm_compute; reflexivity]|].
  { apply demo_wf; [exact dy_clasp| |vm_compute; reflexivity|check|vm_compute; reflexivity]. check; lia. }
  split; [reflexivity|]. split; [vm_compute; reflexivity|]. split; [vm_compute; reflexivity|]. split.
  { split; [easy|]. split; [reflexivity|]. replace (log df_state) with [EClause Learnt [-1; 1]] by (vm_compute; reflexivity).
    constructor; [|constructor]. exists 1. split; [right; now left|reflexivity]. }
  split.
  { intros x Hx. assert (V : x = 0%nat \/ x = 1%nat) by (replace (nvars df_state) with 2%nat in Hx by (vm_compute; reflexivity); lia).
    destruct V as [->| ->]; (split; [vm_compute; split; discriminate|vm_compute]); [|easy]. intros w l [H|[]]. injection H as <- <-. split; [intros _ H; discriminate H|reflexivity]. }
  split; [intros _; repeat constructor; discriminate|]. intros (J & nu & _ & E & (_ & J1 & G) & Od).
  pose proof (E 0%nat ltac:(vm_compute; lia)) as E0. pose proof (E 1%nat ltac:(vm_compute; lia)) as E1. cbn in E0, E1.
  destruct (Od 0%nat ltac:(vm_compute; lia)) as (_ & M0). destruct (Od 1%nat ltac:(vm_compute; lia)) as (_ & M1).
  specialize (M0 2 (-2) ltac:(vm_compute; tauto)). specialize (M1 2 (-3) ltac:(vm_compute; tauto)). rewrite E0 in M0. rewrite E1 in M1. clear E Od E0 E1.
  replace (log (snd df_res)) with ([EWeight 1 [(2, 1); (3, 1)] 1; EWeight 1 [(-2, 1); (4, 1)] 1; EClause Learnt [1; -4]; EClause Learnt [-3; -4]; EClause Learnt [3; -1; 4]] ++ skipn 5 (log (snd df_res))) in G by (vm_compute; reflexivity).
  apply Forall_app in G as (G & _). inversion G as [|? ? _ G1]; subst. inversion G1 as [|? ? W G2]; subst. inversion G2 as [|? ? _ G3]; subst. inversion G3 as [|? ? _ G4]; subst.
  inversion G4 as [|? ? C _]; subst. cbn in M0, M1, W. assert (J2 : J 2 = false) by (apply M0; lia). assert (J3 : J 3 = false) by (apply M1; lia).
  assert (J4 : J 4 = true). { destruct C as (l & [<-|[<-|[<-|[]]]] & T); cbn in T; congruence. }
  specialize (W J1). rewrite J2, J4 in W. lia.
Qed.
