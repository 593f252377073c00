(** Non-linear constraints co_a*x*y + co_b*z <= rhs: C24 and C25.

    [csem] (ConSpec.v) is what a constraint means, [ready] are the conditions on states of C15 to C18.
    [nonlin_ok s c k l coa x y cob z rhs] (NonlinProofs.v) says that constraint [c] is
    [coa*x*y + cob*z <= rhs] with the literal [l], the numbers are 32-bit numbers, the variables exist and
    their bounds are supported values; there is no [z] if [cob] is zero.  [within v p] says that [p] is
    within the bounds of [v], and [least co vx vy t] that [t] is the least value of [co*x*y] within the bounds. *)
From Verif Require Import Base Util IntervalSet VarState VarStateProofs Terms TermsSpec Solver OrderSpec OrderProofs1 OrderProofs2 OrderProofs5 OrderProofs6 OrderProofs7
  Orders OrderProofs8 Demo Sum PropProofs ConSpec SumProofs SumProofs2 Translate TranslateProofs DemoReady Nonlin NonlinProofs.
Open Scope Z_scope.
Local Ltac check := vm_compute; repeat split; try reflexivity; intros; try discriminate.

(** ** C24 *)

(** Propagation keeps all solutions of the inequality.  Missing for the full claim: assignments in
    which the literal of the constraint is false, and negative coefficients of z for which ceildiv
    exceeds the ceiling; the claim is wrong for them, see below. *)
Theorem C24_sound_partial O cfg Base n0 c k l coa x y cob z rhs s r s' : base_ok Base n0 -> clasp_ok O Base ->
  ready O n0 s -> nonlin_ok s c k l coa x y cob z rhs ->
  (cob < -1 -> forall t, least coa (vst s x) (vst s y) t -> rhs <= t \/ (cob | rhs - t)) ->
  prop_nonlin O cfg c s = (r, s') ->
  (exists b, r = Ok b) /\ wf s' /\
  step Base (fun _ nu => coa * nu x * nu y + (match z with Some z => cob * nu z | None => 0 end) <= rhs) T2 s s' /\
  (forall v, lb (vst s' v) = lb (vst s v) /\ ub (vst s' v) = ub (vst s v)).
Proof.
  intros BO CO R K X E.
  destruct (prop_nonlin_ok O cfg Base n0 BO CO c k l coa x y cob z rhs s r s' R K) as ((b & -> & [A B C _ _]) & _); [|exact E|].
  { intros H t L. destruct (Z.eq_dec cob (-1)) as [->|N]; [right; exists (-(rhs - t)); lia|apply X; [lia|easy]]. }
  split; [now exists b|]. split; [exact A|]. split; [exact B|].
  intros v. destruct (same3_bnds _ _ v C) as (H1 & H2 & _). now split.
Qed.
Print Assumptions C24_sound_partial.
(** If the literal is true in all solutions of the clauses known so far then nothing is missing. *)
Theorem C24_true_partial O cfg Base n0 c k l coa x y cob z rhs s r s' : base_ok Base n0 -> clasp_ok O Base ->
  ready O n0 s -> nonlin_ok s c k l coa x y cob z rhs ->
  (cob < -1 -> forall t, least coa (vst s x) (vst s y) t -> rhs <= t \/ (cob | rhs - t)) ->
  (forall I nu, good Base s I -> order_ok s I nu -> lit_true I l) ->
  prop_nonlin O cfg c s = (r, s') -> step Base (csem None (CNonlin l coa x y cob z rhs)) T2 s s'.
Proof.
  intros BO CO R K X T E. destruct (C24_sound_partial O cfg Base n0 c k l coa x y cob z rhs s r s' BO CO R K X E) as (_ & _ & S & _).
  apply step_weaken with (1 := S); [|easy]. intros I nu Gd Od H. apply H. now apply (T I nu).
Qed.
Print Assumptions C24_true_partial.

(** x0 in -3..4, x1 in 2..5, x2 in 0..20; literal 2 for x0 <= -2 is false on level 1; 2*x0*x1 + 3*x2 <= 31: as x0 >= -1,
    2*x0*x1 >= -10 and x2 <= 13 is derived. *)
Definition nx_ops := [OpVar (-3) 4; OpVar 2 5; OpVar 0 20; OpGet 0 (-2); OpLit].
Definition nx_k := mkcst (CNonlin 1 2 0%nat 1%nat 3 (Some 2%nat) 31) 0 true 0 0 [] [] [] [] [] false.
Definition nx_O := demo 1 [-2].
Definition nx_state := demo_state 1 [-2] nx_ops [OpTrue (-2)] (one nx_k).
Lemma nx_clasp : clasp_ok nx_O (fun _ => True).
Proof. apply demo_clasp; [reflexivity|discriminate]. Qed.
Lemma nx_wf : wf nx_state.
Proof.
  apply demo_wf; [exact nx_clasp| |vm_compute; reflexivity| |vm_compute; reflexivity].
  - check; lia.
  - check.
Qed.
Lemma nx_ready : ready nx_O 2 nx_state.
Proof. apply ready_b_ok; [exact nx_wf|vm_compute; reflexivity]. Qed.
Lemma nx_ok : nonlin_ok nx_state 0%nat nx_k 1 2 0%nat 1%nat 3 (Some 2%nat) 31.
Proof. constructor; try (vm_compute; reflexivity); check; lia. Qed.
Example C24_demo : clasp_ok nx_O (fun _ => True) /\ ready nx_O 2 nx_state /\ nonlin_ok nx_state 0%nat nx_k 1 2 0%nat 1%nat 3 (Some 2%nat) 31 /\
  (forall I nu, good (fun _ => True) nx_state I -> order_ok nx_state I nu -> lit_true I 1) /\
  let r := prop_nonlin nx_O demo_cfg 0%nat nx_state in
  fst r = Ok true /\ hd (ELit 0) (log (snd r)) = EClause Learnt [-1; 2; -1; -1; -4] /\ lits (vst (snd r) 2%nat) = [(13, -4)].
Proof.
  split; [exact nx_clasp|]. split; [exact nx_ready|]. split; [exact nx_ok|]. split; [intros I nu (_ & H & _) _; exact H|]. vm_compute. repeat split; reflexivity.
Qed.

(** The clauses do not contain the literal of the constraint (constraints.cc 1449-1519): solutions in which it is false
    are lost.  Here x0 = x1 = 2, the literal 2 of x0*x1 <= 3 is open, and after the propagation there is no solution. *)
Definition ny_k := mkcst (CNonlin 2 1 0%nat 1%nat 0 None 3) 0 true 0 0 [] [] [] [] [] false.
Definition ny_state := demo_state 0 [] [OpVar 2 2; OpVar 2 2; OpVar (-5) 5; OpLit] [] (one ny_k).
Lemma ny_clasp : clasp_ok (demo 0 []) (fun _ => True).
Proof. apply demo_clasp; reflexivity. Qed.
Lemma ny_wf : wf ny_state.
Proof. apply demo_wf; [exact ny_clasp|check; lia|vm_compute; reflexivity|check|vm_compute; reflexivity]. Qed.
Lemma ny_ready : ready (demo 0 []) 2 ny_state.
Proof. apply ready_b_ok; [exact ny_wf|vm_compute; reflexivity]. Qed.
Theorem C24_literal_refuted : exists (O : oracle) (cfg : config) (s s' : state) (c : cid) (k : cst) (l coa : Z) (x y : var) (rhs : Z) (I : interp) (nu : var -> Z),
  clasp_ok O (fun _ => True) /\ units O /\ ready O 2 s /\ nonlin_ok s c k l coa x y 0 None rhs /\ is_false O s l = false /\
  prop_nonlin O cfg c s = (Ok false, s') /\
  good (fun _ => True) s I /\ order_ok s I nu /\ csem None (CNonlin l coa x y 0 None rhs) I nu /\
  forall J, ~ good (fun _ => True) s' J.
Proof.
  exists (demo 0 []), demo_cfg, ny_state, (snd (prop_nonlin (demo 0 []) demo_cfg 0%nat ny_state)), 0%nat, ny_k, 2, 1, 0%nat, 1%nat, 3, (fun i => i =? 1), (fun v => if (v <? 2)%nat then 2 else 5).
  split; [exact ny_clasp|]. split; [apply demo_units|]. split; [exact ny_ready|]. split; [constructor; try (vm_compute; reflexivity); check; lia|]. split; [vm_compute; reflexivity|].
  split; [vm_compute; reflexivity|]. split.
  { split; [easy|]. split; [reflexivity|]. replace (log ny_state) with [ELit 2] by (vm_compute; reflexivity). now constructor. }
  split.
  { intros v Hv. assert (V : v = 0%nat \/ v = 1%nat \/ v = 2%nat) by (replace (nvars ny_state) with 3%nat in Hv by (vm_compute; reflexivity); lia).
    destruct V as [->|[->| ->]]; (split; [vm_compute; split; discriminate|now vm_compute]). }
  split; [discriminate|]. intros J (_ & J1 & H).
  replace (log (snd (prop_nonlin (demo 0 []) demo_cfg 0%nat ny_state))) with [EClause Learnt [-1; -1; -1; -1]; ELit 2] in H by (vm_compute; reflexivity).
  inversion H as [|? ? H1 _]; subst. destruct H1 as (l & L & T). assert (l = -1) as -> by (cbn in L; tauto || (repeat destruct L as [<-|L]; easy)). cbn in T. congruence.
Qed.

(** The ceiling division is wrong for negative coefficients (constraints.cc 1505): the constraint x0*x1 - 2*x2 <= 7
    with x0 = x1 = 0 holds for x2 = -3 but the clause added requires x2 > -3. *)
Definition nw_k := mkcst (CNonlin 1 1 0%nat 1%nat (-2) (Some 2%nat) 7) 0 true 0 0 [] [] [] [] [] false.
Definition nw_state := demo_state 0 [] [OpVar 0 0; OpVar 0 0; OpVar (-5) 5; OpLit] [] (one nw_k).
Lemma nw_wf : wf nw_state.
Proof. apply demo_wf; [exact ny_clasp|check; lia|vm_compute; reflexivity|check|vm_compute; reflexivity]. Qed.
Lemma nw_ready : ready (demo 0 []) 2 nw_state.
Proof. apply ready_b_ok; [exact nw_wf|vm_compute; reflexivity]. Qed.
Theorem C24_ceildiv_refuted : exists (O : oracle) (cfg : config) (s s' : state) (c : cid) (k : cst) (coa : Z) (x y : var) (cob : Z) (z : var) (rhs : Z) (I : interp) (nu : var -> Z),
  clasp_ok O (fun _ => True) /\ units O /\ ready O 2 s /\ nonlin_ok s c k TRUE_LIT coa x y cob (Some z) rhs /\
  prop_nonlin O cfg c s = (Ok true, s') /\
  good (fun _ => True) s I /\ order_ok s I nu /\ coa * nu x * nu y + cob * nu z <= rhs /\
  forall J mu, good (fun _ => True) s' J -> order_ok s' J mu -> mu z <> nu z.
Proof.
  exists (demo 0 []), demo_cfg, nw_state, (snd (prop_nonlin (demo 0 []) demo_cfg 0%nat nw_state)), 0%nat, nw_k, 1, 0%nat, 1%nat, (-2), 2%nat, 7, (fun i => i =? 1), (fun v => if (v <? 2)%nat then 0 else -3).
  split; [exact ny_clasp|]. split; [apply demo_units|]. split; [exact nw_ready|]. split; [constructor; try (vm_compute; reflexivity); check; lia|].
  split; [vm_compute; reflexivity|]. split.
  { split; [easy|]. split; [reflexivity|]. replace (log nw_state) with [ELit 2] by (vm_compute; reflexivity). now constructor. }
  split.
  { intros v Hv. assert (V : v = 0%nat \/ v = 1%nat \/ v = 2%nat) by (replace (nvars nw_state) with 3%nat in Hv by (vm_compute; reflexivity); lia).
    destruct V as [->|[->| ->]]; (split; [vm_compute; split; discriminate|now vm_compute]). }
  split; [vm_compute; discriminate|]. intros J mu (_ & J1 & H) Od.
  assert (V2 : (2 < nvars (snd (prop_nonlin (demo 0 []) demo_cfg 0%nat nw_state)))%nat) by (vm_compute; lia).
  destruct (Od 2%nat V2) as (_ & M).
  assert (E : exists l t, lits (vst (snd (prop_nonlin (demo 0 []) demo_cfg 0%nat nw_state)) 2%nat) = [(-3, l)] /\ l <> 0 /\
    log (snd (prop_nonlin (demo 0 []) demo_cfg 0%nat nw_state)) = EClause Learnt [-1; -1; -1; -1; - l] :: t).
  { eexists. eexists. split; [vm_compute; reflexivity|]. split; [discriminate|]. vm_compute. reflexivity. }
  destruct E as (l & t & E1 & NZ & E2). rewrite E1 in M. rewrite E2 in H. inversion H as [|? ? H1 _]; subst. destruct H1 as (q & Q & T).
  assert (T1 : lit_true J (- l)).
  { assert (QQ : q = -1 \/ q = - l) by (repeat destruct Q as [<-|Q]; auto; easy). destruct QQ as [->| ->]; [cbn in T; congruence|easy]. }
  apply lit_true_neg in T1; [|easy]. intros E. apply T1. apply (M (-3) l); [now left|]. cbn in E. lia.
Qed.

(** ** C25 *)

(** No computation of the propagator overflows. *)
Theorem C25_no_overflow O cfg Base n0 c k l coa x y cob z rhs s : base_ok Base n0 -> clasp_ok O Base -> ready O n0 s -> nonlin_ok s c k l coa x y cob z rhs ->
  exists b, fst (prop_nonlin O cfg c s) = Ok b.
Proof.
  intros BO CO R [K1 K2 K3 [K4 K5] [K6 K7] K8 K9 K10 K11]. unfold prop_nonlin. rewrite K1, K2.
  destruct (nonlin_step_ok coa (vst s x) (vst s y) cob (option_map (vst s) z) rhs K9 K10 K11 K5 K7) as (st & ES & SP).
  { destruct z as [z|]; cbn; [tauto|easy]. }
  rewrite ES. destruct st as [| |w|w|]; cbn in SP; try (eexists; reflexivity).
  - destruct (factor_reason cfg x y s) as [q s1]. destruct z as [z|].
    + destruct (if cob <? 0 then _ else _) as [g s2]. destruct (add_clause O Learnt _ s2). eexists. reflexivity.
    + destruct (add_clause O Learnt _ s1). eexists. reflexivity.
  - destruct SP as (v & V & _). destruct z as [z|]; [|discriminate]. destruct (factor_reason cfg x y s) as [q s1]. destruct (get_literal cfg z w s1) as [g s2].
    destruct (add_clause O Learnt _ s2). eexists. reflexivity.
  - destruct SP as (v & V & _). destruct z as [z|]; [|discriminate]. destruct (factor_reason cfg x y s) as [q s1]. destruct (get_literal cfg z w s1) as [g s2].
    destruct (add_clause O Learnt _ s2). eexists. reflexivity.
Qed.
Print Assumptions C25_no_overflow.

(** If no values within the bounds satisfy the inequality then propagation leads to a conflict. *)
Theorem C25_conflict O cfg Base n0 c k l coa x y cob z rhs s r s' : base_ok Base n0 -> clasp_ok O Base -> units O ->
  ready O n0 s -> nonlin_ok s c k l coa x y cob z rhs ->
  (forall p q w, within (vst s x) p -> within (vst s y) q -> match z with Some z => within (vst s z) w | None => w = 0 end -> rhs < coa * p * q + cob * w) ->
  prop_nonlin O cfg c s = (r, s') -> r = Ok false.
Proof.
  intros BO CO U R K V E. apply (prop_nonlin_conflict O cfg Base n0 BO CO U c k l coa x y cob z rhs s r s' R K); [|exact E].
  intros p q oz Hp Hq Hz. destruct z as [z|], oz as [w|]; cbn in *; try easy; [now apply V|]. specialize (V p q 0 Hp Hq eq_refl). lia.
Qed.
Print Assumptions C25_conflict.
(** In particular if all variables have their values and violate it. *)
Theorem C25_assigned O cfg Base n0 c k l coa x y cob z rhs s r s' : base_ok Base n0 -> clasp_ok O Base -> units O ->
  ready O n0 s -> nonlin_ok s c k l coa x y cob z rhs ->
  (forall v, v = x \/ v = y \/ z = Some v -> lb (vst s v) = ub (vst s v)) ->
  rhs < coa * lb (vst s x) * lb (vst s y) + (match z with Some z => cob * lb (vst s z) | None => 0 end) ->
  prop_nonlin O cfg c s = (r, s') -> r = Ok false.
Proof.
  intros BO CO U R K A V. apply (C25_conflict O cfg Base n0 c k l coa x y cob z rhs s r s' BO CO U R K).
  intros p q w Hp Hq Hw. unfold within in *. pose proof (A x (or_introl eq_refl)). pose proof (A y (or_intror (or_introl eq_refl))).
  assert (p = lb (vst s x)) as -> by lia. assert (q = lb (vst s y)) as -> by lia.
  destruct z as [z|]; [|lia]. pose proof (A z (or_intror (or_intror eq_refl))). assert (w = lb (vst s z)) as -> by lia. exact V.
Qed.
Print Assumptions C25_assigned.
(** The final check accepts exactly the assignments satisfying the inequality, and rejects the others with an error. *)
Theorem C25_check s c k l coa x y cob z rhs : nonlin_ok s c k l coa x y cob z rhs ->
  let holds := coa * lb (vst s x) * lb (vst s y) + (match z with Some z => cob * lb (vst s z) | None => 0 end) <= rhs in
  (holds -> check_full_nonlin c s = Ok tt) /\ (~ holds -> check_full_nonlin c s = Throw Logic).
Proof.
  intros [K1 K2 K3 [K4 (X1 & X2 & X3)] [K6 (Y1 & Y2 & Y3)] K8 K9 K10 K11] h. unfold check_full_nonlin. rewrite K1, K2.
  destruct (prod128_ok coa (lb (vst s x)) (lb (vst s y)) K9) as (-> & P); [lia|lia|]. cbn [bind].
  assert (E : match z with None => Ok (coa * lb (vst s x) * lb (vst s y)) | Some z => u <- imul int128 cob (lb (vst s z));; iadd int128 (coa * lb (vst s x) * lb (vst s y)) u end =
    Ok (coa * lb (vst s x) * lb (vst s y) + (match z with Some z => cob * lb (vst s z) | None => 0 end))).
  { destruct z as [z|]; [|f_equal; lia]. destruct K8 as (_ & (Z1 & Z2 & Z3) & _). pose proof (prod_small cob (lb (vst s z)) K10 ltac:(lia)) as Q.
    unfold imul, iadd, B2, B3 in *. rewrite ck128 by lia. cbn [bind]. now rewrite ck128 by lia. }
  rewrite E. cbn [bind]. split; intros H; subst h; destruct (rhs <? _) eqn:C; try easy; exfalso; lia.
Qed.
Print Assumptions C25_check.
(** 2*x0*x1 + 3*x2 <= -31 cannot be satisfied in the state of C24_demo; -(3*x0*x1) - 2*x2 <= -20 with x0 = x1 = 2 and x2 = 3 is violated. *)
Definition nz_k := mkcst (CNonlin 1 2 0%nat 1%nat 3 (Some 2%nat) (-31)) 0 true 0 0 [] [] [] [] [] false.
Definition nv_k := mkcst (CNonlin 1 (-3) 0%nat 1%nat (-2) (Some 2%nat) (-20)) 0 true 0 0 [] [] [] [] [] false.
Definition nv_state r := demo_state 0 [] [OpVar 2 2; OpVar 2 2; OpVar 3 3; OpLit] [] (one (mkcst (CNonlin 1 (-3) 0%nat 1%nat (-2) (Some 2%nat) r) 0 true 0 0 [] [] [] [] [] false)).
Lemma nv_wf r : wf (nv_state r).
Proof. apply demo_wf; [exact ny_clasp|check; lia|vm_compute; reflexivity|check|vm_compute; reflexivity]. Qed.
Example C25_demo : 
  (let r := prop_nonlin nx_O demo_cfg 0%nat (set_css (one nz_k) nx_state) in fst r = Ok false /\ hd (ELit 0) (log (snd r)) = EClause Learnt [-1; 2; -1; -1; -1]) /\
  ready (demo 0 []) 2 (nv_state (-20)) /\ nonlin_ok (nv_state (-20)) 0%nat nv_k 1 (-3) 0%nat 1%nat (-2) (Some 2%nat) (-20) /\
  fst (prop_nonlin (demo 0 []) demo_cfg 0%nat (nv_state (-20))) = Ok false /\
  check_full_nonlin 0%nat (nv_state (-20)) = Throw Logic /\ check_full_nonlin 0%nat (nv_state (-18)) = Ok tt.
Proof.
  split; [vm_compute; split; reflexivity|]. split; [apply ready_b_ok; [apply nv_wf|vm_compute; reflexivity]|].
  split; [constructor; try (vm_compute; reflexivity); check; lia|]. vm_compute. repeat split; reflexivity.
Qed.
