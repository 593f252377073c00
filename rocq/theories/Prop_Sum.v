(** Linear constraints: C15, C16, C17 and C18.

    [csem] (ConSpec.v) is what a constraint means, [step Base P Q s s'] (OrderSpec.v) that every
    solution of [s] satisfying [P] extends to one of [s'] and that every solution of [s'] is one
    of [s] satisfying [Q].  [ready] (SumProofs2.v) are conditions that hold between callbacks: the
    tables are consistent, domains are not empty and every bound that is not the bound of the
    top level is explained by an order literal; [sum_ok] says that the constraint [c] has
    elements over different existing variables with non-zero coefficients and that its stored sums
    are up to date. *)
From Verif Require Import Base Util IntervalSet VarState VarStateProofs Terms TermsSpec Solver OrderSpec OrderProofs1 OrderProofs2 OrderProofs5 OrderProofs6 OrderProofs7
  Orders OrderProofs8 Demo Sum PropProofs ConSpec SumProofs SumProofs2 Translate TranslateProofs.
Open Scope Z_scope.
Local Ltac check := vm_compute; repeat split; try reflexivity; intros; try discriminate.

(** ** C15 *)

(** Propagating a linear constraint or the objective bound keeps all solutions that satisfy
    it, for all configurations and states; only order literals, facts and clauses are added. *)
Theorem C15_sound O cfg Base n0 chk c k es s r s' : base_ok Base n0 -> clasp_ok O Base -> units_pos O ->
  ready O n0 s -> sum_ok s c k es -> prop_sum O cfg chk c s = (r, s') ->
  wf s' /\ step Base (csem (mbound s) (c_def k)) T2 s s' /\
  (forall x, lb (vst s' x) = lb (vst s x) /\ ub (vst s' x) = ub (vst s x)).
Proof.
  intros BO CO U R K E. destruct (prop_sum_ok O cfg Base n0 BO CO U chk c k es s r s' R K E) as [[A B C _ _] _].
  split; [exact A|]. split; [exact B|]. intros x. destruct (same3_bnds _ _ x C) as (H1 & H2 & _). now split.
Qed.
Print Assumptions C15_sound.

(** Three variables between 0 and 10 with a literal for x0 <= 3 and one for x1 <= 8; x0 >= 4 was
    decided on level 1, and literal 4 too; the constraint is 3 x0 - 2 x1 + x2 <= 2 if 4. *)
Definition ex_ops := [OpVar 0 10; OpVar 0 10; OpVar 0 10; OpGet 0 3; OpGet 1 8; OpLit].
Definition ex_O := demo 1 [2; 4].
Definition ex_k := mkcst (CSum 4 2 [(3, 0%nat); (-2, 1%nat); (1, 2%nat)]) 0 false (-8) 40 [] [] [] [] [] false.
Definition ex_state := set_css (fun c => if Nat.eqb c 0 then Some ex_k else None)
  (snd (update_domain ex_O demo_cfg 2 (push_level 1 (snd (orun ex_O demo_cfg ex_ops init_state))))).
Lemma ex_clasp : clasp_ok ex_O (fun _ => True).
Proof. apply demo_ok; [|easy]. intros l [<-|[<-|[<-|[]]]] [H|[H|[H|[]]]]; discriminate H. Qed.
Lemma ex_wf : wf ex_state.
Proof.
  assert (W0 : wf (snd (orun ex_O demo_cfg ex_ops init_state))).
  { destruct (orun ex_O demo_cfg ex_ops init_state) as [ok s] eqn:E.
    destruct (orun_ok ex_O demo_cfg (fun _ => True) 2 demo_base ex_clasp ex_ops init_state ok s init_wf ltac:(cbn; lia) ltac:(check; lia) E) as (_ & A & _).
    apply A. assert (H : ok = fst (orun ex_O demo_cfg ex_ops init_state)) by now rewrite E. rewrite H. vm_compute. reflexivity. }
  apply wf_set_css. apply wf_push with (n := 1%nat) in W0. revert W0.
  assert (LG : cur_level (push_level 1 (snd (orun ex_O demo_cfg ex_ops init_state))) = 1%nat) by (vm_compute; reflexivity).
  assert (TR : is_true ex_O (push_level 1 (snd (orun ex_O demo_cfg ex_ops init_state))) 2 = true) by (vm_compute; reflexivity).
  assert (NX : 2 <= nxt (push_level 1 (snd (orun ex_O demo_cfg ex_ops init_state)))) by (vm_compute; discriminate).
  assert (OK : fst (update_domain ex_O demo_cfg 2 (push_level 1 (snd (orun ex_O demo_cfg ex_ops init_state)))) = true) by (vm_compute; reflexivity).
  revert LG TR NX OK. generalize (push_level 1 (snd (orun ex_O demo_cfg ex_ops init_state))). intros s0 LG TR NX OK W1.
  destruct (update_domain ex_O demo_cfg 2 s0) as [ok s] eqn:E. cbn [fst] in OK.
  destruct (update_domain_ok ex_O demo_cfg (fun _ => True) 2 demo_base ex_clasp 2 s0 ok s W1) as [_ _ _ B _ _ _]; auto; try discriminate.
  rewrite LG. split; discriminate.
Qed.
Lemma ex_vars x : (x < nvars ex_state)%nat -> x = 0%nat \/ x = 1%nat \/ x = 2%nat.
Proof. replace (nvars ex_state) with 3%nat by (vm_compute; reflexivity). lia. Qed.
Lemma ex_ready : ready ex_O 2 ex_state.
Proof.
  constructor; [exact ex_wf| | |vm_compute; discriminate].
  - intros x Hx. apply ex_vars in Hx as [->|[->| ->]].
    + split; [|vm_compute; discriminate]. intros _. exists (-2). split; [vm_compute; now left|vm_compute; reflexivity].
    + split; vm_compute; discriminate.
    + split; vm_compute; discriminate.
  - intros x Hx. apply ex_vars in Hx as [->|[->| ->]]; vm_compute; repeat split; discriminate.
Qed.
Lemma ex_sum : sum_ok ex_state 0%nat ex_k [(3, 0%nat); (-2, 1%nat); (1, 2%nat)].
Proof.
  constructor; try (vm_compute; reflexivity).
  - repeat (constructor; [cbn [fst snd]; replace (nvars ex_state) with 3%nat by (vm_compute; reflexivity); lia|]). constructor.
  - cbn. repeat constructor; cbn; intuition discriminate.
  - vm_compute. split; [discriminate|reflexivity].
Qed.
(** The propagation makes literals 5 and 6 for x0 <= 7 and x1 > 4 true. *)
Example C15_demo :
  clasp_ok ex_O (fun _ => True) /\ units ex_O /\ ready ex_O 2 ex_state /\
  sum_ok ex_state 0%nat ex_k [(3, 0%nat); (-2, 1%nat); (1, 2%nat)] /\
  let r := prop_sum ex_O demo_cfg true 0%nat ex_state in
  fst r = Ok true /\ log (snd r) = [EClause Learnt [-4; -2; 6]; EWatch 6; EWatch (-6); ELit 6; EClause Learnt [-4; -5]; EWatch 5; EWatch (-5); ELit 5] ++ log ex_state /\
  lits (vst (snd r) 0%nat) = [(3, -2); (7, -5)] /\ lits (vst (snd r) 1%nat) = [(4, -6); (8, -3)].
Proof.
  split; [exact ex_clasp|]. split; [apply demo_units|]. split; [exact ex_ready|]. split; [exact ex_sum|].
  vm_compute. repeat split; reflexivity.
Qed.

(** ** C16 *)

(** A constraint with a true literal that no values within the bounds satisfy leads to a
    conflict, provided clasp notices false clauses (it does except during initialization, where
    clauses are queued, base.hh 306-326). *)
Theorem C16_conflict O cfg Base n0 chk c k es rhs s r s' : base_ok Base n0 -> clasp_ok O Base -> units O ->
  ready O n0 s -> sum_ok s c k es -> sum_rhs s (c_def k) = Ok (Some rhs) -> is_true O s (c_lit (c_def k)) = true ->
  (forall nu, (forall x, (x < nvars s)%nat -> lb (vst s x) <= nu x <= ub (vst s x)) -> rhs < lval nu es) ->
  prop_sum O cfg chk c s = (r, s') -> r = Ok false.
Proof.
  intros BO CO U R K RH T V E.
  apply (prop_sum_conflict O cfg Base n0 BO CO (units_units_pos O U) U chk c k es rhs s r s' R K RH T); auto.
  - rewrite <- (best_sum s es (sk_nodup _ _ _ _ K)). apply V. intros x Hx. apply best_bounds; [apply R|easy].
  - apply (lo_hi s es); [apply R|apply K].
Qed.
Print Assumptions C16_conflict.
(** The constraint 3 x0 - 2 x1 + x2 <= -9 in the same state; the smallest value is -8. *)
Definition ex_k2 := mkcst (CSum 4 (-9) [(3, 0%nat); (-2, 1%nat); (1, 2%nat)]) 0 false (-8) 40 [] [] [] [] [] false.
Definition ex_state2 := set_css (fun c => if Nat.eqb c 0 then Some ex_k2 else None) ex_state.
Example C16_demo :
  ready ex_O 2 ex_state2 /\ sum_ok ex_state2 0%nat ex_k2 [(3, 0%nat); (-2, 1%nat); (1, 2%nat)] /\
  (forall nu, (forall x, (x < nvars ex_state2)%nat -> lb (vst ex_state2 x) <= nu x <= ub (vst ex_state2 x)) -> -9 < lval nu [(3, 0%nat); (-2, 1%nat); (1, 2%nat)]) /\
  let r := prop_sum ex_O demo_cfg true 0%nat ex_state2 in
  fst r = Ok false /\ hd (ELit 0) (log (snd r)) = EClause Learnt [-2; -4].
Proof.
  split; [apply ready_css; exact ex_ready|].
  split.
  { constructor; try (vm_compute; reflexivity); [|cbn; repeat constructor; cbn; intuition discriminate|vm_compute; split; [discriminate|reflexivity]].
    repeat (constructor; [cbn [fst snd]; replace (nvars ex_state2) with 3%nat by (vm_compute; reflexivity); lia|]). constructor. }
  split.
  { intros nu H. pose proof (H 0%nat ltac:(vm_compute; lia)) as H0. pose proof (H 1%nat ltac:(vm_compute; lia)) as H1. pose proof (H 2%nat ltac:(vm_compute; lia)) as H2.
    replace (lb (vst ex_state2 0%nat)) with 4 in H0 by (vm_compute; reflexivity). replace (ub (vst ex_state2 1%nat)) with 10 in H1 by (vm_compute; reflexivity).
    replace (lb (vst ex_state2 2%nat)) with 0 in H2 by (vm_compute; reflexivity). cbn [lval]. lia. }
  vm_compute. split; reflexivity.
Qed.

(** If no conflict is reported then the smallest value of the sum does not exceed the bound, and
    every value of a variable that violates the constraint (with the best values of the others) is
    excluded by an order literal; the only exception is the upper bound of a variable with a
    positive coefficient if it is the only such value. *)
Theorem C16_bounds O cfg Base n0 chk c k es rhs s s' : base_ok Base n0 -> clasp_ok O Base -> units O ->
  ready O n0 s -> sum_ok s c k es -> sum_rhs s (c_def k) = Ok (Some rhs) -> is_true O s (c_lit (c_def k)) = true ->
  prop_sum O cfg chk c s = (Ok true, s') ->
  sum_lo s es <= rhs /\
  forall co x v, In (co, x) es -> lb (vst s x) <= v <= ub (vst s x) -> rhs < sum_lo s es - lo_of s (co, x) + co * v ->
    (exists l w, lit_means s' l x w /\ ((w < v /\ is_true O s' l = true) \/ (v <= w /\ is_false O s' l = true))) \/
    (0 < co /\ v = ub (vst s x) /\ sum_lo s es - lo_of s (co, x) + co * (v - 1) <= rhs).
Proof.
  intros BO CO U R K RH T E. pose proof (units_units_pos O U) as UP.
  destruct (prop_sum_bounds O cfg Base n0 BO CO UP U chk c k es rhs s s' R K RH T E) as (A & B). split; [exact A|].
  destruct (prop_sum_ok O cfg Base n0 BO CO UP chk c k es s (Ok true) s' R K E) as [[_ _ S3 _ _] _].
  exact (values_left O s s' es rhs S3 (sk_vars _ _ _ _ K) B (rd_bnds _ _ _ R)).
Qed.
Print Assumptions C16_bounds.
(** Example: C15_demo, where x0 = 8 to 10 and x1 = 0 to 4 are excluded. *)

(** The exception occurs: x0 + x1 <= 5 with x0 and x1 between 0 and 6 is propagated without any effect
    although x0 = 6 is impossible. *)
Definition ex_k3 := mkcst (CSum 1 5 [(1, 0%nat); (1, 1%nat)]) 0 false 0 12 [] [] [] [] [] false.
Definition ex_state3 := set_css (fun c => if Nat.eqb c 0 then Some ex_k3 else None) (snd (orun (demo 0 []) demo_cfg [OpVar 0 6; OpVar 0 6] init_state)).
Lemma ex_clasp3 : clasp_ok (demo 0 []) (fun _ => True).
Proof. apply demo_ok; [|easy]. intros l [<-|[]] [H|[]]; discriminate H. Qed.
Lemma ex_ready3 : ready (demo 0 []) 2 ex_state3.
Proof.
  assert (V : forall x, (x < nvars ex_state3)%nat -> x = 0%nat \/ x = 1%nat) by (replace (nvars ex_state3) with 2%nat by (vm_compute; reflexivity); lia).
  constructor.
  - apply wf_set_css. destruct (orun (demo 0 []) demo_cfg [OpVar 0 6; OpVar 0 6] init_state) as [ok s] eqn:E.
    destruct (orun_ok (demo 0 []) demo_cfg (fun _ => True) 2 demo_base ex_clasp3 [OpVar 0 6; OpVar 0 6] init_state ok s init_wf ltac:(cbn; lia) ltac:(check) E) as (_ & A & _).
    apply A. assert (H : ok = fst (orun (demo 0 []) demo_cfg [OpVar 0 6; OpVar 0 6] init_state)) by now rewrite E. rewrite H. vm_compute. reflexivity.
  - intros x Hx. apply V in Hx as [->| ->]; split; vm_compute; discriminate.
  - intros x Hx. apply V in Hx as [->| ->]; vm_compute; repeat split; discriminate.
  - vm_compute. discriminate.
Qed.
Lemma ex_sum3 : sum_ok ex_state3 0%nat ex_k3 [(1, 0%nat); (1, 1%nat)].
Proof.
  constructor; try (vm_compute; reflexivity).
  - repeat (constructor; [cbn [fst snd]; replace (nvars ex_state3) with 2%nat by (vm_compute; reflexivity); lia|]). constructor.
  - cbn. repeat constructor; cbn; intuition discriminate.
  - vm_compute. split; [discriminate|reflexivity].
Qed.
Theorem C16_bounds_refuted : exists (O : oracle) (cfg : config) (s : state) (c : cid) (k : cst) (es : list (Z * var)) (rhs : Z) (x : var),
  clasp_ok O (fun _ => True) /\ units O /\ ready O 2 s /\ sum_ok s c k es /\ sum_rhs s (c_def k) = Ok (Some rhs) /\
  is_true O s (c_lit (c_def k)) = true /\ prop_sum O cfg true c s = (Ok true, s) /\ (x < nvars s)%nat /\
  forall nu, (forall y, (y < nvars s)%nat -> lb (vst s y) <= nu y <= ub (vst s y)) -> nu x = ub (vst s x) -> rhs < lval nu es.
Proof.
  exists (demo 0 []), demo_cfg, ex_state3, 0%nat, ex_k3, [(1, 0%nat); (1, 1%nat)], 5, 0%nat.
  split; [exact ex_clasp3|]. split; [apply demo_units|]. split; [exact ex_ready3|]. split; [exact ex_sum3|].
  split; [reflexivity|]. split; [vm_compute; reflexivity|]. split; [vm_compute; reflexivity|].
  split; [vm_compute; lia|]. intros nu H H0. pose proof (H 1%nat ltac:(vm_compute; lia)) as H1. 
  replace (ub (vst ex_state3 0%nat)) with 6 in H0 by (vm_compute; reflexivity). replace (lb (vst ex_state3 1%nat)) with 0 in H1 by (vm_compute; reflexivity).
  cbn [lval]. lia.
Qed.
Print Assumptions C16_bounds_refuted.

(** The final check of a constraint accepts an assignment of all its variables iff the inequality
    holds, and raises an error otherwise.  [sums_stored] (TranslateProofs.v): the stored sums are up
    to date, for inactive constraints the upper one is at least not too small. *)
Theorem C16_check_full c k es s rhs : css s c = Some k -> sum_es (c_def k) = Some es -> sums_stored s k es ->
  sum_rhs s (c_def k) = Ok (Some rhs) ->
  ((forall co x, In (co, x) es -> lb (vst s x) = ub (vst s x)) ->
    (check_full_sum c s = Ok tt <-> lval (fun x => lb (vst s x)) es <= rhs) /\
    (check_full_sum c s = Ok tt \/ check_full_sum c s = Throw Logic)) /\
  ((exists co x, In (co, x) es /\ lb (vst s x) <> ub (vst s x)) -> check_full_sum c s = Throw Logic).
Proof.
  intros K1 K2 K3 RH. split.
  - intros A. refine (check_full_sum_ok c k es s K1 K2 K3 _ (Some rhs) RH). apply forallb_forall. intros [co x] H. apply Z.eqb_eq. exact (A co x H).
  - intros (co & x & H & N). exact (check_full_sum_unassigned c k es s (co, x) rhs K1 K2 RH H N).
Qed.
Print Assumptions C16_check_full.
(** 3 x0 - 2 x1 <= -1 is accepted for 1, 2 and rejected for 2, 3; an inactive constraint may
    have an outdated sum. *)
Example C16_check_demo :
  let st a b k := set_css (fun _ => Some k) (snd (orun (demo 0 []) demo_cfg [OpVar a a; OpVar b b] init_state)) in
  let k i lo hi := mkcst (CSum 1 (-1) [(3, 0%nat); (-2, 1%nat)]) i false lo hi [] [] [] [] [] false in
  check_full_sum 0%nat (st 1 2 (k 0%nat (-1) (-1))) = Ok tt /\ check_full_sum 0%nat (st 2 3 (k 0%nat 0 0)) = Throw Logic /\
  check_full_sum 0%nat (st 1 2 (k 1%nat (-30) 7)) = Ok tt /\
  sums_stored (st 1 2 (k 0%nat (-1) (-1))) (k 0%nat (-1) (-1)) [(3, 0%nat); (-2, 1%nat)] /\
  sums_stored (st 1 2 (k 1%nat (-30) 7)) (k 1%nat (-30) 7) [(3, 0%nat); (-2, 1%nat)].
Proof.
  vm_compute. repeat (split; [reflexivity|]). split; constructor; vm_compute; try discriminate; repeat split; reflexivity.
Qed.

(** ** C17 and C18 *)

(** Translating a constraint on the top level keeps exactly the solutions satisfying it: always if
    the constraint is reported to be removable, and otherwise no solution satisfying it is lost
    (the constraint is kept).  [weight] and [clauses] stand for the comparisons with the limits. *)
Theorem C17_translation O cfg Base n0 weight clauses literals_only l rhs es c k s r s' : base_ok Base n0 -> clasp_ok O Base ->
  top_ready O n0 s -> sum_ok s c k es -> c_def k = CSum l rhs es ->
  translate_sum O cfg weight clauses literals_only k s = (r, s') ->
  let sem (I : interp) (nu : var -> Z) := lit_true I l -> lval nu es <= rhs in
  exists ok remove, r = Ok (ok, remove) /\ wf s' /\ step Base sem T2 s s' /\ (ok = true -> remove = true -> step Base sem sem s s').
Proof.
  intros BO CO R K KD E sem. destruct (translate_sum_ok O cfg Base n0 BO CO weight clauses literals_only l rhs es c k s r s' R K KD E) as (ok & rm & -> & A & B).
  rewrite KD in A, B. change (csem (mbound s) (CSum l rhs es)) with sem in A, B. exists ok, rm. split; [easy|]. split; [apply A|]. split; [apply A|].
  intros H1 H2. exact (pstep_holds O Base sem s s' ok A (B H1 H2)).
Qed.
Print Assumptions C17_translation.
(** The clauses alone. *)
Theorem C17_clauses O cfg Base n0 literals_only cl es lower upper s r s' : base_ok Base n0 -> clasp_ok O Base ->
  top_ready O n0 s -> Forall (fun e => fst e <> 0 /\ (snd e < nvars s)%nat) es -> Forall (below (nxt s)) cl ->
  upper = lower - (sum_hi s es - sum_lo s es) -> upper < 0 ->
  clause_elems O cfg literals_only es cl lower upper s = (r, s') ->
  let sem (I : interp) (nu : var -> Z) := clause_true I cl \/ lval nu es <= lower + sum_lo s es in
  exists ok, r = Ok ok /\ step Base sem T2 s s' /\ (ok = true -> literals_only = false -> step Base sem sem s s').
Proof.
  intros BO CO R F B H1 H2 E sem. destruct (clause_elems_ok O cfg Base n0 BO CO literals_only es cl lower upper s r s' R F B H1 H2 E) as (ok & -> & A & C).
  exists ok. split; [easy|]. split; [apply A|]. intros H3 H4. exact (pstep_holds O Base sem s s' ok A (C H3 H4)).
Qed.
Print Assumptions C17_clauses.
(** The weight constraint alone: it is added unless the bound does not fit into 32 bits. *)
Theorem C18_weight O cfg Base n0 l es rhs s ok remove s' : base_ok Base n0 -> clasp_ok O Base ->
  top_ready O n0 s -> Forall (fun e => fst e <> 0 /\ (snd e < nvars s)%nat) es -> below (nxt s) l ->
  weight_translate O cfg l es (rhs - sum_lo s es) s = ((ok, remove), s') ->
  let sem (I : interp) (nu : var -> Z) := lit_true I l -> lval nu es <= rhs in
  ok = true /\ step Base sem T2 s s' /\ (remove = true -> step Base sem sem s s') /\ (remove = true <-> -2147483648 < rhs - sum_lo s es < 2147483647).
Proof.
  intros BO CO R F B E sem. destruct (weight_translate_ok O cfg Base n0 BO CO l es rhs s ok remove s' R F B E) as (A1 & A2 & A3).
  split; [exact A1|]. split; [apply A2|]. split; [intros H; exact (pstep_holds O Base sem s s' true A2 (A3 H))|].
  unfold weight_translate, add_weight in E. destruct (weight_lits _ _ _ _) as [wl s1].
  destruct ((-2147483648 <? rhs - sum_lo s es) && (rhs - sum_lo s es <? 2147483647)) eqn:C; [destruct (is_false O s1 l)|]; injection E as <- <- <-; split; intros; try easy; lia.
Qed.
Print Assumptions C18_weight.

(** x0 + x1 <= 5 with x0 and x1 between 0 and 6. *)
Lemma ex_top3 : top_ready (demo 0 []) 2 ex_state3.
Proof.
  constructor; [apply ex_ready3|apply ex_ready3|vm_compute; reflexivity|vm_compute; reflexivity|]. intros x Hx. apply (rd_bnds _ _ _ ex_ready3 x Hx).
Qed.
Example C17_demo :
  top_ready (demo 0 []) 2 ex_state3 /\ sum_ok ex_state3 0%nat ex_k3 [(1, 0%nat); (1, 1%nat)] /\ sum_lo ex_state3 [(1, 0%nat); (1, 1%nat)] <= 5 /\
  let r := translate_sum (demo 0 []) demo_cfg false true false ex_k3 ex_state3 in
  fst r = Ok (true, true) /\
  filter (fun e => match e with EClause _ _ => true | _ => false end) (log (snd r)) =
    [EClause Learnt [-13]; EClause Learnt [-11; -12]; EClause Learnt [-9; -10]; EClause Learnt [-7; -8]; EClause Learnt [-5; -6]; EClause Learnt [-3; -4]; EClause Learnt [-2]].
Proof.
  split; [exact ex_top3|]. split; [exact ex_sum3|]. split; [vm_compute; discriminate|]. vm_compute. repeat split; reflexivity.
Qed.
Example C18_demo :
  let r := translate_sum (demo 0 []) demo_cfg true true false ex_k3 ex_state3 in
  fst r = Ok (true, true) /\
  hd (ELit 0) (log (snd r)) = EWeight 1 [(2, 1); (3, 1); (4, 1); (5, 1); (6, 1); (7, 1); (8, 1); (9, 1); (10, 1); (11, 1); (12, 1); (13, 1)] 5.
Proof. vm_compute. repeat split; reflexivity. Qed.
