(** Theorems about the objective function (C30, C31). *)
From Coq Require Import String Sorting.Permutation Sorted.
From Verif Require Import Base Util UtilProofs VarState Terms TermsSpec TermsProofs3 Statements StatementsSpec Solver OrderSpec OrderProofs2 Orders Demo Sum ConSpec
  TranslateProofs DemoReady Objective ObjectiveSpec ObjectiveProofs.
Open Scope Z_scope.
Notation lit := Z (only parsing).
Local Ltac check := vm_compute; repeat split; try reflexivity; intros; try discriminate.

(** ** C31 *)

(** The terms collected while reading a program have the value C31_objective_read speaks about. *)
Theorem C31_terms : forall nu calls, terms_val (key_val nu) (min_terms calls) = obj_val nu calls.
Proof.
  intros nu calls. induction calls as [|[] r IH]; try exact IH; [reflexivity|]. cbn [min_terms flat_map app terms_val obj_val].
  unfold min_terms in IH. rewrite IH. now destruct v.
Qed.
Print Assumptions C31_terms.

(** The objective of the first step is what is written in the program. *)
Theorem C31_first : forall srt, (forall l, Permutation (srt l) l) -> forall ts m nu,
  prepare_minimize srt None ts = Ok m -> cost nu m = terms_val (key_val nu) ts.
Proof. intros srt P ts m nu H. rewrite (prepare_step srt P None ts m nu H). cbn [flipped]. lia. Qed.
Print Assumptions C31_first.

(** Over several steps it is the sum of all terms if the constants of all steps but the last add up to 0 in each step.
    Missing: constants in earlier steps, for which the claim is refuted below. *)
Theorem C31_accumulates_partial : forall srt, (forall l, Permutation (srt l) l) -> forall steps ts m nu,
  Forall (fun l => constants l = 0) steps -> prepare_steps srt None (steps ++ [ts]) = Ok m ->
  cost nu m = terms_val (key_val nu) (concat steps ++ ts).
Proof. intros srt P steps ts m nu F H. now rewrite (prepare_ok srt P steps ts None m nu F Logic.I H). Qed.
Print Assumptions C31_accumulates_partial.

(** What happens in general: the terms with variables add up, the constants count with alternating signs. *)
Theorem C31_general : forall srt, (forall l, Permutation (srt l) l) -> forall steps m nu,
  prepare_steps srt None steps = Ok m ->
  cost nu m = linear nu (concat steps) + alternate steps (- (-1) ^ Z.of_nat (List.length steps)).
Proof. intros srt P steps m nu H. now rewrite (prepare_general srt P steps None m nu H). Qed.
Print Assumptions C31_general.

(** Coefficients are distinct per variable and non-zero, and all in the supported range. *)
Theorem C31_prepared : forall srt, (forall l, Permutation (srt l) l) -> forall old ts m, prepare_minimize srt old ts = Ok (Some m) ->
  NoDup (map snd (snd m)) /\ Forall (fun e => fst e <> 0 /\ valid (fst e)) (snd m) /\ valid (fst m) /\
  fits int64 (fst m - abs_sum (snd m) * MAX_VAL) /\ fits int64 (fst m + abs_sum (snd m) * MAX_VAL).
Proof. exact prepare_prepared. Qed.
Print Assumptions C31_prepared.

(** Two steps with 2*x - y and z + 3*y + 7. *)
Definition ex_steps : list (list lterm) := [[(2, Some 0%nat); (-1, Some 1%nat)]; [(1, Some 2%nat); (3, Some 1%nat); (7, None)]].
Example C31_demo : prepare_steps (fun l => l) None ex_steps = Ok (Some (-7, [(1, 2%nat); (2, 1%nat); (2, 0%nat)])) /\
  constants (hd [] ex_steps) = 0.
Proof. vm_compute. now split. Qed.

(** [&minimize { x; 3 }.] followed by a step without statements minimizes x + 3 and then x - 3. *)
Definition ex_min := [mkatom KMinimize [([TSym "x"], true); ([TNum 3], true)] None 1].
Definition ex_st0 : pst := (mksymtab [] 0, mkbst 2 []).
Theorem C31_constants_refuted : exists atoms st m1 m2 nu,
  parse (fun _ => false) (fun _ => true) atoms ex_st0 = Ok (true, st) /\
  prepare_steps (fun l => l) None [min_terms (b_log (snd st))] = Ok m1 /\ cost nu m1 = obj_val nu (b_log (snd st)) /\
  prepare_steps (fun l => l) None [min_terms (b_log (snd st)); []] = Ok m2 /\ cost nu m2 <> obj_val nu (b_log (snd st)).
Proof.
  exists ex_min. do 4 eexists. split; [vm_compute; reflexivity|]. split; [vm_compute; reflexivity|].
  split; [|split; [vm_compute; reflexivity|]].
  - instantiate (1 := fun _ => 0). vm_compute. reflexivity.
  - vm_compute. discriminate.
Qed.
Print Assumptions C31_constants_refuted.

(** The translation: clasp's objective function gets exactly the value of the objective, and nothing else changes. *)
Theorem C31_translation : forall O cfg Base n0, base_ok Base n0 -> clasp_ok O Base -> forall limit m s b s',
  top_ready O n0 s -> Forall (fun e => (snd e < nvars s)%nat) (snd m) -> translate_minimize cfg limit m s = Ok (b, s') ->
  wf s' /\ step Base T2 T2 s s' /\
  (b = true -> tmin s' = true /\ forall I nu, good Base s' I -> order_ok s' I nu -> clasp_cost I (log s') = clasp_cost I (log s) + cost nu (Some m)) /\
  (b = false -> s' = s).
Proof. exact translate_min_ok. Qed.
Print Assumptions C31_translation.

(** Two variables between 1 and 3 and between -1 and 1; 2 x - 5 y + 4 is translated. *)
Definition ex_t := demo_state 0 [] [OpVar 1 3; OpVar (-1) 1] [] (fun _ => None).
Example C31_translation_demo : clasp_ok (demo 0 []) (fun _ => True) /\ top_ready (demo 0 []) 2 ex_t /\
  exists s', translate_minimize demo_cfg 1000 (-4, [(2, 0%nat); (-5, 1%nat)]) ex_t = Ok (true, s') /\
  filter (fun e => match e with EMin _ _ _ => true | _ => false end) (log s') =
    [EMin 5 (-5) 0; EMin (-4) (-5) 0; EMin 1 5 0; EMin 3 2 0; EMin 2 2 0; EMin 1 2 0; EMin 1 4 0].
Proof.
  assert (C : clasp_ok (demo 0 []) (fun _ => True)) by (apply demo_clasp; [reflexivity|easy]).
  split; [exact C|]. split.
  - apply top_b_ok; [|vm_compute; reflexivity]. apply demo_wf; [exact C|check; lia|vm_compute; reflexivity|check|vm_compute; reflexivity].
  - eexists. split; vm_compute; reflexivity.
Qed.

(** ** C30 *)

(** The cost in a model is the value of the objective, and it becomes the bound for the next model. *)
Theorem C30_cost : forall m value g v g', on_model m value g = Ok (v, g') ->
  v = cost value (Some m) /\ g' = if v <=? g then v - 1 else g.
Proof. exact on_model_val. Qed.
Print Assumptions C30_cost.

(** Nothing overflows unless the cost is exactly 2^63. *)
Theorem C30_no_overflow : forall m value g, prepared m -> (forall x, valid (value x)) -> cost value (Some m) <> 2^63 ->
  (exists g', on_model m value g = Ok (cost value (Some m), g')) /\
  forall c dl s, exists s', check_minimize c m (cost value (Some m) - 1) dl s = Ok s'.
Proof.
  intros m value g P V N. split; [now apply on_model_total|]. intros c dl s. apply bound_total; auto.
  pose proof P as (_ & _ & _ & F1 & F2). pose proof (lval_abs value (snd m) V). unfold fits, int64 in *. cbn [imin imax] in *.
  destruct m as [adj es]. cbn [cost fst snd] in *. lia.
Qed.
Print Assumptions C30_no_overflow.
Example C30_no_overflow_demo : prepared (-4, [(2, 0%nat); (-5, 1%nat)]) /\ on_model (-4, [(2, 0%nat); (-5, 1%nat)]) (fun x => Z.of_nat x + 3) no_bound = Ok (-10, -11).
Proof.
  split; [|reflexivity]. split; [|split; [|split; [|split]]]; cbn [fst snd abs_sum].
  - constructor; [intros [H|[]]; discriminate|]. constructor; [intros []|constructor].
  - repeat (constructor; [unfold valid, MIN_VAL, MAX_VAL; cbn [fst]; lia|]). constructor.
  - unfold valid, MIN_VAL, MAX_VAL. lia.
  - unfold fits, int64, MAX_VAL. cbn [imin imax]. lia.
  - unfold fits, int64, MAX_VAL. cbn [imin imax]. lia.
Qed.

(** An objective over nine variables that is accepted and overflows for the largest values. *)
Definition ex_big : list lterm :=
  (8, None) :: map (fun x => (MAX_VAL, Some x)) [1; 2; 3; 4; 5; 6; 7; 8]%nat ++ [(16, Some 9%nat)].
Theorem C30_overflow_refuted : exists m, prepare_minimize (fun l => l) None ex_big = Ok (Some m) /\
  get_minimize_value m (fun _ => MAX_VAL) = UB.
Proof. eexists. split; [vm_compute; reflexivity|]. vm_compute. reflexivity. Qed.
Print Assumptions C30_overflow_refuted.

(** Reported costs decrease strictly, and the bounds of no thread exclude an assignment better than all reported. *)
Theorem C30_improving : forall c m f r, run_start f -> runs c m (mkrun f no_bound []) r ->
  StronglySorted Z.lt (r_costs r) /\
  forall t nu, (forall v, In v (r_costs r) -> cost nu (Some m) < v) ->
    match mbound (r_state r t) with Some b => lval nu (snd m) <= b | None => True end.
Proof.
  intros c m f r S R. split; [exact (ro_sorted _ _ (runs_ok c m f r S R))|]. intros t nu H. exact (runs_better c m f r t nu S R H).
Qed.
Print Assumptions C30_improving.

(** A thread reports cost 5, another one passes on the bound, and the first one reports 4. *)
Definition ex_c (x : Z) := set_css (one (mkcst (CMin 1 [(1, 0%nat); (1, 1%nat)]) 0 false (x + 3) (x + 3) [] [] [] [] [] false))
  (snd (orun (demo 0 []) demo_cfg [OpVar x x; OpVar 3 3] init_state)).
Example C30_demo : exists r, runs 0%nat (1, [(1, 0%nat); (1, 1%nat)]) (mkrun (fun _ => ex_c 3) no_bound []) r /\
  r_costs r = [4; 5] /\ mbound (r_state r 1%nat) = Some 5.
Proof.
  eexists. split; [|split].
  - eapply runs_step; [eapply runs_step; [eapply runs_step; [apply runs_refl|]|]|].
    + eapply run_model with (t := 0%nat) (dl := 1%nat) (s2 := ex_c 3); try (vm_compute; reflexivity). eexists. split; reflexivity.
    + eapply run_check with (t := 1%nat) (dl := 2%nat). vm_compute. reflexivity.
    + eapply run_model with (t := 0%nat) (dl := 1%nat) (s2 := set_mbound (Some 5) (ex_c 2)); try (vm_compute; reflexivity). eexists. split; reflexivity.
  - reflexivity.
  - vm_compute. reflexivity.
Qed.

(** A bound outside of the supported range stops the search with an error although there are
    better assignments: (2^30-1) x with x between 0 and 2 after a model with x = 2. *)
Theorem C30_range_refuted : exists c m f g s1 cfg O, run_start f /\ (exists r, runs c m (mkrun f no_bound []) r /\ r_bound r = g /\ r_state r 0%nat = s1) /\
  (exists s2 nu, check_minimize c m g 0 s1 = Ok s2 /\ (forall x, (x < nvars s2)%nat -> lb (vst s2 x) <= nu x <= ub (vst s2 x)) /\ cost nu (Some m) <= g /\
    fst (prop_sum O cfg false c s2) = Throw Overflow).
Proof.
  set (st a := set_css (one (mkcst (CMin 0 [(MAX_VAL, 0%nat)]) 0 false (a * MAX_VAL) (2 * MAX_VAL) [] [] [] [] [] false))
     (snd (orun (demo 0 []) demo_cfg [OpVar a 2] init_state))).
  exists 0%nat, (0, [(MAX_VAL, 0%nat)]), (fun _ => st 2), (2 * MAX_VAL - 1), (st 0), demo_cfg, (demo 0 []).
  split; [easy|]. split.
  - eexists. split; [|split].
    + eapply runs_step; [eapply runs_step; [apply runs_refl|]|].
      * eapply run_model with (t := 0%nat) (dl := 0%nat) (s2 := st 2); try (vm_compute; reflexivity). eexists. split; reflexivity.
      * eapply run_work with (t := 0%nat) (s := st 0); [vm_compute; reflexivity|]. eexists. split; reflexivity.
    + vm_compute. reflexivity.
    + reflexivity.
  - eexists _, (fun _ => 1). split; [vm_compute; reflexivity|]. split.
    + intros [|[|x]] H; [vm_compute; split; discriminate|vm_compute in H; lia|vm_compute in H; lia].
    + split; [vm_compute; discriminate|]. vm_compute. reflexivity.
Qed.
Print Assumptions C30_range_refuted.
