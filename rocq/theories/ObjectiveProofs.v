(** Proofs about the objective function. *)
From Coq Require Import Sorting.Permutation Sorted.
From Verif Require Import Base Util UtilProofs IntervalSet VarState VarStateProofs Terms TermsSpec TermsProofs TermsProofs2 TermsProofs3 Solver OrderSpec
  OrderProofs1 OrderProofs2 OrderProofs3 OrderProofs6 OrderProofs7 OrderProofs8 Sum PropProofs ConSpec SumProofs SumProofs2 Translate TranslateProofs
  Objective ObjectiveSpec.
Open Scope Z_scope.

Ltac inv_o H := match type of H with
  | bind ?m _ = Ok _ => let E := fresh "E" in destruct m eqn:E; cbn [bind] in H; [|discriminate|discriminate] end.

(** ** Putting the objective together *)
Lemma lval_perm nu a b : Permutation a b -> lval nu a = lval nu b.
Proof.
  induction 1 as [|[c x] a b P IH|[c x] [d y] a|a b c P1 I1 P2 I2]; cbn [lval]; lia.
Qed.
Lemma strip_lval nu ts : forall es, Terms.strip ts = Ok es -> lval nu es = terms_val (key_val nu) ts.
Proof.
  induction ts as [|[co [x|]] r IH]; cbn [Terms.strip]; intros es H; [now injection H as <-| |discriminate].
  inv_o H. injection H as <-. cbn [lval terms_val key_val]. now rewrite (IH _ eq_refl).
Qed.
Lemma strip_terms ts : forall es, Terms.strip ts = Ok es -> ts = map (fun e => (fst e, Some (snd e))) es.
Proof.
  induction ts as [|[co [x|]] r IH]; cbn [Terms.strip]; intros es H; [now injection H as <-| |discriminate].
  inv_o H. injection H as <-. cbn. now rewrite (IH _ eq_refl).
Qed.
Lemma old_val nu es : terms_val (key_val nu) (map (fun e : Z * var => (fst e, Some (snd e))) es) = lval nu es.
Proof. induction es as [|[c x] r IH]; [easy|]. cbn [map terms_val lval fst snd key_val]. now rewrite IH. Qed.

Definition old_terms (old : option mincon) : list lterm :=
  match old with Some (adjust, es) => map (fun e => (fst e, Some (snd e))) es ++ [(adjust, None)] | None => [] end.
(** What a step does: the old constant is added instead of being subtracted. *)
Definition flipped (nu : var -> Z) (old : option mincon) : Z :=
  match old with Some (adjust, es) => lval nu es + adjust | None => 0 end.
Lemma old_flipped nu old : terms_val (key_val nu) (old_terms old) = flipped nu old.
Proof. destruct old as [[a es]|]; [|easy]. cbn [old_terms flipped]. rewrite terms_val_app, old_val. cbn. lia. Qed.

Section Prepare.
Context (srt : list (Z * var) -> list (Z * var)) (SP : forall l, Permutation (srt l) l).

Lemma prepare_inv old ts m : prepare_minimize srt old ts = Ok m ->
  (m = None /\ ts = [] /\ old = None) \/
  exists vec adj es, m = Some (adj, srt es) /\ simplify true (ts ++ old_terms old) = Ok (vec, adj) /\ Terms.strip vec = Ok es.
Proof.
  unfold prepare_minimize. fold (old_terms old). destruct (ts ++ old_terms old) as [|t r] eqn:E; intros H.
  - left. injection H as <-. apply app_eq_nil in E as (-> & E). split; [easy|]. split; [easy|]. destruct old as [[a es]|]; [|easy].
    apply app_eq_nil in E as (_ & E). discriminate.
  - right. inv_o H. destruct a as [vec adj]. inv_o H. injection H as <-. eauto 8.
Qed.
Lemma prepare_step old ts m nu : prepare_minimize srt old ts = Ok m ->
  cost nu m = terms_val (key_val nu) ts + flipped nu old.
Proof.
  intros H. apply prepare_inv in H as [(-> & -> & ->)|(vec & adj & es & -> & S & T)]; [easy|].
  apply simplify_spec in S as (V & _). cbn [cost]. rewrite (lval_perm nu _ _ (SP es)), (strip_lval nu _ _ T).
  rewrite <- old_flipped, <- terms_val_app, V. lia.
Qed.
Lemma prepare_consts old ts adj es : prepare_minimize srt old ts = Ok (Some (adj, es)) ->
  adj = - (constants ts + match old with Some (a, _) => a | None => 0 end).
Proof.
  intros H. pose proof (prepare_step old ts _ (fun _ => 0) H) as P. cbn [cost] in P.
  assert (Z0 : forall l, lval (fun _ => 0) l = 0) by (induction l as [|[c x] r IH]; cbn [lval]; lia).
  assert (K : forall l, terms_val (key_val (fun _ => 0)) l = constants l).
  { induction l as [|[c [x|]] r IH]; cbn [terms_val constants key_val]; rewrite ?IH; lia. }
  rewrite Z0, K in P. unfold flipped in P. destruct old as [[a e]|]; rewrite ?Z0 in P; lia.
Qed.
(** What is known about the constraint. *)
Definition prepared (m : mincon) : Prop :=
  NoDup (map snd (snd m)) /\ Forall (fun e => fst e <> 0 /\ valid (fst e)) (snd m) /\ valid (fst m) /\
  fits int64 (fst m - abs_sum (snd m) * MAX_VAL) /\ fits int64 (fst m + abs_sum (snd m) * MAX_VAL).
Lemma prepare_prepared old ts m : prepare_minimize srt old ts = Ok (Some m) -> prepared m.
Proof.
  intros H. apply prepare_inv in H as [(E & _)|(vec & adj & es & E & S & T)]; [discriminate|]. injection E as ->.
  apply simplify_spec in S as (_ & N & _ & NZ & V & C & F1 & F2). apply strip_terms in T. subst vec. specialize (NZ eq_refl).
  pose proof (SP es) as P. unfold prepared. cbn [fst snd].
  assert (A : abs_sum (srt es) = abs_sum (map (fun e : Z * var => (fst e, Some (snd e))) es)).
  { transitivity (abs_sum es).
    - clear - P. induction P as [|[c x] a b P IH|[c x] [d y] a|a b c P1 I1 P2 I2]; cbn [abs_sum]; lia.
    - clear. induction es as [|[c x] r IH]; cbn [map abs_sum fst snd]; lia. }
  rewrite A. csplit; auto.
  - apply (Permutation_NoDup (l := map snd es)); [apply Permutation_map; now symmetry|].
    rewrite map_map in N. cbn [snd] in N. apply NoDup_map_inv with (f := @Some var). now rewrite map_map.
  - apply Forall_forall. intros e He. apply (Permutation_in _ P) in He. rewrite Forall_map in NZ, C. rewrite Forall_forall in NZ, C.
    split; [now apply (NZ e)|now apply (C e)].
Qed.

(** Without constants in all but the last step the objective is right. *)
Lemma prepare_ok steps : forall ts old m nu, Forall (fun l => constants l = 0) steps ->
  match old with Some (a, _) => a = 0 | None => True end ->
  prepare_steps srt old (steps ++ [ts]) = Ok m -> cost nu m = cost nu old + terms_val (key_val nu) (concat steps ++ ts).
Proof.
  induction steps as [|t r IH]; intros ts old m nu F A H; cbn [app prepare_steps concat] in *.
  - inv_o H. injection H as <-. rewrite (prepare_step _ _ _ nu E). unfold flipped, cost. destruct old as [[a0 e]|]; subst; lia.
  - inv_o H. inversion F as [|? ? F1 F2]; subst. rewrite (IH ts a m nu F2); auto.
    + pose proof (terms_val_app (key_val nu) t (concat r ++ ts)) as V. rewrite (prepare_step _ _ _ nu E), <- app_assoc. unfold lterm in *. rewrite V. unfold flipped, cost. destruct old as [[a0 e]|]; subst; lia.
    + destruct a as [[a1 e]|]; [|easy]. apply prepare_consts in E. destruct old as [[a0 e0]|]; lia.
Qed.
(** In general the constants of a step count with alternating signs. *)
Fixpoint alternate (steps : list (list lterm)) (sign : Z) : Z :=
  match steps with [] => 0 | ts :: r => sign * constants ts + alternate r (- sign) end.
Fixpoint linear (nu : var -> Z) (ts : list lterm) : Z :=
  match ts with [] => 0 | (co, Some x) :: r => co * nu x + linear nu r | (_, None) :: r => linear nu r end.
Lemma linear_constants nu ts : terms_val (key_val nu) ts = linear nu ts + constants ts.
Proof. induction ts as [|[c [x|]] r IH]; cbn [terms_val linear constants key_val]; rewrite ?IH; lia. Qed.
Lemma linear_app nu a b : linear nu (a ++ b) = linear nu a + linear nu b.
Proof. induction a as [|[c [x|]] r IH]; cbn [app linear]; lia. Qed.
Lemma prepare_general steps : forall old m nu, prepare_steps srt old steps = Ok m ->
  let s := (-1) ^ Z.of_nat (length steps) in
  cost nu m = match old with Some (a, es) => lval nu es - s * a | None => 0 end + linear nu (concat steps) + alternate steps (- s).
Proof.
  induction steps as [|t r IH]; intros old m nu H; cbn [prepare_steps concat length alternate] in *.
  - injection H as <-. destruct old as [[a es]|]; cbn [cost linear]; [|easy]. change ((-1) ^ Z.of_nat 0) with 1. lia.
  - inv_o H. specialize (IH _ _ nu H). cbv zeta in *. rewrite Nat2Z.inj_succ, Z.pow_succ_r by lia.
    set (sg := (-1) ^ Z.of_nat (length r)) in *. rewrite IH, linear_app. replace (- (- (-1 * sg))) with (- sg) by lia.
    pose proof (prepare_step _ _ _ nu E) as P. rewrite linear_constants in P.
    destruct a as [[a1 e1]|].
    + apply prepare_consts in E. cbn [cost] in P. unfold flipped in P. destruct old as [[a0 e0]|]; subst a1; nia.
    + apply prepare_inv in E as [(_ & -> & ->)|(v & ad & es & E' & _)]; [|discriminate]. cbn [constants linear]. lia.
Qed.
End Prepare.

(** ** Costs *)
Lemma cost_sum_val value es : forall b r, cost_sum value es b = Ok r -> r = b + lval value es.
Proof.
  induction es as [|[co x] q IH]; intros b r H; cbn [cost_sum lval] in *; [injection H as <-; lia|].
  inv_o H. inv_o H. apply IH in H. unfold imul, iadd, ck in *. destruct (in_range int64 (co * value x)); [|discriminate].
  injection E as <-. destruct (in_range int64 (b + _)); [|discriminate]. injection E0 as <-. lia.
Qed.
Lemma in_fits z : fits int64 z -> in_range int64 z = true.
Proof. unfold fits, in_range. lia. Qed.
Lemma cost_sum_ok value es : forall b, Forall (fun e => valid (fst e)) es -> (forall x, valid (value x)) ->
  Z.abs b + abs_sum es * MAX_VAL <= 2^63 - 1 -> cost_sum value es b = Ok (b + lval value es).
Proof.
  induction es as [|[co x] q IH]; intros b F V L; cbn [cost_sum lval abs_sum] in *; [f_equal; lia|].
  inversion F as [|? ? F1 F2]; subst. specialize (V x) as Vx. cbn [fst] in F1. unfold valid, MIN_VAL, MAX_VAL in *.
  assert (A : 0 <= abs_sum q) by (clear; induction q as [|[c y] r I]; cbn [abs_sum]; lia).
  assert (B : Z.abs (co * value x) <= Z.abs co * (2^30 - 1)) by (rewrite Z.abs_mul; nia).
  unfold imul, iadd, ck. rewrite in_fits by (unfold fits, int64; cbn [imin imax]; lia). cbn [bind].
  rewrite in_fits by (unfold fits, int64; cbn [imin imax]; lia). cbn [bind]. rewrite IH; auto; [f_equal; lia|lia].
Qed.
Lemma lval_abs value es : (forall x, valid (value x)) -> Z.abs (lval value es) <= abs_sum es * MAX_VAL.
Proof.
  intros V. induction es as [|[co x] q IH]; cbn [lval abs_sum]; [lia|]. specialize (V x). unfold valid, MIN_VAL, MAX_VAL in *.
  assert (Z.abs (co * value x) <= Z.abs co * (2^30 - 1)) by (rewrite Z.abs_mul; nia). lia.
Qed.
Lemma value_is_cost m value v : get_minimize_value m value = Ok v -> v = cost value (Some m).
Proof.
  unfold get_minimize_value. intros H. inv_o H. apply cost_sum_val in E. subst. unfold isub, ck in H.
  destruct (in_range _ _); [|discriminate]. injection H as <-. destruct m as [adj es]. cbn [cost fst snd]. lia.
Qed.
Lemma value_total m value : prepared m -> (forall x, valid (value x)) ->
  get_minimize_value m value = if cost value (Some m) =? 2^63 then UB else Ok (cost value (Some m)).
Proof.
  destruct m as [adj es]. intros (_ & F & V & F1 & F2) A. cbn [fst snd] in *. pose proof (lval_abs value es A) as B.
  unfold fits, int64 in F1, F2. cbn [imin imax] in F1, F2. cbn [cost].
  unfold get_minimize_value. cbn [fst snd]. rewrite cost_sum_ok; auto.
  - cbn [bind]. rewrite Z.add_0_l. unfold isub, ck. destruct (_ =? _) eqn:E.
    + unfold in_range, int64. cbn [imin imax]. replace (_ && _) with false by lia. reflexivity.
    + rewrite in_fits by (unfold fits, int64; cbn [imin imax]; lia). reflexivity.
  - eapply Forall_impl; [|exact F]. now intros e [_ H].
  - lia.
Qed.
Lemma on_model_val m value g v g' : on_model m value g = Ok (v, g') ->
  v = cost value (Some m) /\ g' = if v <=? g then v - 1 else g.
Proof.
  unfold on_model. intros H. inv_o H. apply value_is_cost in E. subst. generalize dependent (cost value (Some m)). intros w H. destruct (w <=? g) eqn:L.
  - inv_o H. injection H as <- <-. unfold isub, ck in E. destruct (in_range _ _); [|discriminate]. injection E as <-. rewrite L. now split.
  - injection H as <- <-. rewrite L. now split.
Qed.
Lemma on_model_total m value g : prepared m -> (forall x, valid (value x)) -> cost value (Some m) <> 2^63 ->
  exists g', on_model m value g = Ok (cost value (Some m), g').
Proof.
  intros P A N. unfold on_model. rewrite value_total by easy. replace (_ =? 2^63) with false by lia. cbn [bind].
  destruct (_ <=? g); [|eauto]. unfold isub, ck. rewrite in_fits; [cbn [bind]; eauto|].
  destruct m as [adj es]. destruct P as (_ & _ & V & F1 & F2). pose proof (lval_abs value es A). cbn [cost fst snd] in *.
  unfold fits, int64 in *. cbn [imin imax] in *. lia.
Qed.
Lemma bound_total m value c dl s : prepared m -> (forall x, valid (value x)) -> cost value (Some m) < 2^63 ->
  exists s', check_minimize c m (cost value (Some m) - 1) dl s = Ok s'.
Proof.
  intros P A N. unfold check_minimize. replace (_ =? no_bound) with false by (unfold no_bound; lia).
  unfold iadd, ck. destruct m as [adj es]. destruct P as (_ & _ & V & F1 & F2). pose proof (lval_abs value es A). cbn [cost fst snd] in *.
  unfold fits, int64 in *. cbn [imin imax] in *. rewrite in_fits; [cbn [bind]; eauto|]. unfold fits, int64. cbn [imin imax]. lia.
Qed.

(** ** Runs *)
Section Runs.
Context (c : cid) (m : mincon).
Definition within (g : Z) (s : state) : Prop :=
  match mbound s with Some b => g <> no_bound /\ g + fst m <= b | None => True end.
Lemma mark_todo_mbound k s : mbound (mark_todo k s) = mbound s.
Proof. unfold mark_todo. repeat match goal with |- context [match ?q with _ => _ end] => destruct q end; reflexivity. Qed.
Lemma check_min_bound g dl s s' : check_minimize c m g dl s = Ok s' -> within g s ->
  within g s' /\ (g = no_bound /\ s' = s \/ g <> no_bound /\ exists b, mbound s' = Some b /\ b <= g + fst m).
Proof.
  unfold check_minimize, within. intros H W. destruct (g =? no_bound) eqn:E; [injection H as <-; split; [easy|]; left; split; [lia|easy]|].
  unfold iadd, ck in H. destruct (in_range _ _); [|discriminate]. cbn [bind] in H. injection H as <-. assert (N : g <> no_bound) by lia.
  unfold update_minimize. destruct (mbound s) as [b|] eqn:B.
  - destruct (g + fst m <? b) eqn:L.
    + rewrite mark_todo_mbound. cbn. split; [split; [easy|lia]|right; split; [easy|]; exists (g + fst m); split; [easy|lia]].
    + assert (W' : g + fst m <= b) by apply W. destruct (_ <? _)%nat; rewrite ?mark_todo_mbound; cbn; rewrite B; (split; [now split|]); right; (split; [easy|]); exists b; (split; [easy|lia]).
  - rewrite mark_todo_mbound. cbn. split; [split; [easy|lia]|right; split; [easy|]; exists (g + fst m); split; [easy|lia]].
Qed.
Lemma check_full_min s : is_min c m s -> check_full_sum c s = Ok tt -> forall b, mbound s = Some b -> lval (fun x => lb (vst s x)) (snd m) <= b.
Proof.
  intros (k & K & D) H b B. unfold check_full_sum in H. rewrite K, D in H. cbn [sum_es sum_rhs] in H. rewrite B in H.
  destruct (_ || _); [discriminate|]. destruct (negb _); [discriminate|].
  assert (L : zsum (map (fun e => fst e * lb (vst s (snd e))) (snd m)) = lval (fun x => lb (vst s x)) (snd m)).
  { clear. induction (snd m) as [|[co x] r IH]; [easy|]. cbn [map zsum fold_right lval fst snd]. unfold zsum in IH. now rewrite IH. }
  rewrite L in H. destruct (marked_inactive k).
  - destruct (c_hi k <? _); [discriminate|]. destruct (b <? _) eqn:E; [discriminate|lia].
  - destruct (negb _); [discriminate|]. destruct (c_lo k <? _); [discriminate|]. destruct (b <? _) eqn:E; [discriminate|lia].
Qed.
Record run_ok (r : run) : Prop := {
  ro_within : forall t, within (r_bound r) (r_state r t);
  ro_bound : r_bound r = match r_costs r with [] => no_bound | v :: _ => v - 1 end;
  ro_top : forall v, In v (r_costs r) -> v <= no_bound;
  ro_sorted : StronglySorted Z.lt (r_costs r) }.
Lemma within_mb g s s' : mbound s' = mbound s -> within g s -> within g s'.
Proof. unfold within. now intros ->. Qed.
Lemma within_lower g g' s : g' <= g -> g' <> no_bound -> within g s -> within g' s.
Proof. unfold within. destruct (mbound s); [|easy]. intros A N [_ B]. split; [easy|lia]. Qed.
Lemma put_all (P : state -> Prop) t s f : (forall u, P (f u)) -> P s -> forall u, P (put t s f u).
Proof. intros A B u. unfold put. now destruct (Nat.eqb u t). Qed.
Lemma on_model_range value g v g' : on_model m value g = Ok (v, g') -> v <= no_bound.
Proof.
  unfold on_model, get_minimize_value. intros H. inv_o H. assert (v = a) by (destruct (_ <=? g); [inv_o H|]; now injection H as <- _). subst a.
  inv_o E. unfold isub, ck in E. destruct (in_range int64 (a - fst m)) eqn:R; [|discriminate]. injection E as <-.
  unfold in_range, int64 in R. cbn [imin imax] in R. unfold no_bound. lia.
Qed.
Lemma run_step_ok r r' : run_step c m r r' -> run_ok r -> run_ok r'.
Proof.
  intros S [W B T R]. destruct S as [t dl f g cs s C|t f g cs s M K|t dl f g cs s1 s2 v g' C M K F Q]; cbn [r_state r_bound r_costs] in *.
  - constructor; cbn; auto. apply put_all; auto. now apply (check_min_bound g dl (f t)).
  - constructor; cbn; auto. apply put_all; auto. now apply within_mb with (f t).
  - destruct (check_min_bound _ _ _ _ C (W t)) as (W1 & H). pose proof (on_model_range _ _ _ _ Q) as V. apply on_model_val in Q as (Q1 & Q2).
    pose proof (check_full_min s2 K F) as L. rewrite M in L.
    assert (LE : v <= g).
    { destruct H as [(-> & ->)|(N & b & Hb & Lb)]; [easy|]. specialize (L _ Hb). rewrite Q1. destruct m as [adj es]. cbn [cost fst snd] in *. lia. }
    replace (v <=? g) with true in Q2 by lia. subst g'.
    constructor; cbn.
    + apply put_all; intros; apply within_lower with g; auto; try (unfold no_bound in *; lia). now apply within_mb with s1.
    + reflexivity.
    + intros w [<-|H1]; auto.
    + constructor; [easy|]. apply Forall_forall. intros w Hw. destruct cs as [|u cs]; [easy|]. cbn in B.
      inversion R as [|? ? R1 R2]; subst. destruct Hw as [<-|Hw]; [lia|]. rewrite Forall_forall in R2. specialize (R2 w Hw). lia.
Qed.
Lemma runs_ok f r : run_start f -> runs c m (mkrun f no_bound []) r -> run_ok r.
Proof.
  intros S R. induction R as [|r1 r2 R IH T].
  - constructor; cbn; auto; [|easy|constructor]. intros t. unfold within. now rewrite S.
  - now apply run_step_ok with r1.
Qed.
Lemma runs_better f r t nu : run_start f -> runs c m (mkrun f no_bound []) r -> (forall v, In v (r_costs r) -> cost nu (Some m) < v) ->
  csem (mbound (r_state r t)) (CMin (fst m) (snd m)) (fun _ => true) nu.
Proof.
  intros S R L. apply runs_ok in R as [W B T _]; auto. specialize (W t). unfold within in W. cbn [csem].
  destruct (mbound _) as [b|]; [|easy]. destruct W as (N & W). rewrite B in *. destruct (r_costs r) as [|v cs]; [easy|].
  specialize (L v (or_introl eq_refl)). destruct m as [adj es]. cbn [cost fst snd] in *. lia.
Qed.
End Runs.

(** ** Translation *)
Lemma cost_get cfg x v s l s' I : get_literal cfg x v s = (l, s') -> clasp_cost I (log s') = clasp_cost I (log s).
Proof.
  unfold get_literal. destruct (_ <? _); [intros E; now injection E as _ <-|]. destruct (_ <=? _); [intros E; now injection E as _ <-|].
  destruct (vfind _ _); [intros E; now injection E as _ <-|]. cbn. intros E. injection E as _ <-. cbn.
  unfold litmap_add. repeat match goal with |- context [match ?q with _ => _ end] => destruct q; cbn end; reflexivity.
Qed.

Section Translate.
Context (O : oracle) (cfg : config) (Base : interp -> Prop) (n0 : Z).
Context (BO : base_ok Base n0) (CO : clasp_ok O Base).
Notation good := (good Base).
Notation step := (step Base).
Notation holds := (holds Base).
Notation pstep := (pstep O Base).
Notation top_ready := (top_ready O n0).

Lemma pstep_min P l w p s : wf s -> pstep P s (emit (EMin l w p) s) true.
Proof.
  intros W. constructor.
  - now apply wf_emit.
  - apply step_weaken with (P := P) (Q := fun _ _ => True); auto. apply (emit_step Base (EMin l w p)). intros; exact Logic.I.
  - split; reflexivity.
  - intros x v k H. exact H.
  - intros _. apply later_step; [constructor|exact Logic.I].
Qed.
Lemma min_values_ok P co x vs : forall s s', dep (nxt s) (nvars s) P -> top_ready s -> (x < nvars s)%nat ->
  min_values cfg co x vs s = s' ->
  pstep P s s' true /\ holds s' (fun I nu => clasp_cost I (log s') = clasp_cost I (log s) + co * capped vs (nu x)).
Proof.
  induction vs as [|v r IH]; intros s s' D R Hx E; cbn [min_values] in E.
  { subst. split; [now apply pstep_refl, R|]. intros I nu _ _. unfold capped. cbn. lia. }
  destruct (get_literal cfg x v s) as [g s1] eqn:G. destruct (pstep_get O cfg Base n0 BO P x v s g s1 (tr_wf _ _ _ R) Hx (tr_nxt _ _ _ R) G) as (R1 & M & _).
  set (s2 := emit (EMin (- g) co 0) s1) in E.
  assert (R2 : pstep P s1 s2 true) by (apply pstep_min; apply R1).
  assert (R12 : pstep P s s2 true) by now apply pstep_trans with s1.
  destruct (IH s2 s') as (R3 & H3); auto.
  { now apply (dep_pstep O Base P) with (1 := R12). } { now apply (top_pstep O Base n0 CO P) with (1 := R12). } { now apply nvars_pstep with (1 := R12). }
  split; [now apply pstep_trans with s2|]. intros I nu Gd Od. specialize (H3 I nu Gd Od). cbv beta in H3. rewrite H3.
  assert (Hx1 : (x < nvars s1)%nat) by now apply nvars_pstep with (1 := R1).
  assert (MH := holds_pstep O Base _ _ _ _ _ R3 (holds_pstep O Base _ _ _ _ _ R2 (means_holds Base s1 g x v Hx1 M)) I nu Gd Od). cbv beta in MH.
  assert (Bg : below (nxt s1) g). { apply lit_means_below with x v; auto. apply (ps_wf _ _ _ _ _ _ R1). }
  assert (Ng : g <> 0) by apply Bg. pose proof (lit_true_neg I g Ng) as NG.
  assert (L2 : clasp_cost I (log s2) = wsum I [(- g, co)] + clasp_cost I (log s)).
  { unfold s2. cbn [emit log set_log clasp_cost]. now rewrite (cost_get _ _ _ _ _ _ I G). }
  rewrite L2. unfold capped. cbn [filter length].
  destruct (v <? nu x) eqn:C; cbn [length]; rewrite ?Nat2Z.inj_succ.
  - rewrite wsum_true; [cbn [wsum]; lia|]. apply NG. rewrite MH. lia.
  - rewrite wsum_false; [cbn [wsum]; lia|]. rewrite NG, MH. lia.
Qed.
Lemma min_elems_ok P es : forall s s', dep (nxt s) (nvars s) P -> top_ready s -> Forall (fun e => (snd e < nvars s)%nat) es ->
  min_elems cfg es s = Ok s' ->
  pstep P s s' true /\ holds s' (fun I nu => clasp_cost I (log s') = clasp_cost I (log s) + lval nu es).
Proof.
  induction es as [|[co x] r IH]; intros s s' D R F E; cbn [min_elems] in E.
  { injection E as <-. split; [now apply pstep_refl, R|]. intros I nu _ _. cbn. lia. }
  inv_o E. assert (p : a = co * minb (vst s x)).
  { unfold safe_mul in E0. unfold imul, ck in E0. repeat match type of E0 with
      | bind ?q _ = _ => destruct q; cbn [bind] in E0; try discriminate
      | (if ?q then _ else _) = _ => destruct q; try discriminate end; now injection E0 as <-. }
  inversion F as [|? ? Hx F']; subst. cbn [snd] in Hx. set (s1 := emit _ s) in E.
  assert (R1 : pstep P s s1 true) by (apply pstep_min; apply R).
  match type of E with min_elems _ _ ?q = _ => set (s2 := q) in E end.
  assert (D1 : dep (nxt s1) (nvars s1) P) by now apply (dep_pstep O Base P) with (1 := R1).
  assert (T1 : top_ready s1) by now apply (top_pstep O Base n0 CO P) with (1 := R1).
  destruct (min_values_ok P co x (zseq (minb (vst s1 x)) (Z.to_nat (maxb (vst s1 x) - minb (vst s1 x)))) s1 s2) as (R2 & H2); auto.
  assert (R12 : pstep P s s2 true) by now apply pstep_trans with s1.
  destruct (IH s2 s') as (R3 & H3); auto.
  { now apply (dep_pstep O Base P) with (1 := R12). } { now apply (top_pstep O Base n0 CO P) with (1 := R12). }
  { eapply Forall_impl; [|exact F']. intros e He. now apply nvars_pstep with (1 := R12). }
  split; [now apply pstep_trans with s2|]. intros I nu Gd Od. specialize (H3 I nu Gd Od). cbv beta in H3. rewrite H3.
  assert (W2 := holds_pstep O Base _ _ _ _ _ R3 H2 I nu Gd Od). cbv beta in W2. rewrite W2.
  destruct (st_bwd _ _ _ _ _ (ps_step _ _ _ _ _ _ R3) I nu Gd Od) as (G2 & O2 & _).
  destruct (st_bwd _ _ _ _ _ (ps_step _ _ _ _ _ _ R2) I nu G2 O2) as (G1 & O1 & _).
  destruct (O1 x) as (RG & _); [exact Hx|].
  rewrite capped_zseq by easy. rewrite Z2Nat.id by lia. unfold s1 at 1. cbn [emit log set_log clasp_cost].
  rewrite wsum_true; [|unfold TRUE_LIT, lit_true; cbn; apply G1]. cbn [wsum lval].
  change (vst s1 x) with (vst s x) in *. replace (Z.min _ _) with (nu x) by lia. lia.
Qed.
Lemma translate_min_ok limit m s b s' : top_ready s -> Forall (fun e => (snd e < nvars s)%nat) (snd m) ->
  translate_minimize cfg limit m s = Ok (b, s') ->
  wf s' /\ step T2 T2 s s' /\
  (b = true -> tmin s' = true /\ forall I nu, good s' I -> order_ok s' I nu -> clasp_cost I (log s') = clasp_cost I (log s) + cost nu (Some m)) /\
  (b = false -> s' = s).
Proof.
  intros R F E. unfold translate_minimize in E. destruct (_ || _).
  - inv_o E. injection E as <- <-. assert (R0 : top_ready (set_tmin true s)) by (destruct R as [[A1 A2] B C D F0]; constructor; auto; split; [destruct A1; now constructor|destruct A2; now constructor]).
    set (s1 := emit _ (set_tmin true s)) in E0.
    assert (R1 : pstep T2 (set_tmin true s) s1 true) by (apply pstep_min; apply R0).
    destruct (min_elems_ok T2 (snd m) s1 a) as (R2 & H2); auto; [easy|now apply (top_pstep O Base n0 CO T2) with (1 := R1)|].
    assert (R12 : pstep T2 (set_tmin true s) a true) by (apply pstep_trans with s1; easy).
    split; [apply R2|]. split; [destruct (ps_step _ _ _ _ _ _ R12) as [P1 P2 P3 P4 P5]; now constructor|]. split; [|easy]. intros _. split.
    { exact (same3_get tmin (fun _ => eq_refl) _ _ (ps_same _ _ _ _ _ _ R12)). }
    intros I nu Gd Od. rewrite (H2 I nu Gd Od). unfold s1 at 1. cbn [emit log set_log set_tmin clasp_cost].
    rewrite wsum_true; [|unfold TRUE_LIT, lit_true; cbn; apply Gd]. destruct m as [adj es]. cbn [cost wsum fst snd]. lia.
  - injection E as <- <-. split; [apply R|]. split; [|easy]. apply step_weaken with T2 T2; try easy. apply step_refl. now right.
Qed.
End Translate.
