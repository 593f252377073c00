(** Order literals: C10, C13, C14, C29, C42, C44 and C45.

    [Base] is everything clasp knows besides what the solver sends, over literals below [n0];
    [clasp_ok] are the assumptions about clasp's assignment.  [step Base P Q s s'] says that every
    solution of [s] satisfying [P] extends to one of [s'] and that every solution of [s'] is one
    of [s] satisfying [Q], where a solution is an interpretation of the literals together with
    values of the variables within their bounds that agree with all order literals. *)
From Verif Require Import Base Util IntervalSet VarState VarStateProofs Terms TermsSpec Solver OrderSpec OrderProofs1 OrderProofs2 OrderProofs5 OrderProofs6 OrderProofs7 Orders OrderProofs8 Demo.
From Verif Require IntervalSetProofs.
Open Scope Z_scope.
Local Ltac check := vm_compute; repeat split; try reflexivity; intros; try discriminate.

(** ** C13 *)

(** A requested literal means x <= v in every solution, also after any further operations. *)
Theorem C13_meaning O cfg Base n0 x v s l s1 os ok s2 : base_ok Base n0 -> clasp_ok O Base ->
  wf s -> n0 <= nxt s -> (x < nvars s)%nat -> get_literal cfg x v s = (l, s1) ->
  olegals O cfg os s1 -> orun O cfg os s1 = (ok, s2) ->
  forall I nu, good Base s2 I -> order_ok s2 I nu -> (lit_true I l <-> nu x <= v).
Proof. intros BO CO. exact (meaning_kept O cfg Base n0 BO CO x v s l s1 os ok s2). Qed.
Print Assumptions C13_meaning.

(** Outside the bounds it is the true or the false literal and nothing is created. *)
Theorem C13_outside cfg x v s :
  (v < minb (vst s x) -> get_literal cfg x v s = (- TRUE_LIT, s)) /\
  (minb (vst s x) <= v -> maxb (vst s x) <= v -> get_literal cfg x v s = (TRUE_LIT, s)).
Proof.
  unfold get_literal. split; [intros H|intros H1 H2].
  - now rewrite (proj2 (Z.ltb_lt _ _) H).
  - rewrite (proj2 (Z.ltb_ge _ _) H1), (proj2 (Z.leb_le _ _) H2). easy.
Qed.
Print Assumptions C13_outside.

(** Requesting a literal keeps the set of solutions. *)
Theorem C13_conservative cfg Base n0 x v s l s1 : base_ok Base n0 -> wf s -> n0 <= nxt s -> (x < nvars s)%nat ->
  get_literal cfg x v s = (l, s1) -> wf s1 /\ step Base T2 T2 s s1.
Proof. intros BO W Hn Hx G. destruct (as_get cfg Base n0 BO x v s l s1 W Hx Hn G) as (A & _). exact (conj (as_wf _ _ _ _ _ A) (as_step _ _ _ _ _ A)). Qed.
Print Assumptions C13_conservative.

(** After any further requests the same pair gives the same literal and creates nothing, ... *)
Theorem C13_same_literal O cfg Base n0 x v s l s1 os : base_ok Base n0 ->
  wf s -> n0 <= nxt s -> (x < nvars s)%nat -> get_literal cfg x v s = (l, s1) ->
  Forall (fun o => orequest o = true) os -> olegals O cfg os s1 ->
  get_literal cfg x v (snd (orun O cfg os s1)) = (l, snd (orun O cfg os s1)).
Proof. intros BO. exact (requests_unique O cfg Base n0 BO x v s l s1 os). Qed.
Print Assumptions C13_same_literal.
(** ... and two different pairs never share a literal that is not true or false. *)
Theorem C13_no_sharing s x v y w l : wf s -> (x < nvars s)%nat -> (y < nvars s)%nat ->
  In (v, l) (lits (vst s x)) -> In (w, l) (lits (vst s y)) -> Z.abs l <> 1 -> x = y /\ v = w.
Proof. exact (distinct_pairs s x v y w l). Qed.
Print Assumptions C13_no_sharing.

(** Starting from nothing, all proper sequences of operations lead to states the theorems apply to. *)
Theorem C13_sequences O cfg Base os s ok : base_ok Base 2 -> clasp_ok O Base -> olegals O cfg os init_state -> orun O cfg os init_state = (ok, s) ->
  (ok = true -> wf s) /\ 2 <= nxt s /\
  forall I nu, good Base s I -> order_ok s I nu -> ok = true -> Forall (fun o => osem o I nu) os.
Proof.
  intros BO CO L E. destruct (orun_ok O cfg Base 2 BO CO os init_state ok s init_wf ltac:(cbn; lia) L E) as (_ & A & B & _ & C & _).
  split; [exact A|]. split; [exact B|]. intros I nu HG HO Hok. now apply (C I nu HG HO).
Qed.
Print Assumptions C13_sequences.
Example C13_demo :
  let r := orun (demo 0 []) demo_cfg [OpVar 0 10; OpGet 0 7; OpGet 0 3; OpGet 0 7; OpGet 0 5; OpGet 0 10] init_state in
  fst r = true /\ lits (vst (snd r) 0%nat) = [(3, -3); (5, -4); (7, -2)] /\
  olegals (demo 0 []) demo_cfg [OpVar 0 10; OpGet 0 7; OpGet 0 3; OpGet 0 7; OpGet 0 5; OpGet 0 10] init_state.
Proof. check. Qed.

(** ** C14 *)

(** co * x <= rhs added with a literal: an implication, and an equivalence if [strict]. *)
Theorem C14_simple O cfg Base n0 clit co x rhs strict s ok s' : base_ok Base n0 -> clasp_ok O Base ->
  wf s -> n0 <= nxt s -> (x < nvars s)%nat -> below (nxt s) clit -> co <> 0 -> dlevel O s = 0%nat ->
  add_simple O cfg clit co x rhs strict s = (ok, s') ->
  let sem (I : interp) (nu : var -> Z) :=
    (lit_true I clit -> co * nu x <= rhs) /\ (strict = true -> co * nu x <= rhs -> lit_true I clit) in
  wf s' /\ step Base sem T2 s s' /\ (ok = true -> step Base sem sem s s').
Proof.
  intros BO CO W Hn Hx Bl Nc D0 E sem.
  destruct (add_simple_ok O cfg Base n0 BO CO clit co x rhs strict s ok s' W Hx Hn Bl Nc D0 E) as [A B C _ _]. exact (conj A (conj B C)).
Qed.
Print Assumptions C14_simple.
(** Literal 2 is equivalent to -3x <= -7, i.e. x >= 3, where a literal for x <= 2 exists already. *)
Example C14_demo :
  let r := orun (demo 0 []) demo_cfg [OpVar 0 10; OpLit; OpGet 0 2; OpSimple 2 (-3) 0 (-7) true; OpSimple 2 2 0 9 true] init_state in
  fst r = true /\ log (snd r) = [EWatch (-2); EWatch 2; EClause Learnt [-3; 2]; EClause Learnt [-2; 3]; EWatch 3; EWatch (-3); ELit 3; ELit 2] /\
  lits (vst (snd r) 0%nat) = [(2, -3); (4, 2)] /\
  olegals (demo 0 []) demo_cfg [OpVar 0 10; OpLit; OpGet 0 2; OpSimple 2 (-3) 0 (-7) true; OpSimple 2 2 0 9 true] init_state.
Proof. check. Qed.

(** ** C10 *)

(** A non-empty domain: exactly the listed values remain if the literal is true. *)
Theorem C10_domain O cfg Base n0 l x dom s ok s' : base_ok Base n0 -> clasp_ok O Base ->
  wf s -> n0 <= nxt s -> (x < nvars s)%nat -> below (nxt s) l -> dlevel O s = 0%nat ->
  IntervalSetProofs.wf dom -> dom <> [] -> add_dom O cfg l x dom s = (ok, s') ->
  let sem (I : interp) (nu : var -> Z) := lit_true I l -> exists a b, In (a, b) dom /\ a <= nu x < b in
  wf s' /\ step Base sem T2 s s' /\ (ok = true -> step Base sem sem s s').
Proof.
  intros BO CO W Hn Hx Bl D0 Wd Nd E sem.
  destruct (add_dom_ok O cfg Base n0 BO CO l x dom s ok s' W Hx Hn Bl D0 Wd Nd E) as [A B C _ _]. exact (conj A (conj B C)).
Qed.
Print Assumptions C10_domain.
Example C10_demo :
  let os := [OpVar 0 10; OpLit; OpDom 2 0 [(1, 3); (5, 6); (8, 20)]] in
  let r := orun (demo 0 []) demo_cfg os init_state in
  fst r = true /\ lits (vst (snd r) 0%nat) = [(0, -3); (2, -4); (4, -5); (5, -6); (7, -7)] /\ olegals (demo 0 []) demo_cfg os init_state.
Proof. check. Qed.
(** An empty domain restricts nothing: although the literal is true every value remains. *)
Theorem C10_empty_refuted : exists (O : oracle) (cfg : config) (x : var) (s s' : state) (I : interp) (nu : var -> Z),
  clasp_ok O (fun _ => True) /\ wf s /\ (x < nvars s)%nat /\ dlevel O s = 0%nat /\
  add_dom O cfg TRUE_LIT x [] s = (true, s') /\
  good (fun _ => True) s' I /\ order_ok s' I nu /\ lit_true I TRUE_LIT /\
  ~ (exists a b, In (a, b) ([] : list (Z * Z)) /\ a <= nu x < b).
Proof.
  exists (demo 0 []), demo_cfg, 0%nat, (snd (add_variable 0 5 init_state)), (snd (add_variable 0 5 init_state)), (fun _ => true), (fun _ => 3).
  split; [apply demo_ok; [intros l [<-|[]] [H|[]]; discriminate H|reflexivity]|].
  split; [apply (add_variable_ok (fun _ => True) 0 5 init_state 0%nat _ init_wf eq_refl eq_refl)|].
  split; [cbn; lia|]. split; [reflexivity|]. split; [reflexivity|].
  split; [repeat split; constructor|]. split; [|split; [reflexivity|intros (a & b & [] & _)]].
  intros y Hy. assert (y = 0%nat) as -> by (cbn in Hy; lia). split; [cbn; lia|intros w l []].
Qed.
Print Assumptions C10_empty_refuted.

(** ** C29 *)

(** Processing a true literal [l] adds only clauses that keep all solutions, tightens the bound
    of the variable, never loosens one, and keeps the state consistent. *)
Theorem C29_bounds O cfg Base n0 l s ok s' : base_ok Base n0 -> clasp_ok O Base ->
  wf s -> n0 <= nxt s -> l <> 0 -> is_true O s l = true ->
  (cur_level s = 0%nat <-> dlevel O s = 0%nat) -> (l = TRUE_LIT -> dlevel O s = 0%nat) ->
  update_domain O cfg l s = (ok, s') ->
  step Base T2 T2 s s' /\
  (ok = true -> wf s' /\ forall y, lb (vst s y) <= lb (vst s' y) /\ ub (vst s' y) <= ub (vst s y)) /\
  (ok = true -> forall x v, (x < nvars s)%nat -> Z.abs l <> 1 ->
    (In (v, l) (lits (vst s x)) -> ub (vst s' x) <= v) /\ (In (v, - l) (lits (vst s x)) -> v + 1 <= lb (vst s' x))).
Proof.
  intros BO CO W Hn Nl T C TL E. destruct (update_domain_ok O cfg Base n0 BO CO l s ok s' W Hn Nl T C TL E) as [A1 A2 A3 A4 A5 A6 A7].
  split; [exact A2|]. split; [intros H; split; [now apply A4|exact (A5 H)]|]. intros K x v Hx N1. split; intros Hin.
  - destruct (wf_lits s (proj1 W) x v l Hx Hin) as (_ & R). destruct (R N1) as (e & E1 & E2 & E3 & E4). subst x v. apply A6; auto.
    unfold valid_entry, lookup. rewrite E1, E4. now rewrite Bool.eqb_reflx.
  - destruct (wf_lits s (proj1 W) x v (- l) Hx Hin) as (_ & R). destruct (R ltac:(lia)) as (e & E1 & E2 & E3 & E4). subst x v.
    assert (V : valid_entry s (- l) = Some e) by (unfold valid_entry, lookup; now rewrite E1, E4, Bool.eqb_reflx). specialize (A7 e K V). lia.
Qed.
Print Assumptions C29_bounds.

(** A domain that becomes empty is reported: as long as there is no conflict, no domain is empty. *)
Theorem C29_conflict O cfg l s s' : update_domain O cfg l s = (true, s') ->
  (forall y, (y < nvars s)%nat -> lb (vst s y) <= ub (vst s y)) -> forall y, (y < nvars s')%nat -> lb (vst s' y) <= ub (vst s' y).
Proof. exact (ud_nonempty O cfg l s s'). Qed.
Print Assumptions C29_conflict.

(** Above the top level, if clasp assigns the last literal of a clause, the nearest literals of
    larger (smaller) values become true (false), ... *)
Theorem C29_neighbour O cfg Base n0 l s s' : base_ok Base n0 -> clasp_ok O Base -> units O ->
  wf s -> n0 <= nxt s -> l <> 0 -> l <> TRUE_LIT -> is_true O s l = true -> dlevel O s <> 0%nat -> cur_level s <> 0%nat ->
  update_domain O cfg l s = (true, s') ->
  (forall e, valid_entry s l = Some e -> is_true O s' (e_succ e) = true) /\
  (forall e, valid_entry s (- l) = Some e -> is_false O s' (e_prev e) = true).
Proof. intros BO CO U. exact (update_domain_next O cfg Base n0 CO U l s s'). Qed.
Print Assumptions C29_neighbour.
(** ... and if this holds for all true literals then all literals of larger values are true. *)
Theorem C29_all_larger (m : list (Z * Z)) (t : Z -> bool) : sorted m ->
  (forall w l a, In (w, l) m -> t l = true -> nearest_above m w TRUE_LIT a -> t a = true) ->
  forall w l w' l', In (w, l) m -> In (w', l') m -> w <= w' -> t l = true -> t l' = true.
Proof. exact (chain_closed m t). Qed.
Print Assumptions C29_all_larger.
(** Literals -2, -3, -4 for x <= 7, x <= 3, x <= 5; -3 was decided on level 1. *)
Definition C29_state := push_level 1 (snd (orun (demo 1 [-3]) demo_cfg [OpVar 0 10; OpGet 0 7; OpGet 0 3; OpGet 0 5] init_state)).
Example C29_demo :
  let r := update_domain (demo 1 [-3]) demo_cfg (-3) C29_state in
  fst r = true /\ ub (vst (snd r) 0%nat) = 3 /\ hd (ELit 0) (log (snd r)) = EClause Learnt [4; -2] /\
  is_true (demo 1 [-3]) (snd r) (-2) = true /\ is_true (demo 1 [-3]) C29_state (-3) = true /\
  is_true (demo 1 [-3]) C29_state (-2) = false.
Proof. vm_compute. repeat split; reflexivity. Qed.

(** On the top level the neighbour recorded with a fact may be outdated, and then literals of
    larger values are not set: x <= 8 and x <= 3 are facts, a literal -2 for x <= 5 is requested
    and still not true after all facts have been processed. *)
Theorem C29_delayed_refuted : exists (O : oracle) (cfg : config) (os : list oop) (s s' : state) (w : Z) (l : lit),
  clasp_ok O (fun _ => True) /\ units O /\ olegals O cfg os init_state /\ orun O cfg os init_state = (true, s) /\
  update_domain O cfg TRUE_LIT s = (true, s') /\ fmap s' = [] /\
  ub (vst s' 0%nat) <= w /\ In (w, l) (lits (vst s' 0%nat)) /\ is_true O s' l = false.
Proof.
  set (os := [OpVar 0 10; OpSimple 1 1 0 8 false; OpSimple 1 1 0 3 false; OpGet 0 5]).
  exists (demo 0 []), demo_cfg, os, (snd (orun (demo 0 []) demo_cfg os init_state)),
    (snd (update_domain (demo 0 []) demo_cfg TRUE_LIT (snd (orun (demo 0 []) demo_cfg os init_state)))), 5, (-2).
  split; [apply demo_ok; [intros l [<-|[]] [H|[]]; discriminate H|reflexivity]|]. split; [apply demo_units|].
  split; [check|]. split; [vm_compute; reflexivity|]. split; [vm_compute; reflexivity|]. split; [vm_compute; reflexivity|].
  split; [vm_compute; discriminate|]. split; [vm_compute; now left|vm_compute; reflexivity].
Qed.
Print Assumptions C29_delayed_refuted.

(** ** C42 *)

(** After every proper sequence of creations, fixings and removals of fixed literals, every
    entry of the table names the nearest existing literals of smaller and larger values, and
    every literal that is not true or false has an entry. *)
Theorem C42_chained O cfg Base n0 os s ok s' : base_ok Base n0 -> clasp_ok O Base -> wf s -> n0 <= nxt s ->
  olegals O cfg os s -> orun O cfg os s = (ok, s') ->
  (forall k e, lmap s' k = Some e ->
    In (e_val e, elit k e) (lits (vst s' (e_var e))) /\
    nearest_below (lits (vst s' (e_var e))) (e_val e) (- TRUE_LIT) (e_prev e) /\
    nearest_above (lits (vst s' (e_var e))) (e_val e) TRUE_LIT (e_succ e)) /\
  (forall x w l, (x < nvars s')%nat -> In (w, l) (lits (vst s' x)) -> Z.abs l <> 1 ->
    exists e, lmap s' (Z.abs l) = Some e /\ e_var e = x /\ e_val e = w /\ elit (Z.abs l) e = l).
Proof.
  intros BO CO W Hn L E. destruct (orun_ok O cfg Base n0 BO CO os s ok s' W Hn L E) as (A & _). split.
  - intros k e H. apply (wf_lmap s' A) in H. tauto.
  - intros x w l Hx Hin N. destruct (wf_lits s' A x w l Hx Hin) as (_ & R). destruct (R N) as (e & R1 & R2 & R3 & R4).
    exists e. repeat (split; [easy|]). unfold elit. rewrite R4. destruct (0 <? l) eqn:Q; lia.
Qed.
Print Assumptions C42_chained.
(** The same after removing the literals of a step, see C44. *)
Theorem C42_removal s : wf s -> forall k e, lmap (solver_update s) k = Some e ->
    In (e_val e, elit k e) (lits (vst (solver_update s) (e_var e))) /\
    nearest_below (lits (vst (solver_update s) (e_var e))) (e_val e) (- TRUE_LIT) (e_prev e) /\
    nearest_above (lits (vst (solver_update s) (e_var e))) (e_val e) TRUE_LIT (e_succ e).
Proof. intros W k e H. destruct (solver_update_ok s W) as ((A & _) & _). apply (wf_lmap _ A) in H. tauto. Qed.
Print Assumptions C42_removal.
(** Order clauses between neighbours imply all order relations. *)
Theorem C42_neighbours_suffice (m : list (Z * Z)) (I : interp) : sorted m -> I 1 = true ->
  (forall w l a, In (w, l) m -> nearest_above m w TRUE_LIT a -> lit_true I l -> lit_true I a) ->
  forall w l w' l', In (w, l) m -> In (w', l') m -> w <= w' -> lit_true I l -> lit_true I l'.
Proof.
  intros S I1 H w l w' l' A B L T.
  set (t := fun l => if 0 <? l then I l else negb (I (- l))).
  assert (TT : forall l, t l = true <-> lit_true I l) by (intros q; unfold t, lit_true; destruct (0 <? q); [easy|now rewrite Bool.negb_true_iff]).
  apply TT. apply (chain_closed m t S) with w l w'; auto; [|now apply TT].
  intros w1 l1 a Hin T1 N. apply TT. apply (H w1 l1 a Hin N). now apply TT.
Qed.
Print Assumptions C42_neighbours_suffice.
Example C42_demo :
  let os := [OpVar 0 10; OpGet 0 7; OpGet 0 3; OpSimple 1 1 0 7 false; OpGet 0 5; OpTrue (-2); OpGet 0 4] in
  let r := orun (demo 0 []) demo_cfg os init_state in
  fst r = true /\ lits (vst (snd r) 0%nat) = [(3, -3); (4, -5); (5, -4)] /\
  lmap (snd r) 3 = Some (mke 0%nat false 3 (-1) (-5)) /\ lmap (snd r) 5 = Some (mke 0%nat false 4 (-3) (-4)) /\
  olegals (demo 0 []) demo_cfg os init_state.
Proof. check. Qed.

(** ** C44 *)

(** At the end of a step exactly the literals above [maxstat] are removed, all others keep
    their value, the tables stay consistent, bounds are not changed, and what agreed with all
    order literals still does. *)
Theorem C44_removal s : wf s ->
  let s' := solver_update s in
  wf s' /\
  (forall x w l, (x < nvars s)%nat -> (In (w, l) (lits (vst s' x)) <-> In (w, l) (lits (vst s x)) /\ (Z.abs l = 1 \/ Z.abs l <= maxstat s))) /\
  (forall k, lmap s' k <> None -> lmap s k <> None /\ k <= maxstat s) /\
  (forall x, lb (vst s' x) = lb (vst s x) /\ ub (vst s' x) = ub (vst s x) /\ minb (vst s' x) = minb (vst s x) /\ maxb (vst s' x) = maxb (vst s x)) /\
  mbound s' = None /\
  (forall I nu, order_ok s I nu -> order_ok s' I nu).
Proof.
  intros W s'. destruct (solver_update_ok s W) as (A1 & A2 & A3 & A4 & A5 & A6 & A7 & A8 & A9 & A10). fold s' in A1, A2, A3, A4, A5, A6, A7, A8, A9, A10.
  assert (L : forall x w l, (x < nvars s)%nat -> (In (w, l) (lits (vst s' x)) <-> In (w, l) (lits (vst s x)) /\ (Z.abs l = 1 \/ Z.abs l <= maxstat s))).
  { intros x w l Hx. rewrite A9, in_keep by easy. rewrite Bool.orb_true_iff, Z.eqb_eq, Z.leb_le. reflexivity. }
  assert (B : forall x, lb (vst s' x) = lb (vst s x) /\ ub (vst s' x) = ub (vst s x) /\ minb (vst s' x) = minb (vst s x) /\ maxb (vst s' x) = maxb (vst s x)).
  { intros x. specialize (A2 x). unfold vbounds in A2. injection A2 as B1 B2 B3 B4. unfold minb, maxb. now rewrite B1, B2, B3, B4. }
  split; [exact A1|]. split; [exact L|]. split; [|split; [exact B|split; [exact A7|]]].
  - intros k H. split; [intros K; apply H, A10; now left|]. destruct (Z_le_gt_dec k (maxstat s)); [easy|]. exfalso. apply H, A10. right. lia.
  - intros I nu HO x Hx. rewrite A3 in Hx. destruct (HO x Hx) as (H1 & H2). destruct (B x) as (_ & _ & B3 & B4). split; [lia|].
    intros w l Hin. apply L in Hin as (Hin & _); [|easy]. now apply H2.
Qed.
Print Assumptions C44_removal.
Example C44_demo :
  let s := set_maxstat 2 (snd (orun (demo 0 []) demo_cfg [OpVar 0 10; OpGet 0 7; OpGet 0 3; OpGet 0 8] init_state)) in
  lits (vst s 0%nat) = [(3, -3); (7, -2); (8, -4)] /\ lmap s 2 = Some (mke 0%nat false 7 (-3) (-4)) /\
  lits (vst (solver_update s) 0%nat) = [(7, -2)] /\ lmap (solver_update s) 2 = Some (mke 0%nat false 7 (-1) 1).
Proof. vm_compute. repeat split; reflexivity. Qed.

(** ** C45 *)

(** If the bounds agree with the truth values of all order literals then an undecided fallback
    leads to an undecided decision literal. *)
Theorem C45_undecided O cfg f s : wf s ->
  (forall x w l, (x < nvars s)%nat -> In (w, l) (lits (vst s x)) ->
     (is_true O s l = true <-> ub (vst s x) <= w) /\ (is_false O s l = true <-> w < lb (vst s x))) ->
  is_true O s f = false -> is_false O s f = false -> f <> 0 ->
  is_true O s (decide cfg f s) = false /\ is_false O s (decide cfg f s) = false /\ decide cfg f s <> 0.
Proof. intros [W _]. exact (decide_ok O cfg f s W). Qed.
Print Assumptions C45_undecided.
(** Without the heuristic, or for literals that are no order literals, the fallback is returned. *)
Theorem C45_fallback cfg f s : max_chain cfg = false \/ (valid_entry s f = None /\ valid_entry s (- f) = None) -> decide cfg f s = f.
Proof. unfold decide. intros [->|(-> & ->)]; [reflexivity|now destruct (max_chain cfg)]. Qed.
Print Assumptions C45_fallback.
Example C45_demo :
  let s := snd (update_domain (demo 1 [-3]) demo_cfg (-3)
             (push_level 1 (snd (orun (demo 1 [-3]) demo_cfg [OpVar 0 10; OpGet 0 7; OpGet 0 3; OpGet 0 1; OpGet 0 2] init_state)))) in
  decide demo_cfg (-5) s = -4 /\ decide demo_cfg 4 s = 5.
Proof. vm_compute. split; reflexivity. Qed.
(** In the situation of C29_delayed_refuted no literal is returned. *)
Theorem C45_zero_refuted : exists (O : oracle) (cfg : config) (os : list oop) (s : state) (f : lit),
  clasp_ok O (fun _ => True) /\ units O /\ olegals O cfg os init_state /\ orun O cfg os init_state = (true, s) /\ fmap s = [] /\
  is_true O s f = false /\ is_false O s f = false /\ f <> 0 /\ decide cfg f s = 0.
Proof.
  set (os := [OpVar 0 10; OpSimple 1 1 0 8 false; OpSimple 1 1 0 3 false; OpGet 0 5; OpTrue 1]).
  exists (demo 0 []), demo_cfg, os, (snd (orun (demo 0 []) demo_cfg os init_state)), 2.
  split; [apply demo_ok; [intros l [<-|[]] [H|[]]; discriminate H|reflexivity]|]. split; [apply demo_units|].
  split; [check|]. repeat (split; [vm_compute; reflexivity|]). split; [discriminate|vm_compute; reflexivity].
Qed.
Print Assumptions C45_zero_refuted.
