(** Posting constraints: C09, C11 and C12, and all calls of the parser together.

    [srt] is the order in which sums keep their terms (constraints.cc 35-45): any permutation of the given terms.
    [built Base P b b' ok] says that the solutions of [b'] (what clasp knows, the order literals, the constraints
    given to the solver) are those of [b] that satisfy [P], up to the values of new literals; if the builder
    reports a conflict, no solution satisfying [P] is lost.  [top] are the states between two calls of the parser. *)
From Verif Require Import Base Util IntervalSet IntervalSetProofs VarState Terms TermsSpec TermsProofs TermsProofs3 Solver OrderSpec OrderProofs2 OrderProofs7 Orders OrderProofs8 Demo
  Sum PropProofs ConSpec Search SearchSpec SearchInv5 Builder BuilderSpec BuilderProofs BuilderProofs2 BuilderProofs3.
From Coq Require Import Permutation.
Open Scope Z_scope.

Section Claims.
Context (O : oracle) (cfg : config) (srt : list (Z * var) -> list (Z * var)) (Base : interp -> Prop) (n0 : Z).
Notation start b := (base_ok Base n0 /\ clasp_ok O Base /\ (forall es, Permutation (srt es) es) /\ top O n0 b).
Notation vars b es := (Forall (fun t => snd t < nvars (b_s b))%nat es).

(** ** All calls *)

(** Each call imposes exactly its meaning, ... *)
Theorem C08_posted c b ok b' : start b -> call_ok (fun i => 0 < i < nxt (b_s b)) (nvars (b_s b)) c -> build1 O cfg srt c b = Ok (ok, b') ->
  built Base (fun I nu => call_holds I nu c) b b' ok /\ top O n0 b'.
Proof. intros (BO & CO & PS & T). apply build1_built; auto. Qed.
(** ... for valid numbers without undefined behaviour, ... *)
Theorem C08_posted_defined K m c b : call_ok K m c -> nums_ok c -> build1 O cfg srt c b <> UB.
Proof. exact (build1_no_ub O cfg srt K m c b). Qed.
(** ... and so does every sequence of calls, requests for literals ([K] become known) and for variables: all that
    has been asked for holds afterwards, and nothing that satisfies it is lost. *)
Theorem C08_run ops (K K' : Z -> Prop) b b' P : start b -> (forall i, K i -> 0 < i < nxt (b_s b)) -> run O cfg srt K b ops K' b' P ->
  top O n0 b' /\ (forall I nu, models Base b' I nu -> models Base b I nu /\ P I nu) /\
  (forall I nu, models Base b I nu -> P I nu -> exists J, (forall i, K' i -> J i = I i) /\ models Base b' J nu).
Proof.
  intros (BO & CO & PS & T) KB R. destruct (run_known O cfg srt Base n0 BO CO PS K b ops K' b' P R T KB) as (_ & _ & _ & _ & T' & _ & _ & A & B).
  split; [exact T'|]. split; [exact A|]. intros I nu M H. destruct (B I nu M H) as (J & HJ & MJ). exists J. split; [|exact MJ]. intros i Hi. apply HJ. now left.
Qed.

(** ** C11 *)
Theorem C11_two l e1 e2 b ok b' : start b -> below (nxt (b_s b)) l -> vars b (fst e1) -> vars b (fst e2) ->
  build1 O cfg srt (BDistinct l [e1; e2]) b = Ok (ok, b') ->
  built Base (fun I nu => lit_true I l -> lin_val nu (fst e1) + snd e1 <> lin_val nu (fst e2) + snd e2) b b' ok.
Proof.
  intros S [L1 L2] V1 V2 E. destruct (C08_posted (BDistinct l [e1; e2]) b ok b' S) as [[A B C D F] _]; [cbn [call_ok]; split; [lia|repeat (apply Forall_cons; [assumption|]); apply Forall_nil]|exact E|].
  constructor; auto.
  - intros I nu M P. apply D; [exact M|]. cbn [call_holds]. intros L [|[|i]] [|[|j]] f1 f2 Hij H1 H2; try lia; cbn in H1, H2; try (injection H1 as <-; injection H2 as <-; auto).
    all: try (destruct j; discriminate).
  - intros I nu M. destruct (F I nu M) as [G P]. split; [exact G|]. intros K L. exact (P K L 0%nat 1%nat e1 e2 ltac:(lia) eq_refl eq_refl).
Qed.
(** With fewer expressions, or if the literal is false, nothing happens. *)
Theorem C11_few l es b : (length es < 2)%nat \/ is_false O (b_s b) l = true -> build1 O cfg srt (BDistinct l es) b = Ok (true, b).
Proof.
  cbn [build1]. unfold b_distinct. destruct (is_false O (b_s b) l); [reflexivity|]. intros [H|H]; [|discriminate].
  destruct es as [|e1 [|e2 es]]; [reflexivity..|cbn in H; lia].
Qed.
(** There is no undefined behaviour, and expressions that are not too large are accepted. *)
Theorem C11_defined l e1 e2 b : let valid z := - MAX_VAL <= z <= MAX_VAL in
  Forall (fun t => valid (fst t)) (fst e1) -> Forall (fun t => valid (fst t)) (fst e2) -> valid (snd e1) -> valid (snd e2) ->
  build1 O cfg srt (BDistinct l [e1; e2]) b <> UB /\
  (abs_sum (fst e1) + abs_sum (fst e2) <= MAX_VAL -> Z.abs (snd e1 - snd e2) < MAX_VAL -> exists r, build1 O cfg srt (BDistinct l [e1; e2]) b = Ok r).
Proof.
  cbn zeta. intros V1 V2 C1 C2. cbn [build1]. unfold b_distinct. destruct (is_false _ _ _); [split; [discriminate|eauto]|].
  exact (b_differ_total O cfg srt l (is_true O (b_s b) l) e1 e2 b V1 V2 C1 C2).
Qed.

(** ** C12 *)
Theorem C12_two l w x v y b ok b' : start b -> below (nxt (b_s b)) l -> (x < nvars (b_s b))%nat -> (y < nvars (b_s b))%nat -> 0 < w -> 0 < v ->
  build1 O cfg srt (BDisjoint l [(w, x); (v, y)]) b = Ok (ok, b') ->
  built Base (fun I nu => lit_true I l -> forall p, ~ (nu x <= p < nu x + w /\ nu y <= p < nu y + v)) b b' ok.
Proof.
  intros S [L1 L2] X Y Hw Hv E. destruct (C08_posted (BDisjoint l [(w, x); (v, y)]) b ok b' S) as [[A B C D F] _]; [cbn [call_ok]; split; [lia|repeat (apply Forall_cons; [now split|]); apply Forall_nil]|exact E|].
  constructor; auto.
  - intros I nu M P. apply D; [exact M|]. cbn [call_holds]. intros L [|[|i]] [|[|j]] f1 f2 Hij H1 H2; try lia; cbn in H1, H2.
    all: try (destruct j; discriminate).
    injection H1 as <-; injection H2 as <-. cbn [fst snd]. specialize (P L (Z.max (nu x) (nu y))). lia.
  - intros I nu M. destruct (F I nu M) as [G P]. split; [exact G|]. intros K L p. specialize (P K L 0%nat 1%nat _ _ ltac:(lia) eq_refl eq_refl). cbn [fst snd] in P. lia.
Qed.
(** All widths a program can have are accepted. *)
Theorem C12_defined l es b : Forall (fun e => 0 < fst e <= MAX_VAL) es -> exists r, build1 O cfg srt (BDisjoint l es) b = Ok r.
Proof. intros H. apply b_disjoint_total. eapply Forall_impl; [|exact H]. cbn beta. unfold MAX_VAL. cbn [imax int32]. lia. Qed.
Theorem C12_few l es b : (length es < 2)%nat \/ is_false O (b_s b) l = true -> build1 O cfg srt (BDisjoint l es) b = Ok (true, b).
Proof.
  cbn [build1]. unfold b_disjoint. destruct (is_false O (b_s b) l); [reflexivity|]. intros [H|H]; [|discriminate].
  destruct es as [|e1 [|e2 es]]; [reflexivity..|cbn in H; lia].
Qed.

(** ** C09: posting a product *)

(** If the atom is in the head, the constraint is implied by the literal. *)
Theorem C09_posted l ca x y cc vc rhs b ok b' : start b -> below (nxt (b_s b)) l -> ca <> 0 -> (x < nvars (b_s b))%nat -> (y < nvars (b_s b))%nat ->
  match vc with Some z => (z < nvars (b_s b))%nat | None => cc = 0 end ->
  build1 O cfg srt (BNonlin l ca (Some x) (Some y) cc vc rhs false) b = Ok (ok, b') ->
  built Base (fun I nu => lit_true I l -> ca * (nu x * nu y) + cc * match vc with Some z => nu z | None => 0 end <= rhs) b b' ok.
Proof.
  intros S [L1 L2] A X Y Z E. destruct (C08_posted (BNonlin l ca (Some x) (Some y) cc vc rhs false) b ok b' S) as [[B1 B2 B3 B4 B5] _]; [|exact E|].
  { cbn [call_ok]. split; [lia|]. split; [|split; [|split; [|reflexivity]]]. - intros q [H|[H|H]]; try injection H as <-; auto. subst vc. exact Z. - split; discriminate. - intros ->. exact Z. }
  assert (EQ : forall nu, nonlin_val nu ca (Some x) (Some y) cc vc = ca * (nu x * nu y) + cc * match vc with Some z => nu z | None => 0 end).
  { intros nu. unfold nonlin_val. destruct vc; cbn [ov]; lia. }
  constructor; auto.
  - intros I nu M P. apply B4; [exact M|]. cbn [call_holds]. rewrite EQ. split; [exact P|discriminate].
  - intros I nu M. destruct (B5 I nu M) as [G P]. split; [exact G|]. intros K. specialize (P K). cbn [call_holds] in P. rewrite EQ in P. apply P.
Qed.
(** If the atom is in a body, the literal of the complement should be the negated one (propagator.cc 85-88 uses the
    literal itself): after posting, the literal is false in all solutions. *)
Theorem C09_strict_literal l ca x y cc vc rhs b ok b' : ca <> 0 -> match vc with Some z => True | None => cc = 0 end ->
  build1 O cfg srt (BNonlin l ca (Some x) (Some y) cc vc rhs true) b = Ok (ok, b') ->
  forall I nu, models Base b' I nu -> ~ lit_true I l.
Proof.
  intros A Z E I nu (_ & _ & F) L. cbn [build1] in E. unfold b_nonlinear in E. rewrite (proj2 (Z.eqb_neq _ _) A) in E.
  apply bind_ok in E as (r0 & R0 & E). apply bind_ok in E as (r & R & E). apply bind_ok in E as (ca' & CA & E). apply bind_ok in E as (cc' & CC & E). injection E as _ <-.
  apply safe_add_val in R0. apply safe_inv_val in R, CA, CC. subst. cbn [b_cs post] in F.
  rewrite Forall_app in F. destruct F as [F F2]. rewrite Forall_app in F. destruct F as [_ F1]. inversion_clear F1 as [|? ? F1' _]. inversion_clear F2 as [|? ? F2' _].
  cbn [snd csem] in *. specialize (F1' L). specialize (F2' L). destruct vc as [z|]; [|subst]; nia.
Qed.
End Claims.
Print Assumptions C08_posted.
Print Assumptions C08_posted_defined.
Print Assumptions C08_run.
Print Assumptions C11_two.
Print Assumptions C11_few.
Print Assumptions C11_defined.
Print Assumptions C12_two.
Print Assumptions C12_few.
Print Assumptions C12_defined.
Print Assumptions C09_posted.
Print Assumptions C09_strict_literal.

(** ** Examples *)

(** Nothing has been posted. *)
Definition b_init : bld := mkb init_state [] 0%nat.
Lemma init_top O : stays_top O init_state -> top O 2 b_init.
Proof.
  intros S. constructor; auto; [|cbn; lia|now repeat split]. constructor; [apply init_wf|constructor|intros c H; now elim H| |constructor].
  intros c d. cbn. split; [easy|]. intros (k & H & _). discriminate.
Qed.
Definition ex_O := demo 0 [].
Lemma ex_start b : top ex_O 2 b -> base_ok (fun _ => True) 2 /\ clasp_ok ex_O (fun _ => True) /\ (forall es : list (Z * var), Permutation ((fun x => x) es) es) /\ top ex_O 2 b.
Proof.
  intros T. split; [exact demo_base|]. split; [|split; [reflexivity|exact T]]. apply demo_ok; [|easy]. intros l [<-|[]] [H|[]]. lia.
Qed.
Lemma ex_top : stays_top ex_O init_state.
Proof. intros es _. reflexivity. Qed.
Definition after (o : bop) (b : bld) : bld := match build ex_O demo_cfg (fun x => x) [o] b with Ok (_, b') => b' | _ => b end.
Local Notation runs := (run ex_O demo_cfg (fun x => x)).
Lemma run_step K b o ops K' b' P : op_ok K b o -> (match build ex_O demo_cfg (fun x => x) [o] b with Ok (true, _) => true | _ => false end) = true ->
  runs (knows o b K) (after o b) ops K' b' P -> runs K b (o :: ops) K' b' (fun I nu => op_holds b o I nu /\ P I nu).
Proof.
  intros A E R. eapply run_cons; [exact A| |exact R]. unfold after. destruct (build ex_O demo_cfg (fun x => x) [o] b) as [[[|] q]| |]; try discriminate. reflexivity.
Qed.
Local Ltac step := apply run_step; [cbn [op_ok call_ok]; repeat (first [apply conj|apply Forall_cons|apply Forall_nil]); first [solve [vm_compute; intuition (try discriminate; auto)]|solve [intros x [H|[H|H]]; inversion H; subst; vm_compute; auto]]|vm_compute; reflexivity|].

(** Variables x and y between 0 and 10, literals 2, 3 and 4; 2 implies x <> y + 3, 3 implies that [x, x+2) and [y, y+4) are
    disjoint, 4 is equivalent to x + y <= 12, 3 implies x * y <= 20, 2 implies that x is 0, 1, 2, 5, 6 or 7; 2 or 4 holds. *)
Definition ex_vars : list bop := [PVar 0 10; PVar 0 10; PLit; PLit; PLit].
Definition ex_ops : list bop :=
  [POp (BDistinct 2 [([(1, 0%nat)], 0); ([(1, 1%nat)], 3)]); POp (BDisjoint 3 [(2, 0%nat); (4, 1%nat)]); POp (BSum 4 [(1, 0%nat); (1, 1%nat)] 12 true);
   POp (BNonlin 3 1 (Some 0%nat) (Some 1%nat) 0 None 20 false); POp (BDom 2 0%nat [(0, 3); (5, 8)]); POp (BClause [2; 4])].
Definition ex_known (i : Z) : Prop := i = 1.
Definition ex_I (i : Z) : bool := (i =? 1) || (i =? 2) || (i =? 3) || (i =? 4).
Definition ex_nu (x : var) : Z := match x with O => 5 | _ => 1 end.
Local Ltac knw := cbn [knows]; repeat match goal with |- context [nxt ?t] => let v := eval vm_compute in (nxt t) in replace (nxt t) with v by (vm_compute; reflexivity) end; unfold ex_known; lia.
Example ex_run1 : exists K' b' P, runs ex_known b_init ex_vars K' b' P /\ b' = fold_left (fun b o => after o b) ex_vars b_init /\ (forall i, K' i <-> 0 < i < 5) /\ P ex_I ex_nu.
Proof. do 3 eexists. split; [repeat step; apply run_nil|]. split; [reflexivity|]. split; [intros i; knw|]. vm_compute. intuition discriminate. Qed.

(** A state to start from and what has been posted at the end. *)
Definition ex_b : bld := fold_left (fun b o => after o b) ex_vars b_init.
Lemma ex_b_top : top ex_O 2 ex_b /\ nxt (b_s ex_b) = 5 /\ nvars (b_s ex_b) = 2%nat.
Proof.
  destruct ex_run1 as (K' & b' & P & R & E & HK & _). destruct (C08_run ex_O demo_cfg (fun x => x) (fun _ => True) 2 ex_vars ex_known K' b_init b' P (ex_start _ (init_top _ ex_top))) as (T & _).
  - unfold ex_known. cbn. lia.
  - exact R.
  - unfold ex_b. rewrite <- E. split; [exact T|]. rewrite E. split; vm_compute; reflexivity.
Qed.
(** All calls are accepted, and x = 5, y = 1 with all literals true satisfies them. *)
Example ex_run2 : exists K' b' P, runs (fun i => 0 < i < 5) ex_b ex_ops K' b' P /\ P ex_I ex_nu.
Proof.
  do 3 eexists. split; [repeat step; apply run_nil|]. cbn [op_holds call_holds].
  split; [intros _ [|[|i]] [|[|j]] e1 e2 L A B; try lia; cbn in A, B; [injection A as <-; injection B as <-; discriminate|destruct j; discriminate..]|].
  split; [intros _ [|[|i]] [|[|j]] e1 e2 L A B; try lia; cbn in A, B; [injection A as <-; injection B as <-; right; vm_compute; discriminate|destruct j; discriminate..]|].
  split; [split; [intros _; vm_compute; discriminate|reflexivity]|]. split; [split; [intros _; vm_compute; discriminate|discriminate]|].
  split; [intros _; exists 5, 8; split; [right; now left|split; [vm_compute; discriminate|reflexivity]]|].
  split; [|exact Logic.I]. exists 2. split; [now left|reflexivity].
Qed.
(** The hypotheses of the theorems about single calls. *)
Local Ltac single := split; [apply ex_start, ex_b_top|]; destruct ex_b_top as (_ & N & V); rewrite ?N, ?V.
Lemma ex_call c : (match build1 ex_O demo_cfg (fun x => x) c ex_b with Ok (true, _) => true | _ => false end) = true -> exists b', build1 ex_O demo_cfg (fun x => x) c ex_b = Ok (true, b').
Proof. destruct (build1 _ _ _ _ _) as [[[|] b']| |]; try discriminate. eauto. Qed.
Local Notation start b := (base_ok (fun _ => True) 2 /\ clasp_ok ex_O (fun _ => True) /\ (forall es : list (Z * var), Permutation ((fun x => x) es) es) /\ top ex_O 2 b).
Example C11_case : let e1 := ([(1, 0%nat); (2, 1%nat)], 0) in let e2 := ([(3, 1%nat)], 4) in
  start ex_b /\ below (nxt (b_s ex_b)) 2 /\ Forall (fun t : Z * var => snd t < nvars (b_s ex_b))%nat (fst e1) /\ Forall (fun t : Z * var => snd t < nvars (b_s ex_b))%nat (fst e2) /\
  exists b', build1 ex_O demo_cfg (fun x => x) (BDistinct 2 [e1; e2]) ex_b = Ok (true, b').
Proof.
  cbv zeta. single. split; [unfold below; lia|]. split; [repeat constructor|]. split; [repeat constructor|]. apply ex_call. vm_compute. reflexivity.
Qed.
Example C12_case : start ex_b /\ below (nxt (b_s ex_b)) (-3) /\ (0 < nvars (b_s ex_b))%nat /\ (1 < nvars (b_s ex_b))%nat /\
  exists b', build1 ex_O demo_cfg (fun x => x) (BDisjoint (-3) [(2, 0%nat); (4, 1%nat)]) ex_b = Ok (true, b').
Proof. single. split; [unfold below; lia|]. split; [lia|]. split; [lia|]. apply ex_call. vm_compute. reflexivity. Qed.
Example C09_case : start ex_b /\ below (nxt (b_s ex_b)) 3 /\ (1 < nvars (b_s ex_b))%nat /\
  (exists b', build1 ex_O demo_cfg (fun x => x) (BNonlin 3 2 (Some 0%nat) (Some 1%nat) (-1) (Some 1%nat) 20 false) ex_b = Ok (true, b')) /\
  (exists b', build1 ex_O demo_cfg (fun x => x) (BNonlin 3 2 (Some 0%nat) (Some 1%nat) (-1) (Some 1%nat) 20 true) ex_b = Ok (true, b')).
Proof. single. split; [unfold below; lia|]. split; [lia|]. split; apply ex_call; vm_compute; reflexivity. Qed.

(** The atom [&nsum { x * y } <= 20] in a body, represented by literal 3: x = 5 and y = 1 satisfies the relation and so does the literal,
    but this solution is lost when the atom is posted. *)
Theorem C09_strict_refuted : exists O cfg srt Base b b' I nu,
  let c := BNonlin 3 1 (Some 0%nat) (Some 1%nat) 0 None 20 true in
  (base_ok Base 2 /\ clasp_ok O Base /\ (forall es, Permutation (srt es) es) /\ top O 2 b) /\ below (nxt (b_s b)) 3 /\ (1 < nvars (b_s b))%nat /\
  build1 O cfg srt c b = Ok (true, b') /\ models Base b I nu /\ call_holds I nu c /\
  forall J, agree_below (nxt (b_s b)) I J -> ~ models Base b' J nu.
Proof.
  destruct ex_run1 as (K' & b1 & P & R & E & HK & HP). fold ex_b in E.
  destruct (C08_run ex_O demo_cfg (fun x => x) (fun _ => True) 2 ex_vars ex_known K' b_init b1 P (ex_start _ (init_top _ ex_top))) as (_ & _ & F); [unfold ex_known; cbn; lia|exact R|].
  destruct (F ex_I ex_nu) as (J & HJ & M); [|exact HP|].
  { split; [split; [exact Logic.I|split; [reflexivity|constructor]]|]. split; [|constructor]. intros x Hx. cbn in Hx. lia. }
  replace b1 with ex_b in M. clear R E F HP. destruct ex_b_top as (T & N & V).
  destruct (ex_call (BNonlin 3 1 (Some 0%nat) (Some 1%nat) 0 None 20 true)) as [b' B]; [vm_compute; reflexivity|].
  assert (J3 : J 3 = true) by (rewrite HJ; [reflexivity|apply HK; lia]).
  exists ex_O, demo_cfg, (fun x => x), (fun _ => True), ex_b, b', J, ex_nu. cbv zeta. split; [now apply ex_start|]. split; [unfold below; lia|]. split; [lia|]. split; [exact B|]. split; [exact M|].
  split; [split; [intros _; vm_compute; discriminate|intros _ _; exact J3]|].
  intros J' A M'. refine (C09_strict_literal ex_O demo_cfg (fun x => x) (fun _ => True) 3 1 0%nat 1%nat 0 None 20 ex_b true b' ltac:(lia) eq_refl B J' ex_nu M' _).
  unfold lit_true. cbn. rewrite <- A by lia. exact J3.
Qed.
Print Assumptions C09_strict_refuted.
