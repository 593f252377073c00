(** Translation of constraints: C41.

    [models Base b] are the solutions of what clasp knows, the order literals and the constraints the propagator
    keeps.  [choice]s stand for all estimates and limits that select between clauses, weight constraints and lazy
    propagation for each linear constraint; [dlimit], [mlimit] and [order] are the other options. *)
From Verif Require Import Base Util VarState Terms TermsSpec Solver OrderSpec OrderProofs1 OrderProofs2 Orders Demo Sum PropProofs ConSpec Translate Distinct DistinctProofs2
  Objective Search SearchSpec Builder BuilderSpec BuilderProofs Translation TranslationSpec TranslationProofs TranslationProofs2 Prop_Builder.
Open Scope Z_scope.

Section Claims.
Context (O : oracle) (Base : interp -> Prop) (n0 : Z).
Notation start b := (base_ok Base n0 /\ clasp_ok O Base /\ translatable O n0 b).

(** Whatever is translated how, and even if a conflict is found, no solution is lost and none is added; if there is no
    conflict the propagator is again in order: it has a state for exactly the constraints that are left. *)
Theorem C41_translate cfg dlimit mlimit order ch n b ok b' : start b -> solver_translate O cfg dlimit mlimit order ch n b = Some (Ok ok, b') ->
  (forall I nu, models Base b I nu -> exists J nu', agree_below (nxt (b_s b)) I J /\ ext_nu (nvars (b_s b)) nu nu' /\ models Base b' J nu') /\
  (forall I nu, models Base b' I nu -> models Base b I nu) /\ (ok = true -> top O n0 b').
Proof. intros (BO & CO & T). now apply translate_ok. Qed.
(** The accepted assignments are the solutions before, ... *)
Theorem C41_accepted cfg dlimit mlimit order ch n b ok b' : start b -> solver_translate O cfg dlimit mlimit order ch n b = Some (Ok ok, b') ->
  forall I nu, accepted Base b b' I nu <-> models Base b I nu.
Proof.
  intros S E I nu. destruct (C41_translate cfg dlimit mlimit order ch n b ok b' S E) as (F & B & _). destruct S as (BO & CO & T). split.
  - intros (J & nu' & A & X & M). apply B in M. pose proof (models_dep O Base n0 BO b (tl_top _ _ _ T)) as D. apply (D J I nu' nu); auto.
    + intros i Hi. symmetry. now apply A.
    + intros x Hx. symmetry. now apply X.
  - intros M. apply F in M as (J & nu' & A & X & M). exists J, nu'. auto.
Qed.
(** ... so that two configurations that choose differently accept the same. *)
Theorem C41_same b cfg1 d1 m1 o1 ch1 n1 ok1 b1 cfg2 d2 m2 o2 ch2 n2 ok2 b2 : start b ->
  solver_translate O cfg1 d1 m1 o1 ch1 n1 b = Some (Ok ok1, b1) -> solver_translate O cfg2 d2 m2 o2 ch2 n2 b = Some (Ok ok2, b2) ->
  forall I nu, accepted Base b b1 I nu <-> accepted Base b b2 I nu.
Proof.
  intros S E1 E2 I nu. rewrite (C41_accepted _ _ _ _ _ _ _ _ _ S E1), (C41_accepted _ _ _ _ _ _ _ _ _ S E2). reflexivity.
Qed.
(** A conflict is only reported if there are no solutions left for it to lose: solutions exist after translation
    exactly if they existed before. *)
Theorem C41_solutions cfg dlimit mlimit order ch n b ok b' : start b -> solver_translate O cfg dlimit mlimit order ch n b = Some (Ok ok, b') ->
  ((exists I nu, models Base b I nu) <-> exists I nu, models Base b' I nu).
Proof.
  intros S E. destruct (C41_translate cfg dlimit mlimit order ch n b ok b' S E) as (F & B & _). split.
  - intros (I & nu & M). apply F in M as (J & nu' & _ & _ & M). eauto.
  - intros (I & nu & M). eauto.
Qed.
(** The loop over the constraints ends although constraints are added while it runs, ... *)
Theorem C41_ends cfg dlimit mlimit order ch n b : start b -> (rounds (b_cs b) <= n)%nat -> solver_translate O cfg dlimit mlimit order ch n b <> None.
Proof. intros (BO & CO & T). now apply (translate_ends O cfg Base n0 BO CO). Qed.
(** ... and nothing undefined happens. *)
Theorem C41_defined cfg dlimit mlimit order ch n b r b' : start b -> Forall (fun p => small (b_s b) (snd p)) (b_cs b) ->
  solver_translate O cfg dlimit mlimit order ch n b = Some (r, b') -> r <> UB.
Proof. intros (BO & CO & T). now apply (translate_defined O cfg Base n0 BO CO). Qed.
End Claims.
Print Assumptions C41_translate.
Print Assumptions C41_accepted.
Print Assumptions C41_same.
Print Assumptions C41_solutions.
Print Assumptions C41_ends.
Print Assumptions C41_defined.

(** ** Examples *)
Local Ltac step := apply run_step; [cbn [op_ok call_ok]; repeat (first [apply conj|apply Forall_cons|apply Forall_nil]); solve [vm_compute; intuition (try discriminate; auto)]|vm_compute; reflexivity|].

(** Variables x and y between 0 and 2; literal 2 implies that x, y and x + y are distinct, literal 3 is
    equivalent to x + y <= 3. *)
Definition tr_ops : list bop :=
  [PVar 0 2; PVar 0 2; PLit; PLit;
   POp (BDistinct 2 [([(1, 0%nat)], 0); ([(1, 1%nat)], 0); ([(1, 0%nat); (1, 1%nat)], 0)]); POp (BSum 3 [(1, 0%nat); (1, 1%nat)] 3 true)].
Definition tr_b : bld := fold_left (fun b o => after o b) tr_ops b_init.
Definition tr_I (i : Z) : bool := (i =? 1) || (i =? 2) || (i =? 3).
Definition tr_nu (x : var) : Z := match x with O => 1 | _ => 2 end.
Lemma tr_top : top ex_O 2 tr_b /\ exists J, J 2 = true /\ J 3 = true /\ models (fun _ => True) tr_b J tr_nu.
Proof.
  assert (R : exists K' b' P, run ex_O demo_cfg (fun x => x) ex_known b_init tr_ops K' b' P /\ b' = tr_b /\ (forall i, K' i <-> 0 < i < 4) /\ P tr_I tr_nu).
  { do 3 eexists. split; [repeat step; apply run_nil|]. split; [reflexivity|]. split.
    - intros i. cbn [knows]. repeat match goal with |- context [nxt ?t] => let v := eval vm_compute in (nxt t) in replace (nxt t) with v by (vm_compute; reflexivity) end. unfold ex_known. lia.
    - cbn [op_holds call_holds]. split; [vm_compute; intuition discriminate|]. split; [vm_compute; intuition discriminate|]. split; [exact Logic.I|]. split; [exact Logic.I|]. split.
      + intros _ [|[|[|i]]] [|[|[|j]]] e1 e2 L A B; try lia; cbn in A, B; try (destruct j; discriminate); injection A as <-; injection B as <-; discriminate.
      + split; [split; [intros _; vm_compute; discriminate|reflexivity]|exact Logic.I]. }
  destruct R as (K' & b' & P & R & <- & HK & HP).
  apply (C08_run ex_O demo_cfg (fun x => x) (fun _ => True) 2 tr_ops _ K' b_init b' P (ex_start _ (init_top _ ex_top))) in R; [|unfold ex_known; cbn; lia].
  destruct R as (T & _ & F). split; [exact T|]. destruct (F tr_I tr_nu) as (J & HJ & M); [|exact HP|].
  { split; [split; [exact Logic.I|split; [reflexivity|constructor]]|]. split; [|constructor]. intros x Hx. cbn in Hx. lia. }
  exists J. split; [rewrite HJ; [reflexivity|apply HK; lia]|]. split; [rewrite HJ; [reflexivity|apply HK; lia]|exact M].
Qed.
Lemma tr_ok : base_ok (fun _ => True) 2 /\ clasp_ok ex_O (fun _ => True) /\ translatable ex_O 2 tr_b.
Proof.
  destruct (ex_start _ (proj1 tr_top)) as (A & B & _ & T). split; [exact A|]. split; [exact B|]. constructor.
  - exact T.
  - assert (N : nvars (b_s tr_b) = 2%nat) by (vm_compute; reflexivity). rewrite N. intros [|[|x]] Hx; [vm_compute; discriminate..|lia].
  - vm_compute. reflexivity.
  - intros c k K. assert (L : (c < b_id tr_b)%nat) by (apply (bo_ids _ (t_ok _ T)); congruence). assert (N : b_id tr_b = 3%nat) by (vm_compute; reflexivity). rewrite N in L.
    destruct c as [|[|[|c]]]; [..|lia].
    all: match type of K with ?q = _ => let v := eval vm_compute in q in assert (V : q = v) by (vm_compute; reflexivity); rewrite V in K; injection K as <- end.
    all: unfold current; cbn [c_def]; split; [repeat (apply Forall_cons || apply Forall_nil || (cbn; lia))|].
    + left. vm_compute. reflexivity.
    + right. right. split; vm_compute; reflexivity.
    + right. right. split; vm_compute; reflexivity.
Qed.
(** The state after translation. *)
Definition translated dlimit order ch : option (bool * list (cid * constr) * nat) :=
  match solver_translate ex_O demo_cfg dlimit 0 order ch 20 tr_b with Some (Ok ok, b) => Some (ok, b_cs b, nvars (b_s b)) | _ => None end.
(** Nothing is translated, ... *)
Example C41_lazy : translated 0 false (fun _ => mkch false false false) = Some (true, b_cs tr_b, 2%nat) /\ length (b_cs tr_b) = 3%nat.
Proof. split; vm_compute; reflexivity. Qed.
(** ... everything but the sums for the new variable of the distinct constraint, ... *)
Example C41_weight : option_map (fun r => (fst (fst r), length (snd (fst r)), snd r)) (translated 1000 true (fun c => mkch (Nat.ltb c 3) false false)) = Some (true, 2%nat, 3%nat).
Proof. vm_compute. reflexivity. Qed.
(** ... or everything, with clauses for linear constraints. *)
Example C41_clauses : translated 1000 false (fun c => mkch false true false) = Some (true, [], 3%nat).
Proof. vm_compute. reflexivity. Qed.
Lemma translated_some dlimit order ch r : translated dlimit order ch = Some r -> exists b', solver_translate ex_O demo_cfg dlimit 0 order ch 20 tr_b = Some (Ok (fst (fst r)), b').
Proof. unfold translated. destruct (solver_translate _ _ _ _ _ _ _ _) as [[[ok| |] b']|]; try discriminate. intros E. injection E as <-. eauto. Qed.
(** All of them accept the same assignments, among them x = 1, y = 2 with both literals true. *)
Example C41_case : exists b1 b2 b3,
  solver_translate ex_O demo_cfg 0 0 false (fun _ => mkch false false false) 20 tr_b = Some (Ok true, b1) /\
  solver_translate ex_O demo_cfg 1000 0 true (fun c => mkch (Nat.ltb c 3) false false) 20 tr_b = Some (Ok true, b2) /\
  solver_translate ex_O demo_cfg 1000 0 false (fun c => mkch false true false) 20 tr_b = Some (Ok true, b3) /\
  (exists I, I 2 = true /\ I 3 = true /\ accepted (fun _ => True) tr_b b1 I tr_nu) /\
  forall I nu, (accepted (fun _ => True) tr_b b1 I nu <-> accepted (fun _ => True) tr_b b2 I nu) /\ (accepted (fun _ => True) tr_b b2 I nu <-> accepted (fun _ => True) tr_b b3 I nu).
Proof.
  destruct (translated_some _ _ _ _ (proj1 C41_lazy)) as [b1 E1]. 
  destruct (translated 1000 true (fun c => mkch (Nat.ltb c 3) false false)) as [[[ok cs] m]|] eqn:E; [|pose proof C41_weight as Q; rewrite E in Q; discriminate].
  assert (ok = true) as -> by (pose proof C41_weight as Q; rewrite E in Q; now injection Q). apply translated_some in E as [b2 E2]. destruct (translated_some _ _ _ _ C41_clauses) as [b3 E3].
  cbn [fst] in *. exists b1, b2, b3. csplit; auto; [|intros I nu; split; eapply C41_same; eauto using tr_ok].
  destruct tr_top as (_ & I & A & B & M). exists I. csplit; auto. now apply (C41_accepted _ _ _ _ _ _ _ _ _ _ _ _ tr_ok E1).
Qed.
