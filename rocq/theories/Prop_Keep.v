(** Theorems about the solutions kept by a search (C46). *)
From Verif Require Import Base Util IntervalSet VarState Terms TermsSpec Solver OrderSpec OrderProofs2 Orders Sum PropProofs ConSpec Distinct Disjoint DisjointProofs Objective Search SearchSpec
  SearchInv5 CheckSpec KeepSpec KeepMain Demo DemoSearch.
From Coq Require Import Permutation Sorting.Sorted.
Open Scope Z_scope.

(** ** C46 *)

(** [course] are the histories of a search that started in [s0] (KeepSpec): calls of propagate, check and undo in the order in which clasp calls them.
    A solution of the start consists of an interpretation [I] of the solver literals and an integer assignment [nu] that agree with everything said so far
    ([good]), with the domains and order literals ([order_ok]), and with the constraints ([demands]; with the objective bound of [s]).  It extends to the literals
    added in the search such that all clauses added in the search are satisfied; and nothing the search says admits more than before.
    [Base] is what clasp knows from elsewhere, it does not mention literals from [n0] on. *)
Theorem C46_kept srt O cfg check_state check_solution Base n0 guard W s0 K going s :
  (forall f l, Permutation (srt f l) l) -> (forall f l, StronglySorted Z.le (map f (srt f l))) ->
  base_ok Base n0 -> clasp_ok O Base -> units_pos O -> calm O -> (guard = true -> steady O) ->
  started srt O cfg check_state check_solution W s0 -> n0 <= nxt s0 -> (forall c k, css s0 c = Some k -> posted s0 (c_def k)) ->
  course srt O cfg check_state check_solution guard s0 K going s ->
  (forall I nu, good Base s0 I -> order_ok s0 I nu -> demands guard s0 (mbound s) I nu ->
    exists J nu', agree_below (nxt s0) I J /\ ext_nu (nvars s0) nu nu' /\ good Base s J /\ order_ok s J nu') /\
  (forall J nu, good Base s J -> order_ok s J nu -> good Base s0 J /\ order_ok s0 J nu).
Proof.
  intros SP SS BO CO U CA SO SD N0 PD C. destruct (course_keeps srt SP SS O cfg check_state check_solution Base n0 BO CO U CA guard SO s0 PD W SD N0 K going s C) as [_ _ _ A B].
  split; [exact A|]. intros J nu G R. destruct (B J nu G R) as (X & Y & _). auto.
Qed.
Print Assumptions C46_kept.

(** If the clauses of the search cannot be satisfied any more then there is no solution within the objective bound. *)
Theorem C46_unsat srt O cfg check_state check_solution Base n0 guard W s0 K going s :
  (forall f l, Permutation (srt f l) l) -> (forall f l, StronglySorted Z.le (map f (srt f l))) ->
  base_ok Base n0 -> clasp_ok O Base -> units_pos O -> calm O -> (guard = true -> steady O) ->
  started srt O cfg check_state check_solution W s0 -> n0 <= nxt s0 -> (forall c k, css s0 c = Some k -> posted s0 (c_def k)) ->
  course srt O cfg check_state check_solution guard s0 K going s -> (forall J, ~ good Base s J) ->
  forall I nu, good Base s0 I -> order_ok s0 I nu -> ~ demands guard s0 (mbound s) I nu.
Proof.
  intros SP SS BO CO U CA SO SD N0 PD C NG I nu G R H.
  destruct (proj1 (C46_kept srt O cfg check_state check_solution Base n0 guard W s0 K going s SP SS BO CO U CA SO SD N0 PD C) I nu G R H) as (J & nu' & _ & _ & GJ & _). now apply (NG J).
Qed.
Print Assumptions C46_unsat.

(** *** A search with a conflict *)
(** x between 0 and 3, y between 0 and 1; x <= y if literal 2 holds, x and y are different.  Clasp decides literal 2 and then literal -3, that is y <= 0. *)
Definition kD (n : nat) : list Z := match n with 0%nat => [] | 1%nat => [2] | _ => [2; -3] end.
Definition kclasp := phases kD.
Local Notation kchk s := (prop_check isort kclasp demo_cfg false true 9 None 0 s).
Local Notation kchecked s := (match kchk s with Some (Ok tt, s') => s' | _ => s end).
Local Notation kprop ls s := (snd (solver_propagate kclasp demo_cfg ls s)).
Definition kv : state := snd (add_variable 0 1 (snd (add_variable 0 3 init_state))).
Definition kl : state := snd (get_literal demo_cfg 1%nat 0 (snd (add_literal kv))).
Definition kc : state := add_constraint 0%nat (CSum 2 0 [(1, 0%nat); (-1, 1%nat)]) kl.
Definition k0 : state := add_constraint 1%nat (CDistinct 1 [(0, [(1, 0%nat)]); (0, [(1, 1%nat)])]) kc.
Definition k1 : state := kprop [2] (emit (ECall 1) k0).
Definition k2 : state := kchecked k1.
Definition k3 : state := kprop [-4] k2.
Definition k4 : state := kchecked k3.
Definition k5 : state := kprop [-3] (emit (ECall 2) k4).
Definition k6 : state := kchecked k5.
Definition k7 : state := kprop [5] k6.
Definition k8 : state := kchecked k7.
Definition k9 : state := match solver_undo k8 with Ok s => s | _ => k8 end.
Definition kW : lit -> Prop := fun l => l = 3 \/ l = -3.
Local Notation reach := (reachable isort false true kclasp demo_cfg).
Local Notation course := (course isort kclasp demo_cfg false true).
Local Ltac settle := split; [vm_compute; reflexivity|]; split; [vm_compute; reflexivity|]; intros x; destruct x as [|[|[|x]]]; split; vm_compute; reflexivity.

Lemma kD_cons n l : In l (1 :: kD n) -> In (- l) (1 :: kD n) -> False.
Proof. destruct n as [|[|n]]; cbn; lia. Qed.
Lemma k_one {A} : 1%nat = 0%nat -> A.
Proof. discriminate. Qed.
Lemma kclasp_ok : clasp_ok kclasp (fun _ => True).
Proof.
  constructor; cbn [kclasp phases o_true o_fixed o_level o_answer].
  - intros lg. apply d_in_spec. generalize (ph_level lg). intros n. induction lg; [now left|now apply d_mono].
  - intros lg l A B. apply d_in_spec in A, B. now apply (d_cons 1 (kD (ph_level lg)) (kD_cons (ph_level lg)) k_one lg l).
  - intros lg l I A B _ I1 F. apply d_in_spec in A. destruct B as [B|B].
    + rewrite B in A. apply (d_top 0 (kD 0) (fun _ => eq_refl) lg I l eq_refl A I1 F).
    + apply Z.eqb_eq in B. assert (C : l = 1 \/ l = -1) by lia. destruct C as [->| ->]; [exact I1|]. exfalso.
      apply (d_cons 1 (kD (ph_level lg)) (kD_cons (ph_level lg)) k_one lg (-1) A). generalize (ph_level lg). intros n. cbn. clear. induction lg; [now left|now apply d_mono].
  - intros lg e Q. destruct e; try easy.
  - intros lg e l Q A. apply d_in_spec in A. apply d_in_spec. destruct e; try easy; cbn [ph_level]; now apply d_mono.
  - auto.
  - intros lg l. now rewrite Z.abs_opp.
Qed.
Lemma kclasp_units : units_pos kclasp.
Proof.
  intros lg t c l _ A I H. cbn [kclasp phases o_true o_answer ph_level] in *. pose proof (demo_units 1 (kD (ph_level lg)) lg t c l) as Q. cbn [demo o_true o_answer] in Q. auto.
Qed.
Lemma kclasp_calm : calm kclasp.
Proof. intros lg e H. destruct e; try easy. Qed.
Lemma kclasp_steady : steady kclasp.
Proof.
  split; [|reflexivity]. intros lg l H. cbn [kclasp phases o_fixed o_true] in *. apply Z.eqb_eq in H. assert (A : o_true kclasp lg 1 = true) by apply kclasp_ok.
  assert (C : l = 1 \/ l = -1) by lia. destruct C as [->| ->]; [left|right]; exact A.
Qed.
Lemma k_reach : reach k0.
Proof.
  assert (V : reach kv) by (repeat (eapply re_step; [|apply cb_variable; [vm_compute; reflexivity|settle|lia]]); apply re_init).
  assert (L : reach (snd (add_literal kv))) by (eapply re_step; [exact V|apply cb_literals; [vm_compute; reflexivity|now repeat split]]).
  assert (G : reach kl) by (eapply re_step; [exact L|apply cb_literals; [vm_compute; reflexivity|apply only_get]]).
  assert (C : reach kc) by (eapply re_step; [exact G|apply cb_constraint; [vm_compute; reflexivity|settle|repeat constructor; vm_compute; lia]]).
  eapply re_step; [exact C|apply cb_constraint; [vm_compute; reflexivity|settle|repeat constructor; vm_compute; lia]].
Qed.
Lemma k_table x : lits (vst k0 x) = match x with 1%nat => [(0, -3)] | _ => [] end.
Proof. destruct x as [|[|x]]; vm_compute; reflexivity. Qed.
Lemma k_map k : lmap k0 k = updz (fun _ => None) 3 (Some (mke 1%nat false 0 (-1) 1)) k.
Proof. reflexivity. Qed.
Lemma k_lits x w l : In (w, l) (lits (vst k0 x)) -> x = 1%nat /\ w = 0 /\ l = -3.
Proof. rewrite k_table. destruct x as [|[|x]]; intros H; [easy| |easy]. destruct H as [H|[]]. injection H as <- <-. auto. Qed.
Lemma k_wf : wf k0.
Proof.
  assert (FM : fmap k0 = []) by (vm_compute; reflexivity). assert (LG : log k0 = [EWatch 3; EWatch (-3); ELit 3; ELit 2]) by (vm_compute; reflexivity).
  split; [|rewrite FM]; split.
  - vm_compute. reflexivity.
  - intros x X. rewrite k_table. destruct x as [|[|x]]; repeat constructor.
  - intros x w l _ H. apply k_lits in H as (-> & -> & ->). split; [split; vm_compute; congruence|]. intros _. eexists. repeat split; vm_compute; reflexivity.
  - intros k e H. rewrite k_map in H. unfold updz in H. destruct (Z.eqb_spec k 3) as [->|]; [|discriminate]. injection H as <-. cbn [e_var e_val e_prev e_succ]. rewrite k_table.
    repeat split; try (vm_compute; congruence).
    + vm_compute. lia.
    + now left.
    + right. split; auto. intros w l [Q|[]]. injection Q. lia.
    + right. split; auto. intros w l [Q|[]]. injection Q. lia.
  - rewrite LG. repeat constructor.
  - intros _ x _. destruct x as [|[|x]]; split; vm_compute; reflexivity.
  - intros f [].
  - constructor.
  - intros x w l _ H A. apply k_lits in H as (-> & -> & ->). discriminate.
Qed.
Lemma k_started : started isort kclasp demo_cfg false true kW k0.
Proof.
  split.
  - exact k_reach.
  - vm_compute. reflexivity.
  - exact k_wf.
  - intros x X. split; [rewrite k_table; destruct x as [|[|x]]; [reflexivity|vm_compute in X; lia|reflexivity]|].
    destruct x as [|[|x]]; vm_compute in X |- *; try lia; discriminate.
  - vm_compute. lia.
  - intros x. destruct x as [|[|x]]; vm_compute; split; discriminate.
  - intros x w l H _. apply k_lits in H as (_ & _ & ->). unfold kW. cbn. auto.
Qed.
Lemma k_posted c k : css k0 c = Some k -> posted k0 (c_def k).
Proof.
  destruct c as [|[|c]]; intros H; [| |discriminate]; injection H as <-.
  - split; [split; vm_compute; congruence|]. cbn. split; [repeat constructor; discriminate|]. repeat constructor; cbn; intuition discriminate.
  - split; [split; vm_compute; congruence|]. cbn. repeat constructor; discriminate.
Qed.
(** A check and a propagation, with the conditions computed. *)
Definition koks s := match kchk s with Some (Ok tt, _) => true | _ => false end.
Lemma k_check g K s : koks s = true -> Nat.eqb (cur_level s) (dlevel kclasp s) && (0 <? dlevel kclasp s)%nat && (0 <? cur_level (kchecked s))%nat && forallb (fun p => o_true kclasp (log s) (snd p)) K = true ->
  course g k0 K true s -> course g k0 K true (kchecked s).
Proof.
  intros H L R. apply andb_prop in L as [L L3]. apply andb_prop in L as [L L2]. apply andb_prop in L as [L L1]. apply Nat.eqb_eq in L. rewrite forallb_forall in L3.
  assert (Q : (0 <? cur_level (kchecked s))%nat || is_nil (fmap (kchecked s)) = true) by (rewrite L2; reflexivity).
  refine (eq_rect _ (fun b => course g k0 K b (kchecked s)) _ _ Q).
  eapply co_check with (fuel := 9%nat) (m := None) (bound := 0); [exact R|split; lia| |intros _; apply Nat.ltb_lt; assumption|].
  - intros l M. apply in_map_iff in M as (p & <- & M). now apply L3.
  - unfold koks in H. destruct (kchk s) as [[[[]| |] s']|]; try discriminate. reflexivity.
Qed.
Lemma k_prop g n K l s : cur_level (kprop [l] s) = n -> fst (solver_propagate kclasp demo_cfg [l] s) = true ->
  negb (l =? 0) && (Z.abs l <? nxt s) && forallb (fun p => o_true kclasp (log s) (snd p)) ((n, l) :: K) = true -> in_order kclasp s -> course g k0 K true s ->
  course g k0 ((n, l) :: K) true (kprop [l] s).
Proof.
  intros <- H B Q R. apply andb_prop in B as [B F]. apply andb_prop in B as [B1 B2]. rewrite forallb_forall in F.
  change true with (true || (0 <? cur_level (kprop [l] s))%nat). apply (co_propagate isort kclasp demo_cfg false true g k0 [l] true K s); [exact R|exact Q| | |].
  - constructor; [|constructor]. unfold below. lia.
  - intros m [[<-|[]]|M]; [apply (F _ (or_introl eq_refl))|]. apply in_map_iff in M as (p & <- & M). apply F. now right.
  - rewrite (surjective_pairing (solver_propagate kclasp demo_cfg [l] s)). cbn [fst snd]. now rewrite H.
Qed.
Lemma k_undo g n K L s s' : cur_level s' = n -> filter (fun p => (fst p <=? n)%nat) K = L -> solver_undo s = Ok s' -> course g k0 K true s -> course g k0 L true s'.
Proof. intros <- <- H R. eapply co_undo; eassumption. Qed.
Local Ltac comp := vm_compute; reflexivity.
Local Ltac ordered := split; [vm_compute; lia|intros _; split; [settle|comp]].
Local Ltac same_level := split; [vm_compute; lia|intros L; exfalso; revert L; vm_compute; lia].
Lemma k_course g : course g k0 [(2%nat, 5); (2%nat, -3); (1%nat, -4); (1%nat, 2)] true k8.
Proof.
  apply k_check; [comp|comp|]. apply (k_prop g 2); [comp|comp|comp|same_level|].
  apply k_check; [comp|comp|]. apply (k_prop g 2); [comp|comp|comp|ordered|]. apply co_call.
  apply k_check; [comp|comp|]. apply (k_prop g 1); [comp|comp|comp|same_level|].
  apply k_check; [comp|comp|]. apply (k_prop g 1); [comp|comp|comp|ordered|]. apply co_call. apply co_start.
Qed.

Definition kadded : list event := [EClause Learnt [-5; 3; -2]; EClause Learnt [3; 5]; EWatch 5; EWatch (-5); ELit 5; ECall 2; EClause Learnt [-2; -4]; EWatch 4; EWatch (-4); ELit 4; ECall 1].
Lemma k_log : log k9 = kadded ++ log k0.
Proof. comp. Qed.
Lemma k_back g : course g k0 [(1%nat, -4); (1%nat, 2)] true k9.
Proof.
  apply (k_undo g 1 [(2%nat, 5); (2%nat, -3); (1%nat, -4); (1%nat, 2)] _ k8 k9); [comp|comp| |exact (k_course g)].
  unfold k9. assert (H : (match solver_undo k8 with Ok _ => true | _ => false end) = true) by comp.
  destruct (solver_undo k8); [reflexivity|discriminate..].
Qed.
Lemma k_sol m : exists I nu, good (fun _ => True) k0 I /\ order_ok k0 I nu /\ demands true k0 m I nu /\ I 2 = true /\ nu 0%nat = 0 /\ nu 1%nat = 1.
Proof.
  assert (LG : log k0 = [EWatch 3; EWatch (-3); ELit 3; ELit 2]) by comp. assert (NV : nvars k0 = 2%nat) by comp.
  exists (fun i => 0 <? i), (fun x => match x with 0%nat => 0 | _ => 1 end). split; [split; [easy|split; [reflexivity|rewrite LG; repeat constructor]]|]. split; [|split; [|auto]].
  - intros x X. destruct x as [|[|x]]; [| |rewrite NV in X; lia]; (split; [vm_compute; split; discriminate|]); intros w l H; apply k_lits in H as (Q & -> & ->); try discriminate.
    vm_compute. split; [discriminate|intros H; exfalso; now apply H].
  - intros c k H. destruct c as [|[|c]]; [| |discriminate]; injection H as <-; cbn; [lia|]. intros _. repeat constructor. cbn. lia.
Qed.
Lemma k_in : In (0, -3) (lits (vst k9 1%nat)).
Proof. vm_compute. now left. Qed.
Lemma k_nv : (1 < nvars k9)%nat.
Proof. vm_compute. lia. Qed.
Lemma k_excluded J nu : good (fun _ => True) k9 J -> order_ok k9 J nu -> J 2 = true -> nu 1%nat <> 0.
Proof.
  intros (_ & J1 & F) R T Y. pose proof (R 1%nat k_nv) as (_ & R1). specialize (R1 0 (-3) k_in). rewrite Y in R1. assert (J3 : lit_true J (-3)) by (apply R1; lia).
  rewrite k_log in F. clear R R1. unfold kadded in F. inversion F as [|? ? F1 F']; subst. inversion F' as [|? ? F2 _]; subst. cbn in F1, F2.
  destruct F1 as (l1 & Q1 & T1), F2 as (l2 & Q2 & T2). clear -Q1 T1 Q2 T2 J3 T. unfold lit_true in *. cbn in *. destruct Q2 as [<-|[<-|[]]]; cbn in *; [congruence|].
  destruct Q1 as [<-|[<-|[<-|[]]]]; cbn in *; congruence.
Qed.

(** The search runs into a conflict with both constraints and clasp goes back a level.  It started with the solution x = 0, y = 1 with literal 2,
    and the clauses it has added exclude the assignment x = y = 0 with literal 2. *)
Example C46_demo : clasp_ok kclasp (fun _ => True) /\ units_pos kclasp /\ calm kclasp /\ steady kclasp /\ started isort kclasp demo_cfg false true kW k0 /\
  (forall c k, css k0 c = Some k -> posted k0 (c_def k)) /\
  (forall g, course g k0 [(1%nat, -4); (1%nat, 2)] true k9) /\
  log k9 = kadded ++ log k0 /\
  (exists I nu, good (fun _ => True) k0 I /\ order_ok k0 I nu /\ demands true k0 (mbound k9) I nu /\ I 2 = true /\ nu 0%nat = 0 /\ nu 1%nat = 1) /\
  (forall J nu, good (fun _ => True) k9 J -> order_ok k9 J nu -> J 2 = true -> nu 1%nat <> 0).
Proof.
  split; [exact kclasp_ok|]. split; [exact kclasp_units|]. split; [exact kclasp_calm|]. split; [exact kclasp_steady|]. split; [exact k_started|]. split; [exact k_posted|].
  split; [exact k_back|]. split; [exact k_log|]. split; [apply k_sol|exact k_excluded].
Qed.
