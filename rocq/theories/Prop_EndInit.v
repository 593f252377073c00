(** Theorems about the end of the first initialisation (C50). *)
From Verif Require Import Base Util IntervalSet UtilProofs VarState VarStateProofs Terms TermsSpec Solver OrderSpec OrderProofs1 OrderProofs2 OrderProofs8 Orders Sum PropProofs ConSpec
  Distinct DistinctProofs2 Disjoint DisjointProofs Objective ObjectiveSpec ObjectiveProofs Search SearchSpec SearchInv5 Builder BuilderSpec Translation TranslationSpec CheckSpec KeepSpec
  Init InitSpec InitReady InitSimplify InitRun InitProofs InitAnswers Demo DemoSearch Statements StatementsSpec ParseRun ParseRunSpec ParseRunMain InitSession EndSpec EndProofs EndInit Prop_Check Prop_Init Prop_Answers.
From Coq Require Import Permutation Sorting.Sorted.
Open Scope Z_scope.

(** ** C50 *)

(** The setting and the calls are those of C47: a new solver next to a program with the literals below [n], and calls [ops] of the parser that
    are accepted.  The trail of clasp has room for [B] variables in addition to those the solver adds and does not become shorter
    during init.  Then init ends, with a result that does not depend on the number of rounds its loops are allowed. *)
Theorem C50_init_ends : forall isrt O cfg check_state Base n0 srt dlimit mlimit order ch B n (K : Z -> Prop) ops K' b1 P,
  (forall f l, Permutation (isrt f l) l) -> (forall f l, StronglySorted Z.le (map f (isrt f l))) -> (forall es, Permutation (srt es) es) ->
  base_ok Base n0 -> clasp_ok O Base -> units_pos O -> calm O -> trail_ok O -> trail_limited O B -> trail_grows O ->
  1 < n -> n0 <= n -> (forall i, K i -> 0 < i < n) -> stays_top O (set_nxt n init_state) ->
  run O cfg srt K (mkb (set_nxt n init_state) [] 0%nat) ops K' b1 P -> Forall (op_tidy (nvars (b_s b1))) ops ->
  exists r N, forall fuel, (N <= fuel)%nat -> init isrt O cfg check_state srt dlimit mlimit order ch fuel ops (mkb (set_nxt n init_state) [] 0%nat) = Some r.
Proof.
  intros isrt O cfg chk Base n0 srt dlimit mlimit order ch B n K ops K' b1 P SP SS PS BO CO U CA TO TL TG N N0 KB ST R T.
  exact (init_ends isrt SP SS O cfg chk true Base n0 BO CO U CA TO B TL TG srt PS dlimit mlimit order ch K _ ops K' b1 P
    (fresh_top O n0 n N N0 ST) KB eq_refl (ready_init isrt O cfg chk true n) (young_init n) R T).
Qed.
Print Assumptions C50_init_ends.

(** For a whole program: once its theory atoms are parsed, init ends, and so does every call of check in the search that follows. *)
Theorem C50_program_ends : forall isrt O cfg check_state check_solution Base n0 srt mn mx dlimit mlimit order ch B n atoms s1,
  (forall f l, Permutation (isrt f l) l) -> (forall f l, StronglySorted Z.le (map f (isrt f l))) -> (forall es, Permutation (srt es) es) ->
  base_ok Base n0 -> clasp_ok O Base -> units_pos O -> calm O -> trail_ok O -> trail_limited O B -> trail_grows O ->
  mn <= mx -> MIN_VAL <= mn /\ mx <= MAX_VAL -> 1 < n -> n0 <= n -> stays_top O (set_nxt n init_state) ->
  Forall (fun a => below n (a_lit a)) atoms -> Forall covered atoms ->
  p_parse O cfg srt mn mx atoms (mkpr (mksymtab [] 0) (mkb (set_nxt n init_state) [] 0%nat) []) = Ok (true, s1) ->
  exists r N, (forall fuel, (N <= fuel)%nat -> init isrt O cfg check_state srt dlimit mlimit order ch fuel (p_ops s1) (mkb (set_nxt n init_state) [] 0%nat) = Some r) /\
    forall b m, r = (Ok true, b, m) -> forall L s m' bound, session isrt O cfg check_state check_solution (b_s b) L Going s -> in_order O s ->
      exists q, forall fuel, (room s < fuel)%nat -> prop_check isrt O cfg check_state check_solution fuel m' bound s = Some q.
Proof.
  intros isrt O cfg chk sol Base n0 srt mn mx dlimit mlimit order ch B n atoms s1 SP SS PS BO CO U CA TO TL TG MX MR N N0 ST LB CV H.
  destruct (parse_main O cfg srt mn mx Base n0 BO CO PS MX MR n atoms s1 H N N0 ST LB CV) as (_ & _ & K' & P & R & T & _).
  destruct (C50_init_ends isrt O cfg chk Base n0 srt dlimit mlimit order ch B n (fun i => 0 < i < n) (p_ops s1) K' (p_b s1) P SP SS PS BO CO U CA TO TL TG N N0 (fun i Q => Q) ST R T) as (r & k & E).
  exists r, k. split; [exact E|]. intros b m -> L s m' bound SE IO.
  pose proof (C49_start isrt O cfg chk sol Base n0 srt mn mx dlimit mlimit order ch n atoms s1 k b m) as S. cbv beta in S.
  assert (S' : started isrt O cfg chk sol (asked (b_s b)) (b_s b)); [apply S|].
  - split; [exact SP|]. split; [exact SS|]. split; [exact PS|]. split; [exact BO|]. split; [exact CO|]. split; [exact U|]. split; [exact CA|exact TO].
  - split; [exact MX|]. split; [exact MR|]. split; [exact N|]. split; [exact N0|]. split; [exact ST|]. split; [exact LB|]. split; [exact CV|]. split; [exact H|]. exact (E k (le_n k)).
  - apply (search_check_result isrt O cfg chk sol (asked (b_s b)) L s m' bound); auto. apply (session_both isrt O cfg chk sol CA (asked (b_s b)) (b_s b) S' L Going s SE).
Qed.
Print Assumptions C50_program_ends.

(** The clasp of the example for C47; its trail mentions each literal that clasp knows once. *)
Definition etrail (lg : list event) : list lit := nodup Z.eq_dec (filter (fun l => Z.abs l <=? 2 + Z.of_nat (new_lits lg)) (o_trail iclasp lg)).
Definition eclasp : oracle := mko (o_true iclasp) (o_fixed iclasp) (o_litlevel iclasp) (o_level iclasp) (o_answer iclasp) etrail (o_total iclasp).
Lemma in_etrail lg l : In l (etrail lg) <-> In l (o_trail iclasp lg) /\ Z.abs l <= 2 + Z.of_nat (new_lits lg).
Proof. unfold etrail. rewrite nodup_In, filter_In, Z.leb_le. reflexivity. Qed.
Lemma e_ok : clasp_ok eclasp (fun _ => True).
Proof. destruct iclasp_ok. constructor; assumption. Qed.
Lemma in_trail lg l : In l (o_trail iclasp lg) <-> In l (d_true (iD (ph_level lg)) lg).
Proof. cbn [iclasp phases_total phases o_trail]. symmetry. apply in_rev. Qed.
Lemma one_trail lg : In 1 (o_trail iclasp lg).
Proof. rewrite in_trail. generalize (ph_level lg). intros n. induction lg; [now left|now apply d_mono]. Qed.
Lemma e_trail : trail_ok eclasp.
Proof.
  intros lg. destruct (iclasp_trail lg) as [_ A]. rewrite Forall_forall in A. split.
  - intros Q. assert (C : In 1 (etrail lg)) by (apply in_etrail; split; [apply one_trail|lia]). cbn [eclasp o_trail] in Q. now rewrite Q in C.
  - apply Forall_forall. intros l H. apply in_etrail in H as [H _]. exact (A l H).
Qed.
Lemma e_limited : trail_limited eclasp 2.
Proof.
  intros lg. cbn [eclasp o_trail]. set (m := (2 + new_lits lg)%nat).
  assert (ND : NoDup (map Z.abs (etrail lg))).
  { assert (Q : forall l, In l (etrail lg) -> In l (d_true (iD (ph_level lg)) lg)) by (intros l H; apply in_etrail in H as [H _]; now apply in_trail).
    assert (N : NoDup (etrail lg)) by apply NoDup_nodup. revert Q N. generalize (etrail lg). intros t Q N. induction N as [|l t H N IH]; cbn; constructor.
    - intros F. apply in_map_iff in F as (k & F1 & F2). assert (C : k = l \/ k = - l) by lia. destruct C as [->| ->]; auto.
      apply (d_cons 1 (iD (ph_level lg)) (iD_cons (ph_level lg)) i_one lg l); [apply Q; now left|apply Q; now right].
    - apply IH. intros k K. apply Q. now right. }
  rewrite <- (map_length Z.abs). replace m with (length (map Z.of_nat (seq 1 m))) by (now rewrite map_length, seq_length). apply NoDup_incl_length; [exact ND|].
  intros k H. apply in_map_iff in H as (l & <- & H). assert (L : l <> 0). { pose proof (proj2 (e_trail lg)) as A. rewrite Forall_forall in A. now apply A. }
  apply in_etrail in H as [_ H]. apply in_map_iff. exists (Z.to_nat (Z.abs l)). split; [lia|]. apply in_seq. unfold m. lia.
Qed.
Lemma e_grows : trail_grows eclasp.
Proof.
  intros lg e W. cbn [eclasp o_trail]. apply NoDup_incl_length; [apply NoDup_nodup|]. intros l H. apply in_etrail in H as [H1 H2]. apply in_etrail. rewrite in_trail in *.
  split; [destruct e; try easy; cbn [ph_level]; now apply d_mono|]. destruct e; cbn [new_lits]; lia.
Qed.

(** Three variables, a sum, a distinct constraint and an objective. *)
Local Notation e_fresh := (mkb (set_nxt 3 init_state) [] 0%nat).
Definition eafter (o : bop) (b : bld) : bld := match build eclasp demo_cfg (fun x => x) [o] b with Ok (_, b') => b' | _ => b end.
Lemma erun_step (K : Z -> Prop) b o ops b1 K' b' P : op_ok K b o -> (match build eclasp demo_cfg (fun x => x) [o] b with Ok (true, _) => true | _ => false end) = true -> b1 = eafter o b ->
  run eclasp demo_cfg (fun x => x) (knows o b K) b1 ops K' b' P -> run eclasp demo_cfg (fun x => x) K b (o :: ops) K' b' (fun I nu => op_holds b o I nu /\ P I nu).
Proof. intros A E -> R. apply run_cons with (eafter o b); auto. unfold eafter. destruct (build _ _ _ _ _) as [[[|] q]| |]; try discriminate. reflexivity. Qed.
Definition ea1 : bld := eafter (PVar 0 2) e_fresh.
Definition ea2 : bld := eafter (PVar 0 2) ea1.
Definition ea3 : bld := eafter (PVar 0 2) ea2.
Definition ea4 : bld := eafter (POp (BSum 2 [(1, 0%nat); (1, 1%nat)] 1 false)) ea3.
Definition ea5 : bld := eafter (POp (BDistinct 1 [([(1, 0%nat)], 0); ([(1, 1%nat)], 0); ([(1, 2%nat)], 0)])) ea4.
Definition ea6 : bld := eafter (POp (BMin 1 (Some 0%nat))) ea5.
Local Ltac variable := apply var_ok; vm_compute; reflexivity.
Lemma e_run : exists P, run eclasp demo_cfg (fun x => x) iK e_fresh iops iK ea6 P.
Proof.
  eexists.
  apply erun_step with ea1; [cbn; lia|vm_compute; reflexivity|reflexivity|].
  apply erun_step with ea2; [cbn; lia|vm_compute; reflexivity|reflexivity|].
  apply erun_step with ea3; [cbn; lia|vm_compute; reflexivity|reflexivity|].
  apply erun_step with ea4; [split; [unfold iK; cbn; lia|]; repeat (apply Forall_cons; [split; [discriminate|variable]|]); apply Forall_nil|vm_compute; reflexivity|reflexivity|].
  apply erun_step with ea5; [split; [unfold iK; cbn; lia|]; repeat (apply Forall_cons; [apply Forall_cons; [variable|apply Forall_nil]|]); apply Forall_nil|vm_compute; reflexivity|reflexivity|].
  apply erun_step with ea6; [exact Logic.I|vm_compute; reflexivity|reflexivity|]. apply run_nil.
Qed.
Lemma e_nvars : nvars (b_s ea6) = nvars (b_s ia6).
Proof. vm_compute. reflexivity. Qed.
Example C50_init : (clasp_ok eclasp (fun _ => True) /\ units_pos eclasp /\ calm eclasp /\ trail_ok eclasp /\ trail_limited eclasp 2 /\ trail_grows eclasp) /\
  stays_top eclasp (set_nxt 3 init_state) /\ (exists P, run eclasp demo_cfg (fun x => x) iK e_fresh iops iK ea6 P) /\ Forall (op_tidy (nvars (b_s ea6))) iops /\
  init isort eclasp demo_cfg false (fun x => x) 0 0 true ich 2 iops e_fresh = None /\
  (match init isort eclasp demo_cfg false (fun x => x) 0 0 true ich 20 iops e_fresh with Some (Ok true, _, Some _) => true | _ => false end) = true.
Proof.
  split; [split; [exact e_ok|split; [exact iclasp_units|split; [exact iclasp_calm|split; [exact e_trail|split; [exact e_limited|exact e_grows]]]]]|].
  split; [intros es W; now apply within_level|]. split; [exact e_run|]. split; [rewrite e_nvars; exact i_tidy|]. split; vm_compute; reflexivity.
Qed.

(** The program of C49, from which the parser makes these calls; the first check ends as well. *)
Local Notation p_start := (mkpr (mksymtab [] 0) e_fresh []).
Definition ep1 : pr := match p_parse eclasp demo_cfg (fun x => x) 0 2 aprog p_start with Ok (_, s) => s | _ => p_start end.
Definition eb : bld := match init isort eclasp demo_cfg false (fun x => x) 0 0 true ich 20 iops e_fresh with Some (_, b, _) => b | None => e_fresh end.
Example C50_program : Forall (fun a => below 3 (a_lit a)) aprog /\ Forall covered aprog /\
  p_parse eclasp demo_cfg (fun x => x) 0 2 aprog p_start = Ok (true, ep1) /\ p_ops ep1 = iops /\
  session isort eclasp demo_cfg false true (b_s eb) [] Going (b_s eb) /\ in_order eclasp (b_s eb) /\ room (b_s eb) = 6%nat /\
  (match prop_check isort eclasp demo_cfg false true 7 im 0 (b_s eb) with Some (Ok tt, _) => true | _ => false end) = true.
Proof.
  split; [repeat (apply Forall_cons; [cbn; unfold below; lia|]); apply Forall_nil|]. split; [repeat (apply Forall_cons; [exact Logic.I|]); apply Forall_nil|].
  split; [unfold ep1; apply parsed_ok; vm_compute; reflexivity|]. split; [vm_compute; reflexivity|]. split; [apply ss_start|].
  split; [split; [apply Nat.leb_le; vm_compute; reflexivity|intros L; apply Nat.ltb_lt in L; vm_compute in L; discriminate]|]. split; vm_compute; reflexivity.
Qed.
