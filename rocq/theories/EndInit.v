(** The first initialisation ends. *)
From Verif Require Import Base Util UtilProofs VarState VarStateProofs Terms TermsSpec Solver OrderSpec
  OrderProofs1 OrderProofs2 OrderProofs3 OrderProofs5 OrderProofs7 Orders Sum PropProofs ConSpec SumProofs2 Translate TranslateProofs
  Distinct DistinctProofs DistinctProofs2 Objective ObjectiveProofs Search SearchSpec SearchFrame SearchGrow SearchInv SearchInv3 SearchInv4 SearchInv5 SearchSetup SearchMain
  Builder BuilderSpec BuilderProofs BuilderProofs3 Translation TranslationSpec TranslationProofs TranslationProofs2 CheckSpec CheckFrame CheckProofs FreshInv FreshSearch
  KeepCons KeepSpec KeepProofs KeepMain Init InitSpec InitFrame InitBuild InitReady InitDist InitSimplify InitRun InitMain InitTranslate InitSession InitObjective InitProofs
  EndSpec EndProofs EndSimplify.
From Coq Require Import Permutation Sorting.Sorted.
Open Scope Z_scope.

Section Ends.
Context (isrt : (ival -> Z) -> list ival -> list ival) (SP : forall f l, Permutation (isrt f l) l) (SS : forall f l, StronglySorted Z.le (map f (isrt f l))).
Context (O : oracle) (cfg : config) (chk sol : bool) (Base : interp -> Prop) (n0 : Z).
Context (BO : base_ok Base n0) (CO : clasp_ok O Base) (U : units_pos O) (CA : calm O) (TO : trail_ok O) (B : nat) (TL : trail_limited O B) (TG : trail_grows O).
Context (srt : list (Z * var) -> list (Z * var)) (PS : forall es, Permutation (srt es) es).
Context (dlimit mlimit : Z) (order : bool) (ch : cid -> choice).
Notation ready := (InitReady.ready isrt O cfg chk sol).
Notation top := (BuilderSpec.top O n0).
Notation wf := OrderSpec.wf.
Notation init := (Init.init isrt O cfg chk srt dlimit mlimit order ch).

(** A state that is ready for a search is one in which simplification ends. *)
Lemma ready_ends s : ready s -> wf s -> stays_top O s -> exists n, forall k, (n <= k)%nat -> solver_simplify isrt O cfg chk k s <> None.
Proof.
  intros R W ST. destruct (reachable_sinv isrt chk sol O cfg s (rd_reach _ _ _ _ _ _ R)) as (G & SI). assert (L := rd_level _ _ _ _ _ _ R).
  assert (G = []) by (now apply (core_cur G s (proj1 SI))). subst G. set (N := Z.to_nat (MAX_VAL - MIN_VAL)).
  assert (EN : MIN_VAL + Z.of_nat N = MAX_VAL) by (unfold N; rewrite Z2Nat.id; unfold MIN_VAL, MAX_VAL; lia). clearbody N.
  assert (GR : ground s). { constructor; auto. intros x X. now apply (rd_vars _ _ _ _ _ _ R). }
  assert (BA : base MIN_VAL N s).
  { constructor; auto.
    - apply (top_stacks isrt O cfg chk sol s (rd_reach _ _ _ _ _ _ R) L).
    - intros x. rewrite EN. apply (rd_range _ _ _ _ _ _ R).
    - intros x X. now apply (rd_vars _ _ _ _ _ _ R).
    - intros x. destruct (le_lt_dec (nvars s) x) as [Q|Q]; [destruct (rd_vars _ _ _ _ _ _ R x Q) as [-> _]; constructor|]. now apply (wf_sorted _ (proj1 W)). }
  exists (S (S (B + pot MIN_VAL N s + room s)))%nat. intros k K. apply (simplify_ends O cfg MIN_VAL N isrt chk B TL TG CA s GR BA (stays_dlevel O s ST)). lia.
Qed.
Lemma tloop_fuel n : forall k w r, tloop O cfg dlimit mlimit ch n w = Some r -> (n <= k)%nat -> tloop O cfg dlimit mlimit ch k w = Some r.
Proof.
  induction n as [|n IH]; intros k w r E L; destruct k as [|k]; try lia; cbn [tloop] in E |- *; destruct (w_rest w) as [|[c d] rest]; auto; [discriminate|].
  destruct (translate1 _ _ _ _ _ _ _) as [[[[ok rm] cs]|e|] s]; auto. destruct (negb ok); [exact E|]. destruct rm; apply IH; auto; lia.
Qed.
Lemma translate_fuel n k b r : solver_translate O cfg dlimit mlimit order ch n b = Some r -> (n <= k)%nat -> solver_translate O cfg dlimit mlimit order ch k b = Some r.
Proof.
  unfold solver_translate. intros E L. destruct (tloop O cfg dlimit mlimit ch n _) as [q|] eqn:T; [|discriminate]. now rewrite (tloop_fuel n k _ q T L).
Qed.
Lemma init_fuel n k ops b r : init n ops b = Some r -> (n <= k)%nat -> init k ops b = Some r.
Proof.
  unfold Init.init. intros E L. destruct (build O cfg srt ops b) as [[[] b1]|e|]; auto. destruct (solver_simplify isrt O cfg chk n (b_s b1)) as [q|] eqn:S; [|discriminate].
  rewrite (simplify_fuel O cfg isrt chk n k _ q S L). destruct q as [[[]|e|] s]; auto. destruct (prepare_minimize srt None (min_terms (calls ops))) as [m|e|]; auto. cbv zeta in E |- *.
  destruct (solver_translate O cfg dlimit mlimit order ch n _) as [q|] eqn:T; [|discriminate]. now rewrite (translate_fuel n k _ q T L).
Qed.

Lemma init_ends (K : Z -> Prop) b ops K' b1 P : top b -> (forall i, K i -> 0 < i < nxt (b_s b)) -> b_cs b = [] -> ready (b_s b) -> young (b_s b) ->
  run O cfg srt K b ops K' b1 P -> Forall (op_tidy (nvars (b_s b1))) ops -> exists r n, forall k, (n <= k)%nat -> init k ops b = Some r.
Proof.
  intros T0 KB C0 R0 Y0 RN TD. assert (X : exists n, init n ops b <> None).
  2: { destruct X as (n & X). destruct (init n ops b) as [r|] eqn:E; [|easy]. exists r, n. intros k L. now apply init_fuel with n. }
  destruct (run_known O cfg srt Base n0 BO CO PS K b ops K' b1 P RN T0 KB) as (_ & _ & _ & _ & T1 & NX & KB1 & BW & FW).
  destruct (run_ready isrt O cfg chk sol srt PS K b ops K' b1 P (nvars (b_s b1)) RN TD R0 Y0) as (R1 & Y1 & _ & BE & ds & CS & FR). rewrite C0 in CS. cbn [app] in CS. subst ds.
  assert (SH1 : shaped b1) by (eapply Forall_impl; [|exact FR]; intros p (c & _ & F); apply F).
  destruct (ready_ends (b_s b1) R1 (bo_wf _ (t_ok _ T1)) (t_top _ T1)) as (n & N).
  destruct (solver_simplify isrt O cfg chk n (b_s b1)) as [[q s2]|] eqn:ES; [|now elim (N n (le_n n))].
  destruct q as [ok|e|]; [destruct ok|exists n; unfold Init.init; rewrite BE, ES; discriminate..]; [|exists n; unfold Init.init; rewrite BE, ES; discriminate].
  destruct (simplified isrt SP SS O cfg chk sol Base n0 BO CO U CA TO n b1 s2 T1 SH1 R1 Y1 ES) as [TR2 R2]. set (b2 := mkb s2 (b_cs b1) (b_id b1)) in *.
  destruct (prepare_minimize srt None (min_terms (calls ops))) as [mo|e|] eqn:EM; [|exists n; unfold Init.init; rewrite BE, ES, EM; discriminate..].
  assert (T2 := tl_top _ _ _ TR2). assert (N2 : 1 < nxt s2) by apply (bo_wf _ (t_ok _ T2)).
  assert (NV2 : (nvars (b_s b1) <= nvars s2)%nat) by apply (simp_step isrt SP SS O cfg chk sol Base n0 BO CO U CA TO n b1 true s2 T1 SH1 R1 Y1 ES).
  assert (TR3 : translatable O n0 (add_minimize mo b2)).
  { destruct mo as [[a es]|]; cbn [add_minimize]; [|exact TR2].
    assert (TD2 : Forall (op_tidy (nvars s2)) ops). { eapply Forall_impl; [|exact TD]. intros o. destruct o as [c| |]; cbn [op_tidy]; auto. intros [Q1 Q2]. split; auto. destruct c as [| | | | | |co v| | |]; auto. destruct v; auto. lia. }
    destruct (objective_ok srt PS ops (nvars s2) a es (nxt s2) TD2 N2 EM) as [SM CM]. now destruct (minimize_ok isrt O cfg chk sol Base n0 (CMin a es) b2 (ex_intro _ a (ex_intro _ es eq_refl)) TR2 R2 CM) as [TR3 R3]. }
  set (b3 := add_minimize mo b2) in *. set (k := Nat.max n (rounds (b_cs b3))).
  assert (ET := translate_ends O cfg Base n0 BO CO dlimit mlimit order ch k b3 TR3 (Nat.le_max_r _ _)).
  exists k. unfold Init.init. rewrite BE, (simplify_fuel O cfg isrt chk n k _ _ ES (Nat.le_max_l _ _)), EM. cbv zeta. fold b2. fold b3.
  destruct (solver_translate O cfg dlimit mlimit order ch k b3) as [[[[]|e|] b4]|]; easy.
Qed.
End Ends.
