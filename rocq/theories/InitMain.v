(** From the calls of the parser to the start of the search. *)
From Verif Require Import Base Util UtilProofs VarState VarStateProofs Terms TermsSpec Solver OrderSpec
  OrderProofs1 OrderProofs2 OrderProofs3 OrderProofs5 OrderProofs7 Orders Sum PropProofs ConSpec SumProofs2 Translate TranslateProofs
  Distinct DistinctProofs DistinctProofs2 Objective ObjectiveProofs Search SearchSpec SearchFrame SearchGrow SearchInv SearchInv3 SearchInv4 SearchInv5 SearchSetup SearchMain
  Builder BuilderSpec BuilderProofs BuilderProofs3 Translation TranslationSpec TranslationProofs TranslationProofs2 CheckSpec CheckFrame CheckProofs FreshInv FreshSearch
  KeepCons KeepSpec KeepProofs KeepMain Init InitSpec InitFrame InitBuild InitReady InitDist InitSimplify InitRun.
From Coq Require Import Permutation Sorting.Sorted.
Open Scope Z_scope.

Section Main.
Context (isrt : (ival -> Z) -> list ival -> list ival) (SP : forall f l, Permutation (isrt f l) l) (SS : forall f l, StronglySorted Z.le (map f (isrt f l))).
Context (O : oracle) (cfg : config) (chk sol : bool) (Base : interp -> Prop) (n0 : Z).
Context (BO : base_ok Base n0) (CO : clasp_ok O Base) (U : units_pos O) (CA : calm O) (TO : trail_ok O).
Notation ready := (InitReady.ready isrt O cfg chk sol).
Notation top := (BuilderSpec.top O n0).
Notation wf := OrderSpec.wf.

(** ** Simplification *)
Definition shaped (b : bld) : Prop := Forall (fun p => shape (snd p)) (b_cs b).
Lemma shaped_posted b : bld_ok b -> shaped b -> forall c k, css (b_s b) c = Some k -> posted (b_s b) (c_def k).
Proof.
  intros OK F c k K. unfold shaped in F. rewrite Forall_forall in F. assert (I : In (c, c_def k) (b_cs b)) by (apply (bo_reg _ OK); eauto).
  pose proof (bo_cons _ OK) as CN. rewrite Forall_forall in CN. destruct (CN _ I) as [B _]. specialize (F _ I). split; [exact B|]. cbn [snd] in F. destruct (c_def k); auto.
  eapply Forall_impl; [|exact F]. cbn. tauto.
Qed.
Lemma start_inv s : ready s -> wf s -> young s -> stays_top O s -> init_inv O Base s (asked s) s.
Proof.
  intros R W Y T. constructor; auto.
  - apply (kinv_start isrt O cfg chk sol). now apply ready_started.
  - now apply young_dd.
  - now apply (ready_out isrt O cfg chk sol).
  - apply R.
Qed.

Lemma ck_css s s' : cons s s' -> (forall c, css s' c <> None -> css s c <> None) /\ (forall c d, (exists k, css s c = Some k /\ c_def k = d) <-> exists k, css s' c = Some k /\ c_def k = d).
Proof.
  intros C. split.
  - intros c N. specialize (C c). destruct (css s c), (css s' c); easy.
  - intros c d. specialize (C c). destruct (css s c) as [k|], (css s' c) as [k'|]; try easy.
    destruct C as [C _]. split; intros (q & Q & <-); injection Q as <-; eauto.
Qed.

Lemma simplified n b s' : top b -> shaped b -> ready (b_s b) -> young (b_s b) -> solver_simplify isrt O cfg chk n (b_s b) = Some (Ok true, s') ->
  translatable O n0 (mkb s' (b_cs b) (b_id b)) /\ ready s'.
Proof.
  intros T SH RD Y E. assert (OK := t_ok _ T). assert (W0 := bo_wf _ OK). set (s0 := b_s b) in *. assert (PD : forall c k, css s0 c = Some k -> posted s0 (c_def k)) by (now apply shaped_posted).
  assert (SD := ready_started isrt O cfg chk sol s0 RD W0).
  destruct (simplify_keep isrt SP SS O cfg chk sol Base n0 BO CO U CA TO s0 PD (asked s0) SD (t_n0 _ T) n s0 true s' (start_inv s0 RD W0 Y (t_top _ T)) E) as (WC & ST & MB & H).
  destruct (H eq_refl) as (II & TD & FM). specialize (FM (or_introl (yo_off _ Y))). clear H. destruct II as [I1 I2 I3 I4 I5]. assert (HI := ki_hist _ _ _ _ _ _ _ _ I1). assert (SI := h_inv _ _ _ _ HI).
  assert (C0 : cur_level s' = 0%nat) by (now apply (core_cur [] s' (proj1 SI))). assert (CN := ki_cons _ _ _ _ _ _ _ _ I1). destruct (ck_css s0 s' CN) as [CN1 CN2].
  assert (NV : nvars s' = nvars s0) by apply I1. assert (BC := core_b _ _ (proj1 SI)).
  assert (T1 : top (mkb s' (b_cs b) (b_id b))).
  { constructor; cbn [b_s b_cs b_id]; auto.
    - constructor; cbn [b_s b_cs b_id].
      + now apply (ki_wf _ _ _ _ _ _ _ _ I1).
      + eapply Forall_impl; [|apply (bo_cons _ OK)]. intros p [B V]. fold s0 in B, V. pose proof (st_nxt _ _ _ _ _ ST). split; [destruct B; split; [auto|lia]|]. now rewrite NV.
      + intros c N. apply (bo_ids _ OK). now apply CN1.
      + intros c d. rewrite <- CN2. apply (bo_reg _ OK).
      + apply (bo_nodup _ OK).
    - pose proof (st_nxt _ _ _ _ _ ST). pose proof (t_n0 _ T). fold s0 in H0. lia. }
  split.
  - constructor; cbn [b_s b_cs b_id]; auto.
    + intros x L. apply (b_bnd _ BC). exact L.
    + intros c k K. assert (RM : removable_at (cur_level s') k = false) by (apply removable_false; lia).
      destruct (proj2 (CN2 c (c_def k)) (ex_intro _ k (conj K eq_refl))) as (k0 & K0 & DE). pose proof (PD c k0 K0) as [_ PO]. rewrite DE in PO. unfold current. destruct (c_def k) as [l rhs es|a es|l es|l es|l ca x y cb z rhs] eqn:D; auto.
      * split; [apply PO|]. right. right. apply (settled_sums s' c k es BC I5 K); auto. now rewrite D.
      * split; [exact PO|]. destruct (I3 c k l es K D) as [[D1 D2] D3]. destruct D3 as [D3|[D3|[D3|D3]]]; [discriminate| | |right; now split].
        { left. pose proof (ki_dinv _ _ _ _ _ _ _ _ I1 c k l es K D) as [F1 F2 F3]. apply nth_ext with (d := (0, 0)) (d' := (0, 0)); [now rewrite map_length|]. intros i Hi.
          destruct (nth_error (c_asg k) i) as [a|] eqn:Na; [|apply nth_error_None in Na; lia]. destruct (nth_error es i) as [e|] eqn:Ne; [|exfalso; apply nth_error_None in Ne; apply (Nat.lt_irrefl i); eapply Nat.lt_le_trans; [exact Hi|]; rewrite F1; exact Ne].
          rewrite (nth_error_nth _ _ _ Na). rewrite (nth_error_nth _ i (0, 0) (x := dist_init s' e)) by (now apply map_nth_error).
          assert (ND : ~ In i (c_dirty k)) by (rewrite D3; auto). destruct (F3 i e a Ne Na ND) as [F4 _]. destruct F4 as [->|[]]; [now exists k|]. now apply einit_settled. }
        { exfalso. destruct SI as [_ TK]. rewrite TD in TK. exact (t_in _ _ TK c k K D3). }
  - constructor; auto.
    + apply re_step with s0; [apply RD|]. apply cb_simplify with n true; auto; [apply RD|apply T].
    + intros x L. destruct (ot_vars _ I4 x L) as (A & _ & _ & B). auto.
    + apply HI.
    + intros x. apply (h_small _ _ _ _ HI s'). now left.
    + intros x w l I N. destruct (st_log _ _ _ _ _ ST) as [es L]. destruct (h_watch _ _ _ _ HI x w l I N) as [A B]. unfold watched, asked in *. rewrite L in *.
      split; [destruct A as [A|A]|destruct B as [B|B]]; auto; apply in_or_app; now right.
Qed.

(** ** The objective function *)
Lemma current_same s s' k : vst s' = vst s -> log s' = log s -> current O s k -> current O s' k.
Proof.
  intros E L. assert (S : forall es, sum_lo s' es = sum_lo s es /\ sum_hi s' es = sum_hi s es) by (intros es; unfold sum_lo, sum_hi, lo_of, hi_of; now rewrite E).
  assert (DI : forall e, dist_init s' e = dist_init s e) by (intros e; unfold dist_init; destruct (S (snd e)) as [-> ->]; reflexivity).
  assert (F : forall l, is_false O s' l = is_false O s l) by (intros l; unfold is_false; now rewrite L).
  unfold current. destruct (c_def k) as [l rhs es|a es|l es|l es|l ca x y cb z rhs]; auto.
  - destruct (S es) as [-> ->]. now rewrite F.
  - intros [A B]. split; auto. rewrite F. destruct B as [B|[B C]]; [left; rewrite B; now apply map_ext|]. right. split; auto. eapply Forall2_impl; [|exact C]. intros a e. cbv beta. now rewrite DI.
Qed.
Lemma minimize_ok d b : (exists a es, d = CMin a es) -> translatable O n0 b -> ready (b_s b) -> con_ok (nxt (b_s b)) (nvars (b_s b)) d -> translatable O n0 (post d b) /\ ready (b_s (post d b)).
Proof.
  intros IM T R C. assert (TP := tl_top _ _ _ T). pose proof (bo_ids _ (t_ok _ TP)) as Ids.
  assert (K : css (b_s b) (b_id b) = None). { destruct (css (b_s b) (b_id b)) eqn:K; auto. assert (b_id b < b_id b)%nat by (apply Ids; congruence). lia. }
  destruct (add_con_state (b_id b) d (b_s b) K) as (E1 & E2 & E3 & E4 & E5 & E6 & E7 & E8 & E9 & E10). split.
  - constructor.
    + apply (g_top _ _ _ _ _ _ _ _ (g_post O Base n0 d b (fun I nu => csem None d I nu) TP C (fun _ _ _ H => H))).
    + unfold post. cbn [b_s]. rewrite E1, E4. apply T.
    + unfold post. cbn [b_s]. rewrite E6. apply T.
    + unfold post. cbn [b_s]. intros c k Kc. destruct (Nat.eq_dec c (b_id b)) as [->|N].
      * destruct E9 as (k' & K' & D'). rewrite K' in Kc. injection Kc as <-. destruct IM as (a & es & ->). unfold current. now rewrite D'.
      * rewrite E10 in Kc by auto. apply current_same with (b_s b); auto. now apply (tl_cons _ _ _ T c).
  - unfold post. cbn [b_s]. apply (ready_con isrt O cfg chk sol); auto. apply C.
Qed.
End Main.

Lemma prepare_vars srt (PS : forall es, Permutation (srt es) es) ts adj es m : prepare_minimize srt None ts = Ok (Some (adj, es)) -> (forall co x, In (co, Some x) ts -> (x < m)%nat) -> Forall (fun x => x < m)%nat (map snd es).
Proof.
  intros H F. destruct (prepare_inv srt None ts _ H) as [(E & _)|(vec & adj' & es' & E & S & T)]; [discriminate|]. injection E as <- ->. rewrite app_nil_r in S.
  destruct (simplify_keys _ _ _ _ S) as [I _]. destruct (strip_keys _ _ T) as [K1 _]. apply vars_srt; auto. apply Forall_forall. intros x Hx.
  assert (X : In (Some x) (map snd vec)) by (rewrite K1; now apply in_map). apply I in X. apply in_map_iff in X as ([co v] & E & Ht). cbn in E. subst v. now apply F with co.
Qed.
