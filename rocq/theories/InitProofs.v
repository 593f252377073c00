(** Initialisation keeps the solutions and leads to a state in which a search can start. *)
From Verif Require Import Base Util UtilProofs VarState VarStateProofs Terms TermsSpec Solver OrderSpec
  OrderProofs1 OrderProofs2 OrderProofs3 OrderProofs5 OrderProofs7 Orders Sum PropProofs ConSpec SumProofs2 Translate TranslateProofs
  Distinct DistinctProofs DistinctProofs2 Objective ObjectiveProofs Search SearchSpec SearchFrame SearchGrow SearchInv SearchInv3 SearchInv4 SearchInv5 SearchSetup SearchMain
  Builder BuilderSpec BuilderProofs BuilderProofs3 Translation TranslationSpec TranslationProofs TranslationProofs2 CheckSpec CheckFrame CheckProofs FreshInv FreshSearch
  KeepCons KeepSpec KeepProofs KeepMain Init InitSpec InitFrame InitBuild InitReady InitDist InitSimplify InitRun InitMain InitTranslate InitSession InitObjective.
From Coq Require Import Permutation Sorting.Sorted.
Open Scope Z_scope.

(** What constraints other than linear ones demand follows from the calls. *)
Lemma nth_pairs {A} (R : A -> A -> Prop) l : (forall i j a b, (i < j)%nat -> nth_error l i = Some a -> nth_error l j = Some b -> R a b) -> ForallOrdPairs R l.
Proof.
  induction l as [|a l IH]; intros H; constructor.
  - apply Forall_forall. intros b Hb. apply In_nth_error in Hb as (j & Hj). now apply (H 0%nat (S j)); [lia|..].
  - apply IH. intros i j b c L Hi Hj. apply (H (S i) (S j)); auto. lia.
Qed.
Lemma pairs_map {A B} (f : A -> B) (R : B -> B -> Prop) l : ForallOrdPairs (fun a b => R (f a) (f b)) l -> ForallOrdPairs R (map f l).
Proof. induction 1 as [|a l F P IH]; constructor; auto. now apply Forall_map. Qed.

Section Firm.
Context (srt : list (Z * var) -> list (Z * var)) (PS : forall es, Permutation (srt es) es).
Lemma lin_lval nu es : lin_val nu es = lval nu es.
Proof. induction es as [|[c x] es IH]; cbn [lin_val lval]; [reflexivity|]. now rewrite IH. Qed.
Lemma firm_demand m c d I I' nu : from srt m c d -> I' 1 = true -> third_ok c /\ call_holds I' nu (firm c) -> csem None d I nu -> demand false None d I nu.
Proof.
  intros (SH & _ & F) I1 [TK H] C. destruct d as [l rhs es|a es|l es|l es|l ca x y cb z rhs]; cbn [demand]; auto.
  - destruct F as (es' & -> & L & ->). intros _. cbn [firm] in H. rewrite (proj2 (Nat.ltb_lt _ _) L) in H. specialize (H I1). cbn [condition]. apply pairs_map. apply nth_pairs. intros i j a b Lt Ha Hb. cbn [fst snd].
    specialize (H i j a b Lt Ha Hb). rewrite !lin_lval in H. rewrite (lval_perm nu _ _ (PS (fst a))), (lval_perm nu _ _ (PS (fst b))). intros Q. apply H. rewrite (Z.add_comm (lval nu (fst a))), (Z.add_comm (lval nu (fst b))). exact Q.
  - destruct F as [-> L]. intros _. cbn [firm] in H. rewrite (proj2 (Nat.ltb_lt _ _) L) in H. specialize (H I1). cbn [condition]. apply nth_pairs. intros i j a b Lt Ha Hb. specialize (H i j a b Lt Ha Hb). intros p. lia.
  - destruct F as [-> N]. cbn [firm] in H. rewrite (proj2 (Z.eqb_neq _ _) N) in H. destruct H as [H _]. specialize (H I1). split; [exact (TK N)|]. cbn [condition]. unfold nonlin_val in H. cbn [ov] in H. rewrite <- Z.mul_assoc. cbn [shape] in SH. destruct SH as (_ & _ & _ & ZC). destruct z as [z|]; cbn [ov] in *; [exact H|]. rewrite (proj1 ZC eq_refl) in H. lia.
Qed.
End Firm.

Section Init.
Context (isrt : (ival -> Z) -> list ival -> list ival) (SP : forall f l, Permutation (isrt f l) l) (SS : forall f l, StronglySorted Z.le (map f (isrt f l))).
Context (O : oracle) (cfg : config) (chk sol : bool) (Base : interp -> Prop) (n0 : Z).
Context (BO : base_ok Base n0) (CO : clasp_ok O Base) (U : units_pos O) (CA : calm O) (TO : trail_ok O).
Context (srt : list (Z * var) -> list (Z * var)) (PS : forall es, Permutation (srt es) es).
Context (dlimit mlimit : Z) (order : bool) (ch : cid -> choice).
Notation ready := (InitReady.ready isrt O cfg chk sol).
Notation top := (BuilderSpec.top O n0).
Notation wf := OrderSpec.wf.
Notation models := (models Base).
Notation init := (Init.init isrt O cfg chk srt dlimit mlimit order ch).

Lemma simp_step n b ok s' : top b -> shaped b -> ready (b_s b) -> young (b_s b) -> solver_simplify isrt O cfg chk n (b_s b) = Some (Ok ok, s') ->
  step Base (demands false (b_s b) None) T2 (b_s b) s'.
Proof.
  intros T SH RD Y E. assert (OK := t_ok _ T). assert (W0 := bo_wf _ OK). set (s0 := b_s b) in *. assert (PD : forall c k, css s0 c = Some k -> posted s0 (c_def k)) by (now apply shaped_posted).
  assert (SD := ready_started isrt O cfg chk sol s0 RD W0).
  destruct (simplify_keep isrt SP SS O cfg chk sol Base n0 BO CO U CA TO s0 PD (asked s0) SD (t_n0 _ T) n s0 ok s' (start_inv isrt O cfg chk sol Base s0 RD W0 Y (t_top _ T)) E) as (_ & ST & MB & _).
  rewrite MB, (yo_mb _ Y) in ST. exact ST.
Qed.

Lemma watch_same b : top b -> ready (b_s b) -> top (watch_all b) /\ ready (b_s (watch_all b)) /\ b_cs (watch_all b) = b_cs b /\
  (forall I, good Base (b_s (watch_all b)) I <-> good Base (b_s b) I) /\ (forall I nu, order_ok (b_s (watch_all b)) I nu <-> order_ok (b_s b) I nu) /\ nxt (b_s (watch_all b)) = nxt (b_s b) /\ nvars (b_s (watch_all b)) = nvars (b_s b).
Proof.
  intros T R. unfold watch_all. cbn [b_s b_cs]. pose proof (bo_cons _ (t_ok _ T)) as F.
  assert (X : forall cs s, Forall (fun p : cid * constr => below (nxt s) (c_lit (snd p))) cs -> top (mkb s (b_cs b) (b_id b)) -> ready s ->
    let s' := fold_left (fun s p => add_watch (c_lit (snd p)) s) cs s in top (mkb s' (b_cs b) (b_id b)) /\ ready s' /\ (forall I, good Base s' I <-> good Base s I) /\ (forall I nu, order_ok s' I nu <-> order_ok s I nu) /\ nxt s' = nxt s /\ nvars s' = nvars s).
  { induction cs as [|[c d] cs IH]; intros s B Ts Rs; cbn [fold_left]; [cbv zeta; tauto|]. inversion_clear B as [|? ? B1 B2]. cbn [snd] in B1.
    set (s1 := add_watch (c_lit d) s). assert (W1 : wf s1) by (apply wf_emit; [apply (bo_wf _ (t_ok _ Ts))|exact Logic.I]).
    assert (FD : fd s s1). { split; [split|]; [repeat split|now apply wgrow_emit|now apply deg_vst]. }
    assert (T1 : top (mkb s1 (b_cs b) (b_id b))) by (apply (top_state O n0 (mkb s (b_cs b) (b_id b)) s1 Ts); auto; [apply FD|cbn; lia]).
    destruct (IH s1 B2 T1 (ready_fd isrt O cfg chk sol s s1 FD Rs)) as (A1 & A2 & A3 & A4 & A5 & A6). split; auto. split; auto. split; [|split; [|split; auto]].
    - intros I. etransitivity; [apply A3|]. unfold good. change (log s1) with (EWatch (c_lit d) :: log s). split; intros (G1 & G2 & G3); split; auto; split; auto; [now inversion G3|constructor; auto; exact Logic.I].
    - intros I nu. etransitivity; [apply A4|]. reflexivity. }
  assert (B : Forall (fun p : cid * constr => below (nxt (b_s b)) (c_lit (snd p))) (b_cs b)) by (eapply Forall_impl; [|exact F]; intros p [Q _]; exact Q).
  assert (T' : top (mkb (b_s b) (b_cs b) (b_id b))) by (now destruct b). destruct (X (b_cs b) (b_s b) B T' R) as (A1 & A2 & A3 & A4 & A5 & A6). auto 10.
Qed.

(** ** The whole of it *)
Definition objective (ops : list bop) (a : Z) (es : list (Z * var)) : Prop := prepare_minimize srt None (min_terms (calls ops)) = Ok (Some (a, es)).
Lemma objective_ok ops m a es n : Forall (op_tidy m) ops -> 1 < n -> objective ops a es -> shape (CMin a es) /\ con_ok n m (CMin a es).
Proof. clear ch.
  intros T N H. destruct (prepare_prepared srt PS None _ _ H) as (P1 & P2 & _). cbn [fst snd] in *. split; [split; auto; eapply Forall_impl; [|exact P2]; cbn; tauto|].
  split; [split; [discriminate|exact N]|]. cbn [cvars]. apply (prepare_vars srt PS (min_terms (calls ops)) a es m H). intros co x I. unfold min_terms, calls in I. apply in_flat_map in I as (c & I1 & I2). apply in_flat_map in I1 as (o & I1 & I3).
  destruct o as [c0| |]; [|easy|easy]. destruct I3 as [<-|[]]. rewrite Forall_forall in T. destruct (T _ I1) as [_ V]. destruct c0; try easy. destruct I2 as [E|[]]. injection E as _ ->. exact V.
Qed.

Record start (ops : list bop) (b : bld) : Prop := {
  st_started : started isrt O cfg chk sol (asked (b_s b)) (b_s b);
  st_ok : bld_ok b;
  st_posted : forall c k, css (b_s b) c = Some k -> posted (b_s b) (c_def k);
  st_n0 : n0 <= nxt (b_s b);
  st_obj : forall c a es, In (c, CMin a es) (b_cs b) -> objective ops a es }.

Lemma demand_csem d I nu : csem None d I nu -> (forall l r es, d = CSum l r es -> demand false None d I nu).
Proof. intros C l r es ->. exact C. Qed.
Lemma agree_le n m I J : n <= m -> agree_below m I J -> agree_below n I J.
Proof. intros L A i Hi. apply A. lia. Qed.
Lemma ext_le n m nu nu' : (n <= m)%nat -> ext_nu m nu nu' -> ext_nu n nu nu'.
Proof. intros L A i Hi. apply A. lia. Qed.

Lemma orders1_nxt m : forall prev s, nxt (snd (order_clauses1 O prev m s)) = nxt s /\ nvars (snd (order_clauses1 O prev m s)) = nvars s.
Proof.
  induction m as [|[w l] m IH]; intros prev s; cbn [order_clauses1]; [auto|]. destruct (_ =? _); [apply IH|]. unfold add_clause. cbv zeta.
  destruct (o_answer O _); cbn [snd]; [|auto]. destruct (IH l (emit (EClause Learnt [- prev; l]) s)) as [A B]. now rewrite A, B.
Qed.
Lemma orders_nxt xs : forall s, nxt (snd (order_clauses O xs s)) = nxt s /\ nvars (snd (order_clauses O xs s)) = nvars s.
Proof.
  induction xs as [|x xs IH]; intros s; cbn [order_clauses]; [auto|]. pose proof (orders1_nxt (lits (vst s x)) (- TRUE_LIT) s) as [A B].
  destruct (order_clauses1 _ _ _ _) as [ok s1]. cbn [snd] in *. destruct ok; cbn [snd]; [|auto]. destruct (IH s1). split; congruence.
Qed.
Lemma translate_grows n b b' : translatable O n0 b -> solver_translate O cfg dlimit mlimit order ch n b = Some (Ok true, b') -> nxt (b_s b) <= nxt (b_s b') /\ (nvars (b_s b) <= nvars (b_s b'))%nat.
Proof.
  intros T E. pose proof (TranslationProofs2.start_inv O Base n0 b T) as W. unfold solver_translate in E.
  destruct (tloop O cfg dlimit mlimit ch n (mkw [] [] (b_cs b) (b_id b) (b_s b))) as [[r w]|] eqn:E1; [|discriminate].
  pose proof (tloop_ok O cfg Base n0 BO CO dlimit mlimit ch b n _ r w W E1) as H. destruct r as [[|]|e|]; try discriminate.
  destruct H as [[H _ _ _ _ _ _ _ _ _] _]. match type of E with context [if order then order_clauses O (seq 0 (nvars ?q)) _ else _] => set (s := q) in E end.
  assert (Q : nxt s = nxt (w_s w) /\ nvars s = nvars (w_s w)).
  { unfold s. destruct (w_rm w); [auto|]. pose proof (removal_ok (map fst (p :: l)) (w_s w)) as (A & _). injection A as _ _ A1 A2 _ _ _. auto. }
  destruct (if order then order_clauses O (seq 0 (nvars s)) s else (true, s)) as [ok' s'] eqn:E2.
  assert (Q2 : nxt s' = nxt s /\ nvars s' = nvars s). { destruct order; [|injection E2 as _ <-; auto]. pose proof (orders_nxt (seq 0 (nvars s)) s) as X. now rewrite E2 in X. }
  assert (E' : mkb s' (w_kept w) (w_id w) = b') by congruence. rewrite <- E'. cbn [b_s]. destruct H as [_ V2 V3 _ _ _], Q, Q2. lia.
Qed.

Lemma init_main n (K : Z -> Prop) b ops K' b1 P r b' m : top b -> (forall i, K i -> 0 < i < nxt (b_s b)) -> b_cs b = [] -> ready (b_s b) -> young (b_s b) ->
  run O cfg srt K b ops K' b1 P -> Forall (op_tidy (nvars (b_s b1))) ops -> init n ops b = Some (Ok r, b', m) ->
  (forall I nu, models b I nu -> P I nu -> firmly ops I nu ->
    exists J nu', (forall i, K' i -> J i = I i) /\ ext_nu (nvars (b_s b1)) nu nu' /\ good Base (b_s b') J /\ order_ok (b_s b') J nu' /\
      (r = true -> Forall (fun p => demand false None (snd p) J nu') (b_cs b'))) /\
  (forall I nu, models b' I nu -> models b I nu /\ P I nu) /\
  (r = true -> start ops b' /\ (forall i, K' i -> i < nxt (b_s b')) /\ (nvars (b_s b1) <= nvars (b_s b'))%nat /\ (forall c a es, m = Some (c, (a, es)) -> In (c, CMin a es) (b_cs b'))).
Proof.
  intros T0 KB C0 R0 Y0 RN TD E.
  destruct (run_known O cfg srt Base n0 BO CO PS K b ops K' b1 P RN T0 KB) as (_ & _ & _ & _ & T1 & NX & KB1 & BW & FW).
  destruct (run_ready isrt O cfg chk sol srt PS K b ops K' b1 P (nvars (b_s b1)) RN TD R0 Y0) as (R1 & Y1 & _ & BE & ds & CS & FR). rewrite C0 in CS. cbn [app] in CS. subst ds.
  unfold Init.init in E. rewrite BE in E.
  assert (SH1 : shaped b1) by (eapply Forall_impl; [|exact FR]; intros p (c & _ & F); apply F).
  destruct (solver_simplify isrt O cfg chk n (b_s b1)) as [[q s2]|] eqn:ES; [|discriminate].
  (* the first part *)
  assert (FD : forall I nu, models b I nu -> P I nu -> firmly ops I nu -> exists J, (forall i, K' i -> J i = I i) /\ models b1 J nu /\ Forall (fun p => demand false None (snd p) J nu) (b_cs b1)).
  { intros I nu M p F. destruct (FW I nu M p) as (J & A & MJ). exists J. split; [intros i Hi; apply A; now left|]. split; auto. rewrite Forall_forall in *. intros [c d] Hp. destruct (FR _ Hp) as (cl & Ic & Fr). cbn [snd] in *.
    destruct MJ as (_ & _ & CJ). rewrite Forall_forall in CJ. destruct M as ((_ & I1 & _) & _). apply (firm_demand srt PS (nvars (b_s b1)) cl d J I nu Fr I1); [now apply F|now apply (CJ (c, d))]. }
  assert (DM : forall J nu, Forall (fun p => demand false None (snd p) J nu) (b_cs b1) -> demands false (b_s b1) None J nu).
  { intros J nu F c k Kc. rewrite Forall_forall in F. apply (F (c, c_def k)). apply (bo_reg _ (t_ok _ T1)). eauto. }
  assert (OK1 := t_ok _ T1). pose proof (bo_cons _ OK1) as CN1.
  assert (ES' : forall ok, q = Ok ok -> step Base (demands false (b_s b1) None) T2 (b_s b1) s2) by (intros ok ->; now apply (simp_step n b1 ok)).
  (* simplification *)
  assert (FD2 : forall ok, q = Ok ok -> forall I nu, models b I nu -> P I nu -> firmly ops I nu -> exists J nu', (forall i, K' i -> J i = I i) /\ ext_nu (nvars (b_s b1)) nu nu' /\
    models (mkb s2 (b_cs b1) (b_id b1)) J nu' /\ Forall (fun p => demand false None (snd p) J nu') (b_cs b1)).
  { intros ok Q I nu M p F. destruct (FD I nu M p F) as (J & A & (G1 & O1 & C1) & D1). destruct (st_fwd _ _ _ _ _ (ES' ok Q) J nu G1 O1 (DM J nu D1)) as (J2 & nu2 & A2 & X2 & G2 & O2). exists J2, nu2.
    split; [intros i Hi; rewrite <- (A i Hi); symmetry; apply A2; now apply KB1|]. split; auto. rewrite Forall_forall in *. split.
    - split; auto. split; auto. cbn [b_cs]. rewrite Forall_forall. intros p0 Hp. apply (csem_dep _ _ _ (CN1 p0 Hp) J J2 nu nu2 A2 X2). now apply C1.
    - intros p0 Hp. destruct (CN1 p0 Hp) as [B0 V0]. apply (demand_dep false None (snd p0) _ _ B0 V0 J J2 nu nu2 A2 X2). now apply D1. }
  assert (BW2 : forall ok, q = Ok ok -> forall I nu, models (mkb s2 (b_cs b1) (b_id b1)) I nu -> models b I nu /\ P I nu).
  { intros ok Q I nu (G2 & O2 & C2). apply BW. destruct (st_bwd _ _ _ _ _ (ES' ok Q) I nu G2 O2) as (G1 & O1 & _). now split. }
  destruct q as [ok|e|]; [|discriminate|discriminate]. destruct ok.
  2:{ injection E as <- <- _. split; [|split; [exact (BW2 _ eq_refl)|discriminate]]. intros I nu M p F. destruct (FD2 _ eq_refl I nu M p F) as (J & nu' & A & X & (G2 & O2 & _) & _). exists J, nu'. split; auto. split; auto. split; auto. split; auto. discriminate. }
  specialize (FD2 _ eq_refl). specialize (BW2 _ eq_refl). specialize (ES' _ eq_refl). destruct (simplified isrt SP SS O cfg chk sol Base n0 BO CO U CA TO n b1 s2 T1 SH1 R1 Y1 ES) as [TR2 R2]. set (b2 := mkb s2 (b_cs b1) (b_id b1)) in *.
  assert (T2 := tl_top _ _ _ TR2). assert (NV2 : (nvars (b_s b1) <= nvars s2)%nat) by apply ES'. assert (N2 : 1 < nxt s2) by apply (bo_wf _ (t_ok _ T2)).
  (* the objective function *)
  destruct (prepare_minimize srt None (min_terms (calls ops))) as [mo|e|] eqn:EM; [|discriminate|discriminate]. cbv zeta in E.
  assert (X3 : translatable O n0 (add_minimize mo b2) /\ ready (b_s (add_minimize mo b2)) /\ (forall I nu, models b2 I nu -> exists J, agree_below (nxt s2) I J /\ models (add_minimize mo b2) J nu) /\ (forall I nu, models (add_minimize mo b2) I nu -> models b2 I nu) /\
    nxt s2 <= nxt (b_s (add_minimize mo b2)) /\ nvars (b_s (add_minimize mo b2)) = nvars s2 /\ (forall p, In p (b_cs (add_minimize mo b2)) -> In p (b_cs b1) \/ exists a es, snd p = CMin a es /\ objective ops a es /\ shape (CMin a es)) /\
    (forall a es, mo = Some (a, es) -> In (b_id b2, CMin a es) (b_cs (add_minimize mo b2)))).
  { destruct mo as [[a es]|]; cbn [add_minimize].
    - assert (TD2 : Forall (op_tidy (nvars s2)) ops). { eapply Forall_impl; [|exact TD]. intros o. destruct o as [c| |]; cbn [op_tidy]; auto. intros [Q1 Q2]. split; auto. destruct c as [| | | | | |co v| | |]; auto. destruct v; auto. lia. }
      destruct (objective_ok ops (nvars s2) a es (nxt s2) TD2 N2 EM) as [SM CM]. destruct (minimize_ok isrt O cfg chk sol Base n0 (CMin a es) b2 (ex_intro _ a (ex_intro _ es eq_refl)) TR2 R2 CM) as [TR3 R3].
      pose proof (g_post O Base n0 (CMin a es) b2 (fun _ _ => True) T2 CM (fun _ _ _ _ => Logic.I)) as GP. split; auto. split; auto. split; [|split; [|split; [|split; [|split]]]].
      + intros I nu M. destruct (g_fwd _ _ _ _ _ _ _ _ GP I nu M Logic.I) as (J & A & MJ & _). eauto.
      + intros I nu M. apply (g_bwd _ _ _ _ _ _ _ _ GP I nu M).
      + apply (g_nxt _ _ _ _ _ _ _ _ GP).
      + apply (g_nv _ _ _ _ _ _ _ _ GP).
      + intros p0 Hp. cbn [post b_cs] in Hp. apply in_app_or in Hp as [Hp|[<-|[]]]; [now left|]. right. exists a, es. auto.
      + intros a' es' Q. injection Q as <- <-. cbn [post b_cs]. apply in_or_app. right. now left.
    - split; [exact TR2|]. split; [exact R2|]. split; [|split; [|split; [|split; [|split]]]]; [|auto|cbn; lia|reflexivity|auto|discriminate]. intros I nu M. exists I. split; auto. now intros i _. }
  destruct X3 as (TR3 & R3 & FW3 & BW3 & NX3 & NV3 & CS3 & MO3). set (b3 := add_minimize mo b2) in *. clearbody b3.
  (* the translation *)
  destruct (solver_translate O cfg dlimit mlimit order ch n b3) as [[q b4]|] eqn:ET; [|discriminate].
  assert (TK : forall ok, q = Ok ok -> (forall I nu, models b I nu -> P I nu -> firmly ops I nu -> exists J nu', (forall i, K' i -> J i = I i) /\ ext_nu (nvars (b_s b1)) nu nu' /\ models b4 J nu' /\ Forall (fun p => demand false None (snd p) J nu') (b_cs b1)) /\
    (forall I nu, models b4 I nu -> models b I nu /\ P I nu) /\ (ok = true -> top b4)).
  { intros ok ->. destruct (translate_ok O cfg Base n0 BO CO dlimit mlimit order ch n b3 ok b4 TR3 ET) as (F4 & B4 & T4). split; [|split; auto].
    intros I nu M p F. destruct (FD2 I nu M p F) as (J & nu2 & A & X & M2 & D2). destruct (FW3 J nu2 M2) as (J3 & A3 & M3). destruct (F4 J3 nu2 M3) as (J4 & nu4 & A4 & X4 & M4). exists J4, nu4.
    assert (NX2 := st_nxt _ _ _ _ _ ES'). assert (AG : agree_below (nxt (b_s b1)) J J4). { intros i Hi. rewrite (A3 i) by lia. apply A4. lia. }
    split; [intros i Hi; rewrite <- (A i Hi); symmetry; apply AG; now apply KB1|].
    assert (EX : ext_nu (nvars (b_s b1)) nu2 nu4) by (apply ext_le with (nvars (b_s b3)); auto; lia).
    split; [intros x Hx; rewrite (EX x Hx); now apply X|]. split; auto. rewrite Forall_forall in *. intros p0 Hp. destruct (CN1 p0 Hp) as [B0 V0]. apply (demand_dep false None (snd p0) _ _ B0 V0 J J4 nu2 nu4 AG EX). now apply D2. }
  destruct q as [ok|e|]; [|discriminate|discriminate]. destruct (TK ok eq_refl) as (FD4 & BW4 & T4). destruct ok.
  2:{ injection E as <- <- _. split; [|split; [exact BW4|discriminate]]. intros I nu M p F. destruct (FD4 I nu M p F) as (J & nu' & A & X & (G2 & O2 & _) & _). exists J, nu'. split; auto. split; auto. split; auto. split; auto. discriminate. }
  specialize (T4 eq_refl). assert (R4 : ready (b_s b4)) by (apply (mv_ready isrt O cfg chk sol (b_s b3)); auto; now apply (mv_translate O cfg Base n0 BO CO dlimit mlimit order ch n b3 true b4 TR3)).
  assert (SH3 : forall p, In p (b_cs b3) -> shape (snd p)). { intros p0 Hp. destruct (CS3 p0 Hp) as [Hq|(a & es & -> & _ & S0)]; auto. unfold shaped in SH1. rewrite Forall_forall in SH1. now apply SH1. }
  pose proof (translate_grows n b3 b4 TR3 ET) as MV.
  pose proof (translate_added O cfg Base n0 BO CO dlimit mlimit order ch n b3 b4 TR3 SH3 ET) as AD.
  destruct (watch_same b4 T4 R4) as (T5 & R5 & CS5 & G5 & O5 & NX5 & NV5). injection E as <- <- EMC. set (b5 := watch_all b4) in *. clearbody b5.
  split; [|split].
  - intros I nu M p F. destruct (FD4 I nu M p F) as (J & nu' & A & X & (G4 & O4 & C4) & D4). exists J, nu'. split; auto. split; auto. split; [now apply G5|]. split; [now apply O5|]. intros _. rewrite CS5. rewrite Forall_forall in *. intros p0 Hp. specialize (C4 p0 Hp).
    destruct (AD p0 Hp) as [Hq|[_ (l & r & es & Q)]]; [|rewrite Q in *; exact C4]. destruct (CS3 p0 Hq) as [Hr|(a & es & Q & _)]; [now apply D4|]. rewrite Q. exact Logic.I.
  - intros I nu (G & Od & C). apply BW4. split; [now apply G5|]. split; [now apply O5|]. now rewrite CS5 in C.
  - intros _. split.
    2:{ destruct MV as [MV1 MV2]. pose proof (st_nxt _ _ _ _ _ ES') as ND. split; [intros i Hi; specialize (KB1 i Hi); rewrite NX5; lia|]. split; [rewrite NV5; lia|].
      intros c a es Q. rewrite CS5. rewrite Q in EMC. destruct (tmin (b_s b4)) eqn:TM; [discriminate|]. destruct mo as [mc|]; [|discriminate]. injection EMC as Q1 Q2. subst c mc.
      apply (translate_kept O cfg Base n0 BO CO dlimit mlimit order ch n b3 b4 _ a es TR3 ET); auto. }
    constructor.
    + apply ready_started; auto. apply (bo_wf _ (t_ok _ T5)).
    + apply T5.
    + apply shaped_posted; [apply T5|]. unfold shaped. rewrite CS5. eapply Forall_impl; [|exact AD]. intros p0 [Hp|[Hp _]]; auto.
    + apply T5.
    + intros c a es Hp. rewrite CS5 in Hp. rewrite Forall_forall in AD. destruct (AD _ Hp) as [Hq|[_ (l & r & es' & Q)]]; [|discriminate]. destruct (CS3 _ Hq) as [Hr|(a' & es' & Q & OB & _)].
      * exfalso. rewrite Forall_forall in FR. destruct (FR _ Hr) as (cl & _ & (_ & _ & [])).
      * cbn [snd] in Q. injection Q as <- <-. exact OB.
Qed.
End Init.
