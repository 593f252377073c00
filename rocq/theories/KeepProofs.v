(** Calls of check keep the solutions that meet the demands of the constraints. *)
From Verif Require Import Base Util VarState VarStateProofs Terms TermsSpec Solver OrderSpec OrderProofs1 OrderProofs2 OrderProofs3 OrderProofs4 OrderProofs5 OrderProofs7 Orders Sum SumProofs2 PropProofs ConSpec
  Distinct DistinctProofs Disjoint DisjointProofs Nonlin NonlinProofs Objective BuilderProofs Search SearchSpec SearchFrame SearchInv SearchInv3 SearchInv4 SearchInv5
  CheckSpec CheckFrame CheckGrow CheckSays FreshInv FreshCalls KeepCons KeepSpec.
From Coq Require Import Permutation Sorting.Sorted.
Open Scope Z_scope.
Notation key := DisjointProofs.key.
Notation holds := PropProofs.holds.

(** ** Demands *)
Definition mb_le (mb mb' : option Z) : Prop := match mb with None => True | Some b => exists b', mb' = Some b' /\ b' <= b end.
Lemma mb_le_refl mb : mb_le mb mb.
Proof. destruct mb as [b|]; cbn; auto. exists b. split; [reflexivity|lia]. Qed.
Lemma demand_le g mb mb' d I nu : mb_le mb mb' -> demand g mb' d I nu -> demand g mb d I nu.
Proof. destruct d; cbn; auto. destruct mb as [b|]; auto. intros (b' & -> & L) H. lia. Qed.
Lemma demands_le g s mb mb' I nu : mb_le mb mb' -> demands g s mb' I nu -> demands g s mb I nu.
Proof. intros L H c k K. apply demand_le with mb'; [exact L|exact (H c k K)]. Qed.
Lemma ford_eq {A} (P Q : A -> A -> Prop) l : (forall a b, In a l -> In b l -> P a b -> Q a b) -> ForallOrdPairs P l -> ForallOrdPairs Q l.
Proof.
  intros H F. induction F as [|a l X F IH]; constructor.
  - rewrite Forall_forall in *. intros b B. apply H; [now left|now right|auto].
  - apply IH. intros b c B C. apply H; now right.
Qed.
Lemma condition_ext m mb d nu nu' : Forall (fun x => x < m)%nat (cvars d) -> ext_nu m nu nu' -> condition mb d nu -> condition mb d nu'.
Proof.
  intros V E. destruct d as [l r es|a es|l es|l es|l ca x y cb z rhs]; cbn [condition cvars] in *.
  - now rewrite (lval_ext m nu nu' es).
  - destruct mb; auto. now rewrite (lval_ext m nu nu' es).
  - apply ford_eq. intros e f He Hf. rewrite Forall_forall in V.
    assert (X : forall e, In e es -> lval nu' (snd e) = lval nu (snd e)).
    { intros e0 H. apply lval_ext with m; auto. rewrite Forall_forall. intros x X. apply V. apply in_concat. exists (map snd (snd e0)). split; auto. apply in_map_iff. now exists e0. }
    now rewrite (X e He), (X f Hf).
  - apply ford_eq. intros e f He Hf. rewrite Forall_forall in V. now rewrite (E (snd e)), (E (snd f)) by (apply V, in_map_iff; eauto).
  - rewrite Forall_forall in V. rewrite (E x), (E y) by (apply V; cbn; auto). destruct z as [z|]; auto. now rewrite (E z) by (apply V; cbn; auto).
Qed.
Lemma demand_dep g mb d n m : below n (c_lit d) -> Forall (fun x => x < m)%nat (cvars d) -> dep n m (demand g mb d).
Proof.
  intros B V I J nu nu' A E. assert (C := condition_ext m mb d nu nu' V E).
  assert (L : lit_true I (c_lit d) <-> lit_true J (c_lit d)) by now apply lit_true_agree with n.
  destruct d; unfold demand; cbn [c_lit] in L; rewrite ?L; auto. intros [H1 H2]. auto.
Qed.
Lemma posted_mono s s' d : nxt s <= nxt s' -> posted s d -> posted s' d.
Proof. intros L [A B]. split; auto. unfold below in *. lia. Qed.

(** ** Silent steps *)
Lemma fixed6_wf s s' : fixed6 s s' -> wf s -> wf s'.
Proof.
  intros (A & B & C & D & E & F). injection F as F1 F2 F3. intros [[W1 W2 W3 W4 W5 W6] [V1 V2 V3]]. split; constructor; rewrite ?A, ?B, ?C, ?D, ?E, ?F2; auto.
  unfold cur_level in *. now rewrite F1.
Qed.
Lemma fixed6_core s s' : fixed6 s s' -> wf_core s -> wf_core s'.
Proof.
  intros (A & B & C & D & E & F). injection F as F1 F2 F3. intros [W1 W2 W3 W4 W5 W6]. constructor; rewrite ?A, ?B, ?C, ?D, ?E, ?F2; auto.
  unfold cur_level in *. now rewrite F1.
Qed.
Lemma fixed6_step Base P s s' : fixed6 s s' -> step Base P T2 s s'.
Proof. intros (A & B & C & D & E & F). injection F as F1 F2 F3. apply step_silent; auto. intros x _. now rewrite A. Qed.
Lemma fixed6_cur s s' : fixed6 s s' -> cur_level s' = cur_level s.
Proof. intros (A & B & C & D & E & F). injection F as F1 F2 F3. unfold cur_level. now rewrite F1. Qed.
Lemma fixed6_nv s s' : fixed6 s s' -> nvars s' = nvars s.
Proof. intros (A & B & C & D & E & F). now injection F. Qed.
Lemma wf_nofacts s : wf_core s -> fmap s = [] -> cov [] s -> wf s.
Proof.
  intros W F C. split; auto. rewrite F. constructor; [easy|constructor|]. intros x w l X I A. destruct (C x w l I A) as (f & [] & _).
Qed.

Section Keep.
Context (srt : (ival -> Z) -> list ival -> list ival) (SP : forall f l, Permutation (srt f l) l) (SS : forall f l, StronglySorted Z.le (map f (srt f l))).
Context (O : oracle) (cfg : config) (chk sol : bool) (Base : interp -> Prop) (n0 : Z).
Context (BO : base_ok Base n0) (CO : clasp_ok O Base) (U : units_pos O) (CA : calm O).
Context (guard : bool) (SO : guard = true -> steady O).
Notation step := (step Base).
Notation pstep := (pstep O Base).
Notation ready := (ready O n0).

(** ** Literals of constraints *)
Lemma later_fixed lg lg' l : later O lg lg' -> steady O -> (0 < o_level O lg)%nat -> o_fixed O lg' l = o_fixed O lg l /\ o_level O lg' = o_level O lg.
Proof.
  intros L [_ S] P. induction L as [|lg' e L IH Q]; [now split|]. destruct IH as [A B]. rewrite (cl_level _ _ CO) by auto. rewrite S, A, B by (auto; lia). auto.
Qed.
Lemma lit_guarded s l : (guard = true -> (0 < dlevel O s)%nat) -> is_false O s l = false -> guarded O guard l s /\ (guard = true -> dj_lit O l s).
Proof.
  intros D F. split; intros G s' L X.
  - unfold is_fixed in X. destruct (later_fixed _ _ (- l) L (SO G) (D G)) as [E _]. rewrite E in X.
    apply (later_is_true O Base CO s); auto. destruct (proj1 (SO G) _ _ X) as [T|T].
    + unfold is_false, is_true in *. congruence.
    + now rewrite Z.opp_involutive in T.
  - unfold is_fixed in X. destruct (later_fixed _ _ l L (SO G) (D G)) as [E _]. rewrite E in X.
    apply (later_is_true O Base CO s); auto. destruct (proj1 (SO G) _ _ X) as [T|T]; auto.
    unfold is_false, is_true in *. congruence.
Qed.

(** ** Propagation of a constraint *)
Lemma con_keep G c k s b s' : core G s -> settled s -> dinv G s -> ready s -> (forall x, MIN_VAL <= lb (vst s x) /\ ub (vst s x) <= MAX_VAL) ->
  posted s (c_def k) -> ivs s -> (guard = true -> (0 < dlevel O s)%nat) ->
  css s c = Some k -> removable_at (cur_level s) k = false -> is_false O s (c_lit (c_def k)) = false ->
  prop_con srt O cfg chk c s = (Ok b, s') -> pstep (demand guard (mbound s) (c_def k)) s s' b.
Proof.
  intros C ST DI R SM [PL PO] IV GD K RM NF E. assert (B := core_b _ _ C). assert (V := b_vars s B c k K). destruct (lit_guarded s _ GD NF) as [LG LJ].
  unfold prop_con in E. rewrite K in E. rewrite Forall_forall in V.
  assert (SUM : forall es, sum_es (c_def k) = Some es -> cvars (c_def k) = map snd es -> Forall (fun e => fst e <> 0) es -> NoDup (map snd es) -> prop_sum O cfg chk c s = (Ok b, s') -> pstep (csem (mbound s) (c_def k)) s s' b).
  { intros es SE CV F ND P. destruct (settled_sums s c k es B ST K SE RM) as [L H].
    assert (SK : sum_ok s c k es).
    { constructor; auto. unfold elems_ok. rewrite Forall_forall in *. intros e I. split; auto. apply V. rewrite CV. now apply in_map. }
    destruct (prop_sum_ok O cfg Base n0 BO CO U chk c k es s (Ok b) s' R SK P) as [PP _]. now destruct b. }
  destruct (c_def k) as [l r es|a es|l es|l es|l ca x y cb z rhs] eqn:D; cbn [cvars c_lit] in *.
  - destruct PO as [F ND]. exact (SUM es eq_refl eq_refl F ND E).
  - destruct PO as [F ND]. exact (SUM es eq_refl eq_refl F ND E).
  - destruct (DI c k l es K D) as [F1 F2 F3].
    assert (DK : dist_ok s c k l es).
    { constructor; auto.
      - rewrite Forall_forall in *. intros e I. unfold elems_ok. specialize (PO e I). rewrite Forall_forall in *. intros t It. split; auto. apply V. apply in_concat.
        exists (map snd (snd e)). split; [apply in_map_iff; eauto|now apply in_map].
      - intros i e a NE NA ND. specialize (F3 i e a NE NA ND). destruct G; destruct F3 as [F3 _]; (destruct F3 as [F3|[]]; [exists k; now split|]); now rewrite F3, einit_settled. }
    destruct (prop_distinct_ok O cfg Base n0 BO CO guard c k l es s (Ok b) s' R DK LG E) as [[P _ _ _] _]. destruct b; exact P.
  - assert (JK : disj_ok s c k l es).
    { constructor; auto; [|now apply (IV c k l es)]. rewrite Forall_forall in *. intros e I. split; auto. apply V. now apply in_map. }
    destruct (prop_disjoint_ok O cfg Base n0 BO CO srt SP SS guard c k l es s (Ok b) s' R JK LJ E) as [P _ _ _ _]. destruct b; exact P.
  - destruct PO as (P1 & P2 & P3 & P4).
    assert (VK : forall x, (x < nvars s)%nat -> vok (vst s x)). { intros u Hu. unfold vok. pose proof (SM u). pose proof (b_bnd s B u Hu). lia. }
    assert (NK : nonlin_ok s c k l ca x y cb z rhs).
    { constructor; auto; try (unfold v32; lia); try (split; [apply V; cbn; auto|apply VK, V; cbn; auto]).
      destruct z as [z|]; [|now apply P4]. split; [apply V; cbn; auto|]. split; [apply VK, V; cbn; auto|]. intros ->. destruct P4 as [_ P4]. discriminate (P4 eq_refl). }
    destruct (prop_nonlin_gen O cfg Base n0 BO CO (- 1 <= cb) c k l ca x y cb z rhs s (Ok b) s' R NK) as [(b' & Q & P) _]; [|exact E|injection Q as <-; exact P].
    intros B1 N t _. right. assert (cb = - 1) as -> by lia. exists (- (rhs - t)). lia.
Qed.

(** ** The queue *)
Lemma pstep_trans_false P s s1 s2 : dep (nxt s) (nvars s) P -> pstep P s s1 false -> pstep P s1 s2 false -> pstep P s s2 false.
Proof.
  intros D [A1 A2 A3 A4 A5] [B1 B2 B3 B4 B5]. constructor; auto; try easy.
  - apply step_trans with (5 := A2) (6 := B2); try easy; tauto.
  - now apply same3_trans with s1.
  - now apply grow_trans with s1.
Qed.
Lemma pstep_fixed P s s' : fixed6 s s' -> same3 s s' -> wf s -> pstep P s s' true.
Proof.
  intros F S W. constructor; auto.
  - now apply fixed6_wf with s.
  - now apply fixed6_step.
  - apply grow_vst, F.
  - intros _. destruct F as (_ & _ & _ & -> & _). constructor.
Qed.
Lemma clear_keep P cs : forall s o s', wf s -> dep (nxt s) (nvars s) P -> run_todo srt O cfg chk cs false s = (o, s') -> o = Ok false /\ pstep P s s' true.
Proof.
  induction cs as [|c cs IH]; intros s o s' W D E; cbn [run_todo] in E.
  - injection E as <- <-. split; auto. now apply pstep_refl.
  - cbn [negb] in E. assert (A : pstep P s (clear_todo s c) true) by (apply pstep_fixed; auto using fixed6_clear, clear_todo_same3).
    destruct (fixed6_clear c s) as (_ & _ & X & _ & _ & Y). assert (NV := fixed6_nv _ _ (fixed6_clear c s)).
    apply IH in E as [-> E]; [|apply A|now rewrite X, NV]. split; auto. now apply pstep_trans with (clear_todo s c).
Qed.

(** The definitions of the constraints do not change. *)
Lemma cons_def s s' c k' : cons s s' -> css s' c = Some k' -> exists k, css s c = Some k /\ c_def k' = c_def k.
Proof. intros C K. specialize (C c). rewrite K in C. destruct (css s c) as [k|]; [|easy]. exists k. split; auto. apply C. Qed.

Section Start.
Context (s0 : state) (PD : forall c k, css s0 c = Some k -> posted s0 (c_def k)) (DV : forall c k, css s0 c = Some k -> Forall (fun x => x < nvars s0)%nat (cvars (c_def k))).
Notation D := (demands guard s0).
Lemma D_dep n m mb : nxt s0 <= n -> (nvars s0 <= m)%nat -> dep n m (D mb).
Proof.
  intros A B I J nu nu' AG EX H c k K. refine (demand_dep guard mb (c_def k) n m _ _ I J nu nu' AG EX (H c k K)).
  - destruct (PD c k K) as [[X Y] _]. unfold below in *. lia.
  - apply Forall_impl with (2 := DV c k K). lia.
Qed.

Record inner (G : list state) (s : state) : Prop := {
  in_core : core G s;
  in_dinv : dinv G s;
  in_ready : ready s;
  in_small : forall x, MIN_VAL <= lb (vst s x) /\ ub (vst s x) <= MAX_VAL;
  in_cons : cons s0 s;
  in_ivs : ivs s;
  in_guard : guard = true -> (0 < dlevel O s)%nat;
  in_nxt : nxt s0 <= nxt s;
  in_nv : nvars s = nvars s0 }.

Lemma pstep_nxt P s s' b : pstep P s s' b -> nxt s <= nxt s'.
Proof. intros [_ A _ _ _]. apply A. Qed.
Lemma inner_pstep G s s' P : inner G s -> pstep P s s' true -> core G s' -> dinv G s' -> cons s s' -> inner G s'.
Proof.
  intros [A1 A2 A3 A4 A5 A6 A7 A8 A9] S C' D' CN. constructor; auto.
  - now apply (ready_pstep O Base n0 CO P s s').
  - intros x. destruct (same3_bnds _ _ x (ps_same _ _ _ _ _ _ S)) as (-> & -> & _). auto.
  - now apply cons_trans with s.
  - now apply ivs_cons with s.
  - intros G0. assert (L := ps_later _ _ _ _ _ _ S eq_refl). unfold dlevel in *. destruct (later_fixed _ _ 1 L (SO G0) (A7 G0)) as [_ ->]. auto.
  - apply pstep_nxt in S. lia.
  - now rewrite (same3_nvars _ _ (ps_same _ _ _ _ _ _ S)).
Qed.
Lemma run_keep G cs : forall ret s b s', inner G s -> settled s -> tod_run cs s -> run_todo srt O cfg chk cs ret s = (Ok b, s') -> pstep (D (mbound s)) s s' b.
Proof.
  induction cs as [|c cs IH]; intros ret s b s' I ST T E.
  - cbn [run_todo] in E. injection E as <- <-. apply pstep_refl. apply I.
  - assert (DP : dep (nxt s) (nvars s) (D (mbound s))) by (apply D_dep; [apply I|rewrite (in_nv _ _ I); auto]).
    destruct ret; [|apply (clear_keep (D (mbound s))) in E as [E1 E]; [|apply I|exact DP]; injection E1 as ->; now apply pstep_false in E].
    cbn [run_todo negb] in E. destruct (clear_todo_tod c cs s T) as (T1 & k & K & KT & KR).
    assert (S1 := clear_todo_same3 c s). assert (F1 := fixed6_clear c s).
    assert (P1 : pstep (D (mbound s)) s (clear_todo s c) true) by (apply pstep_fixed; auto; apply I).
    assert (I1 : inner G (clear_todo s c)).
    { apply (inner_pstep G s _ _ I P1); [apply clear_todo_core, I|apply dinv_clear_todo, I|apply cons_clear]. }
    assert (ST1 := settled_same3 _ _ S1 ST). assert (MB1 : mbound (clear_todo s c) = mbound s) by now apply same3_mbound.
    rewrite <- (same3_cur _ _ S1) in KR.
    set (s1 := clear_todo s c) in *. rewrite K in E. apply pstep_trans with s1; auto.
    assert (DP1 : dep (nxt s1) (nvars s1) (D (mbound s1))) by (apply D_dep; [apply I1|rewrite (in_nv _ _ I1); auto]).
    rewrite <- MB1. clear I P1 DP T S1 F1 MB1 ST. clearbody s1. clear s. rename s1 into s. rename I1 into I.
    destruct (is_false O s (c_lit (c_def k))) eqn:NF.
    + assert (F := mark_inactive_own O cfg c k s K). assert (F1 := cf_same _ _ _ _ _ _ F).
      assert (P1 : pstep (D (mbound s)) s (mark_inactive c s) true).
      { apply pstep_fixed; auto; [|apply I]. unfold mark_inactive. rewrite K. destruct (_ && _); now repeat split. }
      apply pstep_trans with (mark_inactive c s); auto. rewrite <- (same3_mbound _ _ F1). apply IH with (ret := true); auto.
      * apply (inner_pstep G s _ _ I P1); [now apply (cframe_core O cfg G c k s); [apply I| |]|now apply dinv_mark_inactive with k; [|apply I]|apply cons_inactive].
      * now apply settled_same3 with s.
      * now apply (cframe_tod O cfg cs c k s).
    + destruct (prop_con srt O cfg chk c s) as [o1 s2] eqn:P. assert (F := prop_con_frame O cfg srt chk c k s o1 s2 K P).
      assert (F1 := cf_same _ _ _ _ _ _ F).
      assert (C2 : core G s2) by (apply (cframe_core O cfg G c k s); auto; apply I).
      assert (ST2 : settled s2) by now apply settled_same3 with s.
      assert (T2 : tod_run cs s2) by now apply (cframe_tod O cfg cs c k s).
      destruct o1 as [b1|e|]; [|discriminate..].
      destruct (cons_def _ _ _ _ (in_cons _ _ I) K) as (k0 & K0 & DK).
      assert (PS : pstep (D (mbound s)) s s2 b1).
      { apply pstep_weaken with (demand guard (mbound s) (c_def k)).
        - intros J nu _ _ H. rewrite DK. now apply H with c.
        - destruct I. apply (con_keep G c k s b1 s2); auto. apply posted_mono with s0; auto. rewrite DK. now apply PD with c. }
      assert (CN := cons_con srt SP O cfg chk c s (Ok b1) s2 P).
      assert (D2 : dinv G s2) by (apply (dinv_prop_con srt O cfg chk G c k s (Ok b1)); auto; apply I).
      destruct b1.
      * apply pstep_trans with s2; auto. rewrite <- (same3_mbound _ _ F1). apply IH with (ret := true); auto. now apply (inner_pstep G s s2 _ I PS).
      * apply (clear_keep (D (mbound s))) in E as [E1 E]; [|apply PS|].
        -- injection E1 as ->. apply pstep_trans_false with s2; auto. now apply pstep_false in E.
        -- apply dep_mono with (nxt s) (nvars s); auto; [now apply pstep_nxt in PS|]. rewrite (same3_nvars _ _ F1). auto.
Qed.
End Start.
End Keep.
