(** The final check of a total assignment. *)
From Verif Require Import Base Util IntervalSet VarState VarStateProofs UtilProofs Terms TermsSpec TermsProofs Solver OrderSpec OrderProofs1 OrderProofs2 Orders Sum SumProofs2 PropProofs ConSpec
  Distinct DistinctProofs DistinctProofs2 Disjoint DisjointProofs Nonlin Objective Search SearchSpec SearchFrame SearchGrow SearchInv SearchInv3 SearchInv4 SearchInv5 SearchUndo SearchMain
  TranslateProofs BuilderProofs CheckSpec CheckFrame CheckGrow CheckSays.
Open Scope Z_scope.

(** ** Accepting single constraints *)

Lemma ok_bind {A B} (m : outcome A) (f : A -> outcome B) b : (x <- m ;; f x) = Ok b -> exists a, m = Ok a /\ f a = Ok b.
Proof. destruct m; try discriminate. eauto. Qed.
Lemma check_disjoint_fits s es : forall m, check_disjoint s es m = Ok tt -> forall e, In e es -> - 2^31 <= ub (vst s (snd e)) + fst e <= 2^31 - 1.
Proof.
  induction es as [|[w x] t IH]; intros m E e H; [easy|]. cbn [check_disjoint] in E. apply ok_bind in E as (u & U & E).
  destruct (intersects _ _ _); [discriminate|]. destruct H as [<-|H]; [|now apply (IH _ E)]. cbn [fst snd].
  unfold iadd, ck, in_range in U. cbn [imin imax int32] in U. destruct (_ && _) eqn:R in U; [lia|discriminate].
Qed.
Lemma ford_imp {A} (P Q : A -> A -> Prop) l : (forall a b, In a l -> In b l -> P a b -> Q a b) -> ForallOrdPairs P l -> ForallOrdPairs Q l.
Proof.
  intros H F. induction F as [|a l X F IH]; constructor.
  - rewrite Forall_forall in *. intros b B. apply H; [now left|now right|auto].
  - apply IH. intros b c B C. apply H; now right.
Qed.
Lemma check_sum_ok c k s : css s c = Some k -> check_full_sum c s = Ok tt -> condition (mbound s) (c_def k) (value s).
Proof.
  intros K E. unfold check_full_sum in E. rewrite K in E.
  assert (L : forall es rhs, (if negb (forallb (fun e => is_assigned (vst s (snd e))) es) then Throw Logic
          else let lhs := zsum (map (fun e => fst e * lb (vst s (snd e))) es) in
            if marked_inactive k then if c_hi k <? lhs then Throw Logic else if rhs <? lhs then Throw Logic else Ok tt
            else if negb (lhs =? c_hi k) then Throw Logic else if c_lo k <? lhs then Throw Logic else if rhs <? lhs then Throw Logic else Ok tt) = Ok tt ->
          lval (value s) es <= rhs).
  { intros es rhs H. rewrite (lval_zsum (value s) es). unfold value. destruct (negb _) in H; [discriminate|]. cbv zeta in H. set (v := zsum _) in *. clearbody v.
    destruct (marked_inactive k); destruct (rhs <? v) eqn:R; try lia; repeat (destruct (_ <? _) in H; try discriminate); repeat (destruct (negb _) in H; try discriminate). }
  destruct (c_def k) as [l r es|a es|l es|l es|l ca x y cb z rhs]; cbn [sum_es sum_rhs condition] in *; try discriminate; auto.
  destruct (mbound s) as [b|]; [|exact Logic.I]. destruct (_ || _) in E; [discriminate|]. auto.
Qed.
Lemma check_con_ok c k s : css s c = Some k -> (forall x, In x (cvars (c_def k)) -> lb (vst s x) <= ub (vst s x)) -> check_full_con c s = Ok tt ->
  condition (mbound s) (c_def k) (value s).
Proof.
  intros K LU E. unfold check_full_con in E. rewrite K in E. destruct (c_def k) as [l r es|a es|l es|l es|l ca x y cb z rhs] eqn:D.
  1, 2: rewrite <- D; now apply check_sum_ok with c.
  - unfold check_full_distinct in E. rewrite K, D in E. apply check_values_ok in E as (_ & E & _). now apply (clashes_nodup es (value s)) in E.
  - unfold check_full_disjoint in E. rewrite K, D in E. cbn [condition]. pose proof (check_disjoint_fits s es [] E) as B.
    apply (check_disjoint_ok s es [] Logic.I B) in E as [E _]. revert E. apply ford_imp. intros e f He Hf X p (P1 & P2). apply (X p). unfold span, value in *.
    pose proof (LU (snd e) (in_map _ _ _ He)). pose proof (LU (snd f) (in_map _ _ _ Hf)). lia.
  - unfold check_full_nonlin in E. rewrite K, D in E. apply ok_bind in E as (a & A & E). apply ok_bind in E as (v & V & E). destruct (rhs <? v) eqn:R; [discriminate|].
    unfold prod128 in A. apply ok_bind in A as (a0 & A0 & A). apply ck_val in A0, A. cbn [condition]. unfold value. destruct z as [z|].
    + apply ok_bind in V as (u & U & V). apply ck_val in U, V. subst. lia.
    + injection V as <-. subst. lia.
Qed.

(** ** Bounds on lower levels *)

Lemma last_cons {A} (a : A) l d : l <> [] -> last (a :: l) d = last l d.
Proof. destruct l; easy. Qed.
Lemma core_range G : forall s, core G s -> forall x, minb (vst s x) <= lb (vst s x) /\ ub (vst s x) <= maxb (vst s x).
Proof.
  induction G as [|s0 G IH]; intros s [B C] x.
  - assert (L : cur_level s = 0%nat) by (unfold cur_level; now rewrite C). unfold minb, maxb.
    assert (E : lbs (vst s x) = [] /\ ubs (vst s x) = []).
    { split; [destruct (lbs (vst s x)) as [|p r] eqn:E|destruct (ubs (vst s x)) as [|p r] eqn:E]; auto; exfalso.
      - pose proof (b_stk _ B x p) as Q. rewrite E, L in Q. specialize (Q (or_introl (or_introl eq_refl))). lia.
      - pose proof (b_stk _ B x p) as Q. rewrite E, L in Q. specialize (Q (or_intror (or_introl eq_refl))). lia. }
    destruct E as [-> ->]. lia.
  - destruct C as (_ & OP & C). specialize (IH s0 C x). destruct (o_mono _ _ OP x) as [M1 M2]. destruct (b_diff _ B x) as [D1 D2]. unfold li, ui in *.
    destruct (o_lows _ _ OP) as (sg & _ & _ & Q1). destruct (o_ups _ _ OP) as (sg' & _ & _ & Q2). specialize (Q1 x). specialize (Q2 x).
    split.
    + destruct (in_dec Nat.eq_dec x sg) as [I|I].
      * destruct Q1 as [Q1 _]. specialize (Q1 I). destruct IH as [IH _]. unfold minb in *. rewrite Q1. destruct (lbs (vst s0 x)) as [|p r]; [cbn; lia|]. rewrite last_cons by easy. lia.
      * destruct Q1 as [_ Q1]. destruct (Q1 I) as (E1 & E2 & _). destruct IH as [IH _]. unfold minb in *. rewrite E1. destruct (lbs (vst s0 x)) as [|p r]; lia.
    + destruct (in_dec Nat.eq_dec x sg') as [I|I].
      * destruct Q2 as [Q2 _]. specialize (Q2 I). destruct IH as [_ IH]. unfold maxb in *. rewrite Q2. destruct (ubs (vst s0 x)) as [|p r]; [cbn; lia|]. rewrite last_cons by easy. lia.
      * destruct Q2 as [_ Q2]. destruct (Q2 I) as (E1 & E2 & _). destruct IH as [_ IH]. unfold maxb in *. rewrite E1. destruct (ubs (vst s0 x)) as [|p r]; lia.
Qed.
Lemma core_levels G : forall s, core G s -> forall s0, In s0 G -> (cur_level s0 < cur_level s)%nat.
Proof.
  induction G as [|s1 G IH]; intros s [_ C] s0 H; [easy|]. destruct C as (_ & OP & C). destruct (o_lvl _ _ OP) as (_ & _ & L).
  destruct H as [<-|H]; [exact L|]. specialize (IH s1 C s0 H). lia.
Qed.

(** ** Histories *)

(** The order literals of [s] with literal [l] agree with the bounds of [s0]. *)
Definition held (s0 : state) (l : lit) (s : state) : Prop := forall x w k, In (w, k) (lits (vst s x)) -> Z.abs k <> 1 ->
  (k = l -> ub (vst s0 x) <= w) /\ (k = - l -> w < lb (vst s0 x)).

Section Hist.
Context (srt : (ival -> Z) -> list ival -> list ival) (O : oracle) (cfg : config) (chk sol : bool) (CA : calm O) (W : lit -> Prop).
Notation search := (search srt O cfg chk sol W).
Notation tg := (tg O).

Lemma tg_held s0 l s s' : tg s s' -> tab s -> Z.abs l < nxt s -> held s0 l s -> held s0 l s'.
Proof.
  intros A T B H x w k I N. apply (tg_lits _ _ _ A T) in I as [I|[I|(I & _)]]; [now apply H|lia|]. split; intros ->; lia.
Qed.
Definition watched (s : state) (l : lit) : Prop := W l \/ In (EWatch l) (log s).

Record hist (K : list (nat * lit)) (G : list state) (s : state) : Prop := {
  h_inv : sinv G s;
  h_tab : tab s;
  h_small : forall s0, In s0 (s :: G) -> forall x, MIN_VAL <= lb (vst s0 x) /\ ub (vst s0 x) <= MAX_VAL;
  h_last : (slast s <= nvars s)%nat;
  h_cov : cov (fmap s) s;
  h_facts : fmap s = [] \/ cur_level s = 0%nat;
  h_watch : forall x w l, In (w, l) (lits (vst s x)) -> Z.abs l <> 1 -> watched s l /\ watched s (- l);
  h_known : forall n l, In (n, l) K -> (n <= cur_level s)%nat /\ Z.abs l < nxt s;
  h_holds : forall n l, In (n, l) K -> holds l s;
  h_below : forall s0 n l, In s0 G -> In (n, l) K -> (n <= cur_level s0)%nat -> held s0 l s;
  h_unused : forall s0, In s0 (s :: G) -> forall x, (nvars s <= x)%nat -> ub (vst s0 x) <= lb (vst s0 x) }.

Lemma cur_lvls s s' : lvls s' = lvls s -> cur_level s' = cur_level s.
Proof. unfold cur_level. now intros ->. Qed.

(** Steps within a level. *)
Lemma hist_tg K G s s' : (cur_level s <= dlevel O s)%nat -> hist K G s -> tg s s' -> sinv G s' -> hist K G s'.
Proof.
  intros IO H A S'. pose proof (cur_lvls _ _ (tg_lvls _ _ _ A)) as C. pose proof (tg_nxt _ _ _ A) as N. pose proof (h_tab _ _ _ H) as T. constructor.
  - exact S'.
  - now apply A.
  - intros s0 [<-|I] x; [|now apply (h_small _ _ _ H); right]. pose proof (h_small _ _ _ H s (or_introl eq_refl) x). pose proof (tg_tight _ _ _ A x). lia.
  - rewrite (tg_nv _ _ _ A). apply (tg_last _ _ _ A), H.
  - apply A; apply H.
  - rewrite C. destruct (Nat.eq_dec (cur_level s) 0) as [Z0|NZ]; [now right|left]. apply (tg_fmap _ _ _ A CA); [lia|]. destruct (h_facts _ _ _ H); [auto|lia].
  - intros x w l I L. destruct (tg_log _ _ _ A) as (es & E & _). apply (tg_lits _ _ _ A T) in I as [I|[I|(_ & I1 & I2)]]; [|lia|split; now right].
    destruct (h_watch _ _ _ H x w l I L) as [[A1|A1] [A2|A2]]; unfold watched; rewrite E; split; auto; right; apply in_or_app; now right.
  - intros n l I. rewrite C. destruct (h_known _ _ _ H n l I). split; [auto|lia].
  - intros n l I. destruct (h_known _ _ _ H n l I). apply tg_holds with O s; auto. now apply (h_holds _ _ _ H) in I.
  - intros s0 n l I0 I L. destruct (h_known _ _ _ H n l I). apply tg_held with s; auto. now apply (h_below _ _ _ H s0 n).
  - intros s0 [<-|I] x L; rewrite (tg_nv _ _ _ A) in L; [|now apply (h_unused _ _ _ H); [right|]].
    pose proof (h_unused _ _ _ H s (or_introl eq_refl) x L). pose proof (tg_tight _ _ _ A x). lia.
Qed.
(** A new level. *)
Lemma hist_push K G s n : hist K G s -> settled s -> fmap s = [] -> (cur_level s < n)%nat -> hist K (s :: G) (push_level n s).
Proof.
  intros H ST F L. pose proof (push_sinv G n s (h_inv _ _ _ H) L ST) as P. unfold push_level in *. apply Nat.ltb_lt in L as L'. rewrite L' in *. destruct H. constructor; auto.
  - apply tab_ext with s; auto.
  - intros s0 [<-|I] x; [apply (h_small0 s); now left|now apply h_small0].
  - intros m l I. destruct (h_known0 m l I). cbn. split; [lia|auto].
  - intros s0 m l [<-|I0] I Q; [|now apply (h_below0 s0 m)]. exact (h_holds0 m l I).
  - intros s0 [<-|I] x X; [apply (h_unused0 s); [now left|exact X]|now apply h_unused0].
Qed.
Lemma hist_call K G s n : hist K G s -> hist K G (emit (ECall n) s).
Proof.
  intros [H1 H2 H3 HL H4 H5 H6 H7 H8 H9 HU]. constructor; auto.
  - apply sinv_only with (2 := H1). apply only_emit.
  - apply tab_ext with s; auto.
  - intros s0 [<-|I] x; [apply (H3 s); now left|now apply H3; right].
  - intros x w l I L. destruct (H6 x w l I L) as [[A1|A1] [A2|A2]]; unfold watched; cbn; auto.
  - intros s0 [<-|I] x X; [apply (HU s); [now left|exact X]|now apply HU; [right|]].
Qed.
Lemma hist_propagate K G s ls ok s' : hist K G s -> in_order O s -> Forall (below (nxt s)) ls -> solver_propagate O cfg ls s = (ok, s') ->
  exists G', hist (if ok then map (pair (cur_level s')) ls ++ K else K) G' s'.
Proof.
  intros H IO F E. destruct (tg_propagate O cfg ls s ok s' E) as (A & _ & HO & _). set (s1 := push_level (dlevel O s) s) in *.
  assert (X : exists G', hist K G' s1 /\ sinv G' s').
  { destruct (propagate_sinv O cfg G ls s (h_inv _ _ _ H) (fun L => proj1 (proj2 IO L))) as [[L P]|[L P]]; rewrite E in P; cbn [snd] in P.
    - exists (s :: G). split; [|exact P]. destruct (proj2 IO L). now apply hist_push.
    - exists G. split; [|exact P]. unfold s1, push_level. apply Nat.ltb_ge in L. now rewrite L. }
  destruct X as (G' & H1 & S'). assert (V : (log s1 = log s /\ cur_level s <= cur_level s1 /\ cur_level s1 = dlevel O s1)%nat).
  { destruct IO as [IO _]. unfold s1, push_level. destruct (Nat.ltb_spec (cur_level s) (dlevel O s)); cbn; unfold dlevel in *; repeat split; cbn; lia. }
  destruct V as (V1 & V2 & V3). assert (IO1 : (cur_level s1 <= dlevel O s1)%nat) by lia.
  pose proof (hist_tg K G' s1 s' IO1 H1 A S') as H2. exists G'. destruct ok; [|exact H2].
  specialize (HO eq_refl (h_tab _ _ _ H) F). rewrite Forall_forall in HO, F.
  assert (NX : nxt s <= nxt s'). { pose proof (tg_nxt _ _ _ A) as N. replace (nxt s1) with (nxt s) in N; [exact N|]. unfold s1, push_level. now destruct (_ <? _)%nat. }
  destruct H2. constructor; auto.
  - intros n l I. apply in_app_or in I as [I|I]; [|eauto]. apply in_map_iff in I as (l0 & Q & I). injection Q as <- <-. split; [auto|]. apply F in I as [_ I]. lia.
  - intros n l I. apply in_app_or in I as [I|I]; [|eauto]. apply in_map_iff in I as (l0 & Q & I). injection Q as _ <-. auto.
  - intros s0 n l I0 I L. apply in_app_or in I as [I|I]; [|eauto]. apply in_map_iff in I as (l0 & Q & I). injection Q as <- _.
    pose proof (core_levels G' s' (proj1 S') s0 I0). lia.
Qed.
Lemma hist_undo1 K s0 G s s' : hist K (s0 :: G) s -> solver_undo s = Ok s' -> hist (filter (fun p => (fst p <=? cur_level s')%nat) K) G s'.
Proof.
  intros H E. destruct (undo_sinv s0 G s s' (h_inv _ _ _ H) E) as (V & T & S' & ST & (U1 & U2 & U3 & U4 & U5 & _ & _ & U8 & _)).
  assert (FS : fmap s = []).
  { destruct (h_facts _ _ _ H) as [F|F]; [exact F|]. apply (core_cur (s0 :: G) s) in F; [discriminate|apply H]. }
  assert (B : forall x, lb (vst s' x) = lb (vst s0 x) /\ ub (vst s' x) = ub (vst s0 x)) by (intros x; destruct (veq_vb _ _ x V) as (? & ? & _); auto).
  pose proof (veq_cur _ _ V) as C. destruct H. constructor; auto.
  - apply tab_ext with s; auto. intros k. unfold key. now rewrite U3.
  - intros s1 [<-|I] x; [|apply h_small0; cbn; auto]. destruct (B x) as [-> ->]. apply (h_small0 s0). cbn. auto.
  - rewrite U8, (v_nv _ _ V). destruct h_inv0 as [[_ (_ & OP & _)] _]. now rewrite <- (o_nv _ _ OP).
  - rewrite U4. now apply cov_ext with s.
  - left. congruence.
  - intros x w l I L. rewrite U5 in I. unfold watched. rewrite U1. now apply (h_watch0 x w l).
  - intros n l I. apply filter_In in I as [I L]. apply Nat.leb_le in L. rewrite U2. destruct (h_known0 n l I). split; auto.
  - intros n l I. apply filter_In in I as [I L]. apply Nat.leb_le in L. cbn in L. rewrite C in L. intros x w k I1 N1. rewrite U5 in I1. destruct (B x) as [-> ->].
    exact (h_below0 s0 n l (or_introl eq_refl) I L x w k I1 N1).
  - intros s1 n l I1 I L x w k I2 N2. apply filter_In in I as [I L1]. rewrite U5 in I2. exact (h_below0 s1 n l (or_intror I1) I L x w k I2 N2).
  - assert (NV : nvars s' = nvars s) by (rewrite (v_nv _ _ V); destruct h_inv0 as [[_ (_ & OP & _)] _]; now rewrite <- (o_nv _ _ OP)). rewrite NV.
    intros s1 [<-|I] x; [|apply h_unused0; cbn; auto]. destruct (B x) as [-> ->]. apply (h_unused0 s0). cbn. auto.
Qed.
Lemma undo_levels G s s' : core G s -> solver_undo s = Ok s' -> exists s0 G', G = s0 :: G'.
Proof. intros H E. destruct G as [|s0 G]; [|eauto]. exfalso. destruct H as [_ L]. unfold solver_undo in E. rewrite L in E. discriminate. Qed.
Lemma hist_undo K G s s' : hist K G s -> solver_undo s = Ok s' -> exists G', hist (filter (fun p => (fst p <=? cur_level s')%nat) K) G' s'.
Proof. intros H E. destruct (undo_levels G s s' (proj1 (h_inv _ _ _ H)) E) as (s0 & G' & ->). exists G'. now apply (hist_undo1 K s0 G' s). Qed.
Lemma hist_start s : started srt O cfg chk sol W s -> hist [] [] s.
Proof.
  intros [R L [WC WF] LV' SL RG WA]. assert (LV := fun x Q => proj1 (LV' x Q)). destruct (reachable_sinv srt chk sol O cfg s R) as (G & S0). pose proof (proj1 (core_cur G s (proj1 S0)) L) as ->.
  assert (B : forall x w l, In (w, l) (lits (vst s x)) -> (x < nvars s)%nat). { intros x w l I. destruct (le_lt_dec (nvars s) x) as [Q|Q]; [|exact Q]. rewrite LV in I by exact Q. easy. }
  constructor; auto; try easy.
  - constructor.
    + apply WC.
    + intros x. destruct (le_lt_dec (nvars s) x) as [Q|Q]; [rewrite LV by exact Q; constructor|now apply (wf_sorted _ WC)].
    + intros k q E. unfold key in E. destruct (lmap s k) as [e|] eqn:M; [|discriminate]. now apply (wf_lmap _ WC) in M as ((_ & M) & _).
    + intros x w l I. destruct (wf_lits _ WC x w l (B x w l I) I) as [B1 B2]. split; [exact B1|]. intros N. destruct (B2 N) as (e & E1 & E2 & E3 & E4).
      unfold key. rewrite E1. cbn. unfold ekey. now rewrite E2, E3, E4.
  - intros s0 [<-|[]]. exact RG.
  - intros x w l I A. destruct (wff_all _ _ WF x w l (B x w l I) I A) as (f & F1 & _ & F2 & F3). eauto.
  - intros x w l I N. destruct (WA x w l I N). split; now left.
  - intros s0 [<-|[]] x X. now apply LV'.
Qed.
Lemma search_hist K s : search K s -> exists G, hist K G s.
Proof.
  induction 1 as [s S|n K s S (G & IH)|ls ok K s s' S (G & IH) IO F E|fuel m bound K s s' S (G & IH) IO E|K s s' S (G & IH) E].
  - exists []. now apply hist_start.
  - exists G. now apply hist_call.
  - now apply hist_propagate with G s.
  - exists G. apply hist_tg with s; [apply IO|exact IH|now apply tg_prop_check in E|]. now apply (prop_check_sinv srt O cfg chk sol G fuel m bound s (Ok tt) s' (h_inv _ _ _ IH) E).
  - now apply hist_undo with G s.
Qed.

(** ** Acceptance *)
Section Accept.
Context (K : list (nat * lit)) (G : list state) (s : state) (H : hist K G s) (F : fmap s = []) (TO : total O s) (RE : reported O W K s).

Lemma order_agrees x w l : In (w, l) (lits (vst s x)) -> Z.abs l <> 1 /\ below (nxt s) l /\
  (o_true O (log s) l = true -> ub (vst s x) <= w) /\ (o_true O (log s) l = false -> w < lb (vst s x)).
Proof.
  intros I. assert (N : Z.abs l <> 1).
  { intros A. destruct (h_cov _ _ _ H x w l I A) as (f & Q & _). rewrite F in Q. easy. }
  destruct (tb_lits _ (h_tab _ _ _ H) x w l I) as [B _]. destruct (h_watch _ _ _ H x w l I N) as [W1 W2]. split; [exact N|]. split; [exact B|]. split; intros T.
  - apply (RE l W1) in T. apply in_map_iff in T as ((n & l0) & <- & T). destruct (h_holds _ _ _ H n l0 T x w l0 I N) as [Q _]. now apply Q.
  - assert (T1 : o_true O (log s) (- l) = true). { destruct TO as [_ TT]. rewrite (TT l B) in T. now destruct (o_true O (log s) (- l)). }
    apply (RE (- l) W2) in T1. apply in_map_iff in T1 as ((n & l0) & E & T1). cbn in E. subst l0. destruct (h_holds _ _ _ H n (- l) T1 x w l I N) as [_ Q]. apply Q. lia.
Qed.
Lemma split_says x : (x < nvars s)%nat -> is_assigned (vst s x) = false -> exists s1, split cfg x s = (true, s1) /\ longer s s1.
Proof.
  intros X A. unfold split. rewrite A. eexists. split; [reflexivity|]. pose proof (core_b _ _ (proj1 (h_inv _ _ _ H))) as B.
  pose proof (b_bnd _ B x X) as LU. unfold is_assigned in A. destruct (core_range G s (proj1 (h_inv _ _ _ H)) x) as [R1 R2].
  pose proof (h_small _ _ _ H s (or_introl eq_refl) x) as SM. unfold MIN_VAL, MAX_VAL in SM.
  destruct (midpoint_progress (lb (vst s x)) (ub (vst s x))) as [M _]; [unfold fits; cbn; lia|unfold fits; cbn; lia|lia|].
  set (m := midpoint 32 (lb (vst s x)) (ub (vst s x))) in *. clearbody m.
  unfold get_literal. destruct (m <? minb (vst s x)) eqn:E1; [lia|]. destruct (maxb (vst s x) <=? m) eqn:E2; [lia|].
  destruct (vfind _ _) as [l|] eqn:V.
  - exfalso. unfold vfind in V. apply m_find_in in V; [|apply (h_tab _ _ _ H)]. destruct (order_agrees x m l V) as (_ & _ & Q1 & Q2).
    destruct (o_true O (log s) l); [specialize (Q1 eq_refl); lia|specialize (Q2 eq_refl); lia].
  - unfold add_literal, longer. cbn [snd]. set (l := if sign_value cfg <=? m then - nxt s else nxt s). set (s2 := store_lit x m l _).
    assert (LG : log (litmap_add x m l s2) = ELit (nxt s) :: log s).
    { unfold litmap_add. pose proof (litmap_log x l m s2) as Q. destruct (update_litmap x l m s2) as [[p n] s3]. exact Q. }
    unfold add_watch, emit. cbn [log set_log]. rewrite LG. cbn [length]. lia.
Qed.
Lemma split_first_says xs : (forall x, In x xs -> (x < nvars s)%nat) ->
  ((forall x, In x xs -> is_assigned (vst s x) = true) /\ split_first cfg xs s = (false, s)) \/ longer s (snd (split_first cfg xs s)).
Proof.
  induction xs as [|x xs IH]; intros X; cbn [split_first]; [left; split; [easy|reflexivity]|].
  destruct (is_assigned (vst s x)) eqn:A.
  - unfold split. rewrite A. destruct IH as [[I1 I2]|I]; [intros; apply X; now right|left; split; [intros y [<-|Y]; auto|exact I2]|now right].
  - right. destruct (split_says x (X x (or_introl eq_refl)) A) as (s1 & -> & L). exact L.
Qed.
Lemma split_every_says xs : (forall x, In x xs -> (x < nvars s)%nat) -> forall r,
  ((forall x, In x xs -> is_assigned (vst s x) = true) /\ split_every cfg xs r s = (r, s)) \/ longer s (snd (split_every cfg xs r s)).
Proof.
  induction xs as [|x xs IH]; intros X r; cbn [split_every]; [left; split; [easy|reflexivity]|].
  destruct (is_assigned (vst s x)) eqn:A.
  - unfold split. rewrite A. destruct (IH (fun y Y => X y (or_intror Y)) r) as [[I1 I2]|I]; [left; split; [intros y [<-|Y]; auto|exact I2]|now right].
  - right. destruct (split_says x (X x (or_introl eq_refl)) A) as (s1 & -> & L). apply longer_r with O s1; [exact L|apply tg_split_every].
Qed.
Lemma check_all_in ps : check_all O ps s = Ok tt -> forall l c, In (l, c) ps -> is_true O s l = true -> check_full_con c s = Ok tt.
Proof.
  induction ps as [|(l0, c0) ps IH]; intros E l c I T; [easy|]. cbn [check_all] in E. destruct I as [I|I].
  - injection I as -> ->. rewrite T in E. apply ok_bind in E as ([] & E & _). exact E.
  - destruct (is_true O s l0); [apply ok_bind in E as (_ & _ & E)|]; eauto.
Qed.
Lemma full_accepts s' : solver_check_full O cfg sol s = (Ok tt, s') -> longer s s' \/ (s' = s /\ solution O s /\ (sol = true -> satisfied O s)).
Proof.
  intros E. unfold solver_check_full in E. set (r := if split_all cfg then _ else _) in E.
  assert (R : ((forall x, (x < nvars s)%nat -> is_assigned (vst s x) = true) /\ r = (false, s)) \/ longer s (snd r)).
  { unfold r. destruct (split_all cfg).
    - destruct (split_every_says (seq 0 (nvars s))) with (r := false) as [[A B]|A]; [intros x; rewrite in_seq; lia| |now right]. left. split; [|exact B]. intros x X. apply A. apply in_seq. lia.
    - destruct (split_first_says (seq (slast s) (nvars s - slast s) ++ seq 0 (slast s))) as [[A B]|A].
      + pose proof (h_last _ _ _ H) as HL. intros x. rewrite in_app_iff, !in_seq. lia.
      + left. split; [|exact B]. intros x X. apply A. rewrite in_app_iff, !in_seq. lia.
      + now right. }
  clearbody r. destruct r as [b s1]. cbn [snd] in R. destruct R as [[A R]|R].
  - injection R as -> ->. right. assert (s' = s) as -> by (destruct sol; now injection E). split; [reflexivity|]. split.
    + constructor.
      * intros x X. apply A in X. unfold is_assigned in X. lia.
      * intros x X. apply A in X. unfold is_assigned in X. destruct (core_range G s (proj1 (h_inv _ _ _ H)) x). unfold value. lia.
      * intros x w l X I. apply A in X. unfold is_assigned in X. destruct (order_agrees x w l I) as (_ & _ & Q1 & Q2). unfold value. split; [intros T; specialize (Q1 T); lia|].
        intros L. destruct (o_true O (log s) l); [reflexivity|]. specialize (Q2 eq_refl). lia.
    + intros ->. injection E as E. intros l c I T. pose proof (check_all_in (l2c s) E l c I T) as C. pose proof (core_b _ _ (proj1 (h_inv _ _ _ H))) as B.
      apply (b_l2c _ B) in I as (k & KC & ->). exists k. split; [exact KC|]. split; [reflexivity|]. apply check_con_ok with c; auto.
      intros x X. pose proof (b_vars _ B c k KC) as V. rewrite Forall_forall in V. now apply (b_bnd _ B), V.
  - left. destruct b; [|destruct sol]; injection E; intros <-; auto.
Qed.
End Accept.

(** A total assignment is accepted, or there are news. *)
Lemma tg_same s s' : tg s s' -> (length (log s') <= length (log s))%nat -> log s' = log s /\ nxt s' = nxt s.
Proof.
  intros A L. destruct (tg_log _ _ _ A) as (es & E & _ & [(-> & N)|X]); [now split|]. rewrite E, app_length in L. destruct es; [inversion X|cbn in L; lia].
Qed.
Lemma check_accepts K s fuel m bound s' : search K s -> in_order O s -> total O s -> reported O W K s -> o_total O (log s) = true ->
  prop_check srt O cfg chk sol fuel m bound s = Some (Ok tt, s') ->
  (exists es, log s' = es ++ log s /\ Exists news es) \/ (log s' = log s /\ solution O s' /\ (sol = true -> satisfied O s')).
Proof.
  intros S IO TO RE OT E. destruct (search_hist K s S) as (G & H). pose proof (tg_prop_check _ _ _ _ _ _ _ _ _ _ _ E) as A.
  destruct (tg_log _ _ _ A) as (es & EL & _ & [(-> & NX)|X]); [right|left; eauto]. cbn [app] in EL. split; [exact EL|].
  unfold prop_check in E. set (q := match m with Some (c, m) => check_minimize c m bound (dlevel O s) s | None => Ok s end) in E.
  destruct q as [s1|e|] eqn:Q; [|discriminate..].
  assert (A1 : fixed6 s s1 /\ sinv G s1).
  { destruct m as [[c m]|]; cbn in Q; unfold q in Q.
    - split; [eapply tg_minimize; eauto|]. eapply minimize_sinv; [apply H|exact Q].
    - injection Q as <-. split; [now repeat split|apply H]. }
  destruct A1 as [A1 S1]. pose proof (tg_fixed6 O _ _ A1) as T1.
  assert (IO1 : (cur_level s1 <= dlevel O s1)%nat /\ ((cur_level s1 < dlevel O s1)%nat -> fmap s1 = [])).
  { destruct A1 as (_ & _ & _ & AL & AF & AR). injection AR as AR1 _ _. destruct IO as [I1 I2]. unfold dlevel in *. rewrite AL, (cur_lvls _ _ AR1), AF. split; [exact I1|]. intros L. apply (I2 L). }
  destruct IO1 as [IO1 FE]. destruct (solver_check srt O cfg chk fuel s1) as [[o2 s2]|] eqn:C; [|discriminate].
  destruct (tg_check _ _ _ _ _ _ _ _ C) as (C1 & C2 & _). assert (T2 : tg s s2) by now apply tg_trans with s1.
  destruct o2 as [b|e|]; [|discriminate..]. destruct b.
  2: { exfalso. specialize (C2 eq_refl). injection E as <-. pose proof (tg_len _ _ _ T1). unfold longer in C2. rewrite EL in C2. lia. }
  pose proof (solver_check_sinv srt O cfg chk G fuel s1 (Ok true) s2 S1 C) as S2. destruct S2 as [_ S2]. specialize (S2 true eq_refl).
  assert (F2 : fmap s2 = []).
  { unfold solver_check in C. destruct (_ && _) eqn:B in C.
    - injection C as <-. apply FE. apply andb_true_iff in B as [B _]. apply negb_true_iff, Nat.eqb_neq in B. lia.
    - apply tg_loop in C as (_ & _ & C). now apply C. }
  assert (T3 : tg s2 s').
  { destruct (_ && _) in E; injection E; [|intros <-; apply tg_refl]. intros E1. pose proof (tg_check_full O cfg sol s2) as X. now rewrite E1 in X. }
  destruct (tg_same s s2 T2) as [L2 N2]; [pose proof (tg_len _ _ _ T3) as X; now rewrite EL in X|].
  rewrite N2, Z.eqb_refl, L2, OT in E. cbn [andb] in E. injection E as E.
  assert (H2 : hist K G s2). { apply hist_tg with s; auto. apply IO. }
  assert (TO2 : total O s2) by (unfold total; now rewrite L2, N2). assert (RE2 : reported O W K s2) by (unfold reported; now rewrite L2).
  destruct (full_accepts K G s2 H2 F2 TO2 RE2 s' E) as [X|(-> & X)]; [|exact X]. unfold longer in X. rewrite EL, L2 in X. lia.
Qed.
End Hist.
