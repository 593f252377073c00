(** Invariants of the search: levels, watches and the sums kept by linear constraints. *)
From Verif Require Import Base Util VarState Terms TermsSpec Solver OrderSpec OrderProofs2 Orders Sum PropProofs ConSpec
  Distinct Disjoint Objective Search SearchSpec SearchFrame.
From Coq Require Import Permutation.
Open Scope Z_scope.

(** ** Definitions *)

(** Bounds as known to the constraints. *)
Definition li (s : state) (x : var) : Z := lb (vst s x) - ldiff s x.
Definition ui (s : state) (x : var) : Z := ub (vst s x) - udiff s x.
(** Smallest value of a sum for bounds [L] and [U]; the largest value is [low U L]. *)
Definition low (L U : var -> Z) (es : list (Z * var)) : Z :=
  zsum (map (fun e => fst e * (if 0 <? fst e then L (snd e) else U (snd e))) es).
(** Values of the watches of constraint [c]. *)
Definition ents (c : cid) (ws : list (Z * cid)) : list Z := map fst (filter (fun p => Nat.eqb (snd p) c) ws).
Definition rems (c : cid) (x : var) (R : list (var * Z * cid)) : list Z :=
  map (fun w => snd (fst w)) (filter (fun w => Nat.eqb (fst (fst w)) x && Nat.eqb (snd w) c) R).
Definition wvals (x : var) (W : list (var * Z)) : list Z := map snd (filter (fun w => Nat.eqb (fst w) x) W).
(** The sums of a linear constraint. *)
Definition sumv (k : cst) : Z * Z := match sum_es (c_def k) with Some _ => (c_lo k, c_hi k) | None => (0, 0) end.
Definition cview (k : cst) := (c_def k, c_inact k, sumv k).

Record bcore (s : state) : Prop := {
  b_bnd : forall x, (x < nvars s)%nat -> lb (vst s x) <= ub (vst s x);
  b_diff : forall x, 0 <= ldiff s x /\ udiff s x <= 0;
  b_in : forall x, (ldiff s x <> 0 -> In x (inl s)) /\ (udiff s x <> 0 -> In x (inu s));
  b_stk : forall x p, In p (lbs (vst s x)) \/ In p (ubs (vst s x)) -> (0 < fst p <= cur_level s)%nat;
  b_max : forall c k, css s c = Some k -> (c_inact k <= S (cur_level s))%nat;
  b_wref : forall x i c, In (i, c) (wat s x) -> exists k, css s c = Some k;
  b_rem : forall x i c, In (x, i, c) (remw s) -> exists k, css s c = Some k /\ (0 < c_inact k <= cur_level s)%nat;
  b_l2cd : NoDup (map snd (l2c s));
  b_l2c : forall l c, In (l, c) (l2c s) <-> exists k, css s c = Some k /\ l = c_lit (c_def k);
  b_vars : forall c k, css s c = Some k -> Forall (fun x => x < nvars s)%nat (cvars (c_def k));
  b_watch : forall c k x, css s c = Some k -> Permutation (ents c (wat s x) ++ rems c x (remw s)) (wvals x (cs_watches (c_def k)));
  b_sum : forall c k es, css s c = Some k -> sum_es (c_def k) = Some es -> removable_at (cur_level s) k = false ->
    c_lo k = low (li s) (ui s) es /\ c_hi k = low (ui s) (li s) es }.

(** State [s] on a level that was opened in state [s0]. *)
Record opened (s0 s : state) : Prop := {
  o_lvl : lvls s = new_level (cur_level s) s0 :: lvls s0 /\ lvls s0 <> [] /\ (cur_level s0 < cur_level s)%nat;
  o_nv : nvars s = nvars s0;
  o_l2c : l2c s = l2c s0;
  o_lows : exists seg, ulo s = ulo s0 ++ seg /\ NoDup seg /\ forall x,
    (In x seg -> lbs (vst s x) = (cur_level s, lb (vst s0 x)) :: lbs (vst s0 x)) /\
    (~ In x seg -> lbs (vst s x) = lbs (vst s0 x) /\ lb (vst s x) = lb (vst s0 x) /\ ldiff s x = 0);
  o_ups : exists seg, uup s = uup s0 ++ seg /\ NoDup seg /\ forall x,
    (In x seg -> ubs (vst s x) = (cur_level s, ub (vst s0 x)) :: ubs (vst s0 x)) /\
    (~ In x seg -> ubs (vst s x) = ubs (vst s0 x) /\ ub (vst s x) = ub (vst s0 x) /\ udiff s x = 0);
  o_mono : forall x, lb (vst s0 x) <= li s x /\ ui s x <= ub (vst s0 x);
  o_inas : exists seg, ina s = ina s0 ++ seg /\ forall c, match css s0 c, css s c with
    | None, None => True
    | Some k0, Some k => c_def k = c_def k0 /\ (In c seg -> c_inact k0 = 0%nat /\ c_inact k = S (cur_level s)) /\
        (~ In c seg -> c_inact k = c_inact k0) /\ (c_inact k0 <> 0%nat -> sumv k = sumv k0)
    | _, _ => False end;
  o_rems : exists seg, remw s = remw s0 ++ seg;
  o_wat : forall c k0 x i, css s0 c = Some k0 -> c_inact k0 <> 0%nat -> In (i, c) (wat s x) ->
    li s x = lb (vst s0 x) /\ ui s x = ub (vst s0 x) }.

(** The states in which the levels above the bottom were opened, the current one first. *)
Fixpoint core (G : list state) (s : state) : Prop :=
  bcore s /\ match G with
  | [] => lvls s = [mkl 0 0 0 0 0]
  | s0 :: G => settled s0 /\ opened s0 s /\ core G s0
  end.

(** The queue of constraints.  Level::remove_constraints leaves constraints in the queue that are not
    marked as queued; they can be queued twice. *)
Record tod_ok (t : list cid) (s : state) : Prop := {
  t_in : forall c k, css s c = Some k -> c_todo k = true -> In c t;
  t_ref : forall c, In c t -> exists k, css s c = Some k /\ c_inact k = 0%nat;
  t_act : forall c k, css s c = Some k -> c_todo k = true -> c_inact k = 0%nat }.

Definition sinv (G : list state) (s : state) : Prop := core G s /\ tod_ok (tod s) s.

(** States with the same relevant data. *)
Record veq (s s' : state) : Prop := {
  v_nv : nvars s' = nvars s;
  v_vb : forall x, vbounds (vst s' x) = vbounds (vst s x);
  v_lvls : lvls s' = lvls s;
  v_ulo : ulo s' = ulo s;
  v_uup : uup s' = uup s;
  v_ldiff : forall x, ldiff s' x = ldiff s x;
  v_udiff : forall x, udiff s' x = udiff s x;
  v_inl : inl s' = inl s;
  v_inu : inu s' = inu s;
  v_ina : ina s' = ina s;
  v_remw : remw s' = remw s;
  v_l2c : l2c s' = l2c s;
  v_css : forall c, option_map cview (css s' c) = option_map cview (css s c);
  v_wat : forall c x, Permutation (ents c (wat s' x)) (ents c (wat s x)) }.

(** ** Simple facts *)

Lemma core_b G s : core G s -> bcore s.
Proof. destruct G; now intros [A _]. Qed.

Lemma ents_in c i ws : In i (ents c ws) <-> In (i, c) ws.
Proof.
  unfold ents. rewrite in_map_iff. split.
  - intros ((j, d) & E & H). apply filter_In in H as [H K]. cbn in *. apply Nat.eqb_eq in K. now subst.
  - intros H. exists (i, c). split; auto. apply filter_In. cbn. now rewrite Nat.eqb_refl.
Qed.
Lemma ents_app c a b : ents c (a ++ b) = ents c a ++ ents c b.
Proof. unfold ents. now rewrite filter_app, map_app. Qed.
Lemma rems_in c x i R : In i (rems c x R) <-> In (x, i, c) R.
Proof.
  unfold rems. rewrite in_map_iff. split.
  - intros (((y, j), d) & E & H). apply filter_In in H as [H K]. cbn in *. apply andb_true_iff in K as [K1 K2]. apply Nat.eqb_eq in K1, K2. now subst.
  - intros H. exists (x, i, c). split; auto. apply filter_In. cbn. now rewrite !Nat.eqb_refl.
Qed.
Lemma rems_app c x a b : rems c x (a ++ b) = rems c x a ++ rems c x b.
Proof. unfold rems. now rewrite filter_app, map_app. Qed.
Lemma in_nil {A} (l : list A) : (forall a, ~ In a l) -> l = [].
Proof. destruct l as [|a l]; auto. intros H. destruct (H a). now left. Qed.
Lemma wvals_in x i W : In i (wvals x W) <-> In (x, i) W.
Proof.
  unfold wvals. rewrite in_map_iff. split.
  - intros ((y, j) & E & H). apply filter_In in H as [H K]. cbn in *. apply Nat.eqb_eq in K. now subst.
  - intros H. exists (x, i). split; auto. apply filter_In. cbn. now rewrite Nat.eqb_refl.
Qed.
Lemma watches_vars d x i : In (x, i) (cs_watches d) -> In x (cvars d).
Proof.
  destruct d as [l r es|a es|l es|l es|l ca x1 y cb z rhs]; cbn [cs_watches cvars].
  1, 2, 4: intros H; apply in_map_iff in H as ((j, y) & E & H); injection E as <- _; apply in_map_iff; now exists (j, y).
  - intros H. apply in_concat in H as (w & H & K). apply in_map_iff in H as ((n, (f, ts)) & <- & H).
    apply in_map_iff in K as ((j, y) & E & K). cbn in E, K. injection E as <- _. apply in_combine_r in H.
    apply in_concat. exists (map snd ts). split; [apply in_map_iff; now exists (f, ts)|]. apply in_map_iff. now exists (j, y).
  - cbn [In]. intros [H|[H|H]]; [injection H; auto..|]. destruct z as [z|]; [|easy]. destruct H as [H|[]]. injection H. cbn. auto.
Qed.

Lemma vb_fields v v' : vbounds v' = vbounds v -> lb v' = lb v /\ ub v' = ub v /\ lbs v' = lbs v /\ ubs v' = ubs v.
Proof. unfold vbounds. intros H. now injection H. Qed.
Lemma veq_vb s s' x : veq s s' -> lb (vst s' x) = lb (vst s x) /\ ub (vst s' x) = ub (vst s x) /\ lbs (vst s' x) = lbs (vst s x) /\ ubs (vst s' x) = ubs (vst s x).
Proof. intros V. now apply vb_fields, v_vb. Qed.
Lemma veq_li s s' x : veq s s' -> li s' x = li s x /\ ui s' x = ui s x.
Proof. intros V. unfold li, ui. destruct (veq_vb s s' x V) as (-> & -> & _ & _). now rewrite (v_ldiff _ _ V), (v_udiff _ _ V). Qed.
Lemma veq_cur s s' : veq s s' -> cur_level s' = cur_level s.
Proof. intros V. unfold cur_level. now rewrite (v_lvls _ _ V). Qed.
Lemma cview_eq k k' : cview k' = cview k -> c_def k' = c_def k /\ c_inact k' = c_inact k /\ sumv k' = sumv k.
Proof. unfold cview. intros H. now injection H. Qed.
Lemma veq_css s s' c k' : veq s s' -> css s' c = Some k' -> exists k, css s c = Some k /\ c_def k' = c_def k /\ c_inact k' = c_inact k /\ sumv k' = sumv k.
Proof.
  intros V E. pose proof (v_css _ _ V c) as H. rewrite E in H. destruct (css s c) as [k|]; [|discriminate]. cbn [option_map] in H.
  exists k. split; auto. apply cview_eq. congruence.
Qed.
Lemma veq_refl s : veq s s.
Proof. now constructor. Qed.
Lemma veq_sym s s' : veq s s' -> veq s' s.
Proof. intros []. constructor; auto. intros. now symmetry. Qed.
Lemma veq_trans s s1 s2 : veq s s1 -> veq s1 s2 -> veq s s2.
Proof.
  intros [] []. constructor; try congruence.
  intros. etransitivity; eauto.
Qed.
Lemma veq_css' s s' c k : veq s s' -> css s c = Some k -> exists k', css s' c = Some k' /\ c_def k' = c_def k /\ c_inact k' = c_inact k /\ sumv k' = sumv k.
Proof. intros V E. destruct (veq_css s' s c k (veq_sym _ _ V) E) as (k' & A & B & C & D). now exists k'. Qed.
Lemma veq_none s s' c : veq s s' -> (css s' c = None <-> css s c = None).
Proof. intros V. pose proof (v_css _ _ V c) as H. destruct (css s' c), (css s c); try discriminate; split; easy. Qed.
Lemma veq_wat s s' x i c : veq s s' -> (In (i, c) (wat s' x) <-> In (i, c) (wat s x)).
Proof.
  intros V. rewrite <- !ents_in. pose proof (v_wat _ _ V c x) as P. split; apply Permutation_in; auto. now symmetry.
Qed.

Lemma low_ext L U L' U' es : (forall x, L' x = L x) -> (forall x, U' x = U x) -> low L' U' es = low L U es.
Proof. intros A B. unfold low. f_equal. apply map_ext. intros e. now rewrite A, B. Qed.
Lemma sumv_some k es : sum_es (c_def k) = Some es -> sumv k = (c_lo k, c_hi k).
Proof. unfold sumv. now intros ->. Qed.
Lemma removable_eq n k k' : c_inact k' = c_inact k -> removable_at n k' = removable_at n k.
Proof. unfold removable_at, marked_inactive. now intros ->. Qed.
Lemma removable_false n k : removable_at n k = false <-> c_inact k = 0%nat \/ (n < c_inact k)%nat.
Proof. unfold removable_at, marked_inactive. rewrite andb_false_iff, Nat.ltb_ge, Nat.leb_gt. lia. Qed.
Lemma removable_true n k : removable_at n k = true <-> (0 < c_inact k <= n)%nat.
Proof. unfold removable_at, marked_inactive. rewrite andb_true_iff, Nat.ltb_lt, Nat.leb_le. lia. Qed.

Lemma bcore_veq s s' : veq s s' -> bcore s -> bcore s'.
Proof.
  intros V []. pose proof (veq_cur _ _ V) as C. constructor.
  - intros x H. rewrite (v_nv _ _ V) in H. destruct (veq_vb _ _ x V) as (-> & -> & _). auto.
  - intros x. rewrite (v_ldiff _ _ V), (v_udiff _ _ V). auto.
  - intros x. rewrite (v_ldiff _ _ V), (v_udiff _ _ V), (v_inl _ _ V), (v_inu _ _ V). auto.
  - intros x p. destruct (veq_vb _ _ x V) as (_ & _ & -> & ->). rewrite C. eauto.
  - intros c k K. rewrite C. destruct (veq_css _ _ _ _ V K) as (k' & K' & _ & -> & _). eauto.
  - intros x i c H. apply (veq_wat s s' x i c V), b_wref0 in H as (k & K). destruct (veq_css' _ _ _ _ V K) as (k' & K' & _). eauto.
  - intros x i c. rewrite (v_remw _ _ V), C. intros H. apply b_rem0 in H as (k & K & I). destruct (veq_css' _ _ _ _ V K) as (k' & K' & _ & J & _). exists k'. now rewrite J.
  - now rewrite (v_l2c _ _ V).
  - intros l c. rewrite (v_l2c _ _ V), b_l2c0. split; intros (k & K & ->).
    + destruct (veq_css' _ _ _ _ V K) as (k' & K' & D & _). exists k'. now rewrite D.
    + destruct (veq_css _ _ _ _ V K) as (k' & K' & D & _). exists k'. now rewrite D.
  - intros c k K. destruct (veq_css _ _ _ _ V K) as (k' & K' & -> & _). rewrite (v_nv _ _ V). eauto.
  - intros c k x K. destruct (veq_css _ _ _ _ V K) as (k' & K' & -> & _). rewrite (v_remw _ _ V), <- (b_watch0 c k' x K').
    apply Permutation_app_tail. apply (v_wat _ _ V).
  - intros c k es K E R. destruct (veq_css _ _ _ _ V K) as (k' & K' & D & J & SV). rewrite C in R. rewrite D in E.
    rewrite (removable_eq _ k' k J) in R. destruct (b_sum0 c k' es K' E R) as [A B].
    rewrite (sumv_some k es), (sumv_some k' es) in SV by congruence. injection SV as -> ->.
    rewrite A, B. split; apply low_ext; intros x; symmetry; now apply veq_li.
Qed.
Lemma opened_veq s0 s s' : veq s s' -> opened s0 s -> opened s0 s'.
Proof.
  intros V []. pose proof (veq_cur _ _ V) as C. constructor.
  - now rewrite (v_lvls _ _ V), C.
  - now rewrite (v_nv _ _ V).
  - now rewrite (v_l2c _ _ V).
  - destruct o_lows0 as (seg & A & B & D). exists seg. rewrite (v_ulo _ _ V). split; [|split]; auto. intros x.
    destruct (veq_vb _ _ x V) as (-> & _ & -> & _). rewrite C, (v_ldiff _ _ V). apply D.
  - destruct o_ups0 as (seg & A & B & D). exists seg. rewrite (v_uup _ _ V). split; [|split]; auto. intros x.
    destruct (veq_vb _ _ x V) as (_ & -> & _ & ->). rewrite C, (v_udiff _ _ V). apply D.
  - intros x. destruct (veq_li _ _ x V) as [-> ->]. auto.
  - destruct o_inas0 as (seg & A & B). exists seg. rewrite (v_ina _ _ V). split; auto. intros c. specialize (B c).
    pose proof (v_css _ _ V c) as H. destruct (css s0 c) as [k0|], (css s' c) as [k'|], (css s c) as [k|]; try discriminate; try easy.
    cbn [option_map] in H. assert (E : cview k' = cview k) by congruence. apply cview_eq in E as (-> & -> & ->). now rewrite C.
  - now rewrite (v_remw _ _ V).
  - intros c k0 x i K N H. apply (veq_wat s s' x i c V) in H. destruct (veq_li _ _ x V) as [-> ->]. eauto.
Qed.
Lemma core_veq G s s' : veq s s' -> core G s -> core G s'.
Proof.
  intros V. destruct G as [|s0 G]; intros [A B]; split; eauto using bcore_veq.
  - now rewrite (v_lvls _ _ V).
  - destruct B as (B1 & B2 & B3). split; [|split]; auto. now apply opened_veq with s.
Qed.
Lemma tod_ok_css t s s' : (forall c, option_map (fun k => (c_todo k, c_inact k)) (css s' c) = option_map (fun k => (c_todo k, c_inact k)) (css s c)) -> tod_ok t s -> tod_ok t s'.
Proof.
  intros V []. assert (F : forall c k, css s c = Some k -> exists k', css s' c = Some k' /\ c_todo k' = c_todo k /\ c_inact k' = c_inact k).
  { intros c k K. specialize (V c). rewrite K in V. destruct (css s' c) as [k'|]; [|discriminate]. cbn in V. injection V as A B. eauto. }
  assert (F' : forall c k, css s' c = Some k -> exists k', css s c = Some k' /\ c_todo k' = c_todo k /\ c_inact k' = c_inact k).
  { intros c k K. specialize (V c). rewrite K in V. destruct (css s c) as [k'|]; [|discriminate]. cbn in V. injection V as A B. eauto. }
  constructor; auto.
  - intros c k K T. destruct (F' c k K) as (k' & K' & A & _). apply (t_in0 c k'); congruence.
  - intros c I. destruct (t_ref0 c I) as (k & K & X). destruct (F c k K) as (k' & K' & A & B). exists k'. split; congruence.
  - intros c k K T. destruct (F' c k K) as (k' & K' & A & B). rewrite <- B. apply (t_act0 c k'); congruence.
Qed.

(** ** Steps without effect on constraints *)

Lemma same3_veq s s' : same3 s s' -> css s' = css s -> ina s' = ina s -> veq s s'.
Proof.
  intros A B C. pose proof A as [_ V]. constructor; rewrite ?B; auto.
  all: try (intros; match goal with |- ?f ?a = ?f ?b => apply (same3_get f); [reflexivity|assumption] end).
  - intros x. rewrite (same3_get ldiff (fun _ => eq_refl) _ _ A). reflexivity.
  - intros x. rewrite (same3_get udiff (fun _ => eq_refl) _ _ A). reflexivity.
  - intros c x. rewrite (same3_get wat (fun _ => eq_refl) _ _ A). reflexivity.
Qed.
Lemma sinv_same3 G s s' : same3 s s' -> css s' = css s -> ina s' = ina s -> sinv G s -> sinv G s'.
Proof.
  intros A B C [D E]. split; [apply core_veq with s; auto using same3_veq|].
  rewrite (same3_get tod (fun _ => eq_refl) _ _ A). apply tod_ok_css with s; auto. now rewrite B.
Qed.
Lemma sinv_only G s s' : literals_only s s' -> sinv G s -> sinv G s'.
Proof. intros (A & B & C). now apply sinv_same3. Qed.

(** ** The queue *)

Lemma set_cs_same c k s : css (set_cs c k s) c = Some k.
Proof. unfold set_cs. cbn [css set_css]. apply upd_same. Qed.
Lemma set_cs_other c k s d : d <> c -> css (set_cs c k s) d = css s d.
Proof. unfold set_cs. cbn [css set_css]. apply upd_other. Qed.

(** Replacing the data of a constraint by data with the same view. *)
Lemma set_cs_veq c k k' s : css s c = Some k -> cview k' = cview k -> veq s (set_cs c k' s).
Proof.
  intros K E. constructor; auto. intros d. destruct (Nat.eq_dec d c) as [->|N].
  - rewrite set_cs_same, K. cbn. now rewrite E.
  - now rewrite set_cs_other.
Qed.
Lemma mark_todo_veq c s : veq s (mark_todo c s).
Proof.
  unfold mark_todo. destruct (css s c) as [k|] eqn:K; [|apply veq_refl]. destruct (negb _); [|apply veq_refl].
  assert (V : veq s (set_cs c (set_todo true k) s)) by now apply set_cs_veq with k.
  destruct (c_todo k); auto. destruct V. now constructor.
Qed.
Lemma mark_todo_tod c s : tod_ok (tod s) s -> tod_ok (tod (mark_todo c s)) (mark_todo c s).
Proof.
  intros T. unfold mark_todo. destruct (css s c) as [k|] eqn:K; auto. destruct (marked_inactive k) eqn:M; cbn [negb]; auto.
  assert (I : c_inact k = 0%nat) by (unfold marked_inactive in M; apply Nat.ltb_ge in M; lia).
  destruct (c_todo k) eqn:T0.
  - apply tod_ok_css with s; auto. intros d. destruct (Nat.eq_dec d c) as [->|N].
    + rewrite set_cs_same, K. cbn. now rewrite T0.
    + now rewrite set_cs_other.
  - destruct T. cbn [tod set_tod]. constructor.
    + intros d k'. rewrite in_app_iff. cbn [css set_tod In]. destruct (Nat.eq_dec d c) as [->|N]; [auto|].
      rewrite set_cs_other by auto. intros K' X. left. now apply (t_in0 d k').
    + intros d. rewrite in_app_iff. cbn [css set_tod In]. destruct (Nat.eq_dec d c) as [->|N].
      * intros _. rewrite set_cs_same. now exists (set_todo true k).
      * rewrite set_cs_other by auto. intros [H|[H|[]]]; [auto|congruence].
    + intros d k'. cbn [css set_tod]. destruct (Nat.eq_dec d c) as [->|N].
      * rewrite set_cs_same. intros E _. now injection E as <-.
      * rewrite set_cs_other by auto. apply t_act0.
Qed.
Lemma mark_todo_sinv G c s : sinv G s -> sinv G (mark_todo c s).
Proof. intros [A B]. split; [apply core_veq with s; auto using mark_todo_veq|now apply mark_todo_tod]. Qed.
