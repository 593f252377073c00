(** Undoing a level leads back to the state in which the level was opened. *)
From Verif Require Import Base Util VarState Terms TermsSpec Solver OrderSpec OrderProofs1 OrderProofs2 Orders Sum PropProofs ConSpec
  Distinct Disjoint Objective Search SearchSpec SearchFrame SearchInv SearchInv2.
From Coq Require Import Permutation.
Open Scope Z_scope.

(** What undo does not touch. *)
Definition ukept (s s' : state) : Prop :=
  log s' = log s /\ nxt s' = nxt s /\ lmap s' = lmap s /\ fmap s' = fmap s /\ (forall x, lits (vst s' x) = lits (vst s x)) /\
  mbound s' = mbound s /\ mlevel s' = mlevel s /\ slast s' = slast s /\ toff s' = toff s /\ maxstat s' = maxstat s /\ tmin s' = tmin s.
Lemma ukept_refl s : ukept s s.
Proof. now repeat split. Qed.
Lemma ukept_trans s s1 s2 : ukept s s1 -> ukept s1 s2 -> ukept s s2.
Proof.
  intros (A1 & A2 & A3 & A4 & A5 & A6 & A7 & A8 & A9 & A10 & A11) (B1 & B2 & B3 & B4 & B5 & B6 & B7 & B8 & B9 & B10 & B11).
  repeat split; try congruence.
Qed.

(** ** Sums of constraints *)

Lemma undo_watches_spec d ws : forall s,
  let s' := fold_left (undo_watch d) ws s in
  s' = set_css (css s') s /\
  shifted (fun c => - pos_part d (ents c ws)) (fun c => - neg_part d (ents c ws)) s s' /\
  forall c, option_map c_todo (css s' c) = option_map c_todo (css s c).
Proof.
  induction ws as [|(i, c) ws IH]; intros s; cbn [fold_left].
  - split; [now destruct s|]. split; [|auto]. apply shifted_ext with (1 := shifted_refl s); reflexivity.
  - unfold undo_watch at 2 4 6 8. cbn [fst snd]. destruct (css s c) as [k|] eqn:K.
    + destruct (cs_undo_shift i d k) as [A B]. set (k' := cs_undo i d k) in *. destruct (IH (set_cs c k' s)) as (C & D & E).
      set (s' := fold_left _ _ _) in *. split; [rewrite C; reflexivity|]. split.
      * apply shifted_ext with (1 := shifted_trans _ _ _ _ _ _ _ (shifted_set c k k' _ _ s K A) D).
        -- intros e. rewrite ents_cons. unfold pos_part. destruct (Nat.eqb c e); cbn [map]; unfold zsum; cbn [fold_right]; lia.
        -- intros e. rewrite ents_cons. unfold neg_part. destruct (Nat.eqb c e); cbn [map]; unfold zsum; cbn [fold_right]; lia.
      * intros e. rewrite E. destruct (Nat.eq_dec e c) as [->|N]; [rewrite set_cs_same, K; cbn; congruence|now rewrite set_cs_other].
    + destruct (IH s) as (C & D & E). split; [exact C|]. split; [|exact E]. intros e. specialize (D e). cbv beta in *. rewrite ents_cons.
      destruct (Nat.eqb_spec c e) as [<-|N]; [|exact D]. rewrite K in *. exact D.
Qed.

Definition undone (s : state) (L U : var -> Z) (s1 : state) : Prop := forall c,
  match css s c, css s1 c with
  | None, None => True
  | Some k, Some k1 => c_def k1 = c_def k /\ c_inact k1 = c_inact k /\ c_todo k1 = c_todo k /\
      forall es, sum_es (c_def k) = Some es ->
        if removable_at (cur_level s) k then c_lo k1 = c_lo k /\ c_hi k1 = c_hi k else c_lo k1 = low L U es /\ c_hi k1 = low U L es
  | _, _ => False
  end.
Lemma undone_ext s L U L' U' s1 s1' : (forall x, L' x = L x) -> (forall x, U' x = U x) -> css s1' = css s1 -> undone s L U s1 -> undone s L' U' s1'.
Proof.
  intros A B C H c. specialize (H c). rewrite C. destruct (css s c) as [k|], (css s1 c) as [k1|]; auto.
  destruct H as (D & E & F & H). split; [|split; [|split]]; auto. intros es ES. specialize (H es ES). destruct (removable_at _ _); auto.
  rewrite (low_ext L U L' U') by auto. now rewrite (low_ext U L U' L') by auto.
Qed.
Lemma undone_watches s L U L' U' s1 x d : bcore s -> undone s L U s1 ->
  (d <> 0 -> forall c k, css s c = Some k -> removable_at (cur_level s) k = true -> ents c (wat s x) = []) ->
  ((0 <= d /\ L x = L' x + d /\ (forall y, y <> x -> L y = L' y) /\ forall y, U y = U' y) \/
   (d <= 0 /\ U x = U' x + d /\ (forall y, y <> x -> U y = U' y) /\ forall y, L y = L' y)) ->
  undone s L' U' (if d =? 0 then s1 else fold_left (undo_watch d) (wat s x) s1).
Proof.
  intros B H R M. destruct (Z.eqb_spec d 0) as [->|N].
  - apply undone_ext with L U s1; auto; intros y; destruct M as [(_ & M1 & M2 & M3)|(_ & M1 & M2 & M3)]; auto;
      destruct (Nat.eq_dec y x) as [->|Y]; auto; try lia; symmetry; auto.
  - specialize (R N). destruct (undo_watches_spec d (wat s x) s1) as (_ & SH & TD). set (s2 := fold_left _ _ _) in *.
    intros c. specialize (H c). specialize (SH c). specialize (TD c). destruct (css s c) as [k|] eqn:K, (css s1 c) as [k1|]; try easy.
    destruct (css s2 c) as [k2|]; [|easy]. destruct H as (D & I & T & H). destruct SH as [D2 I2 S2]. cbn in TD. injection TD as T2.
    split; [congruence|]. split; [congruence|]. split; [congruence|]. intros es ES. specialize (H es ES).
    assert (NS : sum_es (c_def k1) <> None) by (rewrite D, ES; discriminate). destruct (S2 NS) as [S3 S4].
    destruct (removable_at (cur_level s) k) eqn:RE.
    + rewrite (R c k K RE) in S3, S4. unfold pos_part, neg_part, zsum in S3, S4. cbn [map fold_right] in S3, S4. lia.
    + assert (P : Permutation (ents c (wat s x)) (coefs x es)).
      { unfold coefs. rewrite <- (sum_watches _ _ ES). now apply all_watches. }
      rewrite (pos_perm d _ _ P) in S3. rewrite (neg_perm d _ _ P) in S4. destruct H as [H1 H2].
      destruct M as [(D0 & M1 & M2 & M3)|(D0 & M1 & M2 & M3)].
      * destruct (low_lower L' U' L x d es D0 M1 M2) as [E1 E2].
        rewrite (low_ext L U L U') in E1 by auto. rewrite (low_ext U L U' L) in E2 by auto. lia.
      * destruct (low_upper L' U' U x d es D0 M1 M2) as [E1 E2].
        rewrite (low_ext L U L' U) in E1 by auto. rewrite (low_ext U L U L') in E2 by auto. lia.
Qed.

(** ** Bounds *)

(** Lower bounds, except for the variables in [seg], are those of [s0]. *)
Record lowers (s0 s : state) (seg : list var) (s1 : state) : Prop := {
  lo_frame : s1 = set_vst (vst s1) (set_css (css s1) (set_ldiff (ldiff s1) s));
  lo_done : forall x, ~ In x seg -> lb (vst s1 x) = lb (vst s0 x) /\ lbs (vst s1 x) = lbs (vst s0 x) /\ ldiff s1 x = 0;
  lo_left : forall x, In x seg -> lb (vst s1 x) = lb (vst s x) /\ lbs (vst s1 x) = lbs (vst s x) /\ ldiff s1 x = ldiff s x;
  lo_rest : forall x, ub (vst s1 x) = ub (vst s x) /\ ubs (vst s1 x) = ubs (vst s x) /\ lits (vst s1 x) = lits (vst s x);
  lo_css : undone s (li s1) (ui s1) s1 }.
Lemma lowers_frame s s1 v c l v' c' l' : s1 = set_vst v (set_css c (set_ldiff l s)) ->
  set_vst v' (set_css c' (set_ldiff l' s1)) = set_vst v' (set_css c' (set_ldiff l' s)).
Proof. now intros ->. Qed.
Lemma uppers_frame s s1 v c l v' c' l' : s1 = set_vst v (set_css c (set_udiff l s)) ->
  set_vst v' (set_css c' (set_udiff l' s1)) = set_vst v' (set_css c' (set_udiff l' s)).
Proof. now intros ->. Qed.
Lemma undo_lower_step s0 s x seg : bcore s -> opened s0 s -> NoDup (x :: seg) ->
  lbs (vst s x) = (cur_level s, lb (vst s0 x)) :: lbs (vst s0 x) ->
  (forall c k, css s c = Some k -> removable_at (cur_level s) k = true -> exists k0, css s0 c = Some k0 /\ c_inact k0 <> 0%nat) ->
  forall s1, lowers s0 s (x :: seg) s1 -> exists s2, undo_lower1 x s1 = Ok s2 /\ lowers s0 s seg s2.
Proof.
  intros B OP ND ST RM s1 H.
  destruct H. destruct (lo_left0 x (or_introl eq_refl)) as (X1 & X2 & X3). destruct (lo_rest0 x) as (X4 & X5 & X6).
  unfold undo_lower1. rewrite X2, ST, X1, X3.
  set (d := lb (vst s x) - lb (vst s0 x) - ldiff s x).
  set (t1 := set_vs x _ s1). set (t2 := if d =? 0 then t1 else fold_left (undo_watch d) (wat s1 x) t1).
  assert (W : wat s1 x = wat s x) by (rewrite lo_frame0; reflexivity). assert (T2 : t2 = if d =? 0 then t1 else fold_left (undo_watch d) (wat s x) t1) by (unfold t2; now rewrite W).
  assert (F2 : t2 = set_css (css t2) t1).
  { rewrite T2. destruct (d =? 0); [now destruct t1|]. apply undo_watches_spec. }
  assert (V2 : vst t2 = vst t1) by now rewrite F2. assert (L2 : ldiff t2 = ldiff s1) by now rewrite F2.
  inversion ND as [|? ? NI ND']; subst. eexists. split; [reflexivity|].
  assert (E1 : vst t1 = upd (vst s1) x (mkvs (lb (vst s0 x)) (ub (vst s1 x)) (lbs (vst s0 x)) (ubs (vst s1 x)) (lits (vst s1 x)))) by reflexivity.
  set (t3 := set_ldiff _ t2).
  assert (E3 : vst t3 = vst t1) by exact V2. assert (D3 : ldiff t3 = upd (ldiff s1) x 0) by (unfold t3; cbn [ldiff set_ldiff]; now rewrite L2).
  assert (U3 : udiff t3 = udiff s1). { unfold t3. rewrite F2. reflexivity. }
  constructor.
  - assert (F3 : t3 = set_vst (vst t3) (set_css (css t3) (set_ldiff (ldiff t3) s1))) by (unfold t3; rewrite F2; reflexivity).
    rewrite F3 at 1. apply lowers_frame with (1 := lo_frame0).
  - intros y NY. rewrite E3, E1, D3. unfold upd. destruct (Nat.eqb_spec y x) as [->|N]; [easy|]. apply lo_done0. cbn. intuition.
  - intros y IY. rewrite E3, E1, D3. unfold upd. destruct (Nat.eqb_spec y x) as [->|N]; [easy|]. apply lo_left0. now right.
  - intros y. rewrite E3, E1. unfold upd. destruct (Nat.eqb_spec y x) as [->|N]; [easy|]. apply lo_rest0.
  - apply undone_ext with (li t3) (ui t3) t2; auto. rewrite T2. apply undone_watches with (li s1) (ui s1); auto.
    + intros NZ c k K R. apply in_nil. intros i I. apply ents_in in I. destruct (RM c k K R) as (k0 & K0 & N0).
      destruct (o_wat _ _ OP c k0 x i K0 N0 I) as [A _]. unfold li in A. lia.
    + left. pose proof (o_mono _ _ OP x) as [A _]. unfold li in A. split; [lia|].
      split; [unfold li; rewrite E3, E1, D3, !upd_same, X1, X3; cbn [lb]; lia|].
      split; intros y; [intros N; unfold li; rewrite E3, E1, D3, !upd_other by auto; reflexivity|].
      unfold ui. rewrite E3, E1, U3. unfold upd. destruct (Nat.eqb_spec y x) as [->|N]; reflexivity.
Qed.
Lemma undo_lowers s0 s seg : bcore s -> opened s0 s -> NoDup seg ->
  (forall x, In x seg -> lbs (vst s x) = (cur_level s, lb (vst s0 x)) :: lbs (vst s0 x)) ->
  (forall c k, css s c = Some k -> removable_at (cur_level s) k = true -> exists k0, css s0 c = Some k0 /\ c_inact k0 <> 0%nat) ->
  forall s1, lowers s0 s seg s1 -> exists s2, undo_each undo_lower1 seg s1 = Ok s2 /\ lowers s0 s [] s2.
Proof.
  intros B OP ND ST RM. induction seg as [|x seg IH]; intros s1 H; cbn [undo_each]; [eauto|].
  destruct (undo_lower_step s0 s x seg B OP ND (ST x (or_introl eq_refl)) RM s1 H) as (s2 & -> & H2). cbn [bind]. inversion ND as [|? ? NI ND']; subst.
  apply IH; auto. intros; apply ST; now right.
Qed.
Record uppers (s0 s t : state) (seg : list var) (s1 : state) : Prop := {
  up_frame : s1 = set_vst (vst s1) (set_css (css s1) (set_udiff (udiff s1) t));
  up_done : forall x, ~ In x seg -> ub (vst s1 x) = ub (vst s0 x) /\ ubs (vst s1 x) = ubs (vst s0 x) /\ udiff s1 x = 0;
  up_left : forall x, In x seg -> ub (vst s1 x) = ub (vst s x) /\ ubs (vst s1 x) = ubs (vst s x) /\ udiff s1 x = udiff s x;
  up_rest : forall x, lb (vst s1 x) = lb (vst s0 x) /\ lbs (vst s1 x) = lbs (vst s0 x) /\ lits (vst s1 x) = lits (vst s x);
  up_css : undone s (li s1) (ui s1) s1 }.
Lemma undo_upper_step s0 s t x seg : bcore s -> opened s0 s -> NoDup (x :: seg) -> wat t = wat s ->
  ubs (vst s x) = (cur_level s, ub (vst s0 x)) :: ubs (vst s0 x) ->
  (forall c k, css s c = Some k -> removable_at (cur_level s) k = true -> exists k0, css s0 c = Some k0 /\ c_inact k0 <> 0%nat) ->
  forall s1, uppers s0 s t (x :: seg) s1 -> exists s2, undo_upper1 x s1 = Ok s2 /\ uppers s0 s t seg s2.
Proof.
  intros B OP ND WT ST RM s1 H.
  destruct H. destruct (up_left0 x (or_introl eq_refl)) as (X1 & X2 & X3). destruct (up_rest0 x) as (X4 & X5 & X6).
  unfold undo_upper1. rewrite X2, ST, X1, X3.
  set (d := ub (vst s x) - ub (vst s0 x) - udiff s x).
  set (t1 := set_vs x _ s1). set (t2 := if d =? 0 then t1 else fold_left (undo_watch d) (wat s1 x) t1).
  assert (W : wat s1 x = wat s x) by (rewrite up_frame0; cbn; now rewrite WT). assert (T2 : t2 = if d =? 0 then t1 else fold_left (undo_watch d) (wat s x) t1) by (unfold t2; now rewrite W).
  assert (F2 : t2 = set_css (css t2) t1).
  { rewrite T2. destruct (d =? 0); [now destruct t1|]. apply undo_watches_spec. }
  assert (V2 : vst t2 = vst t1) by now rewrite F2. assert (L2 : udiff t2 = udiff s1) by now rewrite F2.
  inversion ND as [|? ? NI ND']; subst. eexists. split; [reflexivity|].
  assert (E1 : vst t1 = upd (vst s1) x (mkvs (lb (vst s1 x)) (ub (vst s0 x)) (lbs (vst s1 x)) (ubs (vst s0 x)) (lits (vst s1 x)))) by reflexivity.
  set (t3 := set_udiff _ t2).
  assert (E3 : vst t3 = vst t1) by exact V2. assert (D3 : udiff t3 = upd (udiff s1) x 0) by (unfold t3; cbn [udiff set_udiff]; now rewrite L2).
  assert (U3 : ldiff t3 = ldiff s1). { unfold t3. rewrite F2. reflexivity. }
  constructor.
  - assert (F3 : t3 = set_vst (vst t3) (set_css (css t3) (set_udiff (udiff t3) s1))) by (unfold t3; rewrite F2; reflexivity).
    rewrite F3 at 1. apply uppers_frame with (1 := up_frame0).
  - intros y NY. rewrite E3, E1, D3. unfold upd. destruct (Nat.eqb_spec y x) as [->|N]; [easy|]. apply up_done0. cbn. intuition.
  - intros y IY. rewrite E3, E1, D3. unfold upd. destruct (Nat.eqb_spec y x) as [->|N]; [easy|]. apply up_left0. now right.
  - intros y. rewrite E3, E1. unfold upd. destruct (Nat.eqb_spec y x) as [->|N]; [cbn; now rewrite X4, X5, X6|]. apply up_rest0.
  - apply undone_ext with (li t3) (ui t3) t2; auto. rewrite T2. apply undone_watches with (li s1) (ui s1); auto.
    + intros NZ c k K R. apply in_nil. intros i I. apply ents_in in I. destruct (RM c k K R) as (k0 & K0 & N0).
      destruct (o_wat _ _ OP c k0 x i K0 N0 I) as [_ A]. unfold ui in A. lia.
    + right. pose proof (o_mono _ _ OP x) as [_ A]. unfold ui in A. split; [lia|].
      split; [unfold ui; rewrite E3, E1, D3, !upd_same, X1, X3; cbn [ub]; lia|].
      split; intros y; [intros N; unfold ui; rewrite E3, E1, D3, !upd_other by auto; reflexivity|].
      unfold li. rewrite E3, E1, U3. unfold upd. destruct (Nat.eqb_spec y x) as [->|N]; reflexivity.
Qed.
Lemma undo_uppers s0 s t seg : bcore s -> opened s0 s -> NoDup seg -> wat t = wat s ->
  (forall x, In x seg -> ubs (vst s x) = (cur_level s, ub (vst s0 x)) :: ubs (vst s0 x)) ->
  (forall c k, css s c = Some k -> removable_at (cur_level s) k = true -> exists k0, css s0 c = Some k0 /\ c_inact k0 <> 0%nat) ->
  forall s1, uppers s0 s t seg s1 -> exists s2, undo_each undo_upper1 seg s1 = Ok s2 /\ uppers s0 s t [] s2.
Proof.
  intros B OP ND WT ST RM. induction seg as [|x seg IH]; intros s1 H; cbn [undo_each]; [eauto|].
  destruct (undo_upper_step s0 s t x seg B OP ND WT (ST x (or_introl eq_refl)) RM s1 H) as (s2 & -> & H2). cbn [bind]. inversion ND as [|? ? NI ND']; subst.
  apply IH; auto. intros; apply ST; now right.
Qed.

(** ** Constraints and watches *)

Lemma activate_spec cs : forall s, let s' := fold_left activate cs s in
  s' = set_css (css s') s /\ forall c, (In c cs -> css s' c = option_map (set_inact 0) (css s c)) /\ (~ In c cs -> css s' c = css s c).
Proof.
  induction cs as [|c cs IH]; intros s; cbn [fold_left].
  - split; [now destruct s|]. intros c. split; [easy|auto].
  - destruct (IH (activate s c)) as [A B]. set (s' := fold_left _ _ _) in *. unfold activate in *. split.
    + rewrite A. destruct (css s c); reflexivity.
    + intros e. destruct (B e) as [B1 B2]. cbn [In]. destruct (in_dec Nat.eq_dec e cs) as [I|I].
      * split; [|intros N; tauto]. intros _. rewrite (B1 I). destruct (css s c) as [k|] eqn:K; auto.
        destruct (Nat.eq_dec e c) as [->|N]; [now rewrite set_cs_same, K|now rewrite set_cs_other].
      * split.
        -- intros [->|H]; [|tauto]. rewrite (B2 I). destruct (css s e) as [k|] eqn:K; [now rewrite set_cs_same|easy].
        -- intros H. rewrite (B2 I). destruct (css s c) as [k|] eqn:K; auto. rewrite set_cs_other by (intros ->; tauto); auto.
Qed.
Lemma clear_spec cs : forall s, let s' := fold_left clear_todo cs s in
  s' = set_css (css s') s /\ forall c, (In c cs -> css s' c = option_map (set_todo false) (css s c)) /\ (~ In c cs -> css s' c = css s c).
Proof.
  induction cs as [|c cs IH]; intros s; cbn [fold_left].
  - split; [now destruct s|]. intros c. split; [easy|auto].
  - destruct (IH (clear_todo s c)) as [A B]. set (s' := fold_left _ _ _) in *. unfold clear_todo in *. split.
    + rewrite A. destruct (css s c); reflexivity.
    + intros e. destruct (B e) as [B1 B2]. cbn [In]. destruct (in_dec Nat.eq_dec e cs) as [I|I].
      * split; [|intros N; tauto]. intros _. rewrite (B1 I). destruct (css s c) as [k|] eqn:K; auto.
        destruct (Nat.eq_dec e c) as [->|N]; [now rewrite set_cs_same, K|now rewrite set_cs_other].
      * split.
        -- intros [->|H]; [|tauto]. rewrite (B2 I). destruct (css s e) as [k|] eqn:K; [now rewrite set_cs_same|easy].
        -- intros H. rewrite (B2 I). destruct (css s c) as [k|] eqn:K; auto. rewrite set_cs_other by (intros ->; tauto); auto.
Qed.
Lemma readd_spec R : forall s, let s' := fold_left readd_watch R s in
  s' = set_wat (wat s') s /\ forall c x, ents c (wat s' x) = ents c (wat s x) ++ rems c x R.
Proof.
  induction R as [|((y, i), e) R IH]; intros s; cbn [fold_left].
  - split; [now destruct s|]. intros c x. unfold rems. cbn. now rewrite app_nil_r.
  - destruct (IH (readd_watch s (y, i, e))) as [A B]. set (s' := fold_left _ _ _) in *. split; [rewrite A; reflexivity|].
    intros c x. rewrite B. unfold readd_watch. cbn [wat set_wat]. unfold upd. unfold rems at 2. cbn [filter fst snd]. fold (rems c x R).
    rewrite (Nat.eqb_sym y x). destruct (Nat.eqb_spec x y) as [->|N]; cbn [andb]; auto. rewrite ents_app, ents_cons, <- app_assoc.
    destruct (Nat.eqb e c); reflexivity.
Qed.

(** ** The level *)

Lemma skipn_seg {A} (a b : list A) : skipn (length a) (a ++ b) = b.
Proof. now rewrite skipn_app, skipn_all, Nat.sub_diag. Qed.
Lemma firstn_seg {A} (a b : list A) : firstn (length a) (a ++ b) = a.
Proof. now rewrite firstn_app, firstn_all, Nat.sub_diag, firstn_O, app_nil_r. Qed.

Lemma undo_restores s0 G s : core (s0 :: G) s -> tod_ok (tod s) s ->
  exists s', solver_undo s = Ok s' /\ veq s0 s' /\ tod s' = [] /\ tod_ok [] s' /\ ukept s s'.
Proof.
  intros [B (SE & OP & C0)] T. assert (B0 := core_b _ _ C0). destruct SE as (SE1 & SE2 & SE3).
  destruct (o_lvl _ _ OP) as (LV & LN & LT). destruct (o_lows _ _ OP) as (segl & UL & NDL & PL). destruct (o_ups _ _ OP) as (segu & UU & NDU & PU).
  destruct (o_inas _ _ OP) as (segi & UI & PI). destruct (o_rems _ _ OP) as (segr & UR).
  assert (RM : forall c k, css s c = Some k -> removable_at (cur_level s) k = true -> exists k0, css s0 c = Some k0 /\ c_inact k0 <> 0%nat).
  { intros c k K R. specialize (PI c). rewrite K in PI. destruct (css s0 c) as [k0|]; [|easy]. exists k0. split; auto.
    destruct PI as (_ & A1 & A2 & _). apply removable_true in R. destruct (in_dec Nat.eq_dec c segi) as [I|I]; [destruct (A1 I); lia|rewrite <- (A2 I); lia]. }
  unfold solver_undo. rewrite LV. destruct (lvls s0) as [|l0 ls0] eqn:LS0; [easy|].
  unfold level_undo. cbn [o_lo o_up o_ina o_rem new_level]. rewrite UL, skipn_seg.
  (* lower bounds *)
  destruct (undo_lowers s0 s segl B OP NDL (fun x => proj1 (PL x)) RM s) as (s1 & -> & H1).
  { constructor; auto.
    - now destruct s.
    - intros x N. now apply PL in N.
    - intros c. destruct (css s c) as [k|] eqn:K; auto. repeat split; auto. intros es ES. destruct (removable_at _ _) eqn:R; auto. now apply (b_sum s B c). }
  cbn [bind]. destruct H1 as [F1 D1 _ R1 C1]. set (s2 := set_inl [] _).
  assert (U2 : uup s2 = uup s) by (unfold s2; rewrite F1; reflexivity). rewrite U2, UU, skipn_seg.
  (* upper bounds *)
  destruct (undo_uppers s0 s s2 segu B OP NDU) with (s1 := s2) as (s3 & -> & H3); auto.
  { unfold s2. rewrite F1. reflexivity. }
  { intros x. apply (proj1 (PU x)). }
  { assert (V2 : vst s2 = vst s1) by reflexivity. assert (W2 : udiff s2 = udiff s) by (unfold s2; rewrite F1; reflexivity). constructor.
    - now destruct s2.
    - intros x N. rewrite V2, W2. apply PU in N. destruct (R1 x) as (-> & -> & _). tauto.
    - intros x N. rewrite V2, W2. destruct (R1 x) as (-> & -> & _). auto.
    - intros x. rewrite V2. destruct (D1 x (fun f => f)) as (-> & -> & _). destruct (R1 x) as (_ & _ & ->). auto.
    - apply undone_ext with (li s1) (ui s1) s1; auto. }
  cbn [bind]. destruct H3 as [F3 D3 _ R3 C3]. set (s4 := set_inu [] _).
  assert (I4 : ina s4 = ina s) by (unfold s4; rewrite F3; unfold s2; rewrite F1; reflexivity). rewrite I4, UI, skipn_seg.
  destruct (activate_spec segi s4) as [F5 A5]. set (s5 := fold_left activate segi s4) in *. set (s6 := set_ina _ s5).
  assert (R6 : remw s6 = remw s) by (unfold s6; rewrite F5; unfold s4; rewrite F3; unfold s2; rewrite F1; reflexivity). rewrite R6, UR, skipn_seg.
  destruct (readd_spec segr s6) as [F7 A7]. set (s7 := fold_left readd_watch segr s6) in *. set (s8 := set_remw _ s7).
  assert (T8 : tod s8 = tod s) by (unfold s8; rewrite F7; unfold s6; rewrite F5; unfold s4; rewrite F3; unfold s2; rewrite F1; reflexivity). rewrite T8.
  destruct (clear_spec (tod s) s8) as [F9 A9]. set (s9 := fold_left clear_todo (tod s) s8) in *.
  eexists. split; [reflexivity|]. set (s' := set_lvls _ _).
  assert (FR : s' = set_lvls (l0 :: ls0) (set_tod [] (set_css (css s') (set_remw (remw s0) (set_wat (wat s') (set_ina (ina s0)
     (set_inu [] (set_uup (uup s0) (set_udiff (udiff s3) (set_vst (vst s3) (set_inl [] (set_ulo (ulo s0) (set_ldiff (ldiff s1) s))))))))))))).
  { unfold s'. rewrite F9. unfold s8. rewrite F7. unfold s6. rewrite F5. unfold s4. rewrite F3. unfold s2. rewrite F1.
    cbn [ulo uup ina remw set_lvls set_tod set_css set_remw set_wat set_ina set_inu set_uup set_udiff set_vst set_inl set_ulo set_ldiff].
    rewrite UL, UU, UI, UR, !firstn_seg. reflexivity. }
  assert (CS : css s' = css s9) by reflexivity.
  assert (C8 : css s8 = css s5). { unfold s8. rewrite F7. reflexivity. }
  assert (C4 : css s4 = css s3) by reflexivity.
  assert (W6 : forall x, wat s6 x = wat s x). { unfold s6. rewrite F5. unfold s4. rewrite F3. unfold s2. rewrite F1. reflexivity. }
  assert (WS : forall c x, ents c (wat s' x) = ents c (wat s x) ++ rems c x segr).
  { intros c x. assert (WE : wat s' = wat s7) by (unfold s'; rewrite F9; reflexivity). rewrite WE, A7, W6. reflexivity. }
  (* the states of constraints *)
  assert (KK : forall c, match css s0 c, css s' c with None, None => True
      | Some k0, Some k' => cview k' = cview k0 /\ c_todo k' = false | _, _ => False end).
  { intros c. rewrite CS. destruct (A9 c) as [A91 A92]. destruct (A5 c) as [A51 A52]. specialize (C3 c). specialize (PI c). rewrite C8 in A91, A92. rewrite C4 in A51, A52.
    destruct (css s c) as [k|] eqn:K.
    2: { destruct (css s0 c); [easy|]. destruct (css s3 c); [easy|]. cbn in A51.
         assert (E5 : css s5 c = None) by (destruct (in_dec Nat.eq_dec c segi); auto). rewrite E5 in *. cbn in A91. destruct (in_dec Nat.eq_dec c (tod s)); [now rewrite A91|now rewrite A92]. }
    destruct (css s0 c) as [k0|] eqn:K0; [|easy]. destruct (css s3 c) as [k3|]; [|easy]. destruct C3 as (E1 & E2 & E3 & E4). destruct PI as (P1 & P2 & P3 & P4).
    assert (X5 : exists k5, css s5 c = Some k5 /\ c_def k5 = c_def k3 /\ c_lo k5 = c_lo k3 /\ c_hi k5 = c_hi k3 /\ c_todo k5 = c_todo k3 /\ c_inact k5 = c_inact k0).
    { destruct (in_dec Nat.eq_dec c segi) as [I|I].
      - rewrite (A51 I). eexists. split; [reflexivity|]. cbn. destruct (P2 I). repeat split; auto.
      - rewrite (A52 I). exists k3. repeat split; auto. rewrite E2. auto. }
    destruct X5 as (k5 & K5 & G1 & G2 & G3 & G4 & G5). rewrite K5 in *. cbn [option_map] in A91.
    assert (X9 : exists k9, css s9 c = Some k9 /\ c_def k9 = c_def k5 /\ c_lo k9 = c_lo k5 /\ c_hi k9 = c_hi k5 /\ c_todo k9 = false /\ c_inact k9 = c_inact k5).
    { destruct (in_dec Nat.eq_dec c (tod s)) as [I|I].
      - rewrite (A91 I). eexists. split; [reflexivity|]. cbn. auto.
      - rewrite (A92 I). exists k5. repeat split; auto. rewrite G4, E3. destruct (c_todo k) eqn:TK; auto. destruct I. now apply (t_in _ _ T c k). }
    destruct X9 as (k9 & K9 & J1 & J2 & J3 & J4 & J5). rewrite K9. split; [|exact J4].
    unfold cview, sumv. rewrite J1, G1, E1, P1, J5, G5, J2, G2, J3, G3. destruct (sum_es (c_def k0)) as [es|] eqn:ES; auto.
    assert (ES' : sum_es (c_def k) = Some es) by congruence. specialize (E4 es ES').
    destruct (removable_at (cur_level s) k) eqn:RE.
    - destruct (RM c k K RE) as (k0' & K0' & N0). replace k0' with k0 in * by congruence. specialize (P4 N0).
      rewrite (sumv_some k es ES'), (sumv_some k0 es ES) in P4. injection P4 as Q1 Q2. destruct E4 as [E4 E5]. now rewrite E4, E5, Q1, Q2.
    - assert (Z0 : c_inact k0 = 0%nat).
      { destruct (in_dec Nat.eq_dec c segi) as [I|I]; [now apply P2|]. specialize (P3 I). apply removable_false in RE. pose proof (b_max s0 B0 c k0 K0). lia. }
      assert (RE0 : removable_at (cur_level s0) k0 = false) by (apply removable_false; auto).
      destruct (b_sum s0 B0 c k0 es K0 ES RE0) as [Q1 Q2].
      assert (LI : forall x, li s3 x = li s0 x).
      { intros x. unfold li. destruct (R3 x) as (-> & _). destruct (SE3 x) as [-> _]. destruct (D1 x (fun f => f)) as (_ & _ & Q).
        replace (ldiff s3 x) with (ldiff s1 x); [lia|]. rewrite F3. reflexivity. }
      assert (UIE : forall x, ui s3 x = ui s0 x).
      { intros x. unfold ui. destruct (D3 x (fun f => f)) as (-> & _ & ->). destruct (SE3 x) as [_ ->]. reflexivity. }
      rewrite (low_ext _ _ _ _ es LI UIE), (low_ext _ _ _ _ es UIE LI) in E4. destruct E4 as [X1 X2]. now rewrite X1, X2, Q1, Q2. }
  assert (V : veq s0 s').
  { constructor; try (rewrite FR; auto; fail).
    - rewrite FR. exact (o_nv _ _ OP).
    - intros x. replace (vst s' x) with (vst s3 x) by (rewrite FR; reflexivity). unfold vbounds. destruct (R3 x) as (-> & -> & _). destruct (D3 x (fun f => f)) as (-> & -> & _). reflexivity.
    - intros x. replace (ldiff s' x) with (ldiff s1 x) by (rewrite FR; reflexivity). destruct (SE3 x) as [-> _]. apply (D1 x). auto.
    - intros x. replace (udiff s' x) with (udiff s3 x) by (rewrite FR; reflexivity). destruct (SE3 x) as [_ ->]. apply (D3 x). auto.
    - rewrite FR. exact (o_l2c _ _ OP).
    - intros c. specialize (KK c). destruct (css s0 c), (css s' c); try easy. cbn. now rewrite (proj1 KK).
    - intros c x. rewrite WS. destruct (css s c) as [k|] eqn:K.
      + pose proof (PI c) as PC. rewrite K in PC. destruct (css s0 c) as [k0|] eqn:K0; [|easy]. destruct PC as (P1 & _).
        apply Permutation_app_inv_r with (rems c x (remw s0)).
        rewrite (b_watch s0 B0 c k0 x K0), <- P1, <- (b_watch s B c k x K), UR, rems_app, <- !app_assoc. apply Permutation_app_head. apply Permutation_app_comm.
      + assert (N1 : ents c (wat s x) = []). { apply in_nil. intros i I. apply ents_in in I. destruct (b_wref s B x i c I). congruence. }
        assert (N2 : rems c x segr = []). { apply in_nil. intros i I. apply rems_in in I. destruct (b_rem s B x i c) as (k & K' & _); [rewrite UR; apply in_or_app; auto|congruence]. }
        specialize (PI c). rewrite K in PI. destruct (css s0 c) eqn:K0; [easy|].
        assert (N3 : ents c (wat s0 x) = []). { apply in_nil. intros i I. apply ents_in in I. destruct (b_wref s0 B0 x i c I). congruence. }
        rewrite N1, N2, N3. constructor. }
  split; [exact V|]. split; [rewrite FR; reflexivity|]. split.
  - constructor.
    + intros c k K TK. specialize (KK c). rewrite K in KK. destruct (css s0 c); [|easy]. destruct KK. congruence.
    + intros c [].
    + intros c k K TK. specialize (KK c). rewrite K in KK. destruct (css s0 c); [|easy]. destruct KK. congruence.
  - rewrite FR. repeat split. intros x. cbn. apply R3.
Qed.
