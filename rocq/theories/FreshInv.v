(** The bounds of elements kept by distinct constraints along histories. *)
From Verif Require Import Base Util VarState Terms TermsSpec Solver OrderSpec OrderProofs2 Orders Sum PropProofs ConSpec
  Distinct Disjoint Objective Search SearchSpec SearchFrame SearchInv SearchInv2 SearchInv3 SearchInv4.
From Coq Require Import Permutation.
Open Scope Z_scope.

(** ** Definitions *)

(** Bounds of an element for bounds [L] and [U] of variables. *)
Definition einit (L U : var -> Z) (e : delem) : Z * Z := (fst e + low L U (snd e), fst e + low U L (snd e)).
(** Constraint [c] still has all its watches in [t]. *)
Definition live (c : cid) (t : state) : Prop := exists k, css t c = Some k /\ removable_at (cur_level t) k = false.
(** A bound of an element differs in two states. *)
Definition differs (t t1 : state) (e : delem) : Prop := Exists (fun p => li t (snd p) <> li t1 (snd p) \/ ui t (snd p) <> ui t1 (snd p)) (snd e).
(** The bounds [a] kept for element [e] are those of the current state [t]; and those of the state in which any level
    was opened unless leaving the levels above marks the element. *)
Fixpoint claims (c : cid) (a : Z * Z) (e : delem) (D : Prop) (t : state) (G : list state) : Prop :=
  (live c t -> a = einit (li t) (ui t) e \/ D) /\
  match G with [] => True | t1 :: G => claims c a e (D \/ (live c t /\ differs t t1 e)) t1 G end.
Record fresh (G : list state) (s : state) (c : cid) (k : cst) (es : list delem) : Prop := {
  fr_len : length (c_asg k) = length es;
  fr_todo : Forall (fun i => (i < length es)%nat) (c_tlo k ++ c_tup k);
  fr_asg : forall i e a, nth_error es i = Some e -> nth_error (c_asg k) i = Some a -> ~ In i (c_dirty k) -> claims c a e False s G }.
Definition dinv (G : list state) (s : state) : Prop := forall c k l es, css s c = Some k -> c_def k = CDistinct l es -> fresh G s c k es.

(** ** Simple facts *)

Lemma claims_mono c a e G : forall (D D' : Prop) t, (D -> D') -> claims c a e D t G -> claims c a e D' t G.
Proof.
  induction G as [|t1 G IH]; intros D D' t H [A B]; split.
  - intros L. destruct (A L); auto.
  - auto.
  - intros L. destruct (A L); auto.
  - apply IH with (2 := B). tauto.
Qed.
Definition same_on (t t' : state) (e : delem) : Prop := forall p, In p (snd e) -> li t' (snd p) = li t (snd p) /\ ui t' (snd p) = ui t (snd p).
Lemma einit_same t t' e : same_on t t' e -> einit (li t') (ui t') e = einit (li t) (ui t) e.
Proof.
  intros S. unfold einit. assert (E : forall L U L' U', (forall p, In p (snd e) -> L' (snd p) = L (snd p) /\ U' (snd p) = U (snd p)) -> low L' U' (snd e) = low L U (snd e)).
  { intros L U L' U' H. unfold low. f_equal. apply map_ext_in. intros p I. now destruct (H p I) as [-> ->]. }
  f_equal; f_equal; apply E; intros p I; destruct (S p I); auto.
Qed.
Lemma same_sym t t' e : same_on t t' e -> same_on t' t e.
Proof. intros S p I. destruct (S p I). auto. Qed.
Lemma differs_same t t' t1 e : same_on t t' e -> differs t t1 e -> differs t' t1 e.
Proof.
  unfold differs. intros S H. apply Exists_exists in H as (p & I & H). apply Exists_exists. exists p. split; auto. destruct (S p I) as [-> ->]. auto.
Qed.
Lemma differs_dec t t1 e : differs t t1 e \/ same_on t t1 e.
Proof.
  destruct (Exists_dec (fun p => li t (snd p) <> li t1 (snd p) \/ ui t (snd p) <> ui t1 (snd p)) (snd e)) as [H|H]; [|now left|].
  - intros p. destruct (Z.eq_dec (li t (snd p)) (li t1 (snd p))), (Z.eq_dec (ui t (snd p)) (ui t1 (snd p))); [right|left..]; tauto.
  - right. intros p I. destruct (Z.eq_dec (li t1 (snd p)) (li t (snd p))) as [A|A], (Z.eq_dec (ui t1 (snd p)) (ui t (snd p))) as [B|B]; auto;
    destruct H; apply Exists_exists; exists p; split; auto; lia.
Qed.
Lemma claims_top c a e D t t' G : (live c t <-> live c t') -> (live c t -> same_on t t' e) -> claims c a e D t G -> claims c a e D t' G.
Proof.
  intros L S H. destruct G as [|t1 G]; destruct H as [A B]; split; auto.
  - intros X. apply L in X. rewrite (einit_same t t' e); auto.
  - intros X. apply L in X. rewrite (einit_same t t' e); auto.
  - apply claims_mono with (2 := B). intros [X|[X Y]]; auto. right. split; [now apply L|]. apply differs_same with t; auto.
Qed.

Lemma dinv_step G s s' : dinv G s ->
  (forall c k' l es, css s' c = Some k' -> c_def k' = CDistinct l es -> exists k, css s c = Some k /\ c_def k = c_def k' /\ (live c s <-> live c s') /\
    c_asg k' = c_asg k /\ (Forall (fun i => (i < length es)%nat) (c_tlo k ++ c_tup k) -> Forall (fun i => (i < length es)%nat) (c_tlo k' ++ c_tup k')) /\
    incl (c_dirty k) (c_dirty k') /\ (forall i e, nth_error es i = Some e -> ~ In i (c_dirty k') -> live c s -> same_on s s' e)) -> dinv G s'.
Proof.
  intros D H c k' l es K E. destruct (H c k' l es K E) as (k & K0 & E0 & L & A & T & I & S). destruct (D c k l es K0) as [F1 F2 F3]; [congruence|]. constructor.
  - congruence.
  - auto.
  - intros i e a NE NA ND. apply claims_top with s; auto.
    + intros LV. apply (S i); auto.
    + rewrite A in NA. apply (F3 i); auto.
Qed.
(** Data of constraints that is the same as far as the bounds of elements are concerned. *)
Record dsame (k k' : cst) : Prop := {
  ds_def : c_def k' = c_def k;
  ds_ina : c_inact k' = c_inact k;
  ds_asg : c_asg k' = c_asg k;
  ds_dirty : c_dirty k' = c_dirty k;
  ds_todo : incl (c_tlo k' ++ c_tup k') (c_tlo k ++ c_tup k) }.
Lemma dsame_refl k : dsame k k.
Proof. constructor; auto. apply incl_refl. Qed.
Lemma dinv_same G s s' : (forall x, li s' x = li s x /\ ui s' x = ui s x) -> cur_level s' = cur_level s ->
  (forall c k', css s' c = Some k' -> exists k, css s c = Some k /\ dsame k k') -> dinv G s -> dinv G s'.
Proof.
  intros B C K D. apply (dinv_step G s s' D). intros c k' l es K' E. destruct (K c k' K') as (k & K0 & [A1 A2 A3 A4 A5]).
  exists k. repeat split; auto.
  - intros (k1 & X & Y). exists k'. rewrite C, (removable_eq _ k k' A2). split; auto. congruence.
  - intros (k1 & X & Y). exists k. rewrite <- C, <- (removable_eq _ k k' A2). split; auto. congruence.
  - intros F. rewrite Forall_forall in *. auto.
  - rewrite A4. apply incl_refl.
  - apply B.
  - apply B.
Qed.
Lemma dinv_same3 G s s' : same3 s s' -> css s' = css s -> dinv G s -> dinv G s'.
Proof.
  intros S C. apply dinv_same.
  - intros x. unfold li, ui. pose proof (proj2 S x) as V. apply vb_fields in V as (-> & -> & _).
    rewrite (same3_get ldiff (fun _ => eq_refl) _ _ S), (same3_get udiff (fun _ => eq_refl) _ _ S). auto.
  - apply (same3_get cur_level (fun _ => eq_refl) _ _ S).
  - intros c k. rewrite C. eauto using dsame_refl.
Qed.
Lemma dinv_only G s s' : literals_only s s' -> dinv G s -> dinv G s'.
Proof. intros (A & B & _). now apply dinv_same3. Qed.
Lemma dinv_mark_todo G c s : dinv G s -> dinv G (mark_todo c s).
Proof.
  assert (V := mark_todo_veq c s). apply dinv_same.
  - intros x. now apply veq_li.
  - now apply veq_cur.
  - intros d k. unfold mark_todo. destruct (css s c) as [k0|] eqn:K0; [|eauto using dsame_refl]. destruct (negb _); [|eauto using dsame_refl].
    assert (X : css (set_cs c (set_todo true k0) s) d = Some k -> exists k1, css s d = Some k1 /\ dsame k1 k).
    { destruct (Nat.eq_dec d c) as [->|N]; [|rewrite set_cs_other; eauto using dsame_refl]. rewrite set_cs_same. intros X. injection X as <-.
      exists k0. split; auto. constructor; auto. apply incl_refl. }
    destruct (c_todo k0); auto.
Qed.
Lemma dinv_clear_todo G c s : dinv G s -> dinv G (clear_todo s c).
Proof.
  unfold clear_todo. destruct (css s c) as [k0|] eqn:K0; auto. apply dinv_same; auto.
  intros d k. destruct (Nat.eq_dec d c) as [->|N]; [|rewrite set_cs_other; eauto using dsame_refl]. rewrite set_cs_same. intros X. injection X as <-.
  exists k0. split; auto. constructor; auto. apply incl_refl.
Qed.
Lemma dinv_level_lower G x v s : dinv G s -> dinv G (level_update_lower x v s).
Proof.
  destruct (level_lower_eq x v s) as (EV & _ & _ & ED & ES). set (s' := level_update_lower x v s) in *. apply dinv_same.
  - intros y. assert (U : udiff s' = udiff s) by (rewrite ES; reflexivity). unfold li, ui. rewrite U, EV, ED. clear ES. unfold upd. destruct (Nat.eqb_spec y x) as [->|N]; cbn [lb ub]; auto. split; lia.
  - rewrite ES. reflexivity.
  - intros c k. replace (css s') with (css s) by (rewrite ES; reflexivity). eauto using dsame_refl.
Qed.
Lemma dinv_level_upper G x v s : dinv G s -> dinv G (level_update_upper x v s).
Proof.
  destruct (level_upper_eq x v s) as (EV & _ & _ & ED & ES). set (s' := level_update_upper x v s) in *. apply dinv_same.
  - intros y. assert (U : ldiff s' = ldiff s) by (rewrite ES; reflexivity). unfold li, ui. rewrite U, EV, ED. clear ES. unfold upd. destruct (Nat.eqb_spec y x) as [->|N]; cbn [lb ub]; auto. split; lia.
  - rewrite ES. reflexivity.
  - intros c k. replace (css s') with (css s) by (rewrite ES; reflexivity). eauto using dsame_refl.
Qed.
Lemma dinv_fields G s s' : vst s' = vst s -> ldiff s' = ldiff s -> udiff s' = udiff s -> cur_level s' = cur_level s -> css s' = css s -> dinv G s -> dinv G s'.
Proof. intros A B C D E. apply dinv_same; auto; [unfold li, ui; now rewrite A, B, C|]. rewrite E. eauto using dsame_refl. Qed.

(** ** Opening a level *)

Lemma dinv_push G n s : dinv G s -> (cur_level s < n)%nat -> dinv (s :: G) (push_level n s).
Proof.
  intros D LT c k l es K E. unfold push_level in *. destruct (Nat.ltb_spec (cur_level s) n) as [L|L]; [|lia].
  set (s' := set_lvls _ _) in *. change (css s' c) with (css s c) in K. destruct (D c k l es K E) as [F1 F2 F3]. constructor; auto.
  intros i e a NE NA ND. specialize (F3 i e a NE NA ND).
  assert (SB : same_on s s' e) by now intros p _.
  assert (LV : live c s' -> live c s).
  { intros (k1 & X & Y). exists k1. split; auto. apply removable_false in Y. apply removable_false. change (cur_level s') with n in Y. lia. }
  cbn [claims]. split.
  - intros X. apply LV in X. left. rewrite (einit_same s s' e SB). destruct G; destruct F3 as [A _]; destruct (A X); tauto.
  - apply claims_mono with (2 := F3). tauto.
Qed.

(** ** Passing changed bounds to constraints *)

(** The index of the element a watch belongs to. *)
Definition widx (i : Z) : nat := Z.to_nat (Z.abs i - 1).
Lemma add_once_in i l j : In j (add_once i l) <-> j = i \/ In j l.
Proof.
  unfold add_once, memb. destruct (existsb (Nat.eqb i) l) eqn:E.
  - apply existsb_exists in E as (m & I & Q). apply Nat.eqb_eq in Q. subst m. split; [auto|]. intros [->|H]; auto.
  - rewrite in_app_iff. cbn [In]. split; [intros [H|[H|[]]]; auto|intros [H|H]; auto].
Qed.
(** Watches [is] of the constraint were updated. *)
Record marked (is : list Z) (k k' : cst) : Prop := {
  mk_def : c_def k' = c_def k;
  mk_ina : c_inact k' = c_inact k;
  mk_asg : c_asg k' = c_asg k;
  mk_dirty : forall i, In i (c_dirty k') <-> In i (c_dirty k) \/ In i (map widx is);
  mk_todo : forall i, In i (c_tlo k' ++ c_tup k') -> In i (c_tlo k ++ c_tup k) \/ In i (map widx is) }.
Lemma marked_trans a b k k1 k2 : marked a k k1 -> marked b k1 k2 -> marked (a ++ b) k k2.
Proof.
  intros [A1 A2 A3 A4 A5] [B1 B2 B3 B4 B5]. constructor; try congruence.
  - intros i. rewrite B4, A4, map_app, in_app_iff. tauto.
  - intros i H. rewrite map_app. apply B5 in H as [H|H]; [apply A5 in H as [H|H]; [now left|right; apply in_or_app; now left]|right; apply in_or_app; now right].
Qed.
Lemma marked_nil k k' : dsame k k' -> marked [] k k'.
Proof. intros [A1 A2 A3 A4 A5]. constructor; auto. intros i. rewrite A4. cbn. tauto. Qed.
Lemma cs_update_marked i d k b k' l es : c_def k = CDistinct l es -> cs_update i d k = (b, k') -> marked [i] k k'.
Proof.
  intros E. unfold cs_update. rewrite E. unfold dist_update. intros X. injection X as _ <-. fold (widx i).
  destruct (0 <? i); constructor; auto; cbn [c_dirty c_tlo c_tup set_dist map In]; intros j; rewrite ?in_app_iff, ?add_once_in; intuition.
Qed.
Lemma cs_undo_marked i d k l es : c_def k = CDistinct l es -> marked [i] k (cs_undo i d k).
Proof.
  intros E. unfold cs_undo. rewrite E. unfold dist_undo. fold (widx i).
  constructor; auto; cbn [c_dirty c_tlo c_tup set_dist map In]; intros j; rewrite ?in_app_iff, ?add_once_in; cbn [In]; intuition.
Qed.
Lemma mark_todo_dsame c s d : match css s d, css (mark_todo c s) d with Some k, Some k' => dsame k k' | None, None => True | _, _ => False end.
Proof.
  unfold mark_todo. assert (R : match css s d, css s d with Some k, Some k' => dsame k k' | None, None => True | _, _ => False end).
  { destruct (css s d); auto using dsame_refl. }
  destruct (css s c) as [k0|] eqn:K0; auto. destruct (negb _); auto.
  assert (X : match css s d, css (set_cs c (set_todo true k0) s) d with Some k, Some k' => dsame k k' | None, None => True | _, _ => False end).
  { destruct (Nat.eq_dec d c) as [->|N]; [|rewrite set_cs_other; auto]. rewrite set_cs_same, K0. constructor; auto. apply incl_refl. }
  destruct (c_todo k0); auto.
Qed.
Definition is_dist (d : constr) : Prop := match d with CDistinct _ _ => True | _ => False end.
Lemma dist_is d : is_dist d -> exists l es, d = CDistinct l es.
Proof. destruct d; try easy. eauto. Qed.
Lemma update_watches_marked n x d c ws : forall s ws' s', update_watches n x d ws s = (ws', s') ->
  match css s c, css s' c with
  | Some k, Some k' => c_def k' = c_def k /\ (is_dist (c_def k) -> marked (if removable_at n k then [] else ents c ws) k k')
  | None, None => True
  | _, _ => False
  end.
Proof.
  induction ws as [|(i, e) ws IH]; intros s ws' s' E; cbn [update_watches] in E.
  - injection E as <- <-. destruct (css s c) as [k|]; auto. split; auto. intros _. destruct (removable_at n k); cbn; apply marked_nil, dsame_refl.
  - rewrite ents_cons. destruct (css s e) as [ke|] eqn:KE.
    2: { destruct (update_watches n x d ws s) as [ws1 s1] eqn:E1. injection E as <- <-. specialize (IH _ _ _ E1).
         destruct (css s c) as [k|] eqn:K; auto. destruct (Nat.eqb_spec e c) as [->|N]; [congruence|]. exact IH. }
    destruct (removable_at n ke) eqn:R.
    + specialize (IH _ _ _ E). cbn [css set_remw] in IH. destruct (css s c) as [k|] eqn:K; auto. destruct (Nat.eqb_spec e c) as [->|N]; [|exact IH].
      replace ke with k in * by congruence. rewrite R in *. exact IH.
    + destruct (cs_update i d ke) as [b k1] eqn:U. set (s1 := set_cs e k1 s) in *. set (s2 := if b then mark_todo e s1 else s1) in *.
      destruct (update_watches n x d ws s2) as [ws2 s3] eqn:E2. injection E as <- <-. specialize (IH _ _ _ E2).
      assert (X2 : match css s1 c, css s2 c with Some k, Some k' => dsame k k' | None, None => True | _, _ => False end).
      { unfold s2. destruct b; [apply mark_todo_dsame|]. destruct (css s1 c); auto using dsame_refl. }
      destruct (Nat.eqb_spec e c) as [->|N].
      * rewrite KE. unfold s1 in X2. rewrite set_cs_same in X2. destruct (css s2 c) as [k2|]; [|easy]. destruct (css s3 c) as [k3|]; [|easy].
        destruct IH as [IH1 IH2]. destruct (cs_update_shift i d ke b k1 U) as [SH _]. assert (Q1 := sh_def _ _ _ _ SH). assert (Q2 := ds_def _ _ X2). split; [congruence|].
        intros DI. destruct (dist_is _ DI) as (l & es & DE). rewrite R. change (i :: ents c ws) with ([] ++ ([i] ++ [] ++ ents c ws)).
        apply (marked_trans [] _ ke ke); [apply marked_nil, dsame_refl|]. apply (marked_trans [i] _ ke k1); [now apply (cs_update_marked i d ke b k1 l es)|].
        apply (marked_trans [] _ k1 k2); [now apply marked_nil|]. rewrite (removable_eq n ke k2), R in IH2.
        -- apply IH2. now rewrite Q2, Q1.
        -- rewrite (ds_ina _ _ X2). apply (sh_ina _ _ _ _ SH).
      * unfold s1 in X2. rewrite set_cs_other in X2 by auto. destruct (css s c) as [k|]; destruct (css s2 c) as [k2|]; destruct (css s3 c) as [k3|]; try easy.
        destruct IH as [IH1 IH2]. assert (Q2 := ds_def _ _ X2). split; [congruence|]. intros DI.
        replace (if removable_at n k then [] else ents c ws) with ([] ++ (if removable_at n k then [] else ents c ws)) by reflexivity.
        apply marked_trans with k2; [now apply marked_nil|]. rewrite (removable_eq n k k2) in IH2 by apply X2. apply IH2. now rewrite Q2.
Qed.
Lemma marked_eq is k k' : marked is k k' -> c_inact k' = c_inact k.
Proof. now intros []. Qed.

(** The watches of a distinct constraint. *)
Lemma dist_watch_idx l es x i : In (x, i) (cs_watches (CDistinct l es)) -> (widx i < length es)%nat /\ exists e, nth_error es (widx i) = Some e /\ In x (map snd (snd e)).
Proof.
  cbn [cs_watches]. intros H. apply in_concat in H as (w & H & K). apply in_map_iff in H as ((n, e) & <- & H).
  apply in_map_iff in K as ((co, y) & E & K). cbn [fst snd] in E, K. injection E as <- <-.
  assert (W : widx (if 0 <? co then Z.of_nat n + 1 else - Z.of_nat n - 1) = n) by (unfold widx; destruct (0 <? co); lia).
  rewrite W. assert (NE : nth_error es n = Some e).
  { clear K W. assert (G : forall m es, In (n, e) (combine (seq m (length es)) es) -> (m <= n)%nat /\ nth_error es (n - m) = Some e).
    { clear. intros m es. revert m. induction es as [|f es IH]; intros m; cbn [length seq combine In]; [easy|]. intros [H|H].
      - injection H as -> ->. split; [lia|]. now rewrite Nat.sub_diag.
      - apply IH in H as [A B]. split; [lia|]. replace (n - m)%nat with (S (n - S m)) by lia. exact B. }
    apply G in H as [_ H]. now rewrite Nat.sub_0_r in H. }
  split; [apply nth_error_Some; congruence|]. exists e. split; auto. apply in_map_iff. now exists (co, y).
Qed.
Lemma dist_watch_all l es n e p : nth_error es n = Some e -> In p (snd e) -> exists i, widx i = n /\ In (snd p, i) (cs_watches (CDistinct l es)).
Proof.
  intros NE I. exists (if 0 <? fst p then Z.of_nat n + 1 else - Z.of_nat n - 1). split; [unfold widx; destruct (0 <? fst p); lia|].
  cbn [cs_watches]. apply in_concat. eexists. split.
  - apply in_map_iff. exists (n, e). split; [reflexivity|].
    assert (G : forall m es n, nth_error es n = Some e -> In ((m + n)%nat, e) (combine (seq m (length es)) es)).
    { clear. intros m es. revert m. induction es as [|f es IH]; intros m [|n] H; cbn [nth_error] in H; try discriminate; cbn [length seq combine In].
      - injection H as ->. left. f_equal. lia.
      - right. replace (m + S n)%nat with (S m + n)%nat by lia. auto. }
    apply (G 0%nat es n NE).
  - apply in_map_iff. exists p. split; auto.
Qed.
Lemma dinv_pass G s s' x : bcore s -> dinv G s -> cur_level s' = cur_level s -> (forall y, y <> x -> li s' y = li s y /\ ui s' y = ui s y) ->
  (forall c, match css s c, css s' c with
    | Some k, Some k' => c_def k' = c_def k /\ (is_dist (c_def k) -> marked (if removable_at (cur_level s) k then [] else ents c (wat s x)) k k')
    | None, None => True
    | _, _ => False end) -> dinv G s'.
Proof.
  intros B D C O M. apply (dinv_step G s s' D). intros c k' l es K' E. specialize (M c). rewrite K' in M. destruct (css s c) as [k|] eqn:K; [|easy].
  destruct M as [M1 M2]. assert (E0 : c_def k = CDistinct l es) by congruence. destruct M2 as [_ N2 N3 N4 N5]; [now rewrite E0|].
  assert (WI : forall i, In i (map widx (if removable_at (cur_level s) k then [] else ents c (wat s x))) -> (i < length es)%nat).
  { intros i I. apply in_map_iff in I as (j & <- & I). destruct (removable_at _ k) eqn:R; [easy|].
    apply (Permutation_in _ (all_watches s c k x B K R)), wvals_in in I. rewrite E0 in I. now apply dist_watch_idx in I. }
  exists k. split; [easy|]. split; [easy|]. split; [|split; [easy|split; [|split]]].
  - split; intros (k1 & X & Y).
    + exists k'. split; auto. rewrite C, (removable_eq _ k k' N2). congruence.
    + exists k. split; auto. rewrite <- C, <- (removable_eq _ k k' N2). congruence.
  - intros F. apply Forall_forall. intros i I. apply N5 in I as [I|I]; [|auto]. rewrite Forall_forall in F. auto.
  - intros i I. apply N4. auto.
  - intros i e NE ND (k1 & X & Y). replace k1 with k in * by congruence. rewrite Y in N4. intros p I. apply O. intros PX. apply ND, N4. right.
    destruct (dist_watch_all l es i e p NE I) as (j & <- & J). apply in_map. apply (Permutation_in _ (Permutation_sym (all_watches s c k x B K Y))).
    apply wvals_in. rewrite E0, <- PX. exact J.
Qed.
Lemma dinv_integrate_lower G s x : sinv G s -> dinv G s -> dinv G (integrate_lower s x).
Proof.
  intros S D. assert (B := core_b _ _ (proj1 S)). unfold integrate_lower, update_constraints.
  destruct (update_watches _ _ _ _ s) as [ws s1] eqn:E. destruct (update_watches_spec _ _ _ _ _ _ _ E) as (_ & _ & F & _). { intros i c. apply (b_wref s B). }
  apply (dinv_pass G s _ x B D).
  - change (cur_level s1 = cur_level s). apply (wframe_get cur_level (fun _ => eq_refl) _ _ F).
  - intros y N. unfold li, ui. cbn [vst ldiff udiff set_ldiff set_wat]. rewrite upd_other by auto.
    rewrite (wframe_get vst (fun _ => eq_refl) _ _ F), (wframe_get ldiff (fun _ => eq_refl) _ _ F), (wframe_get udiff (fun _ => eq_refl) _ _ F). auto.
  - intros c. apply (update_watches_marked _ _ _ c _ _ _ _ E).
Qed.
Lemma dinv_integrate_upper G s x : sinv G s -> dinv G s -> dinv G (integrate_upper s x).
Proof.
  intros S D. assert (B := core_b _ _ (proj1 S)). unfold integrate_upper, update_constraints.
  destruct (update_watches _ _ _ _ s) as [ws s1] eqn:E. destruct (update_watches_spec _ _ _ _ _ _ _ E) as (_ & _ & F & _). { intros i c. apply (b_wref s B). }
  apply (dinv_pass G s _ x B D).
  - change (cur_level s1 = cur_level s). apply (wframe_get cur_level (fun _ => eq_refl) _ _ F).
  - intros y N. unfold li, ui. cbn [vst ldiff udiff set_udiff set_wat]. rewrite upd_other by auto.
    rewrite (wframe_get vst (fun _ => eq_refl) _ _ F), (wframe_get ldiff (fun _ => eq_refl) _ _ F), (wframe_get udiff (fun _ => eq_refl) _ _ F). auto.
  - intros c. apply (update_watches_marked _ _ _ c _ _ _ _ E).
Qed.
Lemma dinv_integrate G s : sinv G s -> dinv G s -> dinv G (integrate s).
Proof.
  intros S D. unfold integrate.
  assert (U : forall xs s, sinv G s -> dinv G s -> dinv G (fold_left integrate_upper xs s)).
  { induction xs as [|x xs IH]; intros t T DT; cbn [fold_left]; auto. apply IH; [now apply integrate_upper_sinv|now apply dinv_integrate_upper]. }
  assert (L : forall xs s, sinv G s -> dinv G s -> dinv G (fold_left integrate_lower xs s)).
  { induction xs as [|x xs IH]; intros t T DT; cbn [fold_left]; auto. apply IH; [now apply integrate_lower_sinv|now apply dinv_integrate_lower]. }
  destruct (integrate_uppers G (inu s) s S) as (S1 & I1 & I2 & X1). set (s1 := fold_left integrate_upper (inu s) s) in *.
  assert (D1 : dinv G s1) by now apply U.
  apply (dinv_fields G (fold_left integrate_lower (inl (set_inu [] s1)) (set_inu [] s1))); try reflexivity. apply L.
  - replace (set_inu [] s1) with (set_inl (inl s1) (set_inu [] s1)) by now destruct s1. apply sinv_set_in; auto.
    + intros x N. apply (b_in s1 (core_b _ _ (proj1 S1))); auto.
    + intros x N. destruct N. destruct (X1 x) as (_ & X & X'). destruct (Z.eq_dec (udiff s x) 0); auto. apply X. now apply (b_in s (core_b _ _ (proj1 S))).
  - now apply (dinv_fields G s1).
Qed.

(** ** Propagation *)

Lemma live_down G : forall s c k, core G s -> css s c = Some k -> removable_at (cur_level s) k = false -> Forall (live c) (s :: G).
Proof.
  induction G as [|s0 G IH]; intros s c k C K I.
  - repeat constructor. exists k. split; auto.
  - constructor; [exists k; split; auto|]. destruct C as (B & _ & OP & C0).
    destruct (o_inas _ _ OP) as (seg & _ & P). specialize (P c). rewrite K in P. destruct (css s0 c) as [k0|] eqn:K0; [|easy]. destruct P as (_ & P1 & P2 & _).
    apply (IH s0 c k0 C0 K0). apply removable_false. apply removable_false in I. destruct (in_dec Nat.eq_dec c seg) as [X|X]; [left; now apply P1 in X|].
    rewrite <- (P2 X). destruct (o_lvl _ _ OP) as (_ & _ & LT). lia.
Qed.
Lemma claims_live c a e G : forall (D : Prop) t, Forall (live c) (t :: G) -> a = einit (li t) (ui t) e \/ D -> claims c a e D t G.
Proof.
  induction G as [|t1 G IH]; intros D t F H; split; auto. inversion_clear F as [|? ? F1 F2]. apply IH; auto.
  destruct (differs_dec t t1 e) as [X|X]; [right; now right|]. rewrite (einit_same t t1 e X). tauto.
Qed.

Section Propagation.
Context (srt : (ival -> Z) -> list ival -> list ival) (O : oracle) (cfg : config) (chk sol : bool).

Lemma andthen_css r f : css (snd r) = css (snd (andthen r f)) \/ (exists s, r = (Ok true, s) /\ andthen r f = f s).
Proof. destruct r as [[[]| |] s]; cbn; eauto. Qed.
Lemma prop_distinct_data c k l es s r s' : css s c = Some k -> c_def k = CDistinct l es -> prop_distinct O cfg c s = (r, s') ->
  exists tup tlo, css s' c = Some (set_dist (dist_refresh s es (c_dirty k) (c_asg k)) [] tup tlo k) /\ incl (tlo ++ tup) (c_tlo k ++ c_tup k).
Proof.
  intros K E P. unfold prop_distinct in P. rewrite K, E in P. set (asg := dist_refresh _ _ _ _) in *. set (k1 := set_dist asg [] (c_tup k) (c_tlo k) k) in *.
  set (s1 := set_cs c k1 s) in *. assert (K1 : css s1 c = Some k1) by apply set_cs_same.
  assert (DV : dvars es (fun _ => True)) by (intros ? ? ? ?; exact Logic.I).
  assert (KEEP : forall sgn f is t o t', dist_items O cfg l sgn f es asg (c_tlo k) (c_tup k) is t = (o, t') -> css t' = css t).
  { intros sgn f is t o t' X. now apply (dist_items_comm O cfg (fun _ => True)), comm_frame in X as (_ & X & _). }
  destruct (dist_items O cfg l (-1) fst es asg (c_tlo k) (c_tup k) (c_tlo k) s1) as [o1 s2] eqn:E1. assert (C2 := KEEP _ _ _ _ _ _ E1).
  assert (DONE : forall t, css t = css s1 -> exists tup tlo, css t c = Some (set_dist asg [] tup tlo k) /\ incl (tlo ++ tup) (c_tlo k ++ c_tup k)).
  { intros t X. exists (c_tup k), (c_tlo k). rewrite X, K1. split; [reflexivity|apply incl_refl]. }
  destruct o1 as [[]|e|]; cbn [andthen] in P; try (injection P as _ <-; now apply DONE).
  destruct (dist_items O cfg l 1 snd es asg (c_tlo k) (c_tup k) (c_tup k) s2) as [o2 s3] eqn:E2. assert (C3 := KEEP _ _ _ _ _ _ E2).
  destruct o2 as [[]|e|]; cbn [andthen] in P; try (injection P as _ <-; apply DONE; congruence).
  injection P as _ <-. exists [], []. rewrite set_cs_same. split; [reflexivity|]. now intros ? [].
Qed.
Lemma refresh_nth s es dirty asg i e a : length asg = length es -> nth_error es i = Some e -> nth_error (dist_refresh s es dirty asg) i = Some a ->
  (In i dirty /\ a = dist_init s e) \/ (~ In i dirty /\ nth_error asg i = Some a).
Proof.
  intros L NE NA. unfold dist_refresh in NA.
  assert (G : forall es asg m i, length asg = length es -> nth_error es i = Some e ->
    nth_error (map (fun p => let '(i, (e, a)) := p in if memb i dirty then dist_init s e else a) (combine (seq m (length es)) (combine es asg))) i = Some a ->
    (memb (m + i) dirty = true /\ a = dist_init s e) \/ (memb (m + i) dirty = false /\ nth_error asg i = Some a)).
  { clear. induction es as [|e0 es IH]; intros [|a0 asg] m [|i] L NE NA; cbn [length nth_error seq combine map] in *; try discriminate.
    - injection NE as ->. injection NA as <-. rewrite Nat.add_0_r. destruct (memb m dirty); auto.
    - injection L as L. replace (m + S i)%nat with (S m + i)%nat by lia. apply IH; auto. }
  apply (G es asg 0%nat i L NE) in NA. cbn [Nat.add] in NA. unfold memb in NA. destruct NA as [[M X]|[M X]].
  - left. apply existsb_exists in M as (j & I & Q). apply Nat.eqb_eq in Q. now subst.
  - right. split; auto. intros I. assert (existsb (Nat.eqb i) dirty = true) by (apply existsb_exists; exists i; split; auto; apply Nat.eqb_refl). congruence.
Qed.
Lemma einit_settled s e : settled s -> einit (li s) (ui s) e = dist_init s e.
Proof.
  intros S. unfold einit, dist_init. rewrite <- low_sum_lo, <- low_sum_hi. f_equal; f_equal; apply low_ext; intros x; now apply settled_li.
Qed.
Lemma refresh_len s es dirty asg : length asg = length es -> length (dist_refresh s es dirty asg) = length es.
Proof. intros L. unfold dist_refresh. rewrite map_length, combine_length, seq_length, combine_length, L. lia. Qed.

Lemma dinv_prop_con G c k s r s' : core G s -> settled s -> dinv G s -> css s c = Some k -> removable_at (cur_level s) k = false -> prop_con srt O cfg chk c s = (r, s') -> dinv G s'.
Proof.
  intros C ST D K I P. assert (F := prop_con_frame O cfg srt chk c k s r s' K P). destruct F as [F1 _ _ F4 (k' & K' & KP & X)].
  assert (CU : cur_level s' = cur_level s) by apply (same3_get cur_level (fun _ => eq_refl) _ _ F1).
  assert (LI : forall x, li s' x = li s x /\ ui s' x = ui s x).
  { intros x. unfold li, ui. pose proof (proj2 F1 x) as V. apply vb_fields in V as (-> & -> & _).
    rewrite (same3_get ldiff (fun _ => eq_refl) _ _ F1), (same3_get udiff (fun _ => eq_refl) _ _ F1). auto. }
  intros d kd l es KD E. destruct (Nat.eq_dec d c) as [->|N].
  - replace kd with k' in * by congruence. assert (E0 : c_def k = CDistinct l es) by (rewrite <- (proj1 KP); auto).
    unfold prop_con in P. rewrite K, E0 in P. destruct (prop_distinct_data c k l es s r s' K E0 P) as (tup & tlo & Q & INC). replace k' with (set_dist (dist_refresh s es (c_dirty k) (c_asg k)) [] tup tlo k) in * by congruence.
    destruct (D c k l es K E0) as [A1 A2 A3]. constructor; cbn [c_asg c_dirty c_tlo c_tup set_dist].
    + now apply refresh_len.
    + rewrite Forall_forall in *. auto.
    + intros i e a NE NA _. assert (LD := live_down G s c k C K I). assert (LV : live c s) by now inversion LD.
      assert (EA : a = einit (li s) (ui s) e).
      { destruct (refresh_nth s es _ _ i e a A1 NE NA) as [[_ ->]|[ND NA']]; [symmetry; now apply einit_settled|].
        specialize (A3 i e a NE NA' ND). destruct G; destruct A3 as [A3 _]; destruct (A3 LV); tauto. }
      apply claims_top with s.
      * split; [|now intros]. intros _. exists (set_dist (dist_refresh s es (c_dirty k) (c_asg k)) [] tup tlo k). split; auto. rewrite CU. exact I.
      * intros _ p _. apply LI.
      * apply claims_live; auto.
  - rewrite (F4 d N) in KD. destruct (D d kd l es KD E) as [A1 A2 A3]. constructor; auto. intros i e a NE NA ND. apply claims_top with s; auto.
    + unfold live. rewrite CU, (F4 d N). tauto.
    + intros _ p _. apply LI.
    + now apply (A3 i).
Qed.
Lemma dinv_mark_inactive G c k s : css s c = Some k -> dinv G s -> dinv G (mark_inactive c s).
Proof.
  intros K D. unfold mark_inactive. rewrite K. destruct (_ && negb _) eqn:Q; auto. apply andb_true_iff in Q as [_ Q]. unfold marked_inactive in Q.
  assert (I : c_inact k = 0%nat) by (destruct (Nat.ltb_spec 0 (c_inact k)); [discriminate|lia]). apply (dinv_step G s); auto. intros d kd l es KD E. cbn [css set_ina] in KD.
  destruct (Nat.eq_dec d c) as [->|N].
  - rewrite set_cs_same in KD. injection KD as <-. exists k. repeat split; auto using incl_refl.
    + intros _. exists (set_inact (S (cur_level s)) k). cbn [css set_ina]. rewrite set_cs_same. split; auto. apply removable_false. right. cbn. change (cur_level _) with (cur_level s). lia.
    + intros _. exists k. split; auto. apply removable_false. auto.
  - rewrite set_cs_other in KD by auto. exists kd. repeat split; auto using incl_refl.
    + intros (k1 & X & Y). exists k1. cbn [css set_ina]. rewrite set_cs_other by auto. auto.
    + intros (k1 & X & Y). cbn [css set_ina] in X. rewrite set_cs_other in X by auto. exists k1. auto.
Qed.
Lemma dinv_run_todo G cs : forall ret s o s', core G s -> settled s -> tod_run cs s -> dinv G s -> run_todo srt O cfg chk cs ret s = (o, s') -> dinv G s'.
Proof.
  induction cs as [|c cs IH]; intros ret s o s' C ST T D E; cbn [run_todo] in E.
  - now injection E as <- <-.
  - destruct (clear_todo_tod c cs s T) as (T1 & k & K & KT & KI).
    assert (C1 := clear_todo_core G c s C). assert (S1 := clear_todo_same3 c s). assert (ST1 := settled_same3 _ _ S1 ST). assert (D1 := dinv_clear_todo G c s D).
    set (s1 := clear_todo s c) in *. destruct ret; cbn [negb] in E; [|eapply IH; eauto].
    rewrite K in E. destruct (is_false _ _ _).
    + assert (F := mark_inactive_own O cfg c k s1 K). assert (F1 := cf_same _ _ _ _ _ _ F). apply IH in E; auto.
      * now apply (cframe_core O cfg G c k s1).
      * now apply settled_same3 with s1.
      * now apply (cframe_tod O cfg cs c k s1).
      * now apply dinv_mark_inactive with k.
    + destruct (prop_con srt O cfg chk c s1) as [o1 s2] eqn:P. assert (F := prop_con_frame O cfg srt chk c k s1 o1 s2 K P).
      assert (C2 : core G s2) by now apply (cframe_core O cfg G c k s1).
      assert (ST2 : settled s2) by (apply settled_same3 with s1; [apply F|auto]).
      assert (T2 : tod_run cs s2) by now apply (cframe_tod O cfg cs c k s1).
      assert (D2 : dinv G s2). { apply (dinv_prop_con G c k s1 o1 s2); auto. now rewrite (same3_get cur_level (fun _ => eq_refl) _ _ S1). }
      destruct o1 as [b|e|]; [|injection E as <- <-; auto..]. eapply IH; eauto.
Qed.
End Propagation.
