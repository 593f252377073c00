(** Steps that prepare a search keep the invariants. *)
From Verif Require Import Base Util IntervalSet VarState Terms TermsSpec Solver OrderSpec OrderProofs1 OrderProofs2 Orders Sum PropProofs ConSpec
  Distinct DistinctProofs2 Disjoint Objective Search SearchSpec SearchFrame SearchGrow SearchInv SearchInv2 SearchInv3 SearchInv4 SearchInv5 SearchUndo.
From Coq Require Import Permutation.
Open Scope Z_scope.

Lemma core_nil s : core [] s <-> bcore s /\ lvls s = [mkl 0 0 0 0 0].
Proof. reflexivity. Qed.
Lemma no_removed s : bcore s -> lvls s = [mkl 0 0 0 0 0] -> remw s = [].
Proof.
  intros B L. apply in_nil. intros ((x, i), c) I. apply (b_rem s B) in I as (k & _ & I). unfold cur_level in I. rewrite L in I. cbn in I. lia.
Qed.
Lemma low_ext_in L U L' U' es : (forall x, In x (map snd es) -> L' x = L x) -> (forall x, In x (map snd es) -> U' x = U x) -> low L' U' es = low L U es.
Proof.
  intros A B. unfold low. f_equal. apply map_ext_in. intros (co, x) I. cbn [fst snd].
  assert (In x (map snd es)) by (apply in_map_iff; now exists (co, x)). now rewrite A, B.
Qed.
Lemma sum_vars d es : sum_es d = Some es -> cvars d = map snd es.
Proof. destruct d; cbn; intros E; try discriminate; now injection E as <-. Qed.

Lemma init_sinv : sinv [] init_state.
Proof.
  assert (X : forall (P : cst -> Prop), False <-> exists k, None = Some k /\ P k) by (intros P; split; [easy|now intros (k & K & _)]).
  split; [split; [|reflexivity]|]; constructor; cbn; try easy; try (intros; lia); try constructor; try easy; intros (k & K & _); discriminate.
Qed.

Lemma add_variable_sinv mn mx s : sinv [] s -> settled s -> mn <= mx -> sinv [] (snd (add_variable mn mx s)).
Proof.
  intros [[B L] T] (S1 & S2 & S3) M. unfold add_variable. cbn [snd]. set (x := nvars s). set (s' := set_udiff _ _).
  assert (V : forall y, y <> x -> vst s' y = vst s y) by (intros y N; unfold s', set_vs; cbn [vst set_udiff set_ldiff set_wat set_vst]; now rewrite upd_other).
  assert (VX : vst s' x = mkvs mn mx [] [] []) by (unfold s', set_vs; cbn [vst set_udiff set_ldiff set_wat set_vst]; now rewrite upd_same).
  assert (D : forall y, ldiff s' y = 0 /\ udiff s' y = 0).
  { intros y. unfold s'. cbn [ldiff udiff set_udiff set_ldiff]. unfold upd. destruct (Nat.eqb y x); [auto|apply S3]. }
  assert (W : forall y, wat s' y = if Nat.eqb y x then [] else wat s y) by reflexivity.
  assert (R : remw s' = []) by (now apply no_removed in L). assert (R0 : remw s = []) by exact R.
  split; [split; [|exact L]|destruct T; now constructor]. destruct B. constructor; auto.
  - intros y Y. destruct (Nat.eq_dec y x) as [->|N]; [now rewrite VX|]. rewrite V by auto. apply b_bnd. cbn in Y. lia.
  - intros y. destruct (D y). lia.
  - intros y. destruct (D y). lia.
  - intros y p. destruct (Nat.eq_dec y x) as [->|N]; [rewrite VX; cbn; tauto|]. rewrite V by auto. apply b_stk.
  - intros y i c. rewrite W. destruct (Nat.eqb y x); [easy|]. apply b_wref.
  - intros c k K. cbn. eapply Forall_impl; [|apply (b_vars c k K)]. cbn. lia.
  - intros c k y K. rewrite R, W. change (css s c = Some k) in K. specialize (b_watch c k y K). rewrite R0 in b_watch. cbn in *.
    destruct (Nat.eqb_spec y x) as [->|N]; auto. assert (E : wvals x (cs_watches (c_def k)) = []).
    { apply in_nil. intros i I. apply wvals_in, watches_vars in I. pose proof (b_vars c k K) as F. rewrite Forall_forall in F. apply F in I. unfold x in I. lia. }
    rewrite E. constructor.
  - intros c k es K E RE. destruct (b_sum c k es K E RE) as [A1 A2].
    assert (F : forall y, In y (map snd es) -> li s' y = li s y /\ ui s' y = ui s y).
    { intros y I. rewrite <- (sum_vars _ _ E) in I. pose proof (b_vars c k K) as F. rewrite Forall_forall in F. apply F in I.
      unfold li, ui. rewrite V by (unfold x; lia). destruct (D y) as [-> ->]. destruct (S3 y) as [-> ->]. auto. }
    rewrite (low_ext_in (li s) (ui s) (li s') (ui s')) by (intros; now apply F). rewrite (low_ext_in (ui s) (li s) (ui s') (li s')) by (intros; now apply F). auto.
Qed.

(** ** Adding and removing constraints *)

Lemma wvals_cons x y i W : wvals x ((y, i) :: W) = if Nat.eqb y x then i :: wvals x W else wvals x W.
Proof. unfold wvals. cbn [filter fst]. now destruct (Nat.eqb y x). Qed.
Lemma add_watches_spec c W : forall s, let s' := fold_left (add_var_watch c) W s in
  s' = set_wat (wat s') s /\ forall e x, ents e (wat s' x) = ents e (wat s x) ++ (if Nat.eqb c e then wvals x W else []).
Proof.
  induction W as [|(y, i) W IH]; intros s; cbn [fold_left].
  - split; [now destruct s|]. intros e x. destruct (Nat.eqb c e); now rewrite app_nil_r.
  - destruct (IH (add_var_watch c s (y, i))) as [A B]. set (s' := fold_left _ _ _) in *. split; [rewrite A; reflexivity|].
    intros e x. rewrite B, wvals_cons. unfold add_var_watch. cbn [wat set_wat fst snd]. unfold upd. rewrite (Nat.eqb_sym y x).
    destruct (Nat.eqb_spec x y) as [->|N]; auto. rewrite ents_app, ents_cons, <- app_assoc. f_equal. destruct (Nat.eqb c e); reflexivity.
Qed.
Lemma cs_init_def s d : c_def (cs_init s d) = d /\ c_inact (cs_init s d) = 0%nat /\ c_todo (cs_init s d) = false.
Proof. now destruct d. Qed.
Lemma cs_init_sum s d es : sum_es d = Some es -> c_lo (cs_init s d) = sum_lo s es /\ c_hi (cs_init s d) = sum_hi s es.
Proof. destruct d; cbn; intros E; try discriminate; now injection E as <-. Qed.
Lemma add_constraint_sinv c d s : sinv [] s -> settled s -> Forall (fun x => x < nvars s)%nat (cvars d) -> sinv [] (add_constraint c d s).
Proof.
  intros [[B L] T] ST VA. unfold add_constraint. destruct (css s c) as [k|] eqn:K; [split; [split|]; auto|]. apply mark_todo_sinv.
  destruct (cs_init_def s d) as (I1 & I2 & I3). pose proof (cs_init_sum s d) as I4. set (k0 := cs_init s d) in *.
  set (s1 := set_l2c _ _). destruct (add_watches_spec c (cs_watches d) s1) as [F W]. set (s' := fold_left _ _ _) in *.
  assert (CS : css s' = upd (css s) c (Some k0)) by (rewrite F; reflexivity).
  assert (RW : remw s' = []) by (rewrite F; now apply no_removed in L).
  assert (R0 : remw s = []) by (now apply no_removed in L).
  assert (CL : cur_level s' = cur_level s) by (rewrite F; reflexivity).
  assert (LI : forall x, li s' x = li s x /\ ui s' x = ui s x) by (rewrite F; auto).
  assert (NC : forall x, ents c (wat s x) = []).
  { intros x. apply in_nil. intros i I. apply ents_in in I. destruct (b_wref s B x i c I). congruence. }
  assert (W' : forall e x, ents e (wat s' x) = ents e (wat s x) ++ (if Nat.eqb c e then wvals x (cs_watches d) else [])) by exact W. clear W.
  assert (L2 : l2c s' = l2c s ++ [(c_lit d, c)]) by (rewrite F; reflexivity).
  split; [split; [|rewrite F; exact L]|].
  - constructor; rewrite ?CL, ?CS, ?RW, ?L2; try (rewrite F; apply B; fail); try (rewrite F; cbn; eapply B; fail).
    + intros e k. destruct (Nat.eq_dec e c) as [->|N]; [rewrite upd_same|rewrite upd_other by auto; apply B]. intros E. injection E as <-. lia.
    + intros x i e I. apply ents_in in I. rewrite W' in I. destruct (Nat.eq_dec e c) as [->|N]; [rewrite upd_same; eauto|]. rewrite upd_other by auto.
      destruct (Nat.eqb_spec c e) as [E|_]; [congruence|]. rewrite app_nil_r in I. apply ents_in in I. now apply (b_wref s B) in I.
    + easy.
    + rewrite map_app. cbn [map snd]. apply (Permutation_NoDup (Permutation_cons_append _ c)). constructor; [|apply B].
      intros I. apply in_map_iff in I as ((l, e) & E & I). cbn in E. subst e. apply (b_l2c s B) in I as (k & K' & _). congruence.
    + intros l e. rewrite in_app_iff. cbn [In]. destruct (Nat.eq_dec e c) as [->|N].
      * rewrite upd_same. split.
        -- intros [I|[I|[]]]; [|injection I as <-; exists k0; now rewrite I1]. apply (b_l2c s B) in I as (k & K' & _). congruence.
        -- intros (k & E & ->). injection E as <-. rewrite I1. auto.
      * rewrite upd_other, (b_l2c s B) by auto. intuition. congruence.
    + intros e k. replace (nvars s') with (nvars s) by (rewrite F; reflexivity). destruct (Nat.eq_dec e c) as [->|N]; [rewrite upd_same|rewrite upd_other by auto; apply B].
      intros E. injection E as <-. now rewrite I1.
    + intros e k x E. rewrite W'. cbn. rewrite app_nil_r. destruct (Nat.eq_dec e c) as [->|N].
      * rewrite upd_same in E. injection E as <-. now rewrite I1, NC, Nat.eqb_refl.
      * rewrite upd_other in E by auto. destruct (Nat.eqb_spec c e) as [X|_]; [congruence|]. rewrite app_nil_r.
        pose proof (b_watch s B e k x E) as P. now rewrite R0, app_nil_r in P.
    + intros e k es E SE RE. destruct (Nat.eq_dec e c) as [->|N].
      * rewrite upd_same in E. injection E as <-. rewrite I1 in SE. destruct (I4 es SE) as [-> ->].
        rewrite <- low_sum_lo, <- low_sum_hi. split; apply low_ext; intros x; destruct (LI x) as [X1 X2]; rewrite ?X1, ?X2; symmetry; now apply settled_li.
      * rewrite upd_other in E by auto. destruct (b_sum s B e k es E SE RE) as [A1 A2]. rewrite A1, A2. split; apply low_ext; intros x; symmetry; apply LI.
  - replace (tod s') with (tod s) by (rewrite F; reflexivity). destruct T as [T1 T2 T3]. constructor; auto; rewrite CS.
    + intros e k. destruct (Nat.eq_dec e c) as [->|N]; [rewrite upd_same|rewrite upd_other by auto; apply T1]. intros E X. injection E as <-. congruence.
    + intros e I. destruct (Nat.eq_dec e c) as [->|N]; [|rewrite upd_other by auto; auto]. destruct (T2 c I) as (k & K' & _). congruence.
    + intros e k. destruct (Nat.eq_dec e c) as [->|N]; [rewrite upd_same|rewrite upd_other by auto; apply T3]. intros E X. injection E as <-. congruence.
Qed.

Lemma remove1_perm {A} (p : A -> bool) (l : list A) : (exists a, In a l /\ p a = true) -> exists a, p a = true /\ In a l /\ Permutation l (a :: remove1 p l).
Proof.
  induction l as [|b l IH]; intros (a & I & P); [easy|]. cbn [remove1]. destruct (p b) eqn:Q; [exists b; split; [auto|split; [now left|reflexivity]]|].
  destruct IH as (a' & P' & I' & E). { exists a. destruct I as [->|I]; [congruence|auto]. }
  exists a'. split; [auto|]. split; [now right|]. rewrite perm_swap. now constructor.
Qed.
Lemma ents_perm c a b : Permutation a b -> Permutation (ents c a) (ents c b).
Proof.
  intros P. unfold ents. apply Permutation_map. induction P as [|x a b P IH|x y a|a b d P1 IH1 P2 IH2]; cbn [filter]; auto.
  - destruct (Nat.eqb _ _); auto.
  - repeat match goal with |- context [if ?b then _ else _] => destruct b end; auto using perm_swap.
  - now transitivity (filter (fun p => Nat.eqb (snd p) c) b).
Qed.
Lemma remove_watches_spec c W : forall s, (forall x, Permutation (ents c (wat s x)) (wvals x W)) ->
  let s' := fold_left (remove_var_watch c) W s in
  s' = set_wat (wat s') s /\ (forall x, ents c (wat s' x) = []) /\ forall e x, e <> c -> Permutation (ents e (wat s' x)) (ents e (wat s x)).
Proof.
  induction W as [|(y, i) W IH]; intros s P; cbn [fold_left].
  - split; [now destruct s|]. split; [|auto]. intros x. specialize (P x). now apply Permutation_sym, Permutation_nil in P.
  - set (p := fun w : Z * cid => (fst w =? i) && Nat.eqb (snd w) c). set (s1 := remove_var_watch c s (y, i)).
    assert (WY : wat s1 y = remove1 p (wat s y)) by (unfold s1, remove_var_watch; cbn [wat set_wat fst snd]; now rewrite upd_same).
    assert (WO : forall x, x <> y -> wat s1 x = wat s x) by (intros x N; unfold s1, remove_var_watch; cbn [wat set_wat fst snd]; now rewrite upd_other).
    assert (IY : In (i, c) (wat s y)).
    { apply ents_in. eapply Permutation_in; [symmetry; apply P|]. rewrite wvals_cons, Nat.eqb_refl. now left. }
    destruct (remove1_perm p (wat s y)) as (w & PW & _ & PE). { exists (i, c). split; auto. unfold p. cbn. now rewrite Z.eqb_refl, Nat.eqb_refl. }
    assert (w = (i, c)). { unfold p in PW. apply andb_true_iff in PW as [P1 P2]. apply Z.eqb_eq in P1. apply Nat.eqb_eq in P2. destruct w. cbn in *. congruence. } subst w.
    rewrite <- WY in PE.
    destruct (IH s1) as (A & B & C).
    { intros x. specialize (P x). rewrite wvals_cons in P. destruct (Nat.eqb_spec y x) as [->|N]; [|now rewrite WO by auto].
      apply Permutation_cons_inv with i. rewrite <- P, (ents_perm c _ _ PE), ents_cons, Nat.eqb_refl. reflexivity. }
    set (s' := fold_left _ _ _) in *. split; [rewrite A; reflexivity|]. split; [exact B|].
    intros e x N. rewrite C by auto. destruct (Nat.eq_dec x y) as [->|NX]; [|now rewrite WO].
    rewrite (ents_perm e _ _ PE), ents_cons. destruct (Nat.eqb_spec c e); [congruence|reflexivity].
Qed.
Lemma remove1_in {A} (p : A -> bool) (l : list A) b : In b (remove1 p l) -> In b l.
Proof. induction l as [|a l IH]; cbn [remove1]; [easy|]. destruct (p a); cbn [In]; tauto. Qed.
Lemma remove1_other {A} (p : A -> bool) (l : list A) b : p b = false -> (In b (remove1 p l) <-> In b l).
Proof.
  intros P. induction l as [|a l IH]; cbn [remove1]; [easy|]. destruct (p a) eqn:Q; cbn [In]; rewrite ?IH; intuition; congruence.
Qed.
Lemma remove1_nodup_map {A B} (f : A -> B) (p : A -> bool) (l : list A) : NoDup (map f l) -> NoDup (map f (remove1 p l)).
Proof.
  induction l as [|a l IH]; cbn [remove1 map]; auto. intros N. inversion N as [|? ? N1 N2]; subst. destruct (p a); auto. cbn [map]. constructor; auto.
  intros I. apply N1. apply in_map_iff in I as (b & E & I). apply in_map_iff. exists b. split; auto. now apply remove1_in in I.
Qed.
Lemma remove1_count (c : cid) l : count_occ Nat.eq_dec l c = 1%nat -> count_occ Nat.eq_dec (remove1 (Nat.eqb c) l) c = 0%nat.
Proof.
  induction l as [|a l IH]; cbn [remove1 count_occ]; [easy|]. destruct (Nat.eqb_spec c a) as [<-|N].
  - destruct (Nat.eq_dec c c); [lia|easy].
  - cbn [count_occ]. destruct (Nat.eq_dec a c); [congruence|auto].
Qed.
Lemma remove_constraint_sinv c s s' : sinv [] s -> (forall k, css s c = Some k -> count_occ Nat.eq_dec (tod s) c = if c_todo k then 1%nat else 0%nat) -> remove_constraint c s = Ok s' -> sinv [] s'.
Proof.
  intros [[B L] T] FL. unfold remove_constraint. destruct (css s c) as [k|] eqn:K; [|discriminate]. specialize (FL k eq_refl).
  assert (R0 : remw s = []) by (now apply no_removed in L).
  destruct (remove_watches_spec c (cs_watches (c_def k)) s) as (F & WC & WO).
  { intros x. pose proof (b_watch s B c k x K) as P. now rewrite R0, app_nil_r in P. }
  set (s1 := fold_left _ _ _) in *. set (p := fun q : Z * cid => (fst q =? c_lit (c_def k)) && Nat.eqb (snd q) c). set (s2 := set_l2c _ s1).
  set (s3 := if marked_inactive k then _ else s2). set (s4 := if c_todo k then _ else s3). intros E. injection E as <-.
  assert (F3 : s3 = set_ina (ina s3) (set_l2c (remove1 p (l2c s)) (set_wat (wat s1) s))).
  { unfold s3, s2. rewrite F. destruct (marked_inactive k); reflexivity. }
  assert (F4 : s4 = set_tod (tod s4) s3) by (unfold s4; destruct (c_todo k); [reflexivity|now destruct s3]).
  set (s' := set_css _ s4).
  assert (FF : s' = set_css (upd (css s) c None) (set_tod (tod s4) (set_ina (ina s3) (set_l2c (remove1 p (l2c s)) (set_wat (wat s1) s))))).
  { unfold s'. rewrite F4, F3. reflexivity. }
  assert (INA : ina s' = ina s3) by (rewrite FF; reflexivity). assert (TOD : tod s' = tod s4) by (rewrite FF; reflexivity).
  assert (TO4 : forall e, e <> c -> (In e (tod s') <-> In e (tod s))).
  { intros e N. rewrite TOD. unfold s4. assert (X : tod s3 = tod s) by (rewrite F3; reflexivity). rewrite X. destruct (c_todo k); [|now rewrite X].
    cbn [tod set_tod]. apply remove1_other. apply Nat.eqb_neq. auto. }
  assert (CS : css s' = upd (css s) c None) by (rewrite FF; reflexivity).
  assert (CL : cur_level s' = cur_level s) by (rewrite FF; reflexivity).
  assert (CO : forall e k', css s' e = Some k' <-> e <> c /\ css s e = Some k').
  { intros e k'. rewrite CS. destruct (Nat.eq_dec e c) as [->|N]; [rewrite upd_same; split; [discriminate|tauto]|rewrite upd_other by auto; tauto]. }
  assert (WX : forall x, wat s' x = wat s1 x) by (rewrite FF; reflexivity).
  assert (L2 : l2c s' = remove1 p (l2c s)) by (rewrite FF; reflexivity).
  split; [split; [|rewrite FF; exact L]|].
  - constructor; rewrite ?CL; try (rewrite FF; apply B; fail).
    + intros e k' K'. apply CO in K' as [_ K']. now apply (b_max s B e).
    + intros x i e I. apply ents_in in I. rewrite WX in I. destruct (Nat.eq_dec e c) as [->|N]; [now rewrite WC in I|].
      apply (Permutation_in _ (WO e x N)), ents_in, (b_wref s B) in I as (k' & K'). exists k'. apply CO. auto.
    + intros x i e I. replace (remw s') with (remw s) in I by (rewrite FF; reflexivity). now rewrite R0 in I.
    + rewrite L2. apply remove1_nodup_map, B.
    + intros l e. rewrite L2. destruct (Nat.eq_dec e c) as [->|N].
      * split; [|intros (k' & K' & _); apply CO in K'; tauto]. intros I. exfalso.
        assert (IL : In (c_lit (c_def k), c) (l2c s)) by (apply (b_l2c s B); eauto).
        destruct (remove1_perm p (l2c s)) as ((l', c') & P1 & _ & PE). { exists (c_lit (c_def k), c). split; auto. unfold p. cbn. now rewrite Z.eqb_refl, Nat.eqb_refl. }
        unfold p in P1. cbn in P1. apply andb_true_iff in P1 as [_ P1]. apply Nat.eqb_eq in P1. subst c'.
        pose proof (Permutation_NoDup (Permutation_map snd PE) (b_l2cd s B)) as ND. cbn in ND. inversion ND as [|? ? N1 N2]; subst.
        apply N1. apply in_map_iff. now exists (l, c).
      * rewrite remove1_other by (unfold p; cbn; apply Nat.eqb_neq in N; now rewrite N, andb_false_r). rewrite (b_l2c s B). split; intros (k' & K' & E); exists k'; split; auto; apply CO in K' || apply CO; tauto.
    + intros e k' K'. apply CO in K' as [_ K']. replace (nvars s') with (nvars s) by (rewrite FF; reflexivity). now apply (b_vars s B e).
    + intros e k' x K'. apply CO in K' as [N K']. replace (remw s') with (remw s) by (rewrite FF; reflexivity). rewrite WX, (WO e x N). now apply (b_watch s B).
    + intros e k' es K' SE RE. apply CO in K' as [N K']. assert (LI : forall x, li s' x = li s x /\ ui s' x = ui s x) by (rewrite FF; auto).
      rewrite CL in RE || idtac. destruct (b_sum s B e k' es K' SE RE) as [A1 A2]. rewrite A1, A2. split; apply low_ext; intros x; symmetry; apply LI.
  - destruct T as [T1 T2 T3]. constructor.
    + intros e k' K' X. apply CO in K' as [N K']. apply TO4; auto. now apply (T1 e k').
    + intros e I. destruct (Nat.eq_dec e c) as [->|N].
      * exfalso. assert (X : count_occ Nat.eq_dec (tod s') c = 0%nat).
        { rewrite TOD. unfold s4. assert (X : tod s3 = tod s) by (rewrite F3; reflexivity). destruct (c_todo k); [|now rewrite X].
          cbn [tod set_tod]. rewrite X. now apply remove1_count. }
        apply (count_occ_not_In Nat.eq_dec) in X. auto.
      * apply TO4 in I; auto. destruct (T2 e I) as (k' & K' & Y). exists k'. split; auto. apply CO. auto.
    + intros e k' K'. apply CO in K' as [_ K']. now apply (T3 e).
Qed.

(** ** Removing translated constraints *)

Lemma remove_constraints_sinv rm s : sinv [] s -> sinv [] (remove_constraints rm s).
Proof.
  intros [[B L] T]. assert (R0 : remw s = []) by (now apply no_removed in L). unfold remove_constraints.
  set (s1 := set_wat _ s). destruct (activate_spec (ina s1) s1) as [F2 A2]. set (s2 := fold_left activate (ina s1) s1) in *.
  set (s3 := set_ina _ s2). destruct (clear_spec (tod s3) s3) as [F4 A4]. set (s4 := fold_left clear_todo (tod s3) s3) in *.
  set (s5 := set_tod _ s4). set (s6 := set_l2c _ s5). set (s' := set_css _ s6).
  assert (T3 : tod s3 = tod s) by (unfold s3; rewrite F2; reflexivity).
  assert (FF : s' = set_css (css s') (set_l2c (filter (fun p => negb (removed rm (snd p))) (l2c s)) (set_tod (filter (fun c => negb (removed rm c)) (tod s))
     (set_ina (ina s') (set_wat (fun x => filter (fun w => negb (removed rm (snd w))) (wat s x)) s))))).
  { unfold s', s6, s5. rewrite F4. unfold s3. rewrite F2. reflexivity. }
  assert (KK : forall c, if removed rm c then css s' c = None else match css s c, css s' c with
     | None, None => True
     | Some k, Some k' => c_def k' = c_def k /\ (c_inact k' = c_inact k \/ c_inact k' = 0%nat) /\ sumv k' = sumv k /\ c_todo k' = false
     | _, _ => False end).
  { intros c. assert (CS : css s' c = if removed rm c then None else css s4 c) by reflexivity. rewrite CS. destruct (removed rm c); auto.
    destruct (A2 c) as [A21 A22]. destruct (A4 c) as [A41 A42]. rewrite T3 in A41, A42. change (css s3 c) with (css s2 c) in *. change (css s1 c) with (css s c) in *.
    destruct (css s c) as [k|] eqn:K.
    - assert (X : exists k2, css s2 c = Some k2 /\ c_def k2 = c_def k /\ (c_inact k2 = c_inact k \/ c_inact k2 = 0%nat) /\ sumv k2 = sumv k /\ c_todo k2 = c_todo k).
      { destruct (in_dec Nat.eq_dec c (ina s1)) as [I|I]; [rewrite (A21 I)|rewrite (A22 I)]; eexists; (split; [reflexivity|]); auto. }
      destruct X as (k2 & K2 & X1 & X2 & X3 & X4). rewrite K2 in *.
      destruct (in_dec Nat.eq_dec c (tod s)) as [I|I]; [rewrite (A41 I)|rewrite (A42 I)]; cbn [option_map]; auto.
      repeat split; auto. rewrite X4. destruct (c_todo k) eqn:TK; auto. destruct I. now apply (t_in _ _ T c k).
    - assert (X : css s2 c = None) by (destruct (in_dec Nat.eq_dec c (ina s1)) as [I|I]; [now rewrite (A21 I)|now rewrite (A22 I)]).
      rewrite X in *. destruct (in_dec Nat.eq_dec c (tod s)) as [I|I]; [now rewrite (A41 I)|now rewrite (A42 I)]. }
  assert (K1 : forall c k', css s' c = Some k' -> removed rm c = false /\ exists k, css s c = Some k /\ c_def k' = c_def k /\ (c_inact k' = c_inact k \/ c_inact k' = 0%nat) /\ sumv k' = sumv k /\ c_todo k' = false).
  { intros c k' K'. specialize (KK c). rewrite K' in KK. destruct (removed rm c); [discriminate|]. split; auto. destruct (css s c) as [k|]; [|easy]. exists k. tauto. }
  assert (K2 : forall c k, css s c = Some k -> removed rm c = false -> exists k', css s' c = Some k').
  { intros c k K R. specialize (KK c). rewrite K, R in KK. destruct (css s' c) as [k'|]; [eauto|easy]. }
  assert (CL : cur_level s' = cur_level s) by (rewrite FF; reflexivity).
  assert (C0 : cur_level s = 0%nat) by (unfold cur_level; now rewrite L).
  assert (W : forall x, wat s' x = filter (fun w => negb (removed rm (snd w))) (wat s x)) by (rewrite FF; reflexivity).
  assert (L2 : l2c s' = filter (fun p => negb (removed rm (snd p))) (l2c s)) by (rewrite FF; reflexivity).
  assert (RW : remw s' = []) by (rewrite FF; exact R0).
  split; [split; [|rewrite FF; exact L]|].
  - constructor; rewrite ?CL, ?RW; try (rewrite FF; apply B; fail).
    + intros c k' K'. apply K1 in K' as (_ & k & K & _ & I & _). pose proof (b_max s B c k K). lia.
    + intros x i c I. rewrite W in I. apply filter_In in I as [I R]. apply (b_wref s B) in I as (k & K). apply negb_true_iff in R. eapply K2; eauto.
    + easy.
    + rewrite L2. pose proof (b_l2cd s B) as ND. revert ND. generalize (l2c s). clear. intros l. induction l as [|(a, c) l IH]; cbn [map filter]; auto.
      intros ND. inversion ND as [|? ? N1 N2]; subst. destruct (negb _); auto. cbn [map]. constructor; auto.
      intros I. apply N1. apply in_map_iff in I as (b & E & I). apply filter_In in I as [I _]. apply in_map_iff. eauto.
    + intros l c. rewrite L2, filter_In, (b_l2c s B). cbn [snd]. rewrite negb_true_iff. split.
      * intros ((k & K & ->) & R). destruct (K2 c k K R) as (k' & K'). exists k'. split; auto. apply K1 in K' as (_ & k1 & E1 & D & _). congruence.
      * intros (k' & K' & ->). apply K1 in K' as (R & k & K & D & _). split; auto. exists k. split; congruence.
    + intros c k' K'. apply K1 in K' as (_ & k & K & D & _). rewrite D. replace (nvars s') with (nvars s) by (rewrite FF; reflexivity). now apply (b_vars s B c).
    + intros c k' x K'. apply K1 in K' as (R & k & K & D & _). rewrite W, D. cbn [rems filter map]. unfold rems. cbn [filter map].
      rewrite (ents_filter_rem c (fun e => negb (removed rm e))), R. cbn [negb]. pose proof (b_watch s B c k x K) as P. now rewrite R0 in P.
    + intros c k' es K' E R. apply K1 in K' as (_ & k & K & D & I & SV & _). rewrite D in E.
      assert (RK : removable_at (cur_level s) k = false) by (apply removable_false; lia).
      destruct (b_sum s B c k es K E RK) as [A B1]. rewrite (sumv_some k' es), (sumv_some k es) in SV by congruence. injection SV as -> ->.
      rewrite A, B1, FF. split; reflexivity.
  - assert (TE : tod s' = filter (fun c => negb (removed rm c)) (tod s)) by (rewrite FF; reflexivity). rewrite TE. constructor.
    + intros c k' K' TK. apply K1 in K' as (_ & k & K & _ & _ & _ & X). congruence.
    + intros c I. apply filter_In in I as [I R]. apply negb_true_iff in R. destruct (t_ref _ _ T c I) as (k & K & Z0). destruct (K2 c k K R) as (k' & K'). exists k'. split; auto.
      apply K1 in K' as (_ & k1 & E1 & _ & X & _). replace k1 with k in * by congruence. lia.
    + intros c k' K' TK. apply K1 in K' as (_ & k & K & _ & _ & _ & X). congruence.
Qed.

(** ** Other steps *)

Lemma remove_entry_only k s : literals_only s (remove_entry k s).
Proof.
  unfold remove_entry. destruct (lmap s k) as [e|]; [|apply only_refl]. destruct (_ <? _); [|apply only_refl].
  eapply only_trans; [apply (only_erase (e_var e) (e_val e))|]. eapply only_trans; [apply only_litmap|]. now repeat split.
Qed.
Lemma update_sinv G s : sinv G s -> sinv G (solver_update s).
Proof.
  intros H. unfold solver_update. apply (sinv_only G (set_mlevel 0 (set_mbound None s))); [|apply (veq_sinv G s); auto; now constructor].
  generalize (set_mlevel 0 (set_mbound None s)), (zseq 1 (Z.to_nat (nxt s - 1))). clear. intros s ks. revert s.
  induction ks as [|k ks IH]; intros s; cbn [fold_left]; [apply only_refl|]. eapply only_trans; [apply remove_entry_only|apply IH].
Qed.
Lemma copy_l2c_eq s : bcore s -> copy_l2c s = l2c s.
Proof.
  intros B. unfold copy_l2c. rewrite <- (map_id (l2c s)) at 2. apply map_ext_in. intros (l, c) I. cbn [snd]. apply (b_l2c s B) in I as (k & -> & ->). reflexivity.
Qed.
Lemma copy_sinv m s s' : sinv [] m -> sinv [] s -> copy_state m s = Ok s' -> sinv [] s'.
Proof.
  intros [[B L] T] [[_ LS] _] E. unfold copy_state in E. rewrite L, LS, (copy_l2c_eq m B) in E. cbn in E. injection E as <-.
  split; [split|].
  - apply bcore_veq with m; auto. now constructor.
  - reflexivity.
  - destruct T. now constructor.
Qed.
