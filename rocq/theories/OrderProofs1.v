(** The table of order literals (update_litmap_, litmap_add_) and the composition of steps. *)
From Verif Require Import Base Util VarState VarStateProofs Terms TermsSpec Solver OrderSpec.
From Coq Require Import Sorting.Sorted.
Open Scope Z_scope.

(** Splitting conjunctions without unfolding definitions. *)
Ltac csplit := repeat match goal with |- _ /\ _ => split end.

(** ** Literals *)

Lemma lit_true_neg I l : l <> 0 -> (lit_true I (- l) <-> ~ lit_true I l).
Proof.
  unfold lit_true. intros N. destruct (0 <? l) eqn:E1, (0 <? - l) eqn:E2; [lia| | |lia].
  - rewrite Z.opp_involutive. destruct (I l); intuition congruence.
  - destruct (I (- l)); intuition congruence.
Qed.
Lemma lit_true_dec I l : lit_true I l \/ ~ lit_true I l.
Proof. unfold lit_true. destruct (0 <? l); [destruct (I l)|destruct (I (- l))]; auto; now right. Qed.
Lemma lit_true_agree n I J l : agree_below n I J -> below n l -> (lit_true I l <-> lit_true J l).
Proof.
  unfold agree_below, below, lit_true. intros A [N B]. destruct (0 <? l) eqn:E.
  - rewrite (A l) by lia. tauto.
  - rewrite (A (- l)) by lia. tauto.
Qed.
Lemma lit_true_1 I : lit_true I 1 <-> I 1 = true.
Proof. reflexivity. Qed.
Lemma lit_true_m1 I : lit_true I (- (1)) <-> I 1 = false.
Proof. reflexivity. Qed.
Lemma below_neg n l : below n l -> below n (- l).
Proof. unfold below. lia. Qed.
Lemma below_mono n m l : n <= m -> below n l -> below m l.
Proof. unfold below. lia. Qed.
Lemma agree_mono n m I J : n <= m -> agree_below m I J -> agree_below n I J.
Proof. unfold agree_below. intros H A i Hi. apply A. lia. Qed.
Lemma agree_refl n I : agree_below n I I.
Proof. easy. Qed.
Lemma agree_trans n I J K : agree_below n I J -> agree_below n J K -> agree_below n I K.
Proof. unfold agree_below. intros A B i Hi. now rewrite A, B. Qed.

Lemma clause_true_agree n I J c : agree_below n I J -> Forall (below n) c -> clause_true I c -> clause_true J c.
Proof.
  intros A F (l & Hl & T). exists l. split; [easy|]. rewrite Forall_forall in F.
  now apply (lit_true_agree n I J l A (F _ Hl)).
Qed.
Lemma wsum_agree n I J wl : agree_below n I J -> Forall (fun p => below n (fst p)) wl -> wsum I wl = wsum J wl.
Proof.
  intros A. induction 1 as [|[l w] r B F IH]; cbn; [easy|]. rewrite IH. f_equal. unfold below in B. cbn in B.
  destruct (0 <? l) eqn:E; [rewrite (A l) by lia|rewrite (A (- l)) by lia]; reflexivity.
Qed.
Lemma ev_true_agree n I J e : agree_below n I J -> ev_below n e -> ev_true I e -> ev_true J e.
Proof.
  intros A B. destruct e; cbn in *; auto.
  - now apply clause_true_agree with n.
  - destruct B as (B1 & B2). rewrite (wsum_agree n I J wl A B2), (lit_true_agree n I J l A B1). auto.
Qed.
Lemma ev_below_mono n m e : n <= m -> ev_below n e -> ev_below m e.
Proof.
  intros H. destruct e; cbn; auto.
  - intros F. eapply Forall_impl; [|exact F]. intros; now apply below_mono with n.
  - intros (A & F). split; [now apply below_mono with n|]. eapply Forall_impl; [|exact F]. intros; now apply below_mono with n.
Qed.

(** ** Sorted entries *)

Lemma in_unique m u l l' : sorted m -> In (u, l) m -> In (u, l') m -> l = l'.
Proof. intros S A B. apply m_find_in in A, B; auto. congruence. Qed.
Lemma in_m_set m v l u y : sorted m -> (In (u, y) (m_set m v l) <-> (u = v /\ y = l) \/ (u <> v /\ In (u, y) m)).
Proof.
  intros S. rewrite <- !m_find_in by auto using m_set_sorted. rewrite m_set_find by easy.
  destruct (u =? v) eqn:E; split.
  - intros H. injection H as <-. left. lia.
  - intros [[_ ->]|[N _]]; [easy|lia].
  - intros H. right. split; [lia|easy].
  - intros [[? _]|[_ H]]; [lia|easy].
Qed.
Lemma in_m_erase m v u y : sorted m -> (In (u, y) (m_erase m v) <-> u <> v /\ In (u, y) m).
Proof.
  intros S. rewrite <- !m_find_in by auto using m_erase_sorted. rewrite m_erase_find by easy.
  destruct (u =? v) eqn:E; split.
  - easy.
  - intros [N _]. lia.
  - intros H. split; [lia|easy].
  - now intros [_ H].
Qed.

Definition nz (m : list (Z * Z)) := forall u l, In (u, l) m -> l <> 0.

Lemma vlit_lt_spec v w : sorted (lits v) -> nz (lits v) ->
  (vlit_lt v w <> 0 /\ exists u, In (u, vlit_lt v w) (lits v) /\ u < w /\ forall u' l', In (u', l') (lits v) -> u' < w -> u' <= u) \/
  (vlit_lt v w = 0 /\ forall u' l', In (u', l') (lits v) -> w <= u').
Proof.
  intros S NZ. unfold vlit_lt, first_lit, vwith_lt.
  assert (D : descending (rev (filter (fun e => fst e <? w) (lits v)))) by now apply descending_rev, filter_sorted.
  assert (M : forall u l, In (u, l) (rev (filter (fun e => fst e <? w) (lits v))) <-> In (u, l) (lits v) /\ u < w).
  { intros u l. rewrite <- in_rev, filter_In. cbn. now rewrite Z.ltb_lt. }
  destruct (rev _) as [|[u l] r].
  - right. split; [easy|]. intros u' l' H. destruct (Z_lt_ge_dec u' w); [|lia]. now destruct (proj2 (M u' l')).
  - left. destruct (proj1 (M u l)) as (H1 & H2); [now left|]. split; [eapply NZ, H1|]. exists u. repeat split; auto.
    intros u' l' H' L. destruct (proj2 (M u' l') (conj H' L)) as [E|E]; [injection E; lia|].
    inversion D as [|? ? ? F]; subst. rewrite Forall_forall in F. apply F in E. cbn in E. lia.
Qed.
Lemma vlit_gt_spec v w : sorted (lits v) -> nz (lits v) ->
  (vlit_gt v w <> 0 /\ exists u, In (u, vlit_gt v w) (lits v) /\ w < u /\ forall u' l', In (u', l') (lits v) -> w < u' -> u <= u') \/
  (vlit_gt v w = 0 /\ forall u' l', In (u', l') (lits v) -> u' <= w).
Proof.
  intros S NZ. unfold vlit_gt, first_lit, vwith_gt.
  assert (D : sorted (filter (fun e => w <? fst e) (lits v))) by now apply filter_sorted.
  assert (M : forall u l, In (u, l) (filter (fun e => w <? fst e) (lits v)) <-> In (u, l) (lits v) /\ w < u).
  { intros u l. rewrite filter_In. cbn. now rewrite Z.ltb_lt. }
  destruct (filter _ _) as [|[u l] r].
  - right. split; [easy|]. intros u' l' H. destruct (Z_lt_ge_dec w u'); [|lia]. now destruct (proj2 (M u' l')).
  - left. destruct (proj1 (M u l)) as (H1 & H2); [now left|]. split; [eapply NZ, H1|]. exists u. repeat split; auto.
    intros u' l' H' L. destruct (proj2 (M u' l') (conj H' L)) as [E|E]; [injection E; lia|].
    inversion D as [|? ? ? F]; subst. rewrite Forall_forall in F. apply F in E. unfold klt in E. cbn in E. lia.
Qed.
Lemma vlit_prev_spec v w : sorted (lits v) -> nz (lits v) -> nearest_below (lits v) w (- TRUE_LIT) (vlit_prev v w).
Proof.
  intros S N. unfold vlit_prev. destruct (vlit_lt_spec v w S N) as [(Z0 & u & H)|(Z0 & H)].
  - replace (vlit_lt v w =? 0) with false by lia. left. now exists u.
  - rewrite Z0. cbn. right. now split.
Qed.
Lemma vlit_succ_spec v w : sorted (lits v) -> nz (lits v) -> nearest_above (lits v) w TRUE_LIT (vlit_succ v w).
Proof.
  intros S N. unfold vlit_succ. destruct (vlit_gt_spec v w S N) as [(Z0 & u & H)|(Z0 & H)].
  - replace (vlit_gt v w =? 0) with false by lia. left. now exists u.
  - rewrite Z0. cbn. right. now split.
Qed.

(** ** Linking the neighbours *)

(** Entries directly below and above [v] in [m]. *)
Definition just_below (m : list (Z * Z)) (v u : Z) := u < v /\ forall u' l', In (u', l') m -> u' < v -> u' <= u.
Definition just_above (m : list (Z * Z)) (v u : Z) := v < u /\ forall u' l', In (u', l') m -> v < u' -> u <= u'.

(** What update_litmap_ needs to know about the table: all about the literals of [x] except the one at [v]. *)
Record link_ok (x : var) (v : Z) (s : state) : Prop := {
  lk_sorted : sorted (lits (vst s x));
  lk_nz : nz (lits (vst s x));
  lk_key : forall k e, lmap s k = Some e -> 1 < k;
  lk_in : forall k e, lmap s k = Some e -> e_var e = x -> e_val e <> v -> In (e_val e, elit k e) (lits (vst s x));
  lk_entry : forall u y, In (u, y) (lits (vst s x)) -> u <> v -> Z.abs y <> 1 ->
    exists e, lmap s (Z.abs y) = Some e /\ e_var e = x /\ e_val e = u /\ e_pos e = (0 <? y) }.

(** The new table. *)
Definition relinked (x : var) (v : Z) (m : list (Z * Z)) (np ns : lit) (e e' : entry) : Prop :=
  e_var e' = e_var e /\ e_pos e' = e_pos e /\ e_val e' = e_val e /\
  (e_var e = x -> just_below m v (e_val e) -> e_succ e' = ns) /\
  (~ (e_var e = x /\ just_below m v (e_val e)) -> e_succ e' = e_succ e) /\
  (e_var e = x -> just_above m v (e_val e) -> e_prev e' = np) /\
  (~ (e_var e = x /\ just_above m v (e_val e)) -> e_prev e' = e_prev e).

Lemma update_litmap_spec x l v s ps s' :
  link_ok x v s -> update_litmap x l v s = (ps, s') ->
  let m := lits (vst s x) in
  nearest_below m v (- TRUE_LIT) (fst ps) /\ nearest_above m v TRUE_LIT (snd ps) /\
  exists L, s' = set_lmap L s /\
    (forall k, lmap s k = None -> L k = None) /\
    (forall k e, lmap s k = Some e -> exists e', L k = Some e' /\
       relinked x v m (if l =? 0 then fst ps else l) (if l =? 0 then snd ps else l) e e').
Proof.
  intros K E m. unfold update_litmap in E.
  destruct K as [KS KN KK KI KE]. fold m in KS, KN, KI, KE.
  pose proof (vlit_lt_spec (vst s x) v KS KN) as HP. pose proof (vlit_gt_spec (vst s x) v KS KN) as HN.
  fold m in HP, HN.
  set (p := vlit_lt (vst s x) v) in *. set (n := vlit_gt (vst s x) v) in *.
  assert (PP : nearest_below m v (- TRUE_LIT) (if p =? 0 then - TRUE_LIT else p)).
  { pose proof (vlit_prev_spec (vst s x) v KS KN) as H. exact H. }
  assert (NN : nearest_above m v TRUE_LIT (if n =? 0 then TRUE_LIT else n)).
  { pose proof (vlit_succ_spec (vst s x) v KS KN) as H. exact H. }
  set (ns := if l =? 0 then vlit_succ (vst s x) v else l) in *.
  set (np := if l =? 0 then vlit_prev (vst s x) v else l) in *.
  (* the entry of the smaller neighbour *)
  set (s1 := if p =? 0 then s else _) in E.
  assert (H1 : exists L, s1 = set_lmap L s /\ (forall k, lmap s k = None -> L k = None) /\
     (forall k e, lmap s k = Some e -> exists e', L k = Some e' /\ e_var e' = e_var e /\ e_pos e' = e_pos e /\ e_val e' = e_val e /\
        e_prev e' = e_prev e /\ (e_var e = x -> just_below m v (e_val e) -> e_succ e' = ns) /\
        (~ (e_var e = x /\ just_below m v (e_val e)) -> e_succ e' = e_succ e))).
  { assert (NO : (forall k e, lmap s k = Some e -> e_var e = x -> just_below m v (e_val e) -> False) ->
      s1 = s -> exists L, s1 = set_lmap L s /\ (forall k, lmap s k = None -> L k = None) /\
     (forall k e, lmap s k = Some e -> exists e', L k = Some e' /\ e_var e' = e_var e /\ e_pos e' = e_pos e /\ e_val e' = e_val e /\
        e_prev e' = e_prev e /\ (e_var e = x -> just_below m v (e_val e) -> e_succ e' = ns) /\
        (~ (e_var e = x /\ just_below m v (e_val e)) -> e_succ e' = e_succ e))).
    { intros Hno ->. exists (lmap s). split; [now destruct s|]. split; [easy|]. intros k e He. exists e.
      repeat split; auto. intros Ex Jb. destruct (Hno k e He Ex Jb). }
    destruct HP as [(Pz & u & Pi & Pu & Pm)|(Pz & Pm)].
    2:{ apply NO; [|unfold s1; now rewrite Pz]. intros k e He Ex (J1 & J2).
        pose proof (KI k e He Ex ltac:(lia)) as I1. apply Pm in I1. lia. }
    assert (U : forall k e, lmap s k = Some e -> e_var e = x -> just_below m v (e_val e) -> e_val e = u /\ elit k e = p).
    { intros k e He Ex (J1 & J2). pose proof (KI k e He Ex ltac:(lia)) as I1.
      pose proof (J2 _ _ Pi Pu). pose proof (Pm _ _ I1 J1). assert (e_val e = u) by lia. split; [easy|].
      rewrite H1 in I1. exact (in_unique _ _ _ _ KS I1 Pi). }
    destruct (Z.eq_dec (Z.abs p) 1) as [P1|P1].
    - apply NO.
      + intros k e He Ex J. destruct (U k e He Ex J) as (_ & Ul). pose proof (KK k e He). unfold elit in Ul. destruct (e_pos e); lia.
      + unfold s1. replace (p =? 0) with false by lia. unfold valid_entry, lookup. rewrite P1.
        destruct (lmap s 1) as [e|] eqn:E1; [pose proof (KK 1 e E1); lia|easy].
    - destruct (KE u p Pi ltac:(lia) P1) as (e0 & L0 & V0 & W0 & S0).
      assert (s1 = set_lmap (updz (lmap s) (Z.abs p) (Some (set_succ ns e0))) s) as ->.
      { unfold s1. replace (p =? 0) with false by lia. unfold valid_entry, lookup. rewrite L0, S0.
        now rewrite Bool.eqb_reflx. }
      eexists; split; [reflexivity|]. split.
      + intros k Hk. unfold updz. destruct (k =? Z.abs p) eqn:Ek; [|easy]. apply Z.eqb_eq in Ek as ->. congruence.
      + intros k e He. unfold updz. destruct (k =? Z.abs p) eqn:Ek.
        * apply Z.eqb_eq in Ek as ->. rewrite L0 in He. injection He as <-. exists (set_succ ns e0).
          repeat split; auto. intros N. destruct N. split; [easy|]. rewrite W0. now split.
        * exists e. repeat split; auto. intros Ex J. destruct (U k e He Ex J) as (_ & Ul).
          pose proof (KK k e He). unfold elit in Ul. destruct (e_pos e); lia. }
  destruct H1 as (L1 & -> & L1n & L1e).
  (* the entry of the larger neighbour *)
  cbn [lmap set_lmap] in E.
  set (s2 := if n =? 0 then set_lmap L1 s else _) in E.
  injection E as <- <-. cbn [fst snd].
  assert (Enp : np = if l =? 0 then (if p =? 0 then - TRUE_LIT else p) else l) by reflexivity.
  assert (Ens : ns = if l =? 0 then (if n =? 0 then TRUE_LIT else n) else l) by reflexivity.
  split; [exact PP|]. split; [exact NN|].
  change (exists L, s2 = set_lmap L s /\ (forall k, lmap s k = None -> L k = None) /\
    (forall k e, lmap s k = Some e -> exists e', L k = Some e' /\ relinked x v m np ns e e')).
  assert (NO : (forall k e, lmap s k = Some e -> e_var e = x -> just_above m v (e_val e) -> False) ->
      s2 = set_lmap L1 s -> exists L, s2 = set_lmap L s /\ (forall k, lmap s k = None -> L k = None) /\
      (forall k e, lmap s k = Some e -> exists e', L k = Some e' /\ relinked x v m np ns e e')).
  { intros Hno ->. exists L1. split; [easy|]. split; [easy|]. intros k e He.
    destruct (L1e k e He) as (e' & A & B1 & B2 & B3 & B4 & B5 & B6). exists e'. split; [easy|].
    repeat split; auto. intros Ex J. destruct (Hno k e He Ex J). }
  destruct HN as [(Pz & u & Pi & Pu & Pm)|(Pz & Pm)].
  2:{ apply NO; [|unfold s2; now rewrite Pz]. intros k e He Ex (J1 & J2).
      pose proof (KI k e He Ex ltac:(lia)) as I1. apply Pm in I1. lia. }
  assert (U : forall k e, lmap s k = Some e -> e_var e = x -> just_above m v (e_val e) -> e_val e = u /\ elit k e = n).
  { intros k e He Ex (J1 & J2). pose proof (KI k e He Ex ltac:(lia)) as I1.
    pose proof (J2 _ _ Pi Pu). pose proof (Pm _ _ I1 J1). assert (e_val e = u) by lia. split; [easy|].
    rewrite H1 in I1. exact (in_unique _ _ _ _ KS I1 Pi). }
  destruct (Z.eq_dec (Z.abs n) 1) as [P1|P1].
  - apply NO.
    + intros k e He Ex J. destruct (U k e He Ex J) as (_ & Ul). pose proof (KK k e He). unfold elit in Ul. destruct (e_pos e); lia.
    + unfold s2. replace (n =? 0) with false by lia. unfold valid_entry, lookup. rewrite P1. cbn [lmap set_lmap].
      destruct (lmap s 1) as [e|] eqn:E1; [pose proof (KK 1 e E1); lia|]. now rewrite (L1n 1 E1).
  - destruct (KE u n Pi ltac:(lia) P1) as (e0 & L0 & V0 & W0 & S0).
    destruct (L1e _ _ L0) as (e1 & A & B1 & B2 & B3 & B4 & B5 & B6).
    assert (s2 = set_lmap (updz L1 (Z.abs n) (Some (set_prev np e1))) s) as ->.
    { unfold s2. replace (n =? 0) with false by lia. unfold valid_entry, lookup. cbn [lmap set_lmap]. rewrite A, B2, S0.
      now rewrite Bool.eqb_reflx. }
    eexists; split; [reflexivity|]. split.
    + intros k Hk. unfold updz. destruct (k =? Z.abs n) eqn:Ek; [|now apply L1n]. apply Z.eqb_eq in Ek as ->. congruence.
    + intros k e He. unfold updz. destruct (k =? Z.abs n) eqn:Ek.
      * apply Z.eqb_eq in Ek as ->. rewrite L0 in He. injection He as <-. exists (set_prev np e1).
        split; [easy|]. unfold relinked. cbn. repeat split; auto.
        intros N. destruct N. split; [easy|]. rewrite W0. now split.
      * destruct (L1e k e He) as (e' & A' & C1 & C2 & C3 & C4 & C5 & C6). exists e'. split; [easy|].
        unfold relinked. repeat split; auto. intros Ex J. destruct (U k e He Ex J) as (_ & Ul).
        pose proof (KK k e He). unfold elit in Ul. destruct (e_pos e); lia.
Qed.

(** ** Neighbours after inserting or removing an entry *)

Section Near.
Context (m : list (Z * Z)) (v : Z) (S : sorted m).

Lemma above_set w l a : w <> v -> nearest_above m w TRUE_LIT a ->
  (just_below m v w -> nearest_above (m_set m v l) w TRUE_LIT l) /\
  (~ just_below m v w -> (exists y, In (w, y) m) -> nearest_above (m_set m v l) w TRUE_LIT a).
Proof.
  intros N H. split.
  - intros (J1 & J2). left. exists v. rewrite in_m_set by easy. split; [now left|]. split; [lia|].
    intros u' l' H' L'. apply in_m_set in H' as [(-> & _)|(N' & H')]; [lia| |easy].
    destruct (Z_lt_ge_dec u' v) as [Q|Q]; [|lia]. apply J2 in H'; lia.
  - intros NJ (y & Hy). destruct H as [(u & Hu & L & M)|(-> & M)].
    + assert (~ (w < v < u)). { intros B. apply NJ. split; [lia|]. intros u' l' H' L'.
        destruct (Z_le_gt_dec u' w); [lia|]. apply M in H'; lia. }
      destruct (Z.eq_dec u v) as [->|Nu].
      * exfalso. apply NJ. split; [lia|]. intros u' l' H' L'. destruct (Z_le_gt_dec u' w); [lia|]. apply M in H'; lia.
      * left. exists u. rewrite in_m_set by easy. split; [now right|]. split; [lia|].
        intros u' l' H' L'. apply in_m_set in H' as [(-> & _)|(N' & H')]; [lia| |easy]. now apply M in H'.
    + right. split; [easy|]. intros u' l' H'. apply in_m_set in H' as [(-> & _)|(N' & H')]; [|now apply M in H'|easy].
      destruct (Z_le_gt_dec v w); [lia|]. destruct NJ. split; [lia|]. intros. now apply M in H.
Qed.
Lemma below_set w l a : w <> v -> nearest_below m w (- TRUE_LIT) a ->
  (just_above m v w -> nearest_below (m_set m v l) w (- TRUE_LIT) l) /\
  (~ just_above m v w -> (exists y, In (w, y) m) -> nearest_below (m_set m v l) w (- TRUE_LIT) a).
Proof.
  intros N H. split.
  - intros (J1 & J2). left. exists v. rewrite in_m_set by easy. split; [now left|]. split; [lia|].
    intros u' l' H' L'. apply in_m_set in H' as [(-> & _)|(N' & H')]; [lia| |easy].
    destruct (Z_lt_ge_dec v u') as [Q|Q]; [|lia]. apply J2 in H'; lia.
  - intros NJ (y & Hy). destruct H as [(u & Hu & L & M)|(-> & M)].
    + assert (~ (u < v < w)). { intros B. apply NJ. split; [lia|]. intros u' l' H' L'.
        destruct (Z_le_gt_dec w u'); [lia|]. apply M in H'; lia. }
      destruct (Z.eq_dec u v) as [->|Nu].
      * exfalso. apply NJ. split; [lia|]. intros u' l' H' L'. destruct (Z_le_gt_dec w u'); [lia|]. apply M in H'; lia.
      * left. exists u. rewrite in_m_set by easy. split; [now right|]. split; [lia|].
        intros u' l' H' L'. apply in_m_set in H' as [(-> & _)|(N' & H')]; [lia| |easy]. now apply M in H'.
    + right. split; [easy|]. intros u' l' H'. apply in_m_set in H' as [(-> & _)|(N' & H')]; [|now apply M in H'|easy].
      destruct (Z_le_gt_dec w v); [lia|]. destruct NJ. split; [lia|]. intros. now apply M in H.
Qed.
Lemma above_set_self l a : nearest_above m v TRUE_LIT a -> nearest_above (m_set m v l) v TRUE_LIT a.
Proof.
  intros [(u & Hu & L & M)|(-> & M)].
  - left. exists u. rewrite in_m_set by easy. split; [right; split; [lia|easy]|]. split; [easy|].
    intros u' l' H' L'. apply in_m_set in H' as [(-> & _)|(N' & H')]; [lia| |easy]. now apply M in H'.
  - right. split; [easy|]. intros u' l' H'. apply in_m_set in H' as [(-> & _)|(N' & H')]; [lia|now apply M in H'|easy].
Qed.
Lemma below_set_self l a : nearest_below m v (- TRUE_LIT) a -> nearest_below (m_set m v l) v (- TRUE_LIT) a.
Proof.
  intros [(u & Hu & L & M)|(-> & M)].
  - left. exists u. rewrite in_m_set by easy. split; [right; split; [lia|easy]|]. split; [easy|].
    intros u' l' H' L'. apply in_m_set in H' as [(-> & _)|(N' & H')]; [lia| |easy]. now apply M in H'.
  - right. split; [easy|]. intros u' l' H'. apply in_m_set in H' as [(-> & _)|(N' & H')]; [lia|now apply M in H'|easy].
Qed.
Lemma above_erase w a b : w <> v -> nearest_above m w TRUE_LIT a -> nearest_above m v TRUE_LIT b ->
  (just_below m v w -> nearest_above (m_erase m v) w TRUE_LIT b) /\
  (~ just_below m v w -> nearest_above (m_erase m v) w TRUE_LIT a).
Proof.
  intros N A B. split.
  - intros (J1 & J2). destruct B as [(u & Hu & L & M)|(-> & M)].
    + left. exists u. rewrite in_m_erase by easy. repeat split; [lia|easy|lia|].
      intros u' l' H' L'. apply in_m_erase in H' as (N' & H'); [|easy].
      destruct (Z_lt_ge_dec u' v); [apply J2 in H'; lia|]. apply M in H'; lia.
    + right. split; [easy|]. intros u' l' H'. apply in_m_erase in H' as (N' & H'); [|easy].
      pose proof (M _ _ H'). apply J2 in H'; lia.
  - intros NJ. destruct A as [(u & Hu & L & M)|(-> & M)].
    + left. exists u. rewrite in_m_erase by easy.
      assert (u <> v). { intros ->. apply NJ. split; [lia|]. intros u' l' H' L'. destruct (Z_le_gt_dec u' w); [lia|]. apply M in H'; lia. }
      repeat split; [easy|easy|easy|]. intros u' l' H' L'. apply in_m_erase in H' as (N' & H'); [|easy]. now apply M in H'.
    + right. split; [easy|]. intros u' l' H'. apply in_m_erase in H' as (N' & H'); [|easy]. now apply M in H'.
Qed.
Lemma below_erase w a b : w <> v -> nearest_below m w (- TRUE_LIT) a -> nearest_below m v (- TRUE_LIT) b ->
  (just_above m v w -> nearest_below (m_erase m v) w (- TRUE_LIT) b) /\
  (~ just_above m v w -> nearest_below (m_erase m v) w (- TRUE_LIT) a).
Proof.
  intros N A B. split.
  - intros (J1 & J2). destruct B as [(u & Hu & L & M)|(-> & M)].
    + left. exists u. rewrite in_m_erase by easy. repeat split; [lia|easy|lia|].
      intros u' l' H' L'. apply in_m_erase in H' as (N' & H'); [|easy].
      destruct (Z_lt_ge_dec v u'); [apply J2 in H'; lia|]. apply M in H'; lia.
    + right. split; [easy|]. intros u' l' H'. apply in_m_erase in H' as (N' & H'); [|easy].
      pose proof (M _ _ H'). apply J2 in H'; lia.
  - intros NJ. destruct A as [(u & Hu & L & M)|(-> & M)].
    + left. exists u. rewrite in_m_erase by easy.
      assert (u <> v). { intros ->. apply NJ. split; [lia|]. intros u' l' H' L'. destruct (Z_le_gt_dec w u'); [lia|]. apply M in H'; lia. }
      repeat split; [easy|easy|easy|]. intros u' l' H' L'. apply in_m_erase in H' as (N' & H'); [|easy]. now apply M in H'.
    + right. split; [easy|]. intros u' l' H'. apply in_m_erase in H' as (N' & H'); [|easy]. now apply M in H'.
Qed.
End Near.
