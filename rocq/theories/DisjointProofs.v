(** Propagation of disjoint constraints. *)
From Coq Require Import Permutation Sorted.
From Verif Require Import Base Util VarState VarStateProofs Terms TermsSpec Solver OrderSpec IntervalSet IntervalSetProofs
  OrderProofs1 OrderProofs2 OrderProofs3 OrderProofs6 OrderProofs7 OrderProofs8 Sum PropProofs SumProofs SumProofs2 ConSpec Distinct DistinctProofs NonlinProofs Disjoint.
Open Scope Z_scope.
Notation lit := Z (only parsing).
Notation wf := OrderSpec.wf.

(** ** Counting *)

(** Disjoint intervals within a range are not longer than the range. *)
Definition points (l : list (Z * Z)) : list Z := flat_map (fun e => zseq (fst e) (Z.to_nat (snd e))) l.
Lemma zseq_length n : forall x, length (zseq x n) = n.
Proof. induction n as [|n IH]; intros x; cbn; [easy|]. now rewrite IH. Qed.
Lemma zseq_nodup n : forall x, NoDup (zseq x n).
Proof. induction n as [|n IH]; intros x; cbn; [constructor|]. constructor; [|easy]. rewrite zseq_in. lia. Qed.
Definition off (e f : Z * Z) : Prop := apart (fst e) (snd e) (fst f) (snd f).
Lemma points_nodup l : ForallOrdPairs off l -> NoDup (points l).
Proof.
  induction 1 as [|[p w] l H F IH]; cbn; [constructor|]. rewrite Forall_forall in H.
  assert (X : forall A (a b : list A), NoDup a -> NoDup b -> (forall z, In z a -> ~ In z b) -> NoDup (a ++ b)).
  { intros A a b Na Nb D. induction Na as [|z a Hz Na IHa]; [easy|]. cbn. constructor.
    - rewrite in_app_iff. intros [Y|Y]; [easy|]. now apply (D z); [left|].
    - apply IHa. intros y Hy. apply D. now right. }
  apply X; [apply zseq_nodup|easy|]. intros z Hz Hl. apply zseq_in in Hz. unfold points in Hl. apply in_flat_map in Hl as ((q & v) & Hq & Hz').
  apply zseq_in in Hz'. cbn in *. apply (H (q, v) Hq z). cbn. lia.
Qed.
Definition total (l : list (Z * Z)) : Z := fold_right Z.add 0 (map snd l).
Lemma points_length l : Forall (fun e => 0 <= snd e) l -> Z.of_nat (length (points l)) = total l.
Proof. induction 1 as [|[p w] l H F IH]; cbn; [easy|]. rewrite app_length, zseq_length, Nat2Z.inj_add. fold (points l). rewrite IH. cbn in H. unfold total. cbn. lia. Qed.
Lemma pack l a b : Forall (fun e => 0 <= snd e) l -> ForallOrdPairs off l -> Forall (fun e => a <= fst e /\ fst e + snd e - 1 <= b) l -> total l <= Z.max 0 (b - a + 1).
Proof.
  intros N F W. rewrite <- points_length by easy.
  assert (I : incl (points l) (zseq a (Z.to_nat (b - a + 1)))).
  { intros z Hz. unfold points in Hz. apply in_flat_map in Hz as ((q & v) & Hq & Hz). apply zseq_in in Hz. apply zseq_in. rewrite Forall_forall in W. specialize (W _ Hq). cbn in *. lia. }
  pose proof (NoDup_incl_length (points_nodup l F) I) as H. rewrite zseq_length in H. lia.
Qed.

(** ** Intervals *)

(** Position of an interval seen from the left or mirrored. *)
Definition pos (up : bool) (nu : var -> Z) (i : ival) : Z := if up then - (nu (iv_var i) + iv_weight i - 1) else nu (iv_var i).
Definition key (i : ival) : Z * var := (iv_weight i, iv_var i).
Definition overlap_free (es : list (Z * var)) (nu : var -> Z) : Prop := ForallOrdPairs (fun e f => apart (nu (snd e)) (fst e) (nu (snd f)) (fst f)) es.
Lemma apart_sym a v b w : apart a v b w -> apart b w a v.
Proof. intros H p (A & B). now apply (H p). Qed.
Lemma apart_pos up nu i j : apart (nu (iv_var i)) (iv_weight i) (nu (iv_var j)) (iv_weight j) -> apart (pos up nu i) (iv_weight i) (pos up nu j) (iv_weight j).
Proof. intros H p (A & B). destruct up; cbn in *; [apply (H (- p)); lia|now apply (H p)]. Qed.

Lemma ford_perm {A} (R : A -> A -> Prop) (l l' : list A) : (forall x y, R x y -> R y x) -> Permutation l l' -> ForallOrdPairs R l -> ForallOrdPairs R l'.
Proof.
  intros Sy Pm. induction Pm as [|x l l' Pm IH|x y l|l l1 l2 P1 IH1 P2 IH2]; intros F; auto.
  - inversion F as [|? ? H F']; subst. constructor; [|now apply IH]. now apply (Permutation_Forall Pm).
  - inversion F as [|? ? H F']; subst. inversion F' as [|? ? H' F'']; subst. inversion H as [|? ? H1 H2]; subst. constructor; [constructor; [now apply Sy|easy]|]. now constructor.
Qed.
Lemma ford_app {A} (R : A -> A -> Prop) (l l' : list A) : ForallOrdPairs R (l ++ l') <-> ForallOrdPairs R l /\ ForallOrdPairs R l' /\ forall x y, In x l -> In y l' -> R x y.
Proof.
  induction l as [|a l IH]; cbn; [split; [intros H; split; [constructor|split; [easy|easy]]|tauto]|]. split.
  - intros H. inversion H as [|? ? H1 H2]; subst. apply IH in H2 as (A1 & A2 & A3). rewrite Forall_app in H1. destruct H1 as (B1 & B2).
    split; [now constructor|]. split; [easy|]. rewrite Forall_forall in B2. intros x y [<-|Hx] Hy; [now apply B2|now apply A3].
  - intros (H & A2 & A3). inversion H as [|? ? H1 H2]; subst. constructor.
    + rewrite Forall_app. split; [easy|]. apply Forall_forall. intros y Hy. apply A3; [now left|easy].
    + apply IH. split; [easy|]. split; [easy|]. intros x y Hx Hy. apply A3; [now right|easy].
Qed.
Lemma ford_filter {A} (R : A -> A -> Prop) f (l : list A) : ForallOrdPairs R l -> ForallOrdPairs R (filter f l).
Proof.
  induction 1 as [|a l H F IH]; cbn; [constructor|]. destruct (f a); [|easy]. constructor; [|easy]. rewrite Forall_forall in *. intros x Hx. apply filter_In in Hx. now apply H.
Qed.
Lemma ford_map {A B} (f : A -> B) (R : B -> B -> Prop) (l : list A) : ForallOrdPairs R (map f l) <-> ForallOrdPairs (fun x y => R (f x) (f y)) l.
Proof.
  induction l as [|a l IH]; cbn; [split; constructor|]. split; intros H; inversion H as [|? ? H1 H2]; subst; (constructor; [|now apply IH]).
  - apply (proj1 (Forall_map _ _ _)) in H1. exact H1.
  - apply (proj2 (Forall_map _ _ _)). exact H1.
Qed.

(** The total length of the intervals starting at [a] or later. *)
Definition isum (up : bool) (a : Z) (l : list ival) : Z := fold_right Z.add 0 (map iv_weight (filter (fun i => a <=? dlower up i) l)).
Lemma isum_app up a l l' : isum up a (l ++ l') = isum up a l + isum up a l'.
Proof. unfold isum. rewrite filter_app, map_app. induction (map iv_weight (filter _ l)) as [|x r IH]; cbn; lia. Qed.
Lemma isum_one up a x : isum up a [x] = if a <=? dlower up x then iv_weight x else 0.
Proof. unfold isum. cbn. destruct (a <=? dlower up x); cbn; lia. Qed.
Lemma isum_cons up a x l : isum up a (x :: l) = (if a <=? dlower up x then iv_weight x else 0) + isum up a l.
Proof. now rewrite <- isum_one, <- isum_app. Qed.
Lemma isum_pos up a l : Forall (fun i => 0 < iv_weight i) l -> 0 <= isum up a l.
Proof. induction 1 as [|x l H F IH]; [easy|]. rewrite isum_cons. destruct (a <=? dlower up x); lia. Qed.
Lemma isum_in up a l x : Forall (fun i => 0 < iv_weight i) l -> In x l -> a <= dlower up x -> 0 < isum up a l.
Proof.
  intros F. induction F as [|y l H F IH]; [easy|]. intros [->|Hx] L; rewrite isum_cons; pose proof (isum_pos up a l F).
  - replace (a <=? dlower up x) with true by lia. lia.
  - specialize (IH Hx L). destruct (a <=? dlower up y); lia.
Qed.

(** Intervals in use: the variable exists and the ends are up to date. *)
Record ivok (s : state) (i : ival) : Prop := {
  ik_var : (iv_var i < nvars s)%nat;
  ik_left : iv_left i = lb (vst s (iv_var i));
  ik_right : iv_right i = ub (vst s (iv_var i)) + iv_weight i - 1;
  ik_weight : 0 < iv_weight i }.
Lemma ivok_same3 s s' i : same3 s s' -> ivok s i -> ivok s' i.
Proof. intros H [A B C D]. destruct (same3_bnds _ _ (iv_var i) H) as (E1 & E2 & _). constructor; auto; try congruence. now rewrite (same3_nvars _ _ H). Qed.
(** The parts of an interval that only depend on the bounds. *)
Definition bare (i : ival) : var * Z * Z * Z := (iv_var i, iv_left i, iv_right i, iv_weight i).
Lemma bare_lower up i j : bare i = bare j -> dlower up i = dlower up j /\ dupper up i = dupper up j /\ iv_weight i = iv_weight j /\ iv_var i = iv_var j /\ key i = key j.
Proof. intros H. injection H as A B C D. unfold dlower, dupper, key. now rewrite A, B, C, D. Qed.
Lemma ivok_bare s i j : bare i = bare j -> ivok s i -> ivok s j.
Proof. intros H [A B C D]. injection H as E1 E2 E3 E4. rewrite E1, E2, E3, E4 in *. now constructor. Qed.
Lemma isum_bare up a l l' : map bare l = map bare l' -> isum up a l = isum up a l'.
Proof.
  revert l'. induction l as [|x l IH]; intros [|y l'] H; try discriminate; [easy|]. cbn [map] in H.
  assert (H1 : bare x = bare y) by congruence. assert (H2 : map bare l = map bare l') by congruence.
  rewrite !isum_cons, (IH l' H2). destruct (bare_lower up x y H1) as (-> & _ & -> & _). easy.
Qed.
Lemma key_bare l l' : map bare l = map bare l' -> map key l = map key l'.
Proof.
  revert l'. induction l as [|x l IH]; intros [|y l'] H; try discriminate; [easy|]. cbn [map] in *. assert (H1 : bare x = bare y) by congruence.
  rewrite (IH l') by congruence. destruct (bare_lower true x y H1) as (_ & _ & _ & _ & ->). easy.
Qed.
Lemma ivoks_bare s l l' : map bare l = map bare l' -> Forall (ivok s) l -> Forall (ivok s) l'.
Proof.
  revert l'. induction l as [|x l IH]; intros [|y l'] H F; try discriminate; [easy|]. inversion F; subst. cbn [map] in H. constructor; [apply ivok_bare with x; [congruence|easy]|apply IH; [congruence|easy]].
Qed.

Definition in_bounds (s : state) (nu : var -> Z) (x : var) : Prop := lb (vst s x) <= nu x <= ub (vst s x).
Lemma pos_bounds s up nu i : ivok s i -> in_bounds s nu (iv_var i) -> dlower up i <= pos up nu i /\ pos up nu i + iv_weight i - 1 <= dupper up i.
Proof. intros [A B C D] H. unfold in_bounds, pos, dlower, dupper in *. destruct up; lia. Qed.

(** Intervals starting at [a] or later, within the bounds, and ending at [b] or earlier. *)
Lemma hall s up nu a b l : Forall (ivok s) l -> ForallOrdPairs (fun i j => apart (nu (iv_var i)) (iv_weight i) (nu (iv_var j)) (iv_weight j)) l ->
  (forall i, In i l -> a <= dlower up i -> in_bounds s nu (iv_var i) /\ dupper up i <= b) -> isum up a l <= Z.max 0 (b - a + 1).
Proof.
  intros K F H. unfold isum. set (f := fun i => a <=? dlower up i) in *. rewrite Forall_forall in K.
  replace (map iv_weight (filter f l)) with (map snd (map (fun i => (pos up nu i, iv_weight i)) (filter f l))) by (rewrite map_map; now apply map_ext).
  apply pack.
  - apply Forall_map, Forall_forall. intros i Hi. apply filter_In in Hi as (Hi & _). cbn. specialize (K i Hi). destruct K. lia.
  - apply ford_map. apply ford_filter. revert F. induction 1 as [|x l' H' F IH]; constructor.
    + eapply Forall_impl; [|exact H']. intros j Hj. now apply apart_pos.
    + apply IH; intros; [apply K|apply H]; auto; now right.
  - apply Forall_map, Forall_forall. intros i Hi. apply filter_In in Hi as (Hi & Hf). unfold f in Hf. cbn [fst snd]. destruct (H i Hi) as (B1 & B2); [lia|].
    destruct (pos_bounds s up nu i (K i Hi) B1). lia.
Qed.
(** One more interval does not start in a full range. *)
Lemma hall_full s up nu a b l y : Forall (ivok s) l -> ivok s y ->
  ForallOrdPairs (fun i j => apart (nu (iv_var i)) (iv_weight i) (nu (iv_var j)) (iv_weight j)) (l ++ [y]) ->
  (forall i, In i l -> a <= dlower up i -> in_bounds s nu (iv_var i) /\ dupper up i <= b) -> b - a + 1 <= isum up a l -> ~ (a <= pos up nu y <= b).
Proof.
  intros K Ky F H L Y. apply ford_app in F as (F1 & _ & F2).
  set (f := fun i => a <=? dlower up i) in *. rewrite Forall_forall in K.
  set (q := (pos up nu y, 1) :: map (fun i => (pos up nu i, iv_weight i)) (filter f l)).
  assert (T : total q = 1 + isum up a l).
  { unfold q, total, isum. cbn [map fold_right snd]. rewrite map_map. cbn [snd]. easy. }
  assert (X : total q <= Z.max 0 (b - a + 1)); [|pose proof (isum_pos up a l) as Z0; enough (0 <= isum up a l) by lia; apply Z0, Forall_forall; intros i Hi; apply (K i Hi)].
  apply pack.
  - constructor; [cbn; lia|]. apply Forall_map, Forall_forall. intros i Hi. apply filter_In in Hi as (Hi & _). cbn. specialize (K i Hi). destruct K. lia.
  - constructor.
    + apply Forall_map, Forall_forall. intros i Hi. apply filter_In in Hi as (Hi & _). intros p. cbn [fst snd]. intros (B1 & B2).
      apply (apart_pos up nu i y (F2 i y Hi (or_introl eq_refl)) p). pose proof (ik_weight _ _ Ky). lia.
    + apply ford_map. apply ford_filter. revert F1. clear - K H. induction 1 as [|x l' H' F IH]; constructor.
      * eapply Forall_impl; [|exact H']. intros j Hj. now apply apart_pos.
      * apply IH; intros; [apply K|apply H]; auto; now right.
  - constructor; [cbn; lia|]. apply Forall_map, Forall_forall. intros i Hi. apply filter_In in Hi as (Hi & Hf). unfold f in Hf. cbn [fst snd]. destruct (H i Hi) as (B1 & B2); [lia|].
    destruct (pos_bounds s up nu i (K i Hi) B1). lia.
Qed.

(** The loop of insert. *)
Definition grown (up : bool) (x j j' : ival) : Prop := bare j' = bare j /\ (iv_u j' = iv_u j \/ dlower up j < dlower up x /\ iv_u j' = iv_u j + iv_weight x).
Lemma ck32_inv z r : ck int32 z = Ok r -> r = z.
Proof. unfold ck. destruct (in_range int32 z); [|discriminate]. now intros [= <-]. Qed.
Lemma ck32_cases z : ck int32 z = Ok z \/ ck int32 z = UB /\ ~ (- 2^31 <= z <= 2^31 - 1).
Proof. unfold ck, in_range. cbn [imin imax int32]. destruct ((- 2^31 <=? z) && (z <=? 2^31 - 1)) eqn:E; [now left|right; split; [easy|lia]]. Qed.
Lemma fold_add_app l l' : fold_right Z.add 0 (l ++ l') = fold_right Z.add 0 l + fold_right Z.add 0 l'.
Proof. induction l as [|z l IH]; cbn; lia. Qed.
Lemma insert_loop_throw up pre : forall x k e, dj_insert_loop up x k pre <> Throw e.
Proof.
  induction pre as [|j t IH]; intros x k e; cbn [dj_insert_loop]; [easy|]. unfold iadd. destruct (dlower up j <? dlower up x).
  - destruct (ck32_cases (iv_u j + iv_weight x)) as [->|(-> & _)]; [|easy]. cbn [bind]. destruct (dupper up x <? _); [easy|].
    match goal with |- context [dj_insert_loop up x ?k1 t] => specialize (IH x k1 e); destruct (dj_insert_loop up x k1 t) as [[[[? ?] ?] ?]| |] end; cbn [bind]; congruence.
  - destruct (ck32_cases (iv_u x + iv_weight j)) as [->|(-> & _)]; [|easy]. cbn [bind].
    match goal with |- context [dj_insert_loop up ?x1 k t] => specialize (IH x1 k e); destruct (dj_insert_loop up x1 k t) as [[[[? ?] ?] ?]| |] end; cbn [bind]; congruence.
Qed.
Lemma grown_refl up x l : Forall2 (grown up x) l l.
Proof. induction l; constructor; auto. split; [easy|now left]. Qed.
Lemma insert_loop_ok up pre : forall x k pre' x' k' c, Forall (fun i => 0 < iv_weight i) pre -> dj_insert_loop up x k pre = Ok (pre', x', k', c) ->
  Forall2 (grown up x) pre pre' /\ bare x' = bare x /\ iv_u x <= iv_u x' <= iv_u x + isum up (dlower up x) pre /\
  (forall a, c = Some a -> exists j', In j' pre' /\ a = dlower up j' /\ dupper up x < iv_u j') /\
  (forall a, k' = Some a -> k = Some a \/ exists j', In j' pre' /\ a = dlower up j' /\ iv_u j' = dupper up x).
Proof.
  induction pre as [|j t IH]; intros x k pre' x' k' c F E; cbn [dj_insert_loop] in E.
  { injection E as <- <- <- <-. split; [constructor|]. split; [easy|]. split; [cbn; lia|]. split; [easy|]. intros a H. now left. }
  inversion F as [|? ? Fj Ft]; subst. rewrite isum_cons. pose proof (isum_pos up (dlower up x) t Ft) as IP.
  destruct (dlower up j <? dlower up x) eqn:C1.
  - unfold iadd in E. destruct (ck int32 (iv_u j + iv_weight x)) as [u|e|] eqn:CK; try discriminate. apply ck32_inv in CK as ->. cbn [bind] in E.
    set (j1 := set_u j (iv_u j + iv_weight x)) in *. assert (G1 : grown up x j j1) by (split; [easy|right; split; [lia|easy]]).
    replace (dlower up x <=? dlower up j) with false by lia.
    destruct (dupper up x <? iv_u j + iv_weight x) eqn:C2.
    + injection E as <- <- <- <-. split; [constructor; [easy|apply grown_refl]|]. split; [easy|]. split; [lia|]. split; [|intros a H; now left].
      intros a H. injection H as <-. exists j1. split; [now left|]. split; [easy|]. cbn. lia.
    + set (k1 := if (iv_u j + iv_weight x =? dupper up x) && _ then _ else k) in *.
      destruct (dj_insert_loop up x k1 t) as [[[[t' x1] k2] c1]|e|] eqn:EL; try discriminate. cbn [bind] in E. injection E as <- <- <- <-.
      destruct (IH x k1 t' x1 k2 c1 Ft EL) as (A1 & A2 & A3 & A4 & A5). split; [now constructor|]. split; [easy|]. split; [lia|]. split.
      * intros a H. destruct (A4 a H) as (j' & J1 & J2). exists j'. split; [now right|easy].
      * intros a H. destruct (A5 a H) as [Q|(j' & J1 & J2)]; [|right; exists j'; split; [now right|easy]].
        unfold k1 in Q. destruct ((iv_u j + iv_weight x =? dupper up x) && _) eqn:C3; [|now left]. injection Q as <-. right. exists j1. split; [now left|]. split; [easy|]. cbn. lia.
  - unfold iadd in E. destruct (ck int32 (iv_u x + iv_weight j)) as [u|e|] eqn:CK; try discriminate. apply ck32_inv in CK as ->. cbn [bind] in E.
    replace (dlower up x <=? dlower up j) with true by lia. set (x0 := set_u x (iv_u x + iv_weight j)) in *.
    destruct (dj_insert_loop up x0 k t) as [[[[t' x1] k2] c1]|e|] eqn:EL; try discriminate. cbn [bind] in E. injection E as <- <- <- <-.
    destruct (IH x0 k t' x1 k2 c1 Ft EL) as (A1 & A2 & A3 & A4 & A5). change (iv_u x0) with (iv_u x + iv_weight j) in A3.
    change (dlower up x0) with (dlower up x) in *. change (dupper up x0) with (dupper up x) in *.
    split; [constructor; [split; [easy|now left]|exact A1]|]. split; [exact A2|]. split; [lia|]. split.
    + intros a H. destruct (A4 a H) as (j' & J1 & J2). exists j'. split; [now right|easy].
    + intros a H. destruct (A5 a H) as [Q|(j' & J1 & J2)]; [now left|right; exists j'; split; [now right|easy]].
Qed.
Lemma insert_loop_total up pre : forall x k, Forall (fun i => 0 < iv_weight i) pre -> Forall (fun j => - 2^31 <= iv_u j + iv_weight x <= 2^31 - 1) pre ->
  - 2^31 <= iv_u x -> iv_u x + isum up (dlower up x) pre <= 2^31 - 1 -> exists res, dj_insert_loop up x k pre = Ok res.
Proof.
  induction pre as [|j t IH]; intros x k F U X1 X2; cbn [dj_insert_loop]; [now eexists|].
  inversion F as [|? ? Fj Ft]; subst. inversion U as [|? ? Uj Ut]; subst. rewrite isum_cons in X2. pose proof (isum_pos up (dlower up x) t Ft) as IP.
  destruct (dlower up j <? dlower up x) eqn:C1.
  - replace (dlower up x <=? dlower up j) with false in X2 by lia. unfold iadd, ck, in_range. cbn [imin imax int32].
    destruct ((- 2^31 <=? iv_u j + iv_weight x) && (iv_u j + iv_weight x <=? 2^31 - 1)) eqn:C2; [|lia]. cbn [bind]. destruct (dupper up x <? _); [now eexists|].
    match goal with |- context [dj_insert_loop up x ?k1 t] => destruct (IH x k1) as ((((t' & x1) & k2) & c) & ->); auto; idtac end. cbn [bind]. now eexists.
  - replace (dlower up x <=? dlower up j) with true in X2 by lia. unfold iadd, ck, in_range. cbn [imin imax int32].
    destruct ((- 2^31 <=? iv_u x + iv_weight j) && (iv_u x + iv_weight j <=? 2^31 - 1)) eqn:C2; [|lia]. cbn [bind].
    destruct (IH (set_u x (iv_u x + iv_weight j)) k) as ((((t' & x1) & k2) & c) & ->); auto; [cbn; lia|change (dlower up (set_u x (iv_u x + iv_weight j))) with (dlower up x); cbn [iv_u set_u]; lia|]. cbn [bind]. now eexists.
Qed.
Lemma grown_bare up x l l' : Forall2 (grown up x) l l' -> map bare l' = map bare l.
Proof. induction 1 as [|j j' l l' [H _] F IH]; cbn; [easy|]. now rewrite H, IH. Qed.

(** What the sums kept with the intervals mean: the length of some intervals starting not earlier. *)
Definition uinv (up : bool) (l : list ival) : Prop := Forall (fun j => dlower up j <= iv_u j <= dlower up j - 1 + isum up (dlower up j) l) l.
Lemma insert_uinv up pre x pre' x' k' c u : Forall (fun i => 0 < iv_weight i) (pre ++ [x]) -> uinv up pre -> iv_u x = u -> u = dlower up x + iv_weight x - 1 ->
  dj_insert_loop up x None pre = Ok (pre', x', k', c) -> uinv up (pre' ++ [x']) /\ map bare (pre' ++ [x']) = map bare (pre ++ [x]).
Proof.
  intros W U Hu Hx E. apply Forall_app in W as (W & Wx). inversion Wx as [|? ? Wx' _]; subst. destruct (insert_loop_ok up pre x None pre' x' k' c W E) as (A1 & A2 & A3 & _).
  assert (B : map bare (pre' ++ [x']) = map bare (pre ++ [x])) by (rewrite !map_app, (grown_bare _ _ _ _ A1); cbn; now rewrite A2).
  split; [|exact B]. unfold uinv. apply Forall_app. split.
  - apply Forall_forall. intros j' Hj'. rewrite (isum_bare up _ _ _ B), isum_app, isum_one.
    assert (exists j, In j pre /\ grown up x j j') as (j & J1 & J2 & J3).
    { clear - A1 Hj'. induction A1 as [|j j1 l l' H F IH]; [easy|]. destruct Hj' as [<-|Hj']; [exists j; split; [now left|easy]|]. destruct (IH Hj') as (q & Q1 & Q2). exists q. split; [now right|easy]. }
    unfold uinv in U. rewrite Forall_forall in U. specialize (U j J1). destruct (bare_lower up _ _ J2) as (-> & _). destruct J3 as [->|(J3 & ->)].
    + destruct (_ <=? _); lia.
    + replace (dlower up j <=? dlower up x) with true by lia. lia.
  - constructor; [|constructor]. rewrite (isum_bare up _ _ _ B), isum_app, isum_one. destruct (bare_lower up _ _ A2) as (-> & _). rewrite Z.leb_refl.
    pose proof (isum_pos up (dlower up x) pre W). lia.
Qed.

(** ** Propagation *)
Section Disj.
Context (O : oracle) (cfg : config) (Base : interp -> Prop) (n0 : Z) (BO : base_ok Base n0) (CO : clasp_ok O Base).
Context (guard : bool) (clit : lit) (es : list (Z * var)).
Notation ready := (ready O n0).
Notation pstep := (pstep O Base).
Notation holds := (holds Base).
Notation reason := (reason Base).
Notation P := (fun (I : interp) nu => (guard = true -> lit_true I clit) -> overlap_free es nu).

(** A fixed constraint literal is true. *)
Definition dj_lit (s : state) : Prop := forall s', later O (log s) (log s') -> is_fixed O s' clit = true -> is_true O s' clit = true.
Record dj (s : state) : Prop := {
  dj_ready : ready s;
  dj_below : below (nxt s) clit;
  dj_vars : Forall (fun e => 0 < fst e /\ (snd e < nvars s)%nat) es;
  dj_guard : guard = true -> dj_lit s }.
Lemma dj_pstep Q s s' : pstep Q s s' true -> dj s -> dj s'.
Proof.
  intros R [A B C D]. constructor.
  - exact (ready_pstep O Base n0 CO Q s s' R A).
  - exact (below_pstep O Base Q s s' true clit R B).
  - eapply Forall_impl; [|exact C]. intros e (E1 & E2). split; [easy|]. exact (nvars_pstep O Base Q s s' true _ R E2).
  - intros g s2 L. apply (D g). apply later_trans with (log s'); [|easy]. now apply (ps_later _ _ _ _ _ _ R).
Qed.
Lemma dj_dep s : dj s -> dep (nxt s) (nvars s) P.
Proof.
  intros [A B C D] I J nu nu' AG E H G.
  assert (OV : overlap_free es nu).
  { apply H. intros g. apply (lit_true_agree _ I J clit AG B). now apply G. }
  unfold overlap_free in *. clear - OV E C. induction OV as [|e l H F IH]; constructor.
  - inversion C as [|? ? C1 C2]; subst. rewrite Forall_forall in *. intros f Hf. specialize (H f Hf). rewrite (E (snd e)), (E (snd f)); [easy|now apply C2|easy].
  - apply IH. now inversion C.
Qed.
Record jp (s s' : state) (r : outcome bool) : Prop := {
  jp_step : pstep P s s' (okb r);
  jp_css : css s' = css s;
  jp_ina : ina s' = ina s;
  jp_throw : r = UB \/ exists b, r = Ok b }.
Lemma jp_refl s b : dj s -> jp s s (Ok b).
Proof. intros DI. constructor; auto; [apply pstep_refl, DI|right; now exists b]. Qed.
Lemma jp_ub s : dj s -> jp s s UB.
Proof. intros DI. constructor; auto. apply pstep_refl, DI. Qed.
Lemma jp_trans s s1 s2 r : dj s -> jp s s1 (Ok true) -> jp s1 s2 r -> jp s s2 r.
Proof. intros DI [A1 A2 A3 _] [B1 B2 B3 B4]. constructor; try congruence. apply pstep_trans with s1; auto. now apply dj_dep. Qed.
Lemma jp_dj s s' : jp s s' (Ok true) -> dj s -> dj s'.
Proof. intros [A _ _ _]. exact (dj_pstep _ _ _ A). Qed.

(** Intervals of different elements of the constraint. *)
Definition part (l : list ival) : Prop := exists rest, Permutation (map key l ++ rest) es.
Lemma part_perm l l' : Permutation l l' -> part l -> part l'.
Proof. intros Pm (r & H). exists r. rewrite <- H. apply Permutation_app_tail, Permutation_map, Permutation_sym, Pm. Qed.
Lemma part_left l l' : part (l ++ l') -> part l.
Proof. intros (r & H). exists (map key l' ++ r). now rewrite app_assoc, <- map_app. Qed.
Lemma part_right l l' : part (l ++ l') -> part l'.
Proof. intros H. apply part_left with l. revert H. apply part_perm, Permutation_app_comm. Qed.
Lemma part_key l l' : map bare l = map bare l' -> part l -> part l'.
Proof. intros H (r & Hr). exists r. now rewrite <- (key_bare _ _ H). Qed.
Lemma part_apart l nu : part l -> overlap_free es nu -> ForallOrdPairs (fun i j => apart (nu (iv_var i)) (iv_weight i) (nu (iv_var j)) (iv_weight j)) l.
Proof.
  intros (r & Hr) H. unfold overlap_free in H. apply (ford_perm _ _ (map key l ++ r)) in H; [|intros; now apply apart_sym|now apply Permutation_sym].
  apply ford_app in H as (H & _). apply ford_map in H. exact H.
Qed.
Lemma part_in l i : part l -> In i l -> In (iv_weight i, iv_var i) es.
Proof. intros (r & Hr) H. apply (Permutation_in (l := map key l ++ r)); [easy|]. apply in_or_app. left. now apply in_map with (f := key) in H. Qed.

(** Bounds and lengths for which no sum overflows. *)
Definition esum : Z := fold_right Z.add 0 (map fst es).
Definition calm (s : state) : Prop := esum <= 2^30 /\ forall e, In e es -> MIN_VAL <= lb (vst s (snd e)) /\ ub (vst s (snd e)) <= MAX_VAL.
Lemma calm_pstep Q s s' b : pstep Q s s' b -> calm s -> calm s'.
Proof. intros R (A & B). split; [easy|]. intros e He. destruct (same3_bnds _ _ (snd e) (ps_same _ _ _ _ _ _ R)) as (E1 & E2 & _). rewrite E1, E2. now apply B. Qed.
Lemma esum_part l : Forall (fun e => 0 < fst e) es -> part l -> fold_right Z.add 0 (map iv_weight l) <= esum.
Proof.
  intros W (r & Hr). unfold esum.
  assert (E : forall a b : list (Z * var), Permutation a b -> fold_right Z.add 0 (map fst a) = fold_right Z.add 0 (map fst b)).
  { induction 1; cbn; lia. }
  rewrite <- (E _ _ Hr). apply (Permutation_Forall (Permutation_sym Hr)) in W. apply Forall_app in W as (_ & W).
  replace (map iv_weight l) with (map fst (map key l)) by (rewrite map_map; now apply map_ext).
  rewrite map_app. induction (map fst (map key l)) as [|z q IH]; cbn; [|lia]. clear Hr. induction W as [|z q Hz F IH]; cbn; lia.
Qed.
Lemma isum_all up a l : Forall (fun i => 0 < iv_weight i) l -> isum up a l <= fold_right Z.add 0 (map iv_weight l).
Proof. induction 1 as [|x l H F IH]; [easy|]. rewrite isum_cons. cbn [map fold_right]. destruct (a <=? dlower up x); lia. Qed.
Lemma isum_esum s up a l : dj s -> Forall (ivok s) l -> part l -> isum up a l <= esum.
Proof.
  intros DI K Pt. etransitivity; [apply isum_all|apply esum_part; [|easy]].
  - eapply Forall_impl; [|exact K]. now intros i [].
  - eapply Forall_impl; [|exact (dj_vars s DI)]. now intros e [].
Qed.
Lemma calm_iv s i l : dj s -> ivok s i -> part l -> In i l -> calm s ->
  MIN_VAL <= iv_left i /\ iv_left i + iv_weight i - 1 <= iv_right i /\ iv_right i <= MAX_VAL + iv_weight i - 1 /\ 0 < iv_weight i <= esum /\ esum <= 2^30.
Proof.
  intros DI [K1 K2 K3 K4] Pt Hi (C1 & C2). pose proof (part_in l i Pt Hi) as Hk. specialize (C2 _ Hk). cbn in C2.
  assert (iv_weight i <= esum).
  { assert (Hp : part [i]). { apply in_split in Hi as (l1 & l2 & ->). apply part_right in Pt. now apply (part_left [i]) in Pt. }
    apply esum_part in Hp; [cbn in Hp; lia|]. eapply Forall_impl; [|exact (dj_vars s DI)]. now intros e []. }
  destruct (rd_bnds _ _ _ (dj_ready s DI) (iv_var i) K1) as (_ & B & _). unfold MIN_VAL, MAX_VAL. lia.
Qed.

(** Reasons collect the bounds of the intervals starting at [a] or later. *)
Definition rbnd (up : bool) (a : Z) (is : list ival) (s : state) (I : interp) (nu : var -> Z) : Prop :=
  (guard = true -> lit_true I clit) /\ forall i, In i is -> a <= dlower up i -> in_bounds s nu (iv_var i).
Lemma reason_loop_ok up a is : forall r s r' s' F, dj s -> Forall (ivok s) is -> reason s r F -> dj_reason_loop O cfg up a is r s = (r', s') ->
  s' = s /\ reason s r' (fun I nu => F I nu /\ forall i, In i is -> a <= dlower up i -> in_bounds s nu (iv_var i)) /\ (falses O s r -> falses O s r').
Proof.
  induction is as [|i t IH]; intros r s r' s' F DI K Re E; cbn [dj_reason_loop] in E.
  { injection E as <- <-. split; [easy|]. split; [|easy]. apply (reason_impl Base) with (2 := Re). now intros I nu _ _. }
  inversion K as [|? ? Ki Kt]; subst. destruct (a <=? dlower up i) eqn:C.
  2:{ destruct (IH _ _ _ _ _ DI Kt Re E) as (A1 & A2 & A3). split; [easy|]. split; [|easy]. apply (reason_impl Base) with (2 := A2). intros I nu _ _ (X1 & X2).
      split; [easy|]. intros j [<-|Hj] L; [lia|now apply X2]. }
  destruct (get_literal cfg (iv_var i) (lb (vst s (iv_var i)) - 1) s) as [l s1] eqn:E1.
  destruct (lo_lit O cfg Base n0 BO CO _ _ _ _ (dj_ready s DI) (ik_var _ _ Ki) E1) as (-> & L1 & L2 & L3).
  destruct (get_literal cfg (iv_var i) (ub (vst s (iv_var i))) s) as [u s1] eqn:E2.
  destruct (up_lit O cfg Base n0 BO CO _ _ _ _ (dj_ready s DI) (ik_var _ _ Ki) E2) as (-> & U1 & U2 & U3).
  destruct (push_ok O Base CO s l r F L2 L1 Re) as (Re1 & F1). destruct (push_ok O Base CO s (- u) _ _ U2 U1 Re1) as (Re2 & F2).
  destruct (IH _ _ _ _ _ DI Kt Re2 E) as (A1 & A2 & A3). split; [easy|]. split; [|tauto]. apply (reason_impl Base) with (2 := A2).
  intros I nu Gd Od (((X1 & X2) & X3) & X4). split; [easy|]. intros j [<-|Hj] L; [|now apply X4]. specialize (L3 I nu Gd Od). specialize (U3 I nu Gd Od). unfold in_bounds. 
  rewrite L3 in X2. rewrite U3 in X3. lia.
Qed.
Lemma reason_ok up a is s r s' : dj s -> Forall (ivok s) is -> dj_reason O cfg up clit a is s = (r, s') ->
  s' = s /\ reason s r (rbnd up a is s) /\ (is_true O s clit = true -> falses O s r).
Proof.
  intros DI K E. unfold dj_reason in E.
  assert (Re0 : reason s (if is_fixed O s clit then [] else [- clit]) (fun I nu => guard = true -> lit_true I clit)).
  { constructor.
    - destruct (is_fixed O s clit); constructor; [apply below_neg, DI|constructor].
    - intros I nu Gd Od N g. destruct (lit_true_dec I clit) as [T|T]; [easy|]. destruct (is_fixed O s clit) eqn:Fx.
      + assert (Tc : is_true O s clit = true) by (apply (dj_guard s DI g); [constructor|easy]).
        destruct Gd as (G1 & G2 & G3). apply (cl_top _ _ CO (log s)); auto.
      + exfalso. apply (N (- clit)); [now left|]. apply lit_true_neg; [apply (dj_below s DI)|easy]. }
  destruct (reason_loop_ok up a is _ _ _ _ _ DI K Re0 E) as (A & B & C). split; [easy|]. split; [exact B|].
  intros T. apply C. destruct (is_fixed O s clit); constructor; [|constructor]. unfold is_false. now rewrite Z.opp_involutive.
Qed.

Lemma update_bound_ok up r i b s o i' s' F : dj s -> ivok s i -> reason s r F ->
  holds s (fun I nu => P I nu -> F I nu -> dlower up i <= pos up nu i -> b <= pos up nu i) ->
  dj_update_bound O cfg up r i b s = (o, i', s') ->
  jp s s' o /\ bare i' = bare i /\
  (- 2^31 <= - b <= 2^31 - 1 -> (up = true -> - 2^31 <= - b - iv_weight i /\ - b - iv_weight i + 1 <= 2^31 - 1) -> (up = false -> - 2^31 <= b - 1) -> 0 < iv_weight i -> exists ok, o = Ok ok).
Proof.
  intros DI K Re H E. unfold dj_update_bound in E. destruct K as [K1 K2 K3 K4]. destruct up.
  - destruct (get_literal cfg (iv_var i) (ub (vst s (iv_var i))) s) as [g s1] eqn:E1.
    destruct (up_lit O cfg Base n0 BO CO _ _ _ _ (dj_ready s DI) K1 E1) as (-> & U1 & U2 & U3).
    unfold ineg, isub, iadd in E.
    destruct (ck int32 (- b)) as [nb|e|] eqn:Q1; cbn [bind] in E; [apply ck32_inv in Q1 as ->| |].
    2,3: injection E as <- <- <-; split; [now apply jp_ub|]; split; [easy|]; intros; exfalso; unfold ck, in_range in Q1; cbn [imin imax int32] in Q1;
      destruct ((- 2^31 <=? - b) && (- b <=? 2^31 - 1)) eqn:Q; [discriminate|lia].
    destruct (ck int32 (- b - iv_weight i)) as [nb|e|] eqn:Q1; cbn [bind] in E; [apply ck32_inv in Q1 as ->| |].
    2,3: injection E as <- <- <-; split; [now apply jp_ub|]; split; [easy|]; intros; exfalso; unfold ck, in_range in Q1; cbn [imin imax int32] in Q1;
      destruct ((- 2^31 <=? - b - iv_weight i) && (- b - iv_weight i <=? 2^31 - 1)) eqn:Q; [discriminate|lia].
    destruct (ck int32 (- b - iv_weight i + 1)) as [nb|e|] eqn:Q1; [apply ck32_inv in Q1 as ->| |].
    2,3: injection E as <- <- <-; split; [now apply jp_ub|]; split; [easy|]; intros; exfalso; unfold ck, in_range in Q1; cbn [imin imax int32] in Q1;
      destruct ((- 2^31 <=? - b - iv_weight i + 1) && (- b - iv_weight i + 1 <=? 2^31 - 1)) eqn:Q; [discriminate|lia].
    replace (is_nil (r ++ [- g])) with false in E by (now destruct r).
    destruct (update_literal O cfg (iv_var i) _ TFree s) as [l s2] eqn:E2.
    destruct (pstep_update O cfg Base n0 BO P _ _ TFree _ _ _ (rd_wf _ _ _ (dj_ready s DI)) K1 (rd_nxt _ _ _ (dj_ready s DI)) (fun _ _ _ _ _ => Logic.I) E2) as (A1 & A2 & A3 & A4).
    destruct (add_clause O Learnt ((r ++ [- g]) ++ [l]) s2) as [ok s3] eqn:E3. injection E as <- <- <-.
    split; [|split; [easy|now exists ok]].
    assert (Wl : wf s2) by apply A1. assert (Kx : (iv_var i < nvars s2)%nat) by exact (nvars_pstep O Base _ _ _ _ _ A1 K1).
    assert (Bl : below (nxt s2) l) by (apply lit_means_below with (1 := proj1 Wl) (2 := Kx) (3 := A2)).
    assert (Re1 := reason_last Base s r F (- g) Re U2). assert (Re2 := reason_last Base s2 _ _ l (reason_pstep O Base _ _ _ _ _ A1 Re1) Bl).
    destruct (pstep_clause O Base P Learnt ((r ++ [- g]) ++ [l]) s2 ok s3) as (V1 & V2 & V3); auto.
    { apply Re2. }
    { intros I nu Gd Od HP. destruct (clause_dec I ((r ++ [- g]) ++ [l])) as [X|X]; [exact X|exfalso].
      destruct (re_holds _ _ _ _ Re2 I nu Gd Od X) as ((X1 & X2) & X3).
      pose proof (holds_pstep O Base _ _ _ _ _ A1 U3 I nu Gd Od) as X4. pose proof (holds_pstep O Base _ _ _ _ _ A1 H I nu Gd Od HP X1) as X5.
      rewrite (means_holds Base s2 l _ _ Kx A2 I nu Gd Od) in X3. rewrite X4 in X2. apply X3. cbn [dlower pos] in X5. lia. }
    constructor.
    + replace (okb (Ok ok)) with ok by (now destruct ok). apply pstep_trans with s2; auto. now apply dj_dep.
    + apply (add_clause_ext O) in E3 as (_ & -> & _). easy.
    + apply (add_clause_ext O) in E3 as (_ & _ & ->). easy.
    + right. now exists ok.
  - destruct (get_literal cfg (iv_var i) (lb (vst s (iv_var i)) - 1) s) as [g s1] eqn:E1.
    destruct (lo_lit O cfg Base n0 BO CO _ _ _ _ (dj_ready s DI) K1 E1) as (-> & U1 & U2 & U3).
    unfold isub in E. destruct (ck int32 (b - 1)) as [nb|e|] eqn:Q1; [apply ck32_inv in Q1 as ->| |].
    2,3: injection E as <- <- <-; split; [now apply jp_ub|]; split; [easy|]; intros; exfalso; unfold ck, in_range in Q1; cbn [imin imax int32] in Q1;
      destruct ((- 2^31 <=? b - 1) && (b - 1 <=? 2^31 - 1)) eqn:Q; [discriminate|lia].
    replace (is_nil (r ++ [g])) with false in E by (now destruct r).
    destruct (update_literal O cfg (iv_var i) _ TFree s) as [l s2] eqn:E2.
    destruct (pstep_update O cfg Base n0 BO P _ _ TFree _ _ _ (rd_wf _ _ _ (dj_ready s DI)) K1 (rd_nxt _ _ _ (dj_ready s DI)) (fun _ _ _ _ _ => Logic.I) E2) as (A1 & A2 & A3 & A4).
    destruct (add_clause O Learnt ((r ++ [g]) ++ [- l]) s2) as [ok s3] eqn:E3. injection E as <- <- <-.
    split; [|split; [easy|now exists ok]].
    assert (Wl : wf s2) by apply A1. assert (Kx : (iv_var i < nvars s2)%nat) by exact (nvars_pstep O Base _ _ _ _ _ A1 K1).
    assert (Bl : below (nxt s2) l) by (apply lit_means_below with (1 := proj1 Wl) (2 := Kx) (3 := A2)).
    assert (Re1 := reason_last Base s r F g Re U2). assert (Re2 := reason_last Base s2 _ _ (- l) (reason_pstep O Base _ _ _ _ _ A1 Re1) (below_neg _ _ Bl)).
    destruct (pstep_clause O Base P Learnt ((r ++ [g]) ++ [- l]) s2 ok s3) as (V1 & V2 & V3); auto.
    { apply Re2. }
    { intros I nu Gd Od HP. destruct (clause_dec I ((r ++ [g]) ++ [- l])) as [X|X]; [exact X|exfalso].
      destruct (re_holds _ _ _ _ Re2 I nu Gd Od X) as ((X1 & X2) & X3).
      pose proof (holds_pstep O Base _ _ _ _ _ A1 U3 I nu Gd Od) as X4. pose proof (holds_pstep O Base _ _ _ _ _ A1 H I nu Gd Od HP X1) as X5.
      apply X3. apply lit_true_neg; [apply Bl|]. rewrite (means_holds Base s2 l _ _ Kx A2 I nu Gd Od). rewrite X4 in X2. cbn [dlower pos] in X5. lia. }
    constructor.
    + replace (okb (Ok ok)) with ok by (now destruct ok). apply pstep_trans with s2; auto. now apply dj_dep.
    + apply (add_clause_ext O) in E3 as (_ & -> & _). easy.
    + apply (add_clause_ext O) in E3 as (_ & _ & ->). easy.
    + right. now exists ok.
Qed.

Lemma ivoks_pstep Q s s' b l : pstep Q s s' b -> Forall (ivok s) l -> Forall (ivok s') l.
Proof. intros R. apply Forall_impl. intros i. apply ivok_same3, R. Qed.
Lemma bounds_pstep Q s s' b nu x : pstep Q s s' b -> (in_bounds s' nu x <-> in_bounds s nu x).
Proof. intros R. unfold in_bounds. destruct (same3_bnds _ _ x (ps_same _ _ _ _ _ _ R)) as (-> & -> & _). easy. Qed.
Lemma rbnd_pstep Q s s' b up a is I nu : pstep Q s s' b -> (rbnd up a is s' I nu <-> rbnd up a is s I nu).
Proof. intros R. unfold rbnd. split; intros (A & B); (split; [easy|]); intros i Hi L; now apply (bounds_pstep _ _ _ _ nu (iv_var i) R), B. Qed.

Lemma hall_ok up a b pre post : forall reas s o post' s', dj s -> Forall (ivok s) pre -> Forall (ivok s) post -> part (pre ++ post) ->
  (forall i, In i pre -> a <= dlower up i -> dupper up i <= b) -> b - a + 1 <= isum up a pre ->
  (forall r, reas = Some r -> reason s r (rbnd up a pre s)) ->
  dj_hall O cfg up clit a b pre reas post s = (o, post', s') ->
  jp s s' o /\ map bare post' = map bare post /\ (calm s -> (exists x, In x pre /\ b = dupper up x) -> exists ok, o = Ok ok).
Proof.
  induction post as [|j t IH]; intros reas s o post' s' DI Kp Kq Pt Hp Hs Hr E; cbn [dj_hall] in E.
  { injection E as <- <- <-. split; [now apply jp_refl|]. split; [easy|]. intros; now exists true. }
  inversion Kq as [|? ? Kj Kt]; subst.
  assert (Ptt : part (pre ++ t)). { apply part_right with [j]. cbn. revert Pt. apply part_perm. apply Permutation_sym, Permutation_middle. }
  assert (Ptj : part (pre ++ [j])). { apply part_left with t. now rewrite <- app_assoc. }
  destruct ((a <=? dlower up j) && (dlower up j <=? b)) eqn:C.
  2:{ destruct (dj_hall O cfg up clit a b pre reas t s) as [[o1 t1] s1] eqn:E1. injection E as <- <- <-. destruct (IH _ _ _ _ _ DI Kp Kt Ptt Hp Hs Hr E1) as (A1 & A2 & A3).
      split; [easy|]. split; [cbn; now rewrite A2|easy]. }
  destruct (match reas with Some r => (r, s) | None => dj_reason O cfg up clit a pre s end) as [r s0] eqn:Er.
  assert (X : s0 = s /\ reason s r (rbnd up a pre s)).
  { destruct reas as [r0|]; [injection Er as <- <-; split; [easy|now apply Hr]|]. destruct (reason_ok _ _ _ _ _ _ DI Kp Er) as (A1 & A2 & _). now split. }
  destruct X as (-> & Re). clear Er. unfold iadd in E. destruct (ck int32 (b + 1)) as [b1|e|] eqn:Q1; [apply ck32_inv in Q1 as ->| |].
  2,3: injection E as <- <- <-; split; [now apply jp_ub|]; split; [easy|]; intros CA (x & X1 & X2); exfalso; unfold ck, in_range in Q1; cbn [imin imax int32] in Q1;
    destruct ((- 2^31 <=? b + 1) && (b + 1 <=? 2^31 - 1)) eqn:Q; [discriminate|];
    (assert (Xin : In x (pre ++ j :: t)) by (apply in_or_app; now left)); rewrite Forall_forall in Kp; pose proof (calm_iv s x _ DI (Kp x X1) Pt Xin CA) as CC;
    unfold MIN_VAL, MAX_VAL in CC; destruct up; cbn [dupper] in X2; lia.
  destruct (dj_update_bound O cfg up r j (b + 1) s) as [[o1 j1] s1] eqn:E1.
  destruct (update_bound_ok up r j (b + 1) s o1 j1 s1 (rbnd up a pre s) DI Kj Re) as (A1 & A2 & A3); auto.
  { intros I nu Gd Od HP (R1 & R2) L. pose proof (hall_full s up nu a b pre j Kp Kj (part_apart _ nu Ptj (HP R1))) as HF.
    enough (~ (a <= pos up nu j <= b)) by lia. apply HF; [|easy]. intros i Hi Li. split; [now apply R2|now apply Hp]. }
  assert (CU : calm s -> (exists x, In x pre /\ b = dupper up x) -> exists ok, o1 = Ok ok).
  { intros CA (x & X1 & X2). assert (Xin : In x (pre ++ j :: t)) by (apply in_or_app; now left). assert (Jin : In j (pre ++ j :: t)) by (apply in_or_app; right; now left).
    rewrite Forall_forall in Kp. pose proof (calm_iv s x _ DI (Kp x X1) Pt Xin CA) as CC. pose proof (calm_iv s j _ DI Kj Pt Jin CA) as CJ. unfold MIN_VAL, MAX_VAL in *.
    apply A3; destruct up; intros; try discriminate; cbn [dupper] in X2; lia. }
  destruct o1 as [[|]|e|].
  - destruct (dj_hall O cfg up clit a b pre (Some r) t s1) as [[o2 t2] s2] eqn:E2. injection E as <- <- <-.
    assert (DI1 : dj s1) by now apply (jp_dj s).
    destruct (IH (Some r) s1 o2 t2 s2 DI1) as (B1 & B2 & B3); auto.
    + exact (ivoks_pstep _ _ _ _ _ (jp_step _ _ _ A1) Kp).
    + exact (ivoks_pstep _ _ _ _ _ (jp_step _ _ _ A1) Kt).
    + intros r0 Q. injection Q as <-. apply (reason_impl Base s1) with (F := rbnd up a pre s).
      * intros I nu _ _ RB. now apply (rbnd_pstep _ _ _ _ up a pre I nu (jp_step _ _ _ A1)).
      * exact (reason_pstep O Base _ _ _ _ _ (jp_step _ _ _ A1) Re).
    + split; [now apply jp_trans with s1|]. split; [cbn; now rewrite A2, B2|]. intros CA CX. apply B3; [|easy]. exact (calm_pstep _ _ _ _ (jp_step _ _ _ A1) CA).
  - injection E as <- <- <-. split; [easy|]. split; [cbn; now rewrite A2|easy].
  - injection E as <- <- <-. split; [easy|]. split; [cbn; now rewrite A2|easy].
  - injection E as <- <- <-. split; [easy|]. split; [cbn; now rewrite A2|easy].
Qed.

Lemma weights_ok s l : Forall (ivok s) l -> Forall (fun i => 0 < iv_weight i) l.
Proof. apply Forall_impl. now intros i []. Qed.
(** The clause for an overfull range. *)
Lemma iv_nonempty s up i : dj s -> ivok s i -> dlower up i + iv_weight i - 1 <= dupper up i.
Proof. intros DI [K1 K2 K3 K4]. destruct (rd_bnds _ _ _ (dj_ready s DI) (iv_var i) K1) as (_ & B & _). destruct up; cbn; lia. Qed.
Lemma conflict_ok up a b pre s r s' ok s'' : dj s -> Forall (ivok s) pre -> part pre -> (forall i, In i pre -> a <= dlower up i -> dupper up i <= b) ->
  (exists i, In i pre /\ a = dlower up i) -> b - a + 1 < isum up a pre -> dj_reason O cfg up clit a pre s = (r, s') -> add_clause O Learnt r s' = (ok, s'') -> jp s s'' (Ok ok).
Proof.
  intros DI K Pt H (i0 & J1 & J2) L E1 E2. destruct (reason_ok _ _ _ _ _ _ DI K E1) as (-> & Re & _).
  destruct (pstep_clause O Base P Learnt r s ok s'') as (V1 & V2 & V3); auto.
  - apply (dj_ready s DI).
  - apply Re.
  - intros I nu Gd Od HP. destruct (clause_dec I r) as [X|X]; [exact X|exfalso]. destruct (re_holds _ _ _ _ Re I nu Gd Od X) as (R1 & R2).
    pose proof (hall s up nu a b pre K (part_apart _ nu Pt (HP R1))) as HH.
    enough (isum up a pre <= Z.max 0 (b - a + 1)) as HL; [|apply HH; intros i Hi Li; split; [now apply R2|now apply H]].
    rewrite Forall_forall in K. pose proof (iv_nonempty s up i0 DI (K i0 J1)) as NE. pose proof (ik_weight _ _ (K i0 J1)). specialize (H i0 J1). lia.
  - constructor.
    + now destruct ok.
    + apply (add_clause_ext O) in E2 as (_ & -> & _). easy.
    + apply (add_clause_ext O) in E2 as (_ & _ & ->). easy.
    + right. now exists ok.
Qed.
Lemma bare_in l l' i : map bare l' = map bare l -> In i l' -> exists j, In j l /\ bare i = bare j.
Proof. intros H Hi. apply (in_map bare) in Hi. rewrite H in Hi. apply in_map_iff in Hi as (j & J1 & J2). now exists j. Qed.
Lemma insert_ok up pre x post s o pre' x' post' s' : dj s -> Forall (ivok s) (pre ++ x :: post) -> part (pre ++ x :: post) -> uinv up pre ->
  (forall i, In i pre -> dupper up i <= dupper up x) ->
  dj_insert O cfg up clit pre x post s = (o, (pre', x', post'), s') ->
  jp s s' o /\ map bare (pre' ++ [x']) = map bare (pre ++ [x]) /\ map bare post' = map bare post /\ (o = Ok true -> uinv up (pre' ++ [x'])) /\ (calm s -> exists ok, o = Ok ok).
Proof.
  intros DI K Pt U So E. unfold dj_insert in E. set (x0 := set_last x (iv_left x) (iv_right x)) in *.
  assert (Kx : Forall (ivok s) (pre ++ [x0])).
  { apply Forall_app in K as (K1 & K2). inversion K2; subst. apply Forall_app. split; [easy|]. constructor; [|constructor]. now apply ivok_bare with x. }
  assert (Ptx : part (pre ++ x0 :: post)) by (apply part_key with (2 := Pt); now rewrite !map_app).
  assert (Ptp : part (pre ++ [x0])) by (apply part_left with post; now rewrite <- app_assoc).
  assert (Kq : Forall (ivok s) post) by (apply Forall_app in K as (_ & K); now inversion K).
  assert (W0 : 0 < iv_weight x0) by (apply Forall_app in Kx as (_ & Kx0); inversion Kx0 as [|? ? Q _]; apply Q).
  assert (CA : calm s -> - 2^31 <= dlower up x0 /\ dlower up x0 + esum <= 2^31 - 1 /\ iv_weight x0 <= esum).
  { intros C. assert (Hi : In x0 (pre ++ x0 :: post)) by (apply in_elt). assert (Kx1 : ivok s x0) by (apply Forall_app in Kx as (_ & Kx0); now inversion Kx0).
    pose proof (calm_iv s x0 _ DI Kx1 Ptx Hi C) as CC. unfold MIN_VAL, MAX_VAL in CC. destruct up; cbn [dlower]; lia. }
  change (map bare (pre ++ [x])) with (map bare (pre ++ [x])). assert (B0 : map bare (pre ++ [x]) = map bare (pre ++ [x0])) by now rewrite !map_app. rewrite B0.
  change (dupper up x) with (dupper up x0) in So. clearbody x0. clear x B0 K Pt.
  unfold iadd, isub in E.
  destruct (ck32_cases (dlower up x0 + iv_weight x0)) as [Q1|(Q1 & Q2)]; rewrite Q1 in E; cbn [bind] in E.
  2:{ injection E as <- <- <- <- <-. split; [now apply jp_ub|]. split; [easy|]. split; [easy|]. split; [discriminate|]. intros C. specialize (CA C). lia. }
  clear Q1. destruct (ck32_cases (dlower up x0 + iv_weight x0 - 1)) as [Q1|(Q1 & Q2)]; rewrite Q1 in E.
  2:{ injection E as <- <- <- <- <-. split; [now apply jp_ub|]. split; [easy|]. split; [easy|]. split; [discriminate|]. intros C. specialize (CA C). lia. }
  clear Q1. set (x1 := set_u x0 (dlower up x0 + iv_weight x0 - 1)) in *.
  assert (Kx1 : Forall (ivok s) (pre ++ [x1])) by (apply ivoks_bare with (2 := Kx); now rewrite !map_app).
  assert (Ptx1 : part (pre ++ [x1])) by (apply part_key with (2 := Ptp); now rewrite !map_app).
  assert (W1 := weights_ok _ _ Kx1). assert (W2 : Forall (fun i => 0 < iv_weight i) pre) by now apply Forall_app in W1.
  destruct (dj_insert_loop up x1 None pre) as [[[[pre2 x2] k] c]|e|] eqn:EL.
  2:{ exfalso. exact (insert_loop_throw _ _ _ _ _ EL). }
  2:{ injection E as <- <- <- <- <-. split; [now apply jp_ub|]. split; [now rewrite !map_app|]. split; [easy|]. split; [discriminate|]. intros C. exfalso.
      destruct (insert_loop_total up pre x1 None) as (res & R); auto; [| | |congruence].
      - unfold uinv in U. apply Forall_forall. intros j Hj. rewrite Forall_forall in U. specialize (U j Hj). 
        assert (Kj : ivok s j) by (apply Forall_app in Kx as (Kx & _); rewrite Forall_forall in Kx; now apply Kx).
        pose proof (calm_iv s j _ DI Kj Ptp ltac:(apply in_or_app; now left) C) as CC. unfold MIN_VAL, MAX_VAL in CC.
        pose proof (isum_all up (dlower up j) pre W2) as I1. pose proof (esum_part (pre ++ [x0]) ltac:(eapply Forall_impl; [|exact (dj_vars s DI)]; now intros e []) Ptp) as I2.
        rewrite map_app, fold_add_app in I2. cbn in I2. change (iv_weight x1) with (iv_weight x0).
        destruct up; cbn [dlower] in *; lia.
      - specialize (CA C). cbn. lia.
      - specialize (CA C). pose proof (isum_esum s up (dlower up x1) (pre ++ [x1]) DI Kx1 Ptx1) as I1. rewrite isum_app, isum_one, Z.leb_refl in I1.
        change (iv_u x1) with (dlower up x0 + iv_weight x0 - 1). change (dlower up x1) with (dlower up x0) in *. change (iv_weight x1) with (iv_weight x0) in I1. lia. }
  destruct (insert_uinv up pre x1 pre2 x2 k c _ W1 U eq_refl eq_refl EL) as (U2 & B2).
  destruct (insert_loop_ok up pre x1 None pre2 x2 k c W2 EL) as (A1 & A2 & A3 & A4 & A5).
  assert (K2 : Forall (ivok s) (pre2 ++ [x2])) by now apply ivoks_bare with (pre ++ [x1]).
  assert (Pt2 : part (pre2 ++ [x2])) by now apply part_key with (pre ++ [x1]).
  destruct (bare_lower up _ _ A2) as (D1 & D2 & D3 & _). change (dlower up x1) with (dlower up x0) in *. change (dupper up x1) with (dupper up x0) in *.
  assert (S2 : forall i, In i (pre2 ++ [x2]) -> dupper up i <= dupper up x2).
  { intros i Hi. destruct (bare_in _ _ _ B2 Hi) as (j & J1 & J2). destruct (bare_lower up _ _ J2) as (_ & -> & _). rewrite D2. apply in_app_or in J1 as [J1|[<-|[]]]; [now apply So|easy]. }
  assert (B3 : map bare (pre2 ++ [x2]) = map bare (pre ++ [x0])) by (rewrite B2; now rewrite !map_app).
  assert (UI : forall i, In i (pre2 ++ [x2]) -> iv_u i <= dlower up i - 1 + isum up (dlower up i) (pre2 ++ [x2])).
  { intros i Hi. unfold uinv in U2. rewrite Forall_forall in U2. apply (U2 i Hi). }
  assert (CF : forall r s1 ok s2 j, In j (pre2 ++ [x2]) -> dupper up x2 < iv_u j -> dj_reason O cfg up clit (dlower up j) (pre2 ++ [x2]) s = (r, s1) -> add_clause O Learnt r s1 = (ok, s2) -> jp s s2 (Ok ok)).
  { intros r s1 ok s2 j Hj Lj E1 E2. apply (conflict_ok up (dlower up j) (dupper up x2) (pre2 ++ [x2]) s r s1 ok s2); auto; [now exists j|]. specialize (UI j Hj). lia. }
  destruct c as [a|].
  { destruct (A4 a eq_refl) as (j & J1 & -> & J3). rewrite <- D2 in J3.
    destruct (dj_reason O cfg up clit (dlower up j) (pre2 ++ [x2]) s) as [r s1] eqn:E1. destruct (add_clause O Learnt r s1) as [ok s2] eqn:E2. injection E as <- <- <- <- <-.
    split; [apply (CF r s1 ok s2 j); auto; apply in_or_app; now left|]. split; [easy|]. split; [easy|]. split; [easy|]. now exists ok. }
  destruct (dupper up x2 <? iv_u x2) eqn:C2.
  { destruct (dj_reason O cfg up clit (dlower up x2) (pre2 ++ [x2]) s) as [r s1] eqn:E1. destruct (add_clause O Learnt r s1) as [ok s2] eqn:E2. injection E as <- <- <- <- <-.
    split; [apply (CF r s1 ok s2 x2); auto; [apply in_or_app; right; now left|lia]|]. split; [easy|]. split; [easy|]. split; [easy|]. now exists ok. }
  set (k2 := if (iv_u x2 =? dupper up x2) && _ then _ else k) in *.
  assert (KK : forall a, k2 = Some a -> exists j, In j (pre2 ++ [x2]) /\ a = dlower up j /\ iv_u j = dupper up x2).
  { intros a H. unfold k2 in H. destruct ((iv_u x2 =? dupper up x2) && _) eqn:C3.
    - injection H as <-. exists x2. split; [apply in_or_app; right; now left|]. split; [easy|lia].
    - destruct (A5 a H) as [Q|(j & J1 & J2 & J3)]; [discriminate|]. exists j. split; [apply in_or_app; now left|]. split; [easy|]. now rewrite D2. }
  destruct k2 as [a|].
  2:{ injection E as <- <- <- <- <-. split; [now apply jp_refl|]. split; [easy|]. split; [easy|]. split; [easy|]. now exists true. }
  destruct (KK a eq_refl) as (j & J1 & J2 & J3).
  destruct (dj_hall O cfg up clit a (dupper up x2) (pre2 ++ [x2]) None post s) as [[o1 post1] s1] eqn:EH. injection E as <- <- <- <- <-.
  destruct (hall_ok up a (dupper up x2) (pre2 ++ [x2]) post None s o1 post1 s1 DI K2 Kq) as (H1 & H2 & H3); auto.
  - apply part_key with (pre ++ x0 :: post); [|easy]. rewrite (map_app bare (pre2 ++ [x2]) post), B3, <- map_app, <- app_assoc. easy.
  - specialize (UI j J1). rewrite J2. lia.
  - discriminate.
  - split; [easy|]. split; [easy|]. split; [easy|]. split; [easy|]. intros C. apply H3; [easy|]. exists x2. split; [apply in_or_app; right; now left|easy].
Qed.

Definition sorted (up : bool) (l : list ival) : Prop := StronglySorted Z.le (map (dupper up) l).
Lemma upper_bare up l l' : map bare l = map bare l' -> map (dupper up) l = map (dupper up) l'.
Proof.
  revert l'. induction l as [|x l IH]; intros [|y l'] H; try discriminate; [easy|]. cbn [map] in *. assert (H1 : bare x = bare y) by congruence.
  rewrite (IH l') by congruence. destruct (bare_lower up x y H1) as (_ & -> & _). easy.
Qed.
Lemma sorted_app up l l' : sorted up (l ++ l') -> sorted up l /\ sorted up l' /\ forall i j, In i l -> In j l' -> dupper up i <= dupper up j.
Proof.
  unfold sorted. rewrite map_app. induction l as [|x l IH]; cbn; intros S; [split; [constructor|easy]|]. inversion S as [|? ? S1 S2]; subst. destruct (IH S1) as (A & B & C).
  apply Forall_app in S2 as (S2 & S3). split; [now constructor|]. split; [easy|]. intros i j [<-|Hi] Hj; [|now apply C]. rewrite Forall_forall in S3. now apply S3, in_map.
Qed.
Lemma items_ok n up : forall pre post s o l s', dj s -> Forall (ivok s) (pre ++ post) -> part (pre ++ post) -> uinv up pre -> sorted up (pre ++ post) ->
  dj_items O cfg n up clit pre post s = (o, l, s') ->
  jp s s' o /\ map bare l = map bare (pre ++ post) /\ (calm s -> exists ok, o = Ok ok).
Proof.
  induction n as [|n IH]; intros pre post s o l s' DI K Pt U So E; cbn [dj_items] in E.
  { injection E as <- <- <-. split; [now apply jp_refl|]. split; [easy|]. now exists true. }
  destruct post as [|x post]. { injection E as <- <- <-. split; [now apply jp_refl|]. split; [easy|]. now exists true. }
  destruct (dj_insert O cfg up clit pre x post s) as [[o1 [[pre1 x1] post1]] s1] eqn:E1.
  destruct (insert_ok up pre x post s o1 pre1 x1 post1 s1 DI K Pt U) as (A1 & A2 & A3 & A4 & A5); auto.
  { intros i Hi. apply (sorted_app up pre (x :: post) So); [easy|now left]. }
  assert (B : map bare ((pre1 ++ [x1]) ++ post1) = map bare (pre ++ x :: post)).
  { rewrite (map_app bare (pre1 ++ [x1]) post1), A2, A3, <- map_app, <- app_assoc. easy. }
  assert (B' : map bare (pre1 ++ x1 :: post1) = map bare (pre ++ x :: post)) by (rewrite <- B, <- app_assoc; easy).
  destruct o1 as [[|]|e|]; try (injection E as <- <- <-; split; [easy|]; now split).
  destruct (IH (pre1 ++ [x1]) post1 s1 o l s') as (C1 & C2 & C3); auto.
  - now apply (jp_dj s).
  - apply (ivoks_pstep _ _ _ _ _ (jp_step _ _ _ A1)). now apply ivoks_bare with (pre ++ x :: post).
  - now apply part_key with (pre ++ x :: post).
  - unfold sorted. now rewrite (upper_bare up _ _ B).
  - split; [now apply jp_trans with s1|]. split; [now rewrite C2|]. intros C. apply C3. exact (calm_pstep _ _ _ _ (jp_step _ _ _ A1) C).
Qed.
Lemma group_split up rl : forall mn chg g g' chg' r', dj_group up mn chg g rl = (g', chg', r') -> rev r' ++ g' = rev rl ++ g.
Proof.
  induction rl as [|y r IH]; intros mn chg g g' chg' r' E; cbn [dj_group] in E; [now injection E as <- <- <-|].
  destruct (mn <=? dupper up y); [|now injection E as <- <- <-]. rewrite (IH _ _ _ _ _ _ E). cbn. now rewrite <- app_assoc.
Qed.
Lemma groups_ok n up force : forall rl dn s o l s', dj s -> Forall (ivok s) (rev rl ++ dn) -> part (rev rl ++ dn) -> sorted up (rev rl) ->
  dj_groups O cfg n up clit force rl dn s = (o, l, s') ->
  jp s s' o /\ map bare l = map bare (rev rl ++ dn) /\ (calm s -> exists ok, o = Ok ok).
Proof.
  induction n as [|n IH]; intros rl dn s o l s' DI K Pt So E; cbn [dj_groups] in E.
  { injection E as <- <- <-. split; [now apply jp_refl|]. split; [easy|]. now exists true. }
  destruct rl as [|y r]. { injection E as <- <- <-. split; [now apply jp_refl|]. split; [easy|]. now exists true. }
  destruct (dj_group up (dlower up y) (force || dchanged y) [y] r) as [[g chg] r1] eqn:EG. apply group_split in EG.
  change (rev (y :: r)) with (rev r ++ [y]) in *. rewrite <- EG in *. clear EG. rewrite <- app_assoc in *. destruct chg.
  2:{ apply (IH _ _ _ _ _ _ DI K Pt) with (2 := E). now apply sorted_app in So. }
  destruct (dj_items O cfg (length g) up clit [] g s) as [[o1 g1] s1] eqn:E1.
  apply sorted_app in So as (So1 & So2 & _).
  destruct (items_ok (length g) up [] g s o1 g1 s1 DI) as (A1 & A2 & A3); auto.
  { apply Forall_app in K as (_ & K). apply Forall_app in K. apply K. }
  { apply part_right in Pt. now apply part_left in Pt. }
  { constructor. }
  assert (B : map bare (rev r1 ++ g1 ++ dn) = map bare (rev r1 ++ g ++ dn)) by (rewrite !map_app; now rewrite A2).
  destruct o1 as [[|]|e|]; try (injection E as <- <- <-; split; [easy|]; now split).
  destruct (IH r1 (g1 ++ dn) s1 o l s') as (C1 & C2 & C3); auto.
  - now apply (jp_dj s).
  - apply (ivoks_pstep _ _ _ _ _ (jp_step _ _ _ A1)). now apply ivoks_bare with (rev r1 ++ g ++ dn).
  - now apply part_key with (rev r1 ++ g ++ dn).
  - split; [now apply jp_trans with s1|]. split; [now rewrite C2|]. intros C. apply C3. exact (calm_pstep _ _ _ _ (jp_step _ _ _ A1) C).
Qed.
Context (srt : (ival -> Z) -> list ival -> list ival).
Context (SP : forall f l, Permutation (srt f l) l) (SS : forall f l, StronglySorted Z.le (map f (srt f l))).
Lemma run_ok up force iv s o l s' : dj s -> Forall (ivok s) iv -> part iv -> dj_run srt O cfg up clit force iv s = (o, l, s') ->
  jp s s' o /\ Permutation (map bare l) (map bare iv) /\ (calm s -> exists ok, o = Ok ok).
Proof.
  intros DI K Pt E. unfold dj_run in E. set (iv1 := srt (dupper up) iv) in *. assert (Pm : Permutation iv1 iv) by apply SP.
  destruct (groups_ok (length iv1) up force (rev iv1) [] s o l s' DI) as (A1 & A2 & A3); auto.
  - rewrite rev_involutive, app_nil_r. now apply (Permutation_Forall (Permutation_sym Pm)).
  - rewrite rev_involutive, app_nil_r. apply part_perm with iv; [now apply Permutation_sym|easy].
  - rewrite rev_involutive. apply SS.
  - split; [easy|]. split; [|easy]. rewrite A2, rev_involutive, app_nil_r. now apply Permutation_map.
Qed.
Lemma perm_bare l l' : Permutation (map bare l) (map bare l') -> exists m, Permutation m l' /\ map bare l = map bare m.
Proof. intros H. apply Permutation_map_inv in H as (m & A & B). exists m. split; [now apply Permutation_sym|easy]. Qed.
Lemma refresh_ok s iv : dj s -> part iv -> (exists iv', dj_refresh s iv = Ok iv' /\ Forall (ivok s) iv' /\ map key iv' = map key iv) \/ dj_refresh s iv = UB /\ ~ calm s.
Proof.
  intros DI. induction iv as [|i t IH]; intros Pt; cbn [dj_refresh]; [left; now exists []|].
  assert (Ptt : part t) by now apply (part_right [i]) in Pt. pose proof (part_in _ i Pt (or_introl eq_refl)) as Hi.
  pose proof (dj_vars s DI) as V. rewrite Forall_forall in V. specialize (V _ Hi). cbn in V. destruct V as (V1 & V2). unfold iadd, isub.
  assert (CW : calm s -> iv_weight i <= 2^30 /\ MIN_VAL <= ub (vst s (iv_var i)) <= MAX_VAL).
  { intros (C1 & C2). specialize (C2 _ Hi). cbn in C2. destruct (rd_bnds _ _ _ (dj_ready s DI) (iv_var i) V2) as (_ & B & _). unfold MIN_VAL, MAX_VAL. split; [|lia].
    assert (Hp : part [i]) by now apply (part_left [i] t) in Pt. apply esum_part in Hp; [cbn in Hp; lia|]. eapply Forall_impl; [|exact (dj_vars s DI)]. now intros e []. }
  unfold MIN_VAL, MAX_VAL in CW.
  destruct (ck32_cases (ub (vst s (iv_var i)) + iv_weight i)) as [->|(-> & N)]; cbn [bind]; [|right; split; [easy|]; intros C; specialize (CW C); lia].
  destruct (ck32_cases (ub (vst s (iv_var i)) + iv_weight i - 1)) as [->|(-> & N)]; cbn [bind]; [|right; split; [easy|]; intros C; specialize (CW C); lia].
  destruct (IH Ptt) as [(t' & -> & A & B)|(-> & N)]; cbn [bind]; [left|now right]. eexists. split; [reflexivity|]. split; [|cbn; now rewrite B]. constructor; [|easy]. now constructor.
Qed.
End Disj.

Section Whole.
Context (O : oracle) (cfg : config) (Base : interp -> Prop) (n0 : Z) (BO : base_ok Base n0) (CO : clasp_ok O Base).
Notation ready := (ready O n0).
Notation pstep := (pstep O Base).
Context (srt : (ival -> Z) -> list ival -> list ival).
Context (SP : forall f l, Permutation (srt f l) l) (SS : forall f l, StronglySorted Z.le (map f (srt f l))).

(** A disjoint constraint with its intervals in some order. *)
Record disj_ok (s : state) (c : cid) (k : cst) (clit : lit) (es : list (Z * var)) : Prop := {
  jk_css : css s c = Some k;
  jk_def : c_def k = CDisjoint clit es;
  jk_vars : Forall (fun e => 0 < fst e /\ (snd e < nvars s)%nat) es;
  jk_lit : below (nxt s) clit;
  jk_iv : Permutation (map key (c_iv k)) es }.
Notation jsem guard clit es := (fun (I : interp) nu => (guard = true -> lit_true I clit) -> overlap_free es nu).

Lemma pstep_set_cs (P : interp -> (var -> Z) -> Prop) c k s s' b : pstep P s s' b -> pstep P s (set_cs c k s') b.
Proof.
  intros [A1 A2 A3 A4 A5]. constructor; auto.
  - now apply wf_set_css.
  - now destruct A2.
Qed.
Record pj_post (guard : bool) (clit : lit) (es : list (Z * var)) (c : cid) (k : cst) (s s' : state) (r : outcome bool) : Prop := {
  pj_step : pstep (jsem guard clit es) s s' (okb r);
  pj_throw : r = UB \/ exists b, r = Ok b;
  pj_css : r <> UB -> exists iv, Permutation (map key iv) es /\ forall c', css s' c' = if Nat.eqb c' c then Some (set_disj iv false k) else css s c';
  pj_ina : ina s' = ina s;
  pj_calm : calm es s -> exists b, r = Ok b }.
Lemma prop_disjoint_ok guard c k clit es s r s' : ready s -> disj_ok s c k clit es -> (guard = true -> dj_lit O clit s) ->
  prop_disjoint srt O cfg c s = (r, s') -> pj_post guard clit es c k s s' r.
Proof.
  intros R [K1 K2 K3 K4 K5] G E. unfold prop_disjoint in E. rewrite K1, K2 in E.
  assert (DI : dj O n0 guard clit es s) by now constructor.
  assert (Pt : part es (c_iv k)) by (exists []; now rewrite app_nil_r).
  destruct (refresh_ok O n0 guard clit es s (c_iv k) DI Pt) as [(iv & EQ & KI & KK)|(EQ & NC)]; rewrite EQ in E.
  2:{ injection E as <- <-. constructor; auto; try easy. apply pstep_refl, R. }
  assert (Pt1 : part es iv) by (exists []; rewrite app_nil_r, KK; easy).
  destruct (dj_run srt O cfg false clit (c_force k) iv s) as [[o1 iv1] s1] eqn:E1.
  destruct (run_ok O cfg Base n0 BO CO guard clit es srt SP SS false _ _ _ _ _ _ DI KI Pt1 E1) as (A1 & A2 & A3).
  destruct (perm_bare _ _ A2) as (m & M1 & M2).
  assert (PK : forall iv iv', Permutation (map bare iv) (map bare iv') -> Permutation (map key iv) (map key iv')).
  { intros l l' H. destruct (perm_bare _ _ H) as (m' & N1 & N2). rewrite (key_bare _ _ N2). now apply Permutation_map. }
  assert (FIN : forall r1 iv2 s2, jp O Base guard clit es s s2 r1 -> Permutation (map bare iv2) (map bare iv) -> (calm es s -> exists ok, r1 = Ok ok) ->
    pj_post guard clit es c k s (set_cs c (set_disj iv2 false k) s2) r1).
  { intros r1 iv2 s2 [J1 J2 J3 J4] Pm C. constructor; auto.
    - now apply pstep_set_cs.
    - intros _. exists iv2. split; [rewrite (PK _ _ Pm), KK; easy|]. intros c'. cbn. unfold upd. now rewrite J2. }
  destruct o1 as [[|]|e|]; try (injection E as <- <-; now apply FIN).
  destruct (dj_run srt O cfg true clit (c_force k) iv1 s1) as [[o2 iv2] s2] eqn:E2. injection E as <- <-.
  assert (DI1 : dj O n0 guard clit es s1) by (apply (jp_dj O Base n0 CO guard clit es s); easy).
  destruct (run_ok O cfg Base n0 BO CO guard clit es srt SP SS true (c_force k) iv1 s1 o2 iv2 s2 DI1) as (B1 & B2 & B3); auto.
  - apply (ivoks_pstep O Base _ _ _ _ _ (jp_step _ _ _ _ _ _ _ _ A1)). apply ivoks_bare with m; [easy|]. now apply (Permutation_Forall (Permutation_sym M1)).
  - apply part_key with m; [easy|]. apply part_perm with iv; [now apply Permutation_sym|easy].
  - apply FIN.
    + apply (jp_trans O Base n0 guard clit es s s1); auto.
    + now rewrite B2.
    + intros C. apply B3. exact (calm_pstep O Base es _ _ _ _ (jp_step _ _ _ _ _ _ _ _ A1) C).
Qed.
End Whole.

(** A function that sorts by a key. *)
Fixpoint insort (f : ival -> Z) (x : ival) (l : list ival) : list ival :=
  match l with [] => [x] | y :: t => if f x <=? f y then x :: l else y :: insort f x t end.
Definition isort (f : ival -> Z) (l : list ival) : list ival := fold_right (insort f) [] l.
Lemma insort_perm f x l : Permutation (insort f x l) (x :: l).
Proof. induction l as [|y t IH]; cbn; [easy|]. destruct (f x <=? f y); [easy|]. rewrite IH. apply perm_swap. Qed.
Lemma isort_perm f l : Permutation (isort f l) l.
Proof. induction l as [|x t IH]; cbn; [easy|]. rewrite insort_perm. now rewrite IH. Qed.
Lemma isort_sorted f l : StronglySorted Z.le (map f (isort f l)).
Proof.
  induction l as [|x t IH]; cbn; [constructor|]. fold (isort f t). induction (isort f t) as [|y q IHq]; cbn; [repeat constructor|].
  inversion IH as [|? ? S1 S2]; subst. destruct (f x <=? f y) eqn:C; cbn.
  - constructor; [easy|]. constructor; [lia|]. eapply Forall_impl; [|exact S2]. cbn. lia.
  - constructor; [now apply IHq|]. rewrite (Permutation_map f (insort_perm f x q)). cbn. constructor; [lia|easy].
Qed.

(** ** The final check *)
Definition span (s : state) (e : Z * var) (p : Z) : Prop := lb (vst s (snd e)) <= p < ub (vst s (snd e)) + fst e.
Lemma check_disjoint_ok s es : forall m, IntervalSetProofs.wf m -> (forall e, In e es -> - 2^31 <= ub (vst s (snd e)) + fst e <= 2^31 - 1) ->
  (check_disjoint s es m = Ok tt <-> ForallOrdPairs (fun e f => forall p, ~ (span s e p /\ span s f p)) es /\ forall e p, In e es -> span s e p -> ~ mem m p).
Proof.
  induction es as [|[w x] t IH]; intros m W B; cbn [check_disjoint]; [split; [intros _; split; [constructor|easy]|easy]|].
  pose proof (B (w, x) (or_introl eq_refl)) as B1. cbn in B1. unfold iadd. destruct (ck32_cases (ub (vst s x) + w)) as [->|(_ & N)]; [|lia]. cbn [bind].
  destruct (intersects m (lb (vst s x)) (ub (vst s x) + w)) eqn:I.
  - split; [discriminate|]. intros (_ & H). exfalso. apply intersects_spec in I as (p & P1 & P2); [|easy]. apply (H (w, x) p (or_introl eq_refl)); [exact P1|easy].
  - assert (NI : forall p, span s (w, x) p -> ~ mem m p).
    { intros p Hp Hm. assert (true = false); [|discriminate]. rewrite <- I. symmetry. apply intersects_spec; [easy|]. now exists p. }
    rewrite IH; [|now apply add_wf|intros e He; apply B; now right]. split.
    + intros (F & H). split; [constructor; [|easy]|].
      * apply Forall_forall. intros f Hf p (P1 & P2). apply (H f p Hf P2). apply add_mem; [easy|]. now left.
      * intros e p [<-|He] Hp; [now apply NI|]. intros Hm. apply (H e p He Hp). apply add_mem; [easy|]. now right.
    + intros (F & H). inversion F as [|? ? F1 F2]; subst. split; [easy|]. intros e p He Hp Hm. apply (add_mem _ _ _ _ W) in Hm as [Hm|Hm].
      * rewrite Forall_forall in F1. now apply (F1 e He p).
      * apply (H e p); [now right|easy|easy].
Qed.
