(** Both storages of order literals implement the same finite map (C39). *)
From Verif Require Import Base VarState.
From Coq Require Import Sorting.Sorted.
Open Scope Z_scope.

(** ** The sorted list of a map *)

Lemma m_find_in m v l : sorted m -> (m_find m v = Some l <-> In (v, l) m).
Proof.
  induction 1 as [|[k x] r S IH F]; cbn; [easy|].
  rewrite Forall_forall in F. split.
  - destruct (k =? v) eqn:E; intros H.
    + apply Z.eqb_eq in E as ->. injection H as ->. now left.
    + right. now apply IH.
  - intros [H|H].
    + injection H as -> ->. now rewrite Z.eqb_refl.
    + specialize (F _ H). unfold klt in F. cbn in F. destruct (k =? v) eqn:E; [lia|]. now apply IH.
Qed.

Lemma m_set_in m v l e : In e (m_set m v l) -> e = (v, l) \/ In e m.
Proof.
  induction m as [|[k x] r IH]; cbn; [intuition|].
  destruct (v <? k); [cbn; intuition|]. destruct (k =? v); cbn; intuition.
Qed.
Lemma m_set_sorted m v l : sorted m -> sorted (m_set m v l).
Proof.
  induction 1 as [|[k x] r S IH F]; cbn.
  - repeat constructor.
  - destruct (v <? k) eqn:E1.
    + constructor; [now constructor|]. constructor; [unfold klt; cbn; lia|].
      eapply Forall_impl; [|exact F]. unfold klt; cbn. intros; lia.
    + destruct (k =? v) eqn:E2.
      * apply Z.eqb_eq in E2 as ->. now constructor.
      * constructor; [exact IH|]. apply Forall_forall. intros e He. apply m_set_in in He as [->|He].
        -- unfold klt; cbn; lia.
        -- rewrite Forall_forall in F. now apply F.
Qed.
Lemma m_set_find m v l w : sorted m -> m_find (m_set m v l) w = if w =? v then Some l else m_find m w.
Proof.
  induction 1 as [|[k x] r S IH F]; cbn.
  - destruct (v =? w) eqn:E1, (w =? v) eqn:E2; try lia; easy.
  - destruct (v <? k) eqn:E1; cbn.
    + destruct (v =? w) eqn:E2; [now replace (w =? v) with true by lia|]. now replace (w =? v) with false by lia.
    + destruct (k =? v) eqn:E2; cbn.
      * destruct (v =? w) eqn:E3; [now replace (w =? v) with true by lia|].
        replace (w =? v) with false by lia. now replace (k =? w) with false by lia.
      * destruct (k =? w) eqn:E3; [now replace (w =? v) with false by lia|]. exact IH.
Qed.
Lemma m_emplace_set m v l : m_find m v = None -> sorted m -> m_emplace m v l = m_set m v l.
Proof.
  intros H S. induction S as [|[k x] r S IH F]; cbn in *; [easy|].
  destruct (k =? v) eqn:E; [easy|]. destruct (v <? k); [easy|]. now rewrite IH.
Qed.
Lemma m_emplace_same m v l x : m_find m v = Some x -> sorted m -> m_emplace m v l = m.
Proof.
  intros H S. induction S as [|[k y] r S IH F]; cbn in *; [easy|].
  destruct (k =? v) eqn:E.
  - now replace (v <? k) with false by lia.
  - assert (k < v).
    { apply m_find_in in H; [|easy]. rewrite Forall_forall in F. apply F in H. exact H. }
    replace (v <? k) with false by lia. now rewrite IH.
Qed.
Lemma m_set_set m v a b : sorted m -> m_set (m_set m v a) v b = m_set m v b.
Proof.
  induction 1 as [|[k y] r S IH F]; cbn.
  - now rewrite Z.ltb_irrefl, Z.eqb_refl.
  - destruct (v <? k) eqn:E1; cbn.
    + now rewrite Z.ltb_irrefl, Z.eqb_refl.
    + destruct (k =? v) eqn:E2; cbn.
      * now rewrite Z.ltb_irrefl, Z.eqb_refl.
      * now rewrite E1, E2, IH.
Qed.
Lemma m_erase_in m v e : In e (m_erase m v) -> In e m.
Proof.
  induction m as [|[k x] r IH]; cbn; [easy|]. destruct (k =? v); cbn; intuition.
Qed.
Lemma m_erase_sorted m v : sorted m -> sorted (m_erase m v).
Proof.
  induction 1 as [|[k x] r S IH F]; cbn; [constructor|]. destruct (k =? v); [easy|]. constructor; [easy|].
  rewrite Forall_forall in *. intros e He. apply F. eapply m_erase_in, He.
Qed.
Lemma m_erase_find m v w : sorted m -> m_find (m_erase m v) w = if w =? v then None else m_find m w.
Proof.
  induction 1 as [|[k x] r S IH F]; cbn; [now destruct (w =? v)|].
  destruct (k =? v) eqn:E1.
  - destruct (w =? v) eqn:E2.
    + destruct (m_find r w) eqn:E; [|easy]. apply m_find_in in E; [|easy]. rewrite Forall_forall in F.
      apply F in E. unfold klt in E; cbn in E. lia.
    + now replace (k =? w) with false by lia.
  - cbn. destruct (k =? w) eqn:E3; [now replace (w =? v) with false by lia|]. exact IH.
Qed.

(** ** The vector *)

Lemma upd_nth_length vec i l : length (upd_nth vec i l) = length vec.
Proof. revert i; induction vec; intros [|i]; cbn; auto. Qed.
Lemma upd_nth_same vec i l : (i < length vec)%nat -> nth_error (upd_nth vec i l) i = Some l.
Proof. revert i; induction vec; intros [|i] H; cbn in *; try lia; auto. apply IHvec. lia. Qed.
Lemma upd_nth_other vec i j l : i <> j -> nth_error (upd_nth vec i l) j = nth_error vec j.
Proof. revert i j; induction vec; intros [|i] [|j] H; cbn in *; try congruence; auto. Qed.

Definition vec_at (off : Z) (vec : list Z) (v : Z) : option Z :=
  if v <? off then None
  else match nth_error vec (Z.to_nat (v - off)) with Some l => if l =? 0 then None else Some l | None => None end.

Lemma indexed_in off vec v l :
  In (v, l) (indexed off vec) <-> off <= v /\ nth_error vec (Z.to_nat (v - off)) = Some l.
Proof.
  revert off. induction vec as [|x r IH]; intros off; cbn.
  - split; [easy|]. intros [_ H]. now destruct (Z.to_nat (v - off)).
  - rewrite IH. split.
    + intros [H|[H1 H2]].
      * injection H as -> ->. split; [lia|]. now replace (Z.to_nat (v - v)) with 0%nat by lia.
      * split; [lia|]. replace (Z.to_nat (v - off)) with (S (Z.to_nat (v - (off + 1)))) by lia. exact H2.
    + intros [H1 H2]. destruct (Z.eq_dec off v) as [->|N].
      * replace (Z.to_nat (v - v)) with 0%nat in H2 by lia. cbn in H2. injection H2 as ->. now left.
      * right. split; [lia|].
        replace (Z.to_nat (v - off)) with (S (Z.to_nat (v - (off + 1)))) in H2 by lia. exact H2.
Qed.
Lemma indexed_sorted off vec : sorted (indexed off vec).
Proof.
  revert off. induction vec as [|x r IH]; intros off; cbn; constructor; [apply IH|].
  apply Forall_forall. intros [v l] H. apply indexed_in in H. unfold klt. cbn. lia.
Qed.
Lemma filter_sorted p m : sorted m -> sorted (filter p m).
Proof.
  induction 1 as [|e r S IH F]; cbn; [constructor|]. destruct (p e); [|easy]. constructor; [easy|].
  rewrite Forall_forall in *. intros x Hx. apply filter_In in Hx. now apply F.
Qed.
Lemma indexed_filter_lt off vec v :
  filter (fun e => fst e <? v) (indexed off vec) = firstn (clamp vec (v - off)) (indexed off vec).
Proof.
  unfold clamp. revert off. induction vec as [|x r IH]; intros off; cbn [indexed filter length].
  - now rewrite firstn_nil.
  - cbn [fst]. destruct (off <? v) eqn:E.
    + rewrite IH. replace (Z.to_nat (Z.min (Z.max 0 (v - off)) (Z.of_nat (S (length r)))))
        with (S (Z.to_nat (Z.min (Z.max 0 (v - (off + 1))) (Z.of_nat (length r))))) by lia. easy.
    + rewrite IH. replace (Z.to_nat (Z.min (Z.max 0 (v - off)) (Z.of_nat (S (length r))))) with 0%nat by lia.
      replace (Z.to_nat (Z.min (Z.max 0 (v - (off + 1))) (Z.of_nat (length r)))) with 0%nat by lia. easy.
Qed.
Lemma indexed_filter_ge off vec v :
  filter (fun e => v <=? fst e) (indexed off vec) = skipn (clamp vec (v - off)) (indexed off vec).
Proof.
  unfold clamp. revert off. induction vec as [|x r IH]; intros off; cbn [indexed filter length].
  - now rewrite skipn_nil.
  - cbn [fst]. destruct (v <=? off) eqn:E.
    + rewrite IH. replace (Z.to_nat (Z.min (Z.max 0 (v - off)) (Z.of_nat (S (length r))))) with 0%nat by lia.
      replace (Z.to_nat (Z.min (Z.max 0 (v - (off + 1))) (Z.of_nat (length r)))) with 0%nat by lia. easy.
    + rewrite IH. replace (Z.to_nat (Z.min (Z.max 0 (v - off)) (Z.of_nat (S (length r)))))
        with (S (Z.to_nat (Z.min (Z.max 0 (v - (off + 1))) (Z.of_nat (length r))))) by lia. easy.
Qed.
Lemma filter_comm {A} (p q : A -> bool) l : filter p (filter q l) = filter q (filter p l).
Proof.
  induction l as [|x r IH]; cbn; [easy|].
  destruct (q x) eqn:Q, (p x) eqn:P; cbn; rewrite ?Q, ?P; now rewrite ?IH.
Qed.
Lemma filter_ext' {A} (p q : A -> bool) l : (forall a, p a = q a) -> filter p l = filter q l.
Proof. intros H. induction l; cbn; [easy|]. now rewrite H, IHl. Qed.
Lemma rev_filter {A} (p : A -> bool) l : filter p (rev l) = rev (filter p l).
Proof.
  induction l as [|x r IH]; cbn; [easy|]. rewrite filter_app, IH. cbn. destruct (p x); cbn; [easy|now rewrite app_nil_r].
Qed.

(** Every traversal visits the matching part of the stored entries, in order. *)
Lemma with_lt_all st v : with_lt st v = rev (filter (fun e => fst e <? v) (with_all st)).
Proof.
  destruct st as [m|off vec]; cbn; [easy|].
  now rewrite <- indexed_filter_lt, rev_filter, filter_comm.
Qed.
Lemma with_le_all st v : with_le st v = rev (filter (fun e => fst e <=? v) (with_all st)).
Proof.
  destruct st as [m|off vec]; cbn; [easy|].
  replace (v - off + 1) with (v + 1 - off) by lia. rewrite <- indexed_filter_lt, rev_filter, filter_comm.
  apply f_equal. apply filter_ext'. intros; lia.
Qed.
Lemma with_ge_all st v : with_ge st v = filter (fun e => v <=? fst e) (with_all st).
Proof.
  destruct st as [m|off vec]; cbn; [easy|]. now rewrite <- indexed_filter_ge, filter_comm.
Qed.
Lemma with_gt_all st v : with_gt st v = filter (fun e => v <? fst e) (with_all st).
Proof.
  destruct st as [m|off vec]; cbn; [easy|].
  replace (v - off + 1) with (v + 1 - off) by lia. rewrite <- indexed_filter_ge, filter_comm.
  apply filter_ext'. intros; lia.
Qed.

(** ** Specification: a finite map from values to literals *)

Record smap := { s_at : Z -> option Z; s_min : Z; s_max : Z }.

Inductive op :=
| ONarrow (mn mx : Z)          (* the top level bounds of the variable change *)
| OGet (v l : Z)               (* get_or_add_literal, writing l if there was none *)
| OSet (v l : Z) | OUnset (v : Z)
| OHas (v : Z) | OFind (v : Z)
| OAll | OLt (v : Z) | OLe (v : Z) | OGt (v : Z) | OGe (v : Z).

Inductive answer := ADone | ALit (l : Z) | ABool (b : bool) | AOpt (l : option Z) | AWalk (es : list (Z * Z)).

Definition inside (s : smap) v := s_min s <= v < s_max s.
(** How the solver uses the storage: bounds only become tighter, new literals are
    added strictly inside the bounds, only stored literals are replaced or removed. *)
Definition legal (s : smap) (o : op) : Prop :=
  match o with
  | ONarrow mn mx => s_min s <= mn <= mx /\ mx <= s_max s
  | OGet v l => l <> 0 /\ inside s v
  | OSet v l => l <> 0 /\ (inside s v \/ s_at s v <> None)
  | OUnset v => inside s v \/ s_at s v <> None
  | OHas v | OFind v => inside s v \/ s_at s v <> None
  | _ => True
  end.
Definition upd (f : Z -> option Z) v x := fun w => if w =? v then x else f w.
Definition s_step (s : smap) (o : op) : smap :=
  match o with
  | ONarrow mn mx => {| s_at := s_at s; s_min := mn; s_max := mx |}
  | OGet v l => match s_at s v with
                | Some _ => s
                | None => {| s_at := upd (s_at s) v (Some l); s_min := s_min s; s_max := s_max s |}
                end
  | OSet v l => {| s_at := upd (s_at s) v (Some l); s_min := s_min s; s_max := s_max s |}
  | OUnset v => {| s_at := upd (s_at s) v None; s_min := s_min s; s_max := s_max s |}
  | _ => s
  end.
(** A traversal visits exactly the literals of the values in [p], ascending or descending. *)
Definition walk (f : Z -> option Z) (p : Z -> Prop) (es : list (Z * Z)) : Prop :=
  forall v l, In (v, l) es <-> p v /\ f v = Some l.
Definition ascending (es : list (Z * Z)) := StronglySorted (fun a b => fst a < fst b) es.
Definition descending (es : list (Z * Z)) := StronglySorted (fun a b => fst b < fst a) es.
Definition s_answer (s : smap) (o : op) (a : answer) : Prop :=
  match o, a with
  | ONarrow _ _, ADone | OSet _ _, ADone | OUnset _, ADone => True
  | OGet v l, ALit x => match s_at s v with Some y => x = y | None => x = l end
  | OHas v, ABool b => b = true <-> s_at s v <> None
  | OFind v, AOpt x => x = s_at s v
  | OAll, AWalk es => walk (s_at s) (fun _ => True) es /\ ascending es
  | OLt v, AWalk es => walk (s_at s) (fun w => w < v) es /\ descending es
  | OLe v, AWalk es => walk (s_at s) (fun w => w <= v) es /\ descending es
  | OGt v, AWalk es => walk (s_at s) (fun w => v < w) es /\ ascending es
  | OGe v, AWalk es => walk (s_at s) (fun w => v <= w) es /\ ascending es
  | _, _ => False
  end.

(** The implementation, operation by operation. *)
Definition i_step (st : store * Z * Z) (o : op) : outcome (store * Z * Z * answer) :=
  let '(s, mn, mx) := st in
  match o with
  | ONarrow mn' mx' => Ok (s, mn', mx', ADone)
  | OGet v l =>
      '(x, s') <- get_or_add mn mx s v ;;
      if x =? 0 then s'' <- assign_ref s' v l ;; Ok (s'', mn, mx, ALit l) else Ok (s', mn, mx, ALit x)
  | OSet v l => s' <- set_literal mn mx s v l ;; Ok (s', mn, mx, ADone)
  | OUnset v => s' <- unset_literal s v ;; Ok (s', mn, mx, ADone)
  | OHas v => b <- has_literal s v ;; Ok (s, mn, mx, ABool b)
  | OFind v => x <- find_literal s v ;; Ok (s, mn, mx, AOpt x)
  | OAll => Ok (s, mn, mx, AWalk (with_all s))
  | OLt v => Ok (s, mn, mx, AWalk (with_lt s v))
  | OLe v => Ok (s, mn, mx, AWalk (with_le s v))
  | OGt v => Ok (s, mn, mx, AWalk (with_gt s v))
  | OGe v => Ok (s, mn, mx, AWalk (with_ge s v))
  end.

(** A run: each operation legal, the answers as specified. *)
Fixpoint legal_run (s : smap) (os : list op) : Prop :=
  match os with [] => True | o :: r => legal s o /\ legal_run (s_step s o) r end.
Fixpoint i_run (st : store * Z * Z) (os : list op) : outcome (list answer) :=
  match os with
  | [] => Ok []
  | o :: r => '(st', a) <- i_step st o ;; l <- i_run st' r ;; Ok (a :: l)
  end.
Fixpoint s_answers (s : smap) (os : list op) (l : list answer) : Prop :=
  match os, l with
  | [], [] => True
  | o :: r, a :: l => s_answer s o a /\ s_answers (s_step s o) r l
  | _, _ => False
  end.

(** ** Refinement *)

Definition refines (st : store) (s : smap) : Prop :=
  s_min s <= s_max s /\
  match st with
  | SMap m => sorted m /\ (forall v l, In (v, l) m -> l <> 0) /\ (forall v, m_find m v = s_at s v)
  | SVec off vec => off <= s_min s /\ s_max s <= off + Z.of_nat (length vec) /\ (forall v, vec_at off vec v = s_at s v)
  end.

Lemma with_all_sorted st s : refines st s -> sorted (with_all st).
Proof. intros [_ H]. destruct st as [m|off vec]; cbn; [apply H|]. apply filter_sorted, indexed_sorted. Qed.
Lemma with_all_in st s v l : refines st s -> (In (v, l) (with_all st) <-> s_at s v = Some l).
Proof.
  intros [_ H]. destruct st as [m|off vec]; cbn.
  - destruct H as (S & _ & H). rewrite <- H. now rewrite m_find_in.
  - destruct H as (_ & _ & H). rewrite <- H, filter_In, indexed_in. unfold vec_at, nonzero. cbn.
    destruct (v <? off) eqn:E.
    + split; [lia|easy].
    + destruct (nth_error vec _) as [x|]; [|split; [intros ((_ & ?) & _); congruence|easy]].
      destruct (x =? 0) eqn:Z0; split.
      * intros ((_ & K) & N). injection K as ->. lia.
      * easy.
      * intros ((_ & K) & N). exact K.
      * intros K. injection K as ->. repeat split; lia.
Qed.

Lemma v_get_at off vec v : off <= v < off + Z.of_nat (length vec) ->
  exists l, v_get vec (v - off) = Ok l /\ vec_at off vec v = if l =? 0 then None else Some l.
Proof.
  intros H. unfold v_get, vec_at. replace (v - off <? 0) with false by lia. replace (v <? off) with false by lia.
  destruct (nth_error vec _) as [l|] eqn:E; [eauto|]. apply nth_error_None in E. lia.
Qed.
Lemma v_set_at off vec v l : off <= v < off + Z.of_nat (length vec) ->
  exists vec', v_set vec (v - off) l = Ok vec' /\ length vec' = length vec /\
    forall w, vec_at off vec' w = if w =? v then (if l =? 0 then None else Some l) else vec_at off vec w.
Proof.
  intros H. unfold v_set. replace ((0 <=? v - off) && (v - off <? Z.of_nat (length vec))) with true by lia.
  eexists; split; [reflexivity|]. split; [apply upd_nth_length|]. intros w. unfold vec_at.
  destruct (w =? v) eqn:E.
  - apply Z.eqb_eq in E as ->. replace (v <? off) with false by lia. rewrite upd_nth_same; [easy|lia].
  - destruct (w <? off) eqn:E2; [easy|]. rewrite upd_nth_other; [easy|lia].
Qed.
Lemma vec_at_range off vec v : vec_at off vec v <> None -> off <= v < off + Z.of_nat (length vec).
Proof.
  unfold vec_at. destruct (v <? off) eqn:E; [easy|]. destruct (nth_error vec _) eqn:N; [|easy]. intros _.
  assert (nth_error vec (Z.to_nat (v - off)) <> None) by congruence. apply nth_error_Some in H. lia.
Qed.

Lemma fill_at off m vec : sorted m -> (forall v l, In (v, l) m -> l <> 0 /\ off <= v < off + Z.of_nat (length vec)) ->
  exists vec', fill off m vec = Ok vec' /\ length vec' = length vec /\
    forall v, vec_at off vec' v = match m_find m v with Some l => Some l | None => vec_at off vec v end.
Proof.
  revert vec. induction m as [|[k x] r IH]; intros vec S H; cbn.
  - eauto.
  - inversion S as [|? ? S' F]; subst. destruct (H k x (or_introl eq_refl)) as (N & K).
    destruct (v_set_at off vec k x K) as (vec' & -> & L & A). cbn.
    destruct (IH vec' S') as (vec'' & E & L' & A'). { intros v l I. rewrite L. apply H. now right. }
    exists vec''. rewrite E. split; [easy|]. split; [lia|]. intros v. rewrite A', A.
    destruct (k =? v) eqn:E1.
    + replace (v =? k) with true by lia. replace (x =? 0) with false by lia.
      destruct (m_find r v) eqn:E2; [|easy]. apply m_find_in in E2; [|easy]. rewrite Forall_forall in F.
      apply F in E2. unfold klt in E2; cbn in E2. lia.
    + now replace (v =? k) with false by lia.
Qed.
Lemma vec_at_repeat off n v : vec_at off (repeat 0 n) v = None.
Proof.
  unfold vec_at. destruct (v <? off); [easy|]. destruct (nth_error (repeat 0 n) _) eqn:E; [|easy].
  apply nth_error_In, repeat_spec in E. now subst.
Qed.

Lemma sorted_last m v l d : sorted m -> In (v, l) m -> v <= fst (last m d).
Proof.
  induction 1 as [|e r S IH F]; [easy|]. intros H. cbn [last]. destruct r as [|e' r'].
  - destruct H as [->|[]]. cbn. lia.
  - destruct H as [->|H]; [|now apply IH].
    rewrite Forall_forall in F.
    assert (K : In (last (e' :: r') d) (e' :: r')).
    { destruct (exists_last (l:=e' :: r')) as (a & b & ->); [easy|]. rewrite last_last. apply in_app_iff. cbn. auto. }
    apply F in K. unfold klt in K. cbn [fst] in *. lia.
Qed.

(** The switch to the vector preserves the content. *)
Lemma mogrify_ok m s : refines (SMap m) s ->
  match mogrify (s_min s) (s_max s) m with
  | Ok (Some st) => refines st s /\ exists off vec, st = SVec off vec
  | Ok None => True
  | _ => False
  end.
Proof.
  intros (B & S & N & F). unfold mogrify.
  destruct (Z.quot (s_max s - s_min s) MOGRIFY_FACTOR <? Z.of_nat (length m)) eqn:E; [|easy].
  assert (0 <= Z.quot (s_max s - s_min s) MOGRIFY_FACTOR) by (apply Z.quot_pos; unfold MOGRIFY_FACTOR; lia).
  destruct m as [|[f x] r] eqn:Em; [cbn in E; lia|]. rewrite <- Em in *.
  destruct ((s_min s <=? f) && _) eqn:E2; [|easy].
  destruct (fill_at (s_min s) m (repeat 0 (Z.to_nat (s_max s - s_min s))) S) as (vec & Ev & L & A).
  { intros v l I. split; [eapply N, I|]. rewrite repeat_length. pose proof (sorted_last _ _ _ (0,0) S I).
    assert (f <= v). { rewrite Em in I, S. destruct I as [I|I]; [injection I; lia|]. inversion S as [|? ? ? F']; subst.
      rewrite Forall_forall in F'. apply F' in I. unfold klt in I. cbn in I. lia. }
    lia. }
  rewrite Ev. cbn. rewrite repeat_length in L. split; [|eauto]. split; [exact B|]. split; [lia|]. split; [lia|].
  intros v. rewrite A, vec_at_repeat, F. now destruct (s_at s v).
Qed.

Lemma refines_sget st s v : refines st s -> inside s v \/ s_at s v <> None ->
  match st with SVec off vec => off <= v < off + Z.of_nat (length vec) | _ => True end.
Proof.
  intros (B & H) L. destruct st; [easy|]. destruct H as (H1 & H2 & H3). destruct L as [L|L].
  - unfold inside in L. lia.
  - rewrite <- H3 in L. now apply vec_at_range.
Qed.

Lemma find_ok st s v : refines st s -> inside s v \/ s_at s v <> None -> find_literal st v = Ok (s_at s v).
Proof.
  intros R L. pose proof (refines_sget _ _ _ R L) as K. destruct R as (B & H). destruct st as [m|off vec]; cbn.
  - now destruct H as (_ & _ & ->).
  - destruct H as (_ & _ & <-). destruct (v_get_at off vec v K) as (l & -> & ->). easy.
Qed.
Lemma has_ok st s v : refines st s -> inside s v \/ s_at s v <> None ->
  exists b, has_literal st v = Ok b /\ (b = true <-> s_at s v <> None).
Proof.
  intros R L. pose proof (refines_sget _ _ _ R L) as K. destruct R as (B & H). destruct st as [m|off vec]; cbn.
  - destruct H as (_ & _ & <-). eexists; split; [reflexivity|]. destruct (m_find m v); split; congruence.
  - destruct H as (_ & _ & <-). destruct (v_get_at off vec v K) as (l & -> & ->). cbn.
    eexists; split; [reflexivity|]. destruct (l =? 0); cbn; split; congruence.
Qed.
Lemma assign_ok st s v l : refines st s -> l <> 0 -> inside s v \/ s_at s v <> None ->
  exists st', assign_ref st v l = Ok st' /\
    refines st' {| s_at := upd (s_at s) v (Some l); s_min := s_min s; s_max := s_max s |}.
Proof.
  intros R N L. pose proof (refines_sget _ _ _ R L) as K. destruct R as (B & H). destruct st as [m|off vec]; cbn.
  - destruct H as (S & NZ & F). eexists; split; [reflexivity|]. split; [exact B|]. cbn. split; [now apply m_set_sorted|].
    split.
    + intros w x I. apply m_set_in in I as [I|I]; [congruence|eapply NZ, I].
    + intros w. rewrite m_set_find by easy. unfold upd. now rewrite F.
  - destruct H as (H1 & H2 & F). destruct (v_set_at off vec v l K) as (vec' & -> & L' & A). cbn.
    eexists; split; [reflexivity|]. split; [exact B|]. cbn. split; [lia|]. split; [lia|].
    intros w. rewrite A. unfold upd. rewrite F. now replace (l =? 0) with false by lia.
Qed.
Lemma unset_ok st s v : refines st s -> inside s v \/ s_at s v <> None ->
  exists st', unset_literal st v = Ok st' /\
    refines st' {| s_at := upd (s_at s) v None; s_min := s_min s; s_max := s_max s |}.
Proof.
  intros R L. pose proof (refines_sget _ _ _ R L) as K. destruct R as (B & H). destruct st as [m|off vec]; cbn.
  - destruct H as (S & NZ & F). eexists; split; [reflexivity|]. split; [exact B|]. cbn. split; [now apply m_erase_sorted|].
    split.
    + intros w x I. apply m_erase_in in I. eapply NZ, I.
    + intros w. rewrite m_erase_find by easy. unfold upd. now rewrite F.
  - destruct H as (H1 & H2 & F). destruct (v_set_at off vec v 0 K) as (vec' & -> & L' & A). cbn.
    eexists; split; [reflexivity|]. split; [exact B|]. cbn. split; [lia|]. split; [lia|].
    intros w. rewrite A. unfold upd. now rewrite F.
Qed.
Lemma set_ok st s v l : refines st s -> l <> 0 -> inside s v \/ s_at s v <> None ->
  exists st', set_literal (s_min s) (s_max s) st v l = Ok st' /\
    refines st' {| s_at := upd (s_at s) v (Some l); s_min := s_min s; s_max := s_max s |}.
Proof.
  intros R N L. destruct st as [m|off vec].
  - cbn. pose proof (mogrify_ok m s R) as M. destruct (mogrify _ _ m) as [[st|]| |]; try easy; cbn.
    + destruct M as (R' & off & vec & ->). exact (assign_ok _ _ _ _ R' N L).
    + exact (assign_ok _ _ _ _ R N L).
  - exact (assign_ok _ _ _ _ R N L).
Qed.
(** get_or_add_literal with a non-zero literal written when it returned 0. *)
Lemma get_ok st s v l : refines st s -> l <> 0 -> inside s v ->
  exists st' x, i_step (st, s_min s, s_max s) (OGet v l) = Ok (st', s_min s, s_max s, ALit x) /\
    refines st' (s_step s (OGet v l)) /\ match s_at s v with Some y => x = y | None => x = l end.
Proof.
  intros R N L.
  assert (V : forall off vec, refines (SVec off vec) s ->
     exists st' x, ('(x, s') <- (y <- v_get vec (v - off) ;; Ok (y, SVec off vec)) ;;
       if x =? 0 then s'' <- assign_ref s' v l ;; Ok (s'', s_min s, s_max s, ALit l) else Ok (s', s_min s, s_max s, ALit x))
       = Ok (st', s_min s, s_max s, ALit x) /\
       refines st' (s_step s (OGet v l)) /\ match s_at s v with Some y => x = y | None => x = l end).
  { intros off vec R'. pose proof (refines_sget _ _ v R' (or_introl L)) as K. cbn in K.
    destruct (v_get_at off vec v K) as (y & -> & A). cbn [bind].
    destruct R' as (B & H1 & H2 & F). rewrite F in A. cbn [s_step]. rewrite A.
    destruct (y =? 0) eqn:E.
    - destruct (assign_ok (SVec off vec) s v l) as (st' & -> & R''); [now split|easy|now left|]. cbn [bind]. eauto.
    - exists (SVec off vec), y. repeat split; easy. }
  destruct st as [m|off vec].
  - cbn [i_step get_or_add]. pose proof (mogrify_ok m s R) as M. destruct (mogrify _ _ m) as [[st|]| |]; try easy; cbn [bind].
    + destruct M as (R' & off & vec & ->). exact (V off vec R').
    + destruct R as (B & S & NZ & F). destruct (m_find m v) as [y|] eqn:E.
      * rewrite (m_emplace_same _ _ _ _ E S), E. cbn [bind].
        assert (y <> 0) by (apply m_find_in in E; [eapply NZ, E|easy]). replace (y =? 0) with false by lia.
        cbn [s_step]. rewrite F in E. rewrite E. exists (SMap m), y. repeat split; easy.
      * rewrite (m_emplace_set _ _ _ E S), m_set_find, Z.eqb_refl by easy. cbn [bind Z.eqb assign_ref].
        rewrite m_set_set by easy. cbn [s_step]. pose proof E as E'. rewrite F in E'. rewrite E'.
        destruct (assign_ok (SMap m) s v l) as (st' & K & R''); [repeat split; easy|easy|now left|]. cbn in K.
        injection K as <-. eauto.
  - exact (V off vec R).
Qed.

Lemma descending_rev m : sorted m -> descending (rev m).
Proof.
  induction 1 as [|e r S IH F]; cbn; [constructor|].
  assert (G : forall x, In x (rev r) -> fst e < fst x).
  { intros x Hx. apply in_rev in Hx. rewrite Forall_forall in F. now apply F. }
  clear F S. unfold descending in *. induction IH as [|y ys S' IH' F']; cbn; [repeat constructor|].
  constructor.
  - apply IH'. intros; apply G; now right.
  - apply Forall_app. split; [exact F'|]. constructor; [|constructor]. apply G. now left.
Qed.

Lemma step_ok st s o : refines st s -> legal s o ->
  exists st' a, i_step (st, s_min s, s_max s) o = Ok (st', s_min (s_step s o), s_max (s_step s o), a) /\
    refines st' (s_step s o) /\ s_answer s o a.
Proof.
  intros R L. destruct o; cbn [legal] in L.
  - exists st, ADone. split; [easy|]. split; [|easy]. destruct R as (B & H). cbn. split; [cbn; lia|].
    destruct st; cbn; [easy|]. destruct H as (H1 & H2 & H3). repeat split; [lia|lia|easy].
  - destruct (get_ok st s v l R) as (st' & x & E & R' & A); [easy|easy|]. exists st', (ALit x).
    rewrite E. split; [|easy]. cbn. now destruct (s_at s v).
  - destruct (set_ok st s v l R) as (st' & E & R'); [easy|easy|]. exists st', ADone. cbn. rewrite E. easy.
  - destruct (unset_ok st s v R L) as (st' & E & R'). exists st', ADone. cbn. rewrite E. easy.
  - destruct (has_ok st s v R L) as (b & E & A). exists st, (ABool b). cbn. rewrite E. easy.
  - exists st, (AOpt (s_at s v)). cbn. now rewrite (find_ok st s v R L).
  - exists st, (AWalk (with_all st)). split; [easy|]. split; [exact R|]. split; [|eapply with_all_sorted, R].
    intros w x. rewrite with_all_in by eassumption. intuition.
  - exists st, (AWalk (with_lt st v)). split; [easy|]. split; [exact R|]. cbn. rewrite with_lt_all. split.
    + intros w x. rewrite <- in_rev, filter_In, with_all_in by eassumption. cbn. rewrite Z.ltb_lt. tauto.
    + eapply descending_rev, filter_sorted, with_all_sorted, R.
  - exists st, (AWalk (with_le st v)). split; [easy|]. split; [exact R|]. cbn. rewrite with_le_all. split.
    + intros w x. rewrite <- in_rev, filter_In, with_all_in by eassumption. cbn. rewrite Z.leb_le. tauto.
    + eapply descending_rev, filter_sorted, with_all_sorted, R.
  - exists st, (AWalk (with_gt st v)). split; [easy|]. split; [exact R|]. cbn. rewrite with_gt_all. split.
    + intros w x. rewrite filter_In, with_all_in by eassumption. cbn. rewrite Z.ltb_lt. tauto.
    + eapply filter_sorted, with_all_sorted, R.
  - exists st, (AWalk (with_ge st v)). split; [easy|]. split; [exact R|]. cbn. rewrite with_ge_all. split.
    + intros w x. rewrite filter_In, with_all_in by eassumption. cbn. rewrite Z.leb_le. tauto.
    + eapply filter_sorted, with_all_sorted, R.
Qed.

Lemma run_ok st s os : refines st s -> legal_run s os ->
  exists l, i_run (st, s_min s, s_max s) os = Ok l /\ s_answers s os l.
Proof.
  revert st s. induction os as [|o r IH]; intros st s R L; cbn.
  - now exists [].
  - destruct L as (L & Lr). destruct (step_ok st s o R L) as (st' & a & E & R' & A).
    destruct (IH st' _ R' Lr) as (l & E' & A'). exists (a :: l). cbn in E. rewrite E. cbn [bind]. rewrite E'. easy.
Qed.

Lemma refines_empty mn mx : mn <= mx -> refines (SMap []) {| s_at := fun _ => None; s_min := mn; s_max := mx |}.
Proof. intros H. split; [easy|]. repeat split; easy || constructor. Qed.

(** The first entries of the traversals. *)
Lemma first_lt st s v : refines st s ->
  match order_lit_lt st v with
  | Some (l, w) => w < v /\ s_at s w = Some l /\ forall u, w < u < v -> s_at s u = None
  | None => forall u, u < v -> s_at s u = None
  end.
Proof.
  intros R. destruct (step_ok st s (OLt v) R Logic.I) as (st' & a & E & _ & A). cbn in E. injection E as <- <-.
  cbn in A. destruct A as (W & D). unfold order_lit_lt, first_olit. destruct (with_lt st v) as [|[w l] r].
  - intros u Hu. destruct (s_at s u) eqn:K; [|easy]. destruct (proj2 (W u z)). easy.
  - destruct (proj1 (W w l)) as (H1 & H2); [now left|]. split; [easy|]. split; [easy|].
    intros u Hu. destruct (s_at s u) eqn:K; [|easy].
    destruct (proj2 (W u z)) as [Q|Q]; [split; [lia|easy]|injection Q; lia|].
    inversion D as [|? ? ? F]; subst. rewrite Forall_forall in F. apply F in Q. cbn in Q. lia.
Qed.
Lemma first_gt st s v : refines st s ->
  match order_lit_gt st v with
  | Some (l, w) => v < w /\ s_at s w = Some l /\ forall u, v < u < w -> s_at s u = None
  | None => forall u, v < u -> s_at s u = None
  end.
Proof.
  intros R. destruct (step_ok st s (OGt v) R Logic.I) as (st' & a & E & _ & A). cbn in E. injection E as <- <-.
  cbn in A. destruct A as (W & D). unfold order_lit_gt, first_olit. destruct (with_gt st v) as [|[w l] r].
  - intros u Hu. destruct (s_at s u) eqn:K; [|easy]. destruct (proj2 (W u z)). easy.
  - destruct (proj1 (W w l)) as (H1 & H2); [now left|]. split; [easy|]. split; [easy|].
    intros u Hu. destruct (s_at s u) eqn:K; [|easy].
    destruct (proj2 (W u z)) as [Q|Q]; [split; [lia|easy]|injection Q; lia|].
    inversion D as [|? ? ? F]; subst. rewrite Forall_forall in F. apply F in Q. cbn in Q. lia.
Qed.
