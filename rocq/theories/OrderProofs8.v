(** Sequences of operations on order literals. *)
From Verif Require Import Base Util IntervalSet VarState VarStateProofs Terms TermsSpec Solver OrderSpec OrderProofs1 OrderProofs2 OrderProofs3 OrderProofs4 OrderProofs5 OrderProofs6 OrderProofs7 Orders.
From Verif Require IntervalSetProofs.
From Coq Require Import Sorting.Sorted.
Open Scope Z_scope.

Lemma init_wf : wf init_state.
Proof.
  split; constructor; cbn; try easy; try constructor; try lia.
Qed.

Section Steps.
Context (O : oracle) (cfg : config) (Base : interp -> Prop) (n0 : Z).
Notation good := (good Base).
Notation step := (step Base).
Context (BO : base_ok Base n0) (CO : clasp_ok O Base).

Lemma orun1_ok o s ok s' : wf s -> n0 <= nxt s -> olegal O s o -> orun1 O cfg o s = (ok, s') ->
  wf_core s' /\ (ok = true -> wf s') /\ step (osem o) T2 s s' /\ (ok = true -> step (osem o) (osem o) s s').
Proof.
  intros W Hn L E.
  destruct o as [mn mx|x v|l co x rhs strict|l x dom|l| |n]; cbn [olegal orun1] in L, E.
  - destruct (add_variable mn mx s) as [y s1] eqn:A. injection E as <- <-.
    destruct (add_variable_ok Base mn mx s y s1 W A (proj2 L)) as (W1 & _ & _ & S). specialize (S (proj1 L)).
    assert (S' : step T2 T2 s s1) by (apply step_weaken with (1 := S); easy).
    csplit; auto. apply W1.
  - destruct (get_literal cfg x v s) as [g s1] eqn:A. injection E as <- <-.
    destruct (as_get cfg Base n0 BO x v s g s1 W L Hn A) as ([A1 A2 A3 A4 A5] & _). csplit; auto; try apply A1; exact A2.
  - destruct L as (L1 & L2 & L3 & L4). destruct (add_simple_ok O cfg Base n0 BO CO l co x rhs strict s ok s') as [A1 A2 A3 A4 A5]; auto.
    csplit; auto. apply A1.
  - destruct L as (L1 & L2 & L3 & L4 & L5). destruct (add_dom_ok O cfg Base n0 BO CO l x dom s ok s') as [A1 A2 A3 A4 A5]; auto.
    csplit; auto. apply A1.
  - destruct L as (L1 & L2 & L3 & L4). destruct (update_domain_ok O cfg Base n0 BO CO l s ok s') as [A1 A2 A3 A4 A5 A6 A7]; auto.
  - injection E as <- <-. destruct (add_literal_ok Base n0 s W Hn) as (A & B). csplit; auto. apply A.
  - injection E as <- <-. assert (A : wf (emit (ECall n) s)) by now apply wf_emit.
    assert (B : step T2 T2 s (emit (ECall n) s)).
    { apply step_weaken with (P := T2) (Q := fun I _ => ev_true I (ECall n)); [now apply emit_step|easy|easy]. }
    csplit; auto. apply A.
Qed.

Lemma orun_ok os : forall s ok s', wf s -> n0 <= nxt s -> olegals O cfg os s -> orun O cfg os s = (ok, s') ->
  wf_core s' /\ (ok = true -> wf s') /\ nxt s <= nxt s' /\ (nvars s <= nvars s')%nat /\
  (forall I nu, good s' I -> order_ok s' I nu -> good s I /\ order_ok s I nu /\ (ok = true -> Forall (fun o => osem o I nu) os)) /\
  (Forall (fun o => oneutral o = true) os -> step T2 T2 s s').
Proof.
  induction os as [|o os IH]; intros s ok s' W Hn L E; cbn in L, E.
  - injection E as <- <-. csplit; auto; try lia; try apply W. intros _. apply step_refl. now right.
  - destruct L as (L1 & L2). destruct (orun1 O cfg o s) as [ok1 s1] eqn:E1. cbn in L2.
    destruct (orun1_ok o s ok1 s1 W Hn L1 E1) as (W1 & W2 & S1 & S2). pose proof (st_nxt _ _ _ _ _ S1) as N1. pose proof (st_nv _ _ _ _ _ S1) as N2.
    assert (ST : oneutral o = true -> step T2 T2 s s1).
    { intros H. eapply step_weaken; [exact S1| |easy]. destruct o; easy. }
    destruct ok1.
    + destruct (IH s1 ok s') as (A1 & A2 & A3 & A4 & A5 & A6); auto; try lia. csplit; auto; try lia.
      * intros I nu HG HO. destruct (A5 I nu HG HO) as (B1 & B2 & B3). destruct (st_bwd _ _ _ _ _ (S2 eq_refl) I nu B1 B2) as (C1 & C2 & C3).
        csplit; auto.
      * intros F. inversion F; subst. apply step_trans_T with s1; auto.
    + injection E as <- <-. csplit; auto; try easy.
      * intros I nu HG HO. destruct (st_bwd _ _ _ _ _ S1 I nu HG HO) as (C1 & C2 & C3). csplit; easy.
      * intros F. inversion F; subst. auto.
Qed.

(** Literals keep their meaning. *)
Lemma meaning_kept x v s l s1 os ok s2 : wf s -> n0 <= nxt s -> (x < nvars s)%nat -> get_literal cfg x v s = (l, s1) ->
  olegals O cfg os s1 -> orun O cfg os s1 = (ok, s2) ->
  forall I nu, good s2 I -> order_ok s2 I nu -> (lit_true I l <-> nu x <= v).
Proof.
  intros W Hn Hx G L E I nu HG HO. destruct (as_get cfg Base n0 BO x v s l s1 W Hx Hn G) as ([A1 A2 A3 A4 A5] & M & SM).
  pose proof (st_nxt _ _ _ _ _ A2).
  destruct (orun_ok os s1 ok s2 A1 ltac:(lia) L E) as (_ & _ & _ & _ & B & _). destruct (B I nu HG HO) as (C1 & C2 & _).
  apply lit_means_ok with s1; auto; [now rewrite (same_nvars _ _ SM)|apply C1].
Qed.

(** Requests only: the same pair gets the same literal, and two pairs never share one. *)
Lemma requests_kept os : forall s, wf s -> n0 <= nxt s -> Forall (fun o => orequest o = true) os -> olegals O cfg os s ->
  wf (snd (orun O cfg os s)) /\ same s (snd (orun O cfg os s)) /\ nxt s <= nxt (snd (orun O cfg os s)) /\
  (forall x w l, (x < nvars s)%nat -> In (w, l) (lits (vst s x)) -> In (w, l) (lits (vst (snd (orun O cfg os s)) x))).
Proof.
  induction os as [|o os IH]; intros s W Hn F L; cbn in L |- *.
  - csplit; auto using same_refl; lia.
  - inversion F as [|? ? Q F']; subst. destruct o as [| x v| | | | |]; try discriminate Q. cbn [orun1] in *.
    destruct (get_literal cfg x v s) as [g s1] eqn:G. cbn [snd fst] in *. destruct L as (L1 & L2). cbn in L1.
    destruct (as_get cfg Base n0 BO x v s g s1 W L1 Hn G) as ([A1 A2 A3 A4 A5] & M & SM).
    pose proof (st_nxt _ _ _ _ _ A2).
    destruct (IH s1 A1 ltac:(lia) F' (L2 eq_refl)) as (B1 & B2 & B3 & B4). csplit; auto; try lia.
    + now apply same_trans with s1.
    + intros y w l Hy Hin. apply B4; [now rewrite (same_nvars _ _ SM)|].
      unfold get_literal in G. destruct (v <? minb (vst s x)) eqn:C1; [injection G as _ <-; easy|].
      destruct (maxb (vst s x) <=? v) eqn:C2; [injection G as _ <-; easy|].
      destruct (vfind (vst s x) v) as [l1|] eqn:C3; [injection G as _ <-; easy|].
      injection G as _ <-.
      set (r := if sign_value cfg <=? v then - nxt s else nxt s).
      assert (EL : lits (vst (add_watch (- r) (add_watch r (litmap_add x v r (store_lit x v r (snd (add_literal s)))))) y) =
        if Nat.eqb y x then m_set (lits (vst s x)) v r else lits (vst s y)).
      { unfold litmap_add. cbn [add_watch vst emit set_log].
        destruct (update_litmap x r v (store_lit x v r (snd (add_literal s)))) as [[p n] s2] eqn:U. cbn [vst set_lmap].
        assert (V : vst s2 = vst (store_lit x v r (snd (add_literal s)))).
        { change s2 with (snd ((p, n), s2)). rewrite <- U. unfold update_litmap. cbn [snd].
          destruct (vlit_lt _ _ =? 0), (vlit_gt _ _ =? 0); cbn; auto; repeat (destruct (valid_entry _ _); cbn; auto). }
        rewrite V. cbn. unfold Solver.upd. destruct (Nat.eqb_spec y x) as [->|]; reflexivity. }
      change (In (w, l) (lits (vst (add_watch (- r) (add_watch r (litmap_add x v r (store_lit x v r (snd (add_literal s)))))) y))).
      rewrite EL. destruct (Nat.eqb_spec y x) as [->|]; [|easy]. apply in_m_set; [now apply W|]. right. split; [|easy].
      intros ->. apply m_find_in in Hin; [|now apply W]. unfold vfind in C3. congruence.
Qed.

Lemma requests_unique x v s l s1 os : wf s -> n0 <= nxt s -> (x < nvars s)%nat -> get_literal cfg x v s = (l, s1) ->
  Forall (fun o => orequest o = true) os -> olegals O cfg os s1 ->
  get_literal cfg x v (snd (orun O cfg os s1)) = (l, snd (orun O cfg os s1)).
Proof.
  intros W Hn Hx G F L. destruct (as_get cfg Base n0 BO x v s l s1 W Hx Hn G) as ([A1 A2 A3 A4 A5] & M & SM).
  pose proof (st_nxt _ _ _ _ _ A2). pose proof (get_literal_again cfg Base n0 BO x v s l s1 (proj1 W) Hx Hn G) as GA.
  assert (Hx1 : (x < nvars s1)%nat) by now rewrite (same_nvars _ _ SM).
  destruct (requests_kept os s1 A1 ltac:(lia) F L) as (B1 & B2 & B3 & B4). set (s2 := snd (orun O cfg os s1)) in *. clearbody s2.
  unfold get_literal in GA |- *. rewrite (same_minb _ _ x B2), (same_maxb _ _ x B2).
  destruct (v <? minb (vst s1 x)); [congruence|]. destruct (maxb (vst s1 x) <=? v); [congruence|].
  destruct (vfind (vst s1 x) v) as [l1|] eqn:C.
  - apply m_find_in in C; [|now apply A1]. apply (B4 x v l1 Hx1) in C. unfold vfind. apply m_find_in in C; [|apply B1; now rewrite (same_nvars _ _ B2)].
    rewrite C. congruence.
  - exfalso. destruct M as [(-> & M)|[(-> & M)|M]].
    + injection GA as GA1 GA2. destruct (sign_value cfg <=? v); pose proof (wf_nxt _ (proj1 A1)); unfold TRUE_LIT in *; lia.
    + injection GA as GA1 GA2. destruct (sign_value cfg <=? v); pose proof (wf_nxt _ (proj1 A1)); unfold TRUE_LIT in *; lia.
    + apply m_find_in in M; [|now apply A1]. unfold vfind in C. congruence.
Qed.

Lemma distinct_pairs s x v y w l : wf s -> (x < nvars s)%nat -> (y < nvars s)%nat ->
  In (v, l) (lits (vst s x)) -> In (w, l) (lits (vst s y)) -> Z.abs l <> 1 -> x = y /\ v = w.
Proof.
  intros W Hx Hy A B N. destruct (wf_lits s (proj1 W) x v l Hx A) as (_ & A'). destruct (wf_lits s (proj1 W) y w l Hy B) as (_ & B').
  destruct (A' N) as (e & E1 & E2 & E3 & _). destruct (B' N) as (e' & F1 & F2 & F3 & _). rewrite E1 in F1. injection F1 as <-. split; congruence.
Qed.

(** ** Propagation along the order *)

(** Clauses with one literal left make it true. *)
Definition units : Prop := forall lg t c l, o_answer O (EClause t c :: lg) = true -> In l c ->
  (forall l', In l' c -> l' <> l -> o_true O lg (- l') = true) -> o_true O (EClause t c :: lg) l = true.

Lemma pv_true (U : units) sgn ls : forall r s s', is_true O s r = true ->
  propagate_variables O cfg sgn r ls s = (true, s') ->
  later O (log s) (log s') /\
  exists a b, ls = a ++ b /\ (forall l, In l a -> is_true O s' (sgn * l) = true) /\
    (forall l, hd_error b = Some l -> is_true O s' (sgn * l) = true).
Proof.
  induction ls as [|l0 ls IH]; intros r s s' Hr E; cbn [propagate_variables] in E.
  - injection E as <-. split; [constructor|]. exists [], []. now csplit.
  - destruct (is_true O s (sgn * l0)) eqn:T.
    + injection E as <-. split; [constructor|]. exists [], (l0 :: ls). csplit; try easy. now intros l [= <-].
    + destruct (add_clause O _ [- r; sgn * l0] s) as [ok s1] eqn:AC. destruct ok; [|discriminate].
      assert (L1 : later O (log s) (log s1)) by now apply add_clause_later in AC.
      assert (T1 : is_true O s1 (sgn * l0) = true).
      { injection AC as A <-. unfold is_true. cbn. apply U; [exact A|right; now left|].
        intros l' [<-|[<-|[]]] N; [|easy]. now rewrite Z.opp_involutive. }
      assert (R1 : is_true O s1 r = true) by exact (later_true O Base CO _ _ _ L1 Hr).
      apply IH in E as (L2 & a & b & -> & A & B); [|now destruct (_ && _)].
      split; [now apply later_trans with (log s1)|]. exists (l0 :: a), b. csplit; auto.
      intros l [<-|H]; [|now apply A]. exact (later_true O Base CO _ _ _ L2 T1).
Qed.

Lemma gt_hd v w : sorted (lits v) -> forall a, nearest_above (lits v) w TRUE_LIT a ->
  (a = TRUE_LIT /\ vwith_gt v w = []) \/ exists r, map snd (vwith_gt v w) = a :: r.
Proof.
  intros S a N. unfold vwith_gt. destruct N as [(u & Hu & Hw & Hm)|(-> & H)].
  - right. pose proof (filter_sorted (fun e => w <? fst e) (lits v) S) as SF.
    assert (IN : In (u, a) (filter (fun e => w <? fst e) (lits v))) by (apply filter_In; split; [easy|cbn; lia]).
    assert (HM : forall u' l', In (u', l') (filter (fun e => w <? fst e) (lits v)) -> u <= u').
    { intros u' l' H. apply filter_In in H as (H1 & H2). cbn in H2. apply (Hm u' l' H1). lia. }
    destruct (filter _ (lits v)) as [|[u0 l0] r]; [easy|]. exists (map snd r). cbn. f_equal.
    destruct IN as [E|IN]; [congruence|]. apply StronglySorted_inv in SF as (_ & F). rewrite Forall_forall in F. apply F in IN. unfold klt in IN. cbn in IN.
    specialize (HM u0 l0 (or_introl eq_refl)). lia.
  - left. split; [easy|]. assert (E : forall m, (forall u' l', In (u', l') m -> u' <= w) -> filter (fun e : Z * Z => w <? fst e) m = []).
    { clear. induction m as [|[u l] m IH]; intros H; [easy|]. cbn. specialize (H u l (or_introl eq_refl)) as H1. destruct (w <? u) eqn:Q; [lia|]. apply IH. intros u' l' H'. apply (H u' l'). now right. }
    now apply E.
Qed.
Lemma lt_hd v w : sorted (lits v) -> forall a, nearest_below (lits v) w (- TRUE_LIT) a ->
  (a = - TRUE_LIT /\ vwith_lt v w = []) \/ exists r, map snd (vwith_lt v w) = a :: r.
Proof.
  intros S a N. unfold vwith_lt. destruct N as [(u & Hu & Hw & Hm)|(-> & H)].
  - right. pose proof (filter_sorted (fun e => fst e <? w) (lits v) S) as SF.
    assert (IN : In (u, a) (filter (fun e => fst e <? w) (lits v))) by (apply filter_In; split; [easy|cbn; lia]).
    assert (HM : forall u' l', In (u', l') (filter (fun e => fst e <? w) (lits v)) -> u' <= u).
    { intros u' l' H. apply filter_In in H as (H1 & H2). cbn in H2. apply (Hm u' l' H1). lia. }
    set (f := filter _ (lits v)) in *. clearbody f. destruct f as [|e0 r0 _] using rev_ind; [easy|]. rewrite rev_app_distr. cbn.
    exists (map snd (rev r0)). f_equal. apply in_app_or in IN. destruct e0 as [u0 l0]. destruct IN as [IN|[IN|[]]]; [|now injection IN as _ <-].
    assert (HH : u < u0).
    { clear -SF IN. induction r0 as [|q r0 IH]; [easy|]. cbn in SF. apply StronglySorted_inv in SF as (SF & F). destruct IN as [->|IN]; [|now apply IH].
      rewrite Forall_forall in F. specialize (F (u0, l0)). unfold klt in F. cbn in F. apply F. apply in_or_app. right. now left. }
    specialize (HM u0 l0). rewrite in_app_iff in HM. specialize (HM (or_intror (or_introl eq_refl))). lia.
  - left. split; [easy|]. assert (E : forall m, (forall u' l', In (u', l') m -> w <= u') -> filter (fun e : Z * Z => fst e <? w) m = []).
    { clear. induction m as [|[u l] m IH]; intros H; [easy|]. cbn. specialize (H u l (or_introl eq_refl)) as H1. destruct (u <? w) eqn:Q; [lia|]. apply IH. intros u' l' H'. apply (H u' l'). now right. }
    now rewrite E.
Qed.

(** After a literal was processed the nearest literal of a larger value is true, and
    symmetrically. *)
Lemma update_upper_next (U : units) x l v a s s' : wf_core s -> (x < nvars s)%nat -> is_true O s l = true ->
  nearest_above (lits (vst s x)) v TRUE_LIT a ->
  update_upper O cfg x l v a s = (true, s') -> is_true O s' a = true /\ later O (log s) (log s').
Proof.
  intros W Hx T N E. unfold update_upper in E. destruct (v <? lb (vst s x)).
  { destruct (get_literal _ _ _ _) as [g s1]. destruct (add_clause _ _ _ _) as [ok1 s2]. discriminate. }
  set (s1 := if v <? ub (vst s x) then level_update_upper x v s else s) in *.
  assert (LG : log s1 = log s) by (unfold s1, level_update_upper; destruct (v <? ub _); [|easy]; repeat match goal with |- context [if ?b then _ else _] => destruct b end; reflexivity).
  assert (LI : lits (vst s1 x) = lits (vst s x)) by (unfold s1; destruct (v <? ub _); [apply luu_lits|easy]).
  clearbody s1. unfold is_true in *. rewrite <- LG in *.
  destruct (o_true O (log s1) a) eqn:Ta; [injection E as <-; split; [easy|constructor]|].
  apply pv_true in E as (L & p & q & PQ & A & B); [|easy|easy]. split; [|easy].
  assert (VW : vwith_gt (vst s1 x) v = vwith_gt (vst s x) v) by (unfold vwith_gt; now rewrite LI). rewrite VW in PQ.
  destruct (gt_hd (vst s x) v (wf_sorted s W x Hx) a N) as [(-> & _)|(r & R)].
  - apply (cl_one _ _ CO).
  - rewrite R in PQ. rewrite <- (Z.mul_1_l a). destruct p as [|a' p]; cbn in PQ.
    + apply B. now rewrite <- PQ.
    + injection PQ as -> _. apply A. now left.
Qed.
Lemma update_lower_next (U : units) x l v a s s' : wf_core s -> (x < nvars s)%nat -> is_true O s l = true ->
  nearest_below (lits (vst s x)) v (- TRUE_LIT) a ->
  update_lower O cfg x l v a s = (true, s') -> is_false O s' a = true /\ later O (log s) (log s').
Proof.
  intros W Hx T N E. unfold update_lower in E. destruct (ub (vst s x) <? v + 1).
  { destruct (get_literal _ _ _ _) as [g s1]. destruct (add_clause _ _ _ _) as [ok1 s2]. discriminate. }
  set (s1 := if lb (vst s x) <? v + 1 then level_update_lower x v s else s) in *.
  assert (LG : log s1 = log s) by (unfold s1, level_update_lower; destruct (lb _ <? v + 1); [|easy]; repeat match goal with |- context [if ?b then _ else _] => destruct b end; reflexivity).
  assert (LI : lits (vst s1 x) = lits (vst s x)) by (unfold s1; destruct (lb _ <? v + 1); [apply lul_lits|easy]).
  clearbody s1. unfold is_true, is_false in *. rewrite <- LG in *.
  destruct (o_true O (log s1) (- a)) eqn:Ta; [injection E as <-; split; [easy|constructor]|].
  apply pv_true in E as (L & p & q & PQ & A & B); [|easy|easy]. split; [|easy].
  assert (VW : vwith_lt (vst s1 x) v = vwith_lt (vst s x) v) by (unfold vwith_lt; now rewrite LI). rewrite VW in PQ.
  destruct (lt_hd (vst s x) v (wf_sorted s W x Hx) a N) as [(-> & _)|(r & R)].
  - apply (cl_one _ _ CO).
  - rewrite R in PQ. replace (- a) with (- (1) * a) by lia. destruct p as [|a' p]; cbn in PQ.
    + apply B. now rewrite <- PQ.
    + injection PQ as -> _. apply A. now left.
Qed.

Lemma update_domain_next (U : units) l s s' : wf s -> n0 <= nxt s -> l <> 0 -> l <> TRUE_LIT -> is_true O s l = true -> dlevel O s <> 0%nat ->
  cur_level s <> 0%nat -> update_domain O cfg l s = (true, s') ->
  (forall e, valid_entry s l = Some e -> is_true O s' (e_succ e) = true) /\
  (forall e, valid_entry s (- l) = Some e -> is_false O s' (e_prev e) = true).
Proof.
  intros W Hn Nl N1 T D0 C0 E. unfold update_domain in E.
  replace (negb (l =? TRUE_LIT) && Nat.eqb (dlevel O s) 0 && is_fixed O s l) with false in E.
  2:{ symmetry. rewrite (proj2 (Nat.eqb_neq _ _) D0). now rewrite Bool.andb_false_r. }
  replace (l =? TRUE_LIT) with false in E by lia.
  assert (NA : forall e, valid_entry s l = Some e -> nearest_above (lits (vst s (e_var e))) (e_val e) TRUE_LIT (e_succ e)).
  { intros e V. unfold valid_entry, lookup in V. destruct (lmap s (Z.abs l)) as [e0|] eqn:LE; [|easy]. destruct (Bool.eqb _ _); [|easy]. injection V as ->. now apply (wf_lmap s (proj1 W)) in LE. }
  assert (NB : forall e, valid_entry s (- l) = Some e -> nearest_below (lits (vst s (e_var e))) (e_val e) (- TRUE_LIT) (e_prev e)).
  { intros e V. unfold valid_entry, lookup in V. destruct (lmap s (Z.abs (- l))) as [e0|] eqn:LE; [|easy]. destruct (Bool.eqb _ _); [|easy]. injection V as ->. now apply (wf_lmap s (proj1 W)) in LE. }
  destruct (valid_entry s l) as [e|] eqn:V.
  - destruct (valid_entry s (- l)) as [e'|] eqn:V'.
    { exfalso. unfold valid_entry, lookup in V, V'. replace (Z.abs (- l)) with (Z.abs l) in V' by lia. destruct (lmap s (Z.abs l)) as [e0|]; [|easy].
      destruct (Bool.eqb (e_pos e0) (0 <? l)) eqn:Q; [|easy]. destruct (Bool.eqb (e_pos e0) (0 <? - l)) eqn:Q'; [|easy].
      apply Bool.eqb_prop in Q, Q'. lia. }
    destruct (update_upper O cfg (e_var e) l (e_val e) (e_succ e) s) as [ok1 s1] eqn:E1. destruct ok1; [|discriminate].
    destruct (valid_entry_spec s l e (proj1 W) V) as (Hx & Hin & Bl & _).
    destruct (update_upper_next U (e_var e) l (e_val e) (e_succ e) s s1 (proj1 W) Hx T (NA e eq_refl) E1) as (A & L).
    assert (LM : lmap s1 = lmap s).
    { unfold update_upper in E1. destruct (e_val e <? lb (vst s (e_var e))).
      { destruct (get_literal _ _ _ _) as [g s2]. destruct (add_clause _ _ _ _) as [ok2 s3]. discriminate. }
      set (s2 := if e_val e <? ub (vst s (e_var e)) then level_update_upper (e_var e) (e_val e) s else s) in *.
      assert (LM2 : lmap s2 = lmap s) by (unfold s2; destruct (e_val e <? ub _); [apply luu_rest|easy]). clearbody s2.
      destruct (is_true O s2 (e_succ e)); [injection E1 as <-; easy|]. apply propagate_variables_log in E1 as (lg & ->). exact LM2. }
    unfold valid_entry, lookup in V', E. rewrite LM in E. rewrite V' in E. injection E as <-. split; [|easy]. intros e0 [= <-]. easy.
  - destruct (valid_entry s (- l)) as [e|] eqn:V'.
    + destruct (valid_entry_spec s (- l) e (proj1 W) V') as (Hx & Hin & Bl & _).
      destruct (update_lower_next U (e_var e) l (e_val e) (e_prev e) s s' (proj1 W) Hx T (NB e eq_refl) E) as (A & L).
      split; [easy|]. intros e0 [= <-]. easy.
    + now injection E as <-.
Qed.

(** If the neighbour of every true literal is true, then so are the literals of all larger values. *)
Lemma chain_closed (m : list (Z * Z)) (t : Z -> bool) : sorted m ->
  (forall w l a, In (w, l) m -> t l = true -> nearest_above m w TRUE_LIT a -> t a = true) ->
  forall w l w' l', In (w, l) m -> In (w', l') m -> w <= w' -> t l = true -> t l' = true.
Proof.
  induction m as [|[u k] m IH]; intros S H w l w' l' A B L T; [easy|].
  pose proof (StronglySorted_inv S) as (S' & F). rewrite Forall_forall in F.
  assert (H' : forall w l a, In (w, l) m -> t l = true -> nearest_above m w TRUE_LIT a -> t a = true).
  { intros w1 l1 a A1 T1 N. apply (H w1 l1 a); [now right|easy|]. pose proof (F _ A1) as K. unfold klt in K. cbn in K. destruct N as [(q & Q1 & Q2 & Q3)|(-> & Q)].
    - left. exists q. csplit; [now right|easy|]. intros u' k' [Eq|Hq] Hu; [injection Eq as <- <-; lia|]. now apply Q3 with k'.
    - right. split; [easy|]. intros u' k' [Eq|Hq]; [injection Eq as <- <-; lia|]. now apply Q with k'. }
  destruct A as [A|A].
  - injection A as <- <-. destruct B as [B|B]; [injection B as <- <-; easy|].
    destruct m as [|[u1 k1] m]; [easy|].
    assert (T1 : t k1 = true).
    { apply (H u k k1); [now left|easy|]. left. exists u1. csplit; [right; now left| |].
      - specialize (F (u1, k1) (or_introl eq_refl)). unfold klt in F. cbn in F. lia.
      - intros u' k' [Eq|Hq] Hu; [injection Eq as <- <-; lia|]. destruct Hq as [Eq|Hq]; [injection Eq as <- <-; lia|].
        apply StronglySorted_inv in S' as (_ & F'). rewrite Forall_forall in F'. apply F' in Hq. unfold klt in Hq. cbn in Hq. lia. }
    apply (IH S' H' u1 k1 w' l'); auto; [now left|]. destruct B as [B|B]; [injection B as <- <-; lia|].
    apply StronglySorted_inv in S' as (_ & F'). rewrite Forall_forall in F'. apply F' in B. unfold klt in B. cbn in B. lia.
  - destruct B as [B|B]; [injection B as <- <-; apply F in A; unfold klt in A; cbn in A; lia|]. now apply (IH S' H' w l w' l').
Qed.

(** Heuristic decisions. *)
Lemma decide_ok (f : lit) s : wf_core s ->
  (forall x w l, (x < nvars s)%nat -> In (w, l) (lits (vst s x)) ->
     (is_true O s l = true <-> ub (vst s x) <= w) /\ (is_false O s l = true <-> w < lb (vst s x))) ->
  is_true O s f = false -> is_false O s f = false -> f <> 0 ->
  is_true O s (decide cfg f s) = false /\ is_false O s (decide cfg f s) = false /\ decide cfg f s <> 0.
Proof.
  intros W H F1 F2 F0. unfold decide. destruct (max_chain cfg); [|easy].
  destruct (valid_entry s f) as [e|] eqn:V.
  - destruct (valid_entry_spec s f e W V) as (Hx & Hin & _). set (x := e_var e) in *. destruct (H x _ _ Hx Hin) as (H1 & H2).
    unfold vlit_ge. assert (NE : In (e_val e, f) (vwith_ge (vst s x) (lb (vst s x)))).
    { apply filter_In. split; [easy|]. cbn. apply Z.leb_le. destruct (Z_lt_ge_dec (e_val e) (lb (vst s x))) as [Q|Q]; [apply H2 in Q; congruence|lia]. }
    assert (SF : sorted (vwith_ge (vst s x) (lb (vst s x)))) by now apply filter_sorted, W.
    assert (SUB : forall q, In q (vwith_ge (vst s x) (lb (vst s x))) -> In q (lits (vst s x)) /\ lb (vst s x) <= fst q).
    { intros q Q. apply filter_In in Q as (Q1 & Q2). split; [easy|lia]. }
    destruct (vwith_ge (vst s x) (lb (vst s x))) as [|[w l] r]; [easy|]. cbn [first_lit].
    destruct (SUB (w, l) (or_introl eq_refl)) as (Q1 & Q2). cbn in Q2. destruct (H x w l Hx Q1) as (G1 & G2).
    assert (w <= e_val e).
    { destruct NE as [E|NE]; [injection E as -> _; lia|]. apply StronglySorted_inv in SF as (_ & F). rewrite Forall_forall in F. apply F in NE. unfold klt in NE. cbn in NE. lia. }
    destruct (wf_lits s W x w l Hx Q1) as ((Nz & _) & _). csplit; auto.
    + destruct (is_true O s l); [|easy]. assert (ub (vst s x) <= w) by now apply G1. assert (is_true O s f = true) by (apply H1; lia). congruence.
    + destruct (is_false O s l); [|easy]. assert (w < lb (vst s x)) by now apply G2. lia.
  - destruct (valid_entry s (- f)) as [e|] eqn:V'; [|easy].
    destruct (valid_entry_spec s (- f) e W V') as (Hx & Hin & _). set (x := e_var e) in *. destruct (H x _ _ Hx Hin) as (H1 & H2).
    assert (HN : e_val e < ub (vst s x)). { destruct (Z_lt_ge_dec (e_val e) (ub (vst s x))) as [Q|Q]; [easy|]. assert (T : is_true O s (- f) = true) by (apply H1; lia). unfold is_false in F2. unfold is_true in T. congruence. }
    unfold vlit_lt. assert (NE : In (e_val e, - f) (filter (fun q => fst q <? ub (vst s x)) (lits (vst s x)))) by (apply filter_In; split; [easy|cbn; lia]).
    unfold vwith_lt. assert (SF : sorted (filter (fun q => fst q <? ub (vst s x)) (lits (vst s x)))) by now apply filter_sorted, W.
    assert (SUB : forall q, In q (filter (fun q => fst q <? ub (vst s x)) (lits (vst s x))) -> In q (lits (vst s x)) /\ fst q < ub (vst s x)).
    { intros q Q. apply filter_In in Q as (Q1 & Q2). split; [easy|lia]. }
    set (fl := filter _ (lits (vst s x))) in *. clearbody fl. destruct fl as [|[w l] r _] using rev_ind; [easy|]. rewrite rev_app_distr. cbn [rev app first_lit].
    destruct (SUB (w, l)) as (Q1 & Q2). { apply in_or_app. right. now left. } cbn in Q2. destruct (H x w l Hx Q1) as (G1 & G2).
    assert (e_val e <= w).
    { apply in_app_or in NE. destruct NE as [NE|[E|[]]]; [|injection E as -> _; lia].
      clear -SF NE. induction r as [|q r IH]; [easy|]. cbn in SF. apply StronglySorted_inv in SF as (SF & F). destruct NE as [->|IN]; [|now apply IH].
      rewrite Forall_forall in F. specialize (F (w, l)). unfold klt in F. cbn in F. assert (In (w, l) (r ++ [(w, l)])) by (apply in_or_app; right; now left). specialize (F H). lia. }
    destruct (wf_lits s W x w l Hx Q1) as ((Nz & _) & _). unfold is_true, is_false in *. rewrite ?Z.opp_involutive in *. csplit; auto; try lia.
Qed.
End Steps.

(** ** Empty domains are reported *)
Section Nonempty.
Context (O : oracle) (cfg : config) (Base : interp -> Prop) (n0 : Z).
Context (BO : base_ok Base n0) (CO : clasp_ok O Base).
Definition nonempty (s : state) : Prop := forall y, (y < nvars s)%nat -> lb (vst s y) <= ub (vst s y).

Lemma up_nonempty x l v p s s' : update_upper O cfg x l v p s = (true, s') -> nonempty s -> nonempty s' /\ nvars s' = nvars s.
Proof.
  intros E N. unfold update_upper in E. destruct (v <? lb (vst s x)) eqn:C.
  { destruct (get_literal _ _ _ _) as [g s1]. destruct (add_clause _ _ _ _) as [ok1 s2]. discriminate. }
  set (s1 := if v <? ub (vst s x) then level_update_upper x v s else s) in *.
  assert (N1 : nonempty s1 /\ nvars s1 = nvars s).
  { unfold s1. destruct (v <? ub (vst s x)); [|easy]. assert (NV : nvars (level_update_upper x v s) = nvars s) by apply (same2_nvars _ _ (proj1 (luu_rest x v s))).
    split; [|easy]. intros y Hy. rewrite NV in Hy. destruct (Nat.eq_dec y x) as [->|Ny].
    - rewrite luu_ub, (proj1 (luu_lb x v s x)). lia.
    - rewrite luu_other by easy. now apply N. }
  clearbody s1. destruct (is_true O s1 p); [now injection E as <-|]. apply propagate_variables_log in E as (lg & ->). exact N1.
Qed.
Lemma lo_nonempty x l v p s s' : update_lower O cfg x l v p s = (true, s') -> nonempty s -> nonempty s' /\ nvars s' = nvars s.
Proof.
  intros E N. unfold update_lower in E. destruct (ub (vst s x) <? v + 1) eqn:C.
  { destruct (get_literal _ _ _ _) as [g s1]. destruct (add_clause _ _ _ _) as [ok1 s2]. discriminate. }
  set (s1 := if lb (vst s x) <? v + 1 then level_update_lower x v s else s) in *.
  assert (N1 : nonempty s1 /\ nvars s1 = nvars s).
  { unfold s1. destruct (lb (vst s x) <? v + 1); [|easy]. assert (NV : nvars (level_update_lower x v s) = nvars s) by apply (same2_nvars _ _ (proj1 (lul_rest x v s))).
    split; [|easy]. intros y Hy. rewrite NV in Hy. destruct (Nat.eq_dec y x) as [->|Ny].
    - rewrite lul_lb, (proj1 (lul_ub x v s x)). lia.
    - rewrite lul_other by easy. now apply N. }
  clearbody s1. destruct (is_true O s1 (- p)); [now injection E as <-|]. apply propagate_variables_log in E as (lg & ->). exact N1.
Qed.
Lemma same_nonempty s s' : same s s' -> nonempty s -> nonempty s'.
Proof. intros S N y Hy. destruct (same_bnds s s' y S) as (-> & -> & _). apply N. now rewrite <- (same_nvars _ _ S). Qed.
Lemma facts_nonempty fs : forall s s', apply_facts O cfg fs s = (true, s') -> nonempty s -> nonempty s'.
Proof.
  induction fs as [|f fs IH]; intros s s' E N; cbn [apply_facts] in E; [injection E as <-; exact N|].
  destruct (apply_fact O cfg f s) as [ok s1] eqn:A. destruct ok; [|discriminate]. apply IH in E; [easy|]. unfold apply_fact in A.
  assert (G : forall s2, nonempty s2 -> nonempty (erase_lit (f_var f) (f_val f) (snd (update_litmap (f_var f) 0 (f_val f) s2)))).
  { intros s2 N2. apply same_nonempty with s2; [|easy]. eapply same_trans; [apply same_litmap|apply same_lits]. }
  destruct (f_lit f =? TRUE_LIT).
  - destruct (update_upper _ _ _ _ _ _ _) as [[|] s2] eqn:U; [|discriminate]. injection A as <-. apply G. now apply up_nonempty in U.
  - destruct (update_lower _ _ _ _ _ _ _) as [[|] s2] eqn:U; [|discriminate]. injection A as <-. apply G. now apply lo_nonempty in U.
Qed.
Lemma fix_same l t s : nvars (fix_literal l t s) = nvars s /\ forall y, vbounds (vst (fix_literal l t s) y) = vbounds (vst s y).
Proof.
  unfold fix_literal. destruct (valid_entry s l) as [e|]; [|easy].
  set (s1 := store_lit (e_var e) (e_val e) t s). pose proof (same_litmap (e_var e) t (e_val e) s1) as S2. set (s2 := snd _) in *. clearbody s2.
  pose proof (same_lits (e_var e) (m_set (lits (vst s (e_var e))) (e_val e) t) s) as S1. fold (store_lit (e_var e) (e_val e) t s) in S1. fold s1 in S1.
  pose proof (same_trans _ _ _ S1 S2) as S. split; [exact (same_nvars _ _ S)|apply S].
Qed.
Lemma ud_nonempty l s s' : update_domain O cfg l s = (true, s') -> nonempty s -> nonempty s'.
Proof.
  intros E N. unfold update_domain in E.
  set (q := if negb (l =? TRUE_LIT) && Nat.eqb (dlevel O s) 0 && is_fixed O s l then _ else _) in E.
  assert (N1 : nonempty (snd q)).
  { unfold q. destruct (_ && _); [|easy]. cbn [snd]. intros y Hy.
    destruct (fix_same l TRUE_LIT s) as (F1 & G1). set (s1 := fix_literal l TRUE_LIT s) in *. destruct (fix_same (- l) (- TRUE_LIT) s1) as (F2 & G2). set (s2 := fix_literal (- l) (- TRUE_LIT) s1) in *. clearbody s2.
    specialize (G1 y). specialize (G2 y). rewrite G1 in G2. unfold vbounds in G2. injection G2 as -> -> _ _. apply N. congruence. }
  destruct q as [l1 s1]. cbn [snd] in N1. destruct (l1 =? TRUE_LIT); [now apply facts_nonempty in E|].
  assert (M : exists s2, (match valid_entry s1 l1 with Some e => update_upper O cfg (e_var e) l1 (e_val e) (e_succ e) s1 | None => (true, s1) end) = (true, s2) /\ nonempty s2 /\
     (match valid_entry s2 (- l1) with Some e => update_lower O cfg (e_var e) l1 (e_val e) (e_prev e) s2 | None => (true, s2) end) = (true, s')).
  { destruct (valid_entry s1 l1) as [e|].
    - destruct (update_upper _ _ _ _ _ _ _) as [[|] s2] eqn:U; [|discriminate]. exists s2. csplit; auto. now apply up_nonempty in U.
    - exists s1. now csplit. }
  destruct M as (s2 & _ & N2 & E2). destruct (valid_entry s2 (- l1)) as [e|]; [now apply lo_nonempty in E2|now injection E2 as <-].
Qed.
End Nonempty.
