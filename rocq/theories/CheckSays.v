(** A propagation that fails has sent a clause. *)
From Verif Require Import Base Util VarState VarStateProofs Terms TermsSpec Solver OrderSpec OrderProofs1 OrderProofs2 Orders Sum PropProofs ConSpec
  Distinct DistinctProofs2 Disjoint Nonlin Objective Search SearchSpec SearchFrame SearchGrow SearchInv SearchInv3 SearchInv4 CheckFrame CheckGrow.
Open Scope Z_scope.

Section Says.
Context (srt : (ival -> Z) -> list ival -> list ival) (O : oracle) (cfg : config) (chk sol : bool).
Notation tg := (tg O).
Let V : var -> Prop := fun _ => True.
Let HV (A : Type) (es : list (A * var)) : forall e, In e es -> V (snd e).
Proof. easy. Qed.

Lemma comm_tg W s s' : comm O cfg W s s' -> tg s s'.
Proof. intros C. apply talk_tg with cfg. apply talk_comm with W s; [apply talk_refl|exact C]. Qed.
Lemma clause_longer t c s b s' : add_clause O t c s = (b, s') -> longer s s'.
Proof. unfold add_clause. intros E. injection E as _ <-. unfold longer. cbn. lia. Qed.
Lemma get_tg x v s l s' : get_literal cfg x v s = (l, s') -> tg s s'.
Proof. intros E. pose proof (tg_get O cfg x v s) as H. now rewrite E in H. Qed.
Lemma upd_tg x v t s l s' : update_literal O cfg x v t s = (l, s') -> tg s s'.
Proof. intros E. pose proof (tg_upd O cfg x v t s) as H. now rewrite E in H. Qed.

Lemma calc_reason_says x co slack s l sl s' : calc_reason O cfg x co slack s = (false, l, sl, s') -> longer s s'.
Proof.
  intros E. unfold calc_reason in E. destruct (0 <? co).
  - destruct (get_literal cfg x (lb (vst s x) - 1) s) as [lr s1] eqn:G. apply get_tg in G. apply longer_l with O s1; [exact G|].
    destruct (refine_reasons cfg && _ && _); [|discriminate].
    destruct (_ <? _) in E; [|discriminate].
    match type of E with context [match order_ge ?a ?b with _ => _ end] =>
      destruct (match order_ge a b with Some (w, l) => _ | None => _ end) as [[[[ret l1] slk] cur] s2] eqn:M end.
    assert (B : tg s1 s2 /\ (ret = false -> longer s1 s2)).
    { destruct (order_ge _ _) as [[w l0]|]; [|injection M as <- _ _ _ <-; split; [apply tg_refl|discriminate]].
      destruct (w + 1 <? _) in M; [|injection M as <- _ _ _ <-; split; [apply tg_refl|discriminate]].
      destruct (is_false O s1 l0); [injection M as <- _ _ _ <-; split; [apply tg_refl|discriminate]|].
      destruct (add_clause O Learnt [lr; - l0] s1) as [b s3] eqn:K. injection M as _ _ _ _ <-.
      split; [|intros _; now apply clause_longer in K]. pose proof (tg_clause O Learnt [lr; - l0] s1) as H. now rewrite K in H. }
    destruct B as [B1 B2]. destruct ret; cbn [andb] in E.
    + destruct (refine_introduce cfg && _ && _); [|discriminate].
      destruct (get_literal cfg x _ s2) as [g s3] eqn:G2. apply get_tg in G2.
      destruct (is_false O s3 g); [discriminate|]. destruct (add_clause O Learnt [l1; - g] s3) as [b s4] eqn:K. injection E as _ _ _ <-.
      apply clause_longer in K. apply longer_l with O s2; [exact B1|]. now apply longer_l with O s3.
    + injection E as _ _ <-. auto.
  - destruct (get_literal cfg x (ub (vst s x)) s) as [lr s1] eqn:G. apply get_tg in G. apply longer_l with O s1; [exact G|].
    destruct (refine_reasons cfg && _ && _); [|discriminate].
    destruct (_ <? _) in E; [|discriminate].
    match type of E with context [match order_le ?a ?b with _ => _ end] =>
      destruct (match order_le a b with Some (w, l) => _ | None => _ end) as [[[[ret l1] slk] cur] s2] eqn:M end.
    assert (B : tg s1 s2 /\ (ret = false -> longer s1 s2)).
    { destruct (order_le _ _) as [[w l0]|]; [|injection M as <- _ _ _ <-; split; [apply tg_refl|discriminate]].
      destruct (_ <? w) in M; [|injection M as <- _ _ _ <-; split; [apply tg_refl|discriminate]].
      destruct (is_false O s1 (- l0)); [injection M as <- _ _ _ <-; split; [apply tg_refl|discriminate]|].
      destruct (add_clause O Learnt [- lr; l0] s1) as [b s3] eqn:K. injection M as _ _ _ _ <-.
      split; [|intros _; now apply clause_longer in K]. pose proof (tg_clause O Learnt [- lr; l0] s1) as H. now rewrite K in H. }
    destruct B as [B1 B2]. destruct ret; cbn [andb] in E.
    + destruct (refine_introduce cfg && _ && _); [|discriminate].
      destruct (get_literal cfg x _ s2) as [g s3] eqn:G2. apply get_tg in G2.
      destruct (is_false O s3 (- g)); [discriminate|]. destruct (add_clause O Learnt [l1; - - g] s3) as [b s4] eqn:K. injection E as _ _ _ <-.
      apply clause_longer in K. apply longer_l with O s2; [exact B1|]. now apply longer_l with O s3.
    + injection E as _ _ <-. auto.
Qed.
Lemma reasons_says skip es : forall slack s s', reasons O cfg skip es slack s = (None, s') -> longer s s'.
Proof.
  induction es as [|[co x] r IH]; intros slack s s' E; cbn [reasons] in E; [discriminate|].
  destruct (match skip with Some y => _ | None => _ end); [now apply IH with (1 := E)|].
  destruct (calc_reason O cfg x co slack s) as [[[ret l] sl] s1] eqn:C. destruct ret.
  - destruct (reasons O cfg skip r sl s1) as [o1 s2] eqn:R. destruct o1; [discriminate|]. injection E as <-.
    apply longer_l with O s1; [apply comm_tg with V; now apply calc_reason_comm with (2 := C)|]. now apply IH with (1 := R).
  - injection E as <-. now apply calc_reason_says with (1 := C).
Qed.
Lemma prop_elem_says tag clit es slack co x s s' : prop_elem O cfg tag clit es slack co x s = (false, s') -> longer s s'.
Proof.
  intros E. unfold prop_elem in E. destruct (if 0 <? co then _ else _) in E; [discriminate|].
  destruct (if has_lit _ _ then _ else _) as [l s1] eqn:G.
  assert (A : tg s s1).
  { destruct (has_lit _ _); [|injection G as _ <-; apply tg_refl]. destruct (get_literal cfg x _ s) as [g s2] eqn:G2. injection G as _ <-. now apply get_tg in G2. }
  apply longer_l with O s1; [exact A|]. destruct ((l =? 0) || _); [|discriminate].
  destruct (reasons O cfg (Some x) es _ s1) as [o s2] eqn:R. destruct o as [ls|]; [|injection E as <-; now apply reasons_says with (1 := R)].
  destruct (update_literal O cfg x _ _ s2) as [g s3] eqn:U. apply upd_tg in U. apply clause_longer in E.
  apply longer_l with O s2; [apply comm_tg with V; apply reasons_comm with (2 := R); apply HV|]. now apply longer_l with O s3.
Qed.
Lemma prop_elems_says tag clit es slack todo : forall s s', prop_elems O cfg tag clit es slack todo s = (false, s') -> longer s s'.
Proof.
  induction todo as [|[co x] r IH]; intros s s' E; cbn [prop_elems] in E; [discriminate|].
  destruct (prop_elem O cfg tag clit es slack co x s) as [ok s1] eqn:P. destruct ok.
  - apply longer_l with O s1; [|now apply IH with (1 := E)]. apply comm_tg with V. apply prop_elem_comm with (3 := P); [apply HV|easy].
  - injection E as <-. now apply prop_elem_says with (1 := P).
Qed.
Lemma dist_pair_says clit sgn ei ej s s' : dist_pair O cfg clit sgn ei ej s = (false, s') -> longer s s'.
Proof.
  intros E. unfold dist_pair in E. destruct (reason_assigned O cfg (snd ei) _ s) as [r s1] eqn:A.
  destruct (reason_bounded O cfg sgn _ (snd ej) r s1) as [o s2] eqn:B. destruct o as [r2|]; [|discriminate]. apply clause_longer in E.
  apply longer_l with O s2; [|exact E]. apply comm_tg with V.
  apply comm_trans with s1; [apply reason_assigned_comm with (2 := A); apply HV|apply reason_bounded_comm with (2 := B); apply HV].
Qed.
Let HD (es : list delem) : dvars es V.
Proof. easy. Qed.
Lemma dist_others_says clit sgn es i js : forall s s', dist_others O cfg clit sgn es i js s = (Ok false, s') -> longer s s'.
Proof.
  induction js as [|j js IH]; intros s s' E; cbn [dist_others] in E; [discriminate|].
  destruct (Nat.eqb j i); [now apply IH|]. destruct (nth_error es i) as [ei|]; [|discriminate]. destruct (nth_error es j) as [ej|]; [|discriminate].
  destruct (dist_pair O cfg clit sgn ei ej s) as [ok s1] eqn:P. destruct ok.
  - apply longer_l with O s1; [|now apply IH]. apply comm_tg with V. apply dist_pair_comm with (3 := P); apply HV.
  - injection E as <-. now apply dist_pair_says with (1 := P).
Qed.
Lemma andthen_says x f s s' : andthen x f = (Ok false, s') -> tg s (snd x) -> (fst x = Ok false -> longer s (snd x)) ->
  (forall s1 s2, f s1 = (Ok false, s2) -> longer s1 s2) -> longer s s'.
Proof.
  intros E A B C. destruct x as [o s1]. cbn [fst snd] in *. unfold andthen in E. destruct o as [[]| |].
  - apply longer_l with O s1; auto.
  - injection E as <-. auto.
  - discriminate.
  - discriminate.
Qed.
Lemma dist_item_says clit sgn f es asg tlo tup i s s' : dist_item O cfg clit sgn f es asg tlo tup i s = (Ok false, s') -> longer s s'.
Proof.
  intros E. unfold dist_item in E. destruct (nth_error asg i) as [[lo hi]|]; [|discriminate].
  destruct (lo =? hi).
  - unfold dist_assigned in E. apply andthen_says with (1 := E).
    + destruct (dist_others O cfg clit 1 es i (with_value snd asg lo) s) as [o s1] eqn:D. apply comm_tg with V. now apply dist_others_comm with (2 := D).
    + destruct (dist_others O cfg clit 1 es i (with_value snd asg lo) s) as [o s1] eqn:D. cbn [fst snd]. intros ->. now apply dist_others_says with (1 := D).
    + intros s1 s2 D. now apply dist_others_says with (1 := D).
  - destruct (find _ _) as [j|]; [|discriminate]. destruct (memb j tlo || memb j tup); [discriminate|].
    destruct (nth_error es j) as [ej|]; [|discriminate]. destruct (nth_error es i) as [ei|]; [|discriminate].
    destruct (dist_pair O cfg clit sgn ej ei s) as [ok s1] eqn:P. injection E as -> <-. now apply dist_pair_says with (1 := P).
Qed.
Lemma dist_items_says clit sgn f es asg tlo tup is : forall s s', dist_items O cfg clit sgn f es asg tlo tup is s = (Ok false, s') -> longer s s'.
Proof.
  induction is as [|i is IH]; intros s s' E; cbn [dist_items] in E; [discriminate|]. apply andthen_says with (1 := E).
  - destruct (dist_item O cfg clit sgn f es asg tlo tup i s) as [o s1] eqn:D. apply comm_tg with V. now apply dist_item_comm with (2 := D).
  - destruct (dist_item O cfg clit sgn f es asg tlo tup i s) as [o s1] eqn:D. cbn [fst snd]. intros ->. now apply dist_item_says with (1 := D).
  - auto.
Qed.
Let HI (iv : list ival) : ivars V iv.
Proof. easy. Qed.
Lemma dj_update_bound_says up r i b s i' s' : dj_update_bound O cfg up r i b s = (Ok false, i', s') -> longer s s'.
Proof.
  intros E. unfold dj_update_bound in E. destruct up.
  - destruct (get_literal cfg (iv_var i) _ s) as [g s1] eqn:G. apply get_tg in G. destruct (bind _ _) as [w| |]; [|discriminate..].
    destruct (update_literal O cfg (iv_var i) _ _ s1) as [l s2] eqn:U. apply upd_tg in U. destruct (add_clause O Learnt _ s2) as [ok s3] eqn:C. apply clause_longer in C.
    injection E as _ _ <-. apply longer_l with O s1; [exact G|]. now apply longer_l with O s2.
  - destruct (get_literal cfg (iv_var i) _ s) as [g s1] eqn:G. apply get_tg in G. destruct (isub int32 b 1) as [w| |]; [|discriminate..].
    destruct (update_literal O cfg (iv_var i) _ _ s1) as [l s2] eqn:U. apply upd_tg in U. destruct (add_clause O Learnt _ s2) as [ok s3] eqn:C. apply clause_longer in C.
    injection E as _ _ <-. apply longer_l with O s1; [exact G|]. now apply longer_l with O s2.
Qed.
Lemma dj_hall_says up clit a b pre post : forall reason s post' s', dj_hall O cfg up clit a b pre reason post s = (Ok false, post', s') -> longer s s'.
Proof.
  induction post as [|j t IH]; intros reason s post' s' E; cbn [dj_hall] in E; [discriminate|].
  destruct (_ && _) in E.
  - destruct (match reason with Some r => _ | None => _ end) as [r s1] eqn:R.
    assert (A : tg s s1) by (destruct reason; [injection R as _ <-; apply tg_refl|apply comm_tg with V; apply dj_reason_comm with (2 := R); apply HI]).
    destruct (iadd int32 b 1) as [b1| |]; [|discriminate..].
    destruct (dj_update_bound O cfg up r j b1 s1) as [[o1 j1] s2] eqn:U. apply longer_l with O s1; [exact A|]. destruct o1 as [[]| |]; [| |discriminate..].
    + destruct (dj_hall O cfg up clit a b pre (Some r) t s2) as [[o2 t2] s3] eqn:D. injection E as -> _ <-.
      apply longer_l with O s2; [|now apply IH with (1 := D)]. apply comm_tg with V. now apply (dj_update_bound_comm O cfg V _ _ _ _ _ _ _ _ Logic.I U).
    + injection E as _ <-. now apply dj_update_bound_says with (1 := U).
  - destruct (dj_hall O cfg up clit a b pre reason t s) as [[o2 t2] s3] eqn:D. injection E as -> _ <-. now apply IH with (1 := D).
Qed.
Lemma dj_insert_says up clit pre x post s q s' : dj_insert O cfg up clit pre x post s = (Ok false, q, s') -> longer s s'.
Proof.
  intros E. unfold dj_insert in E. destruct (bind _ _) as [u| |] in E; [|discriminate..].
  match type of E with context [dj_insert_loop up ?xx None pre] => destruct (dj_insert_loop up xx None pre) as [[[[p1 x1] k1] c1]| |] eqn:D end; [|discriminate..].
  destruct c1 as [a|].
  - destruct (dj_reason O cfg up clit a (p1 ++ [x1]) s) as [r s1] eqn:R. destruct (add_clause O Learnt r s1) as [b s2] eqn:K. apply clause_longer in K.
    injection E as _ _ <-. apply longer_l with O s1; [|exact K]. apply comm_tg with V. apply dj_reason_comm with (2 := R). apply HI.
  - destruct (dupper up x1 <? iv_u x1).
    + destruct (dj_reason O cfg up clit (dlower up x1) (p1 ++ [x1]) s) as [r s1] eqn:R. destruct (add_clause O Learnt r s1) as [b s2] eqn:K. apply clause_longer in K.
      injection E as _ _ <-. apply longer_l with O s1; [|exact K]. apply comm_tg with V. apply dj_reason_comm with (2 := R). apply HI.
    + match type of E with context [if ?q then Some (dlower up x1) else k1] => destruct (if q then Some (dlower up x1) else k1) as [a|] end; [|discriminate].
      destruct (dj_hall O cfg up clit a (dupper up x1) (p1 ++ [x1]) None post s) as [[o1 post1] s1] eqn:H. injection E as -> _ <-. now apply dj_hall_says with (1 := H).
Qed.
Lemma dj_items_says up clit n : forall pre post s iv s', dj_items O cfg n up clit pre post s = (Ok false, iv, s') -> longer s s'.
Proof.
  induction n as [|n IH]; intros pre post s iv s' E; cbn [dj_items] in E; [discriminate|].
  destruct post as [|x post]; [discriminate|].
  destruct (dj_insert O cfg up clit pre x post s) as [[o1 [[p1 x1] q1]] s1] eqn:D. destruct o1 as [[]| |]; [| |discriminate..].
  - apply longer_l with O s1; [|now apply IH with (1 := E)]. apply comm_tg with V. now apply (dj_insert_comm O cfg V _ _ _ _ _ _ _ _ _ _ _ (HI _) Logic.I (HI _) D).
  - injection E as _ <-. now apply dj_insert_says with (1 := D).
Qed.
Lemma dj_groups_says up clit force n : forall rl done s iv s', dj_groups O cfg n up clit force rl done s = (Ok false, iv, s') -> longer s s'.
Proof.
  induction n as [|n IH]; intros rl done s iv s' E; cbn [dj_groups] in E; [discriminate|].
  destruct rl as [|y r]; [discriminate|].
  destruct (dj_group up (dlower up y) (force || dchanged y) [y] r) as [[g chg] r1]. destruct chg; [|now apply IH with (1 := E)].
  destruct (dj_items O cfg (length g) up clit [] g s) as [[o1 g1] s1] eqn:D. destruct o1 as [[]| |]; [| |discriminate..].
  - apply longer_l with O s1; [|now apply IH with (1 := E)]. apply comm_tg with V. now apply (dj_items_comm O cfg V _ _ _ _ _ _ _ _ _ (HI _) (HI _) D).
  - injection E as _ <-. now apply dj_items_says with (1 := D).
Qed.

Lemma prop_sum_says c s s' : prop_sum O cfg chk c s = (Ok false, s') -> longer s s'.
Proof.
  intros E. unfold prop_sum in E. destruct (css s c) as [k|] eqn:K; [|discriminate].
  destruct (sum_es (c_def k)) as [es|] eqn:Q; [|discriminate].
  destruct (sum_rhs s (c_def k)) as [[rhs|]| |]; try discriminate.
  destruct (chk && _); [discriminate|]. destruct (c_hi k <=? rhs); [discriminate|].
  destruct (rhs - c_lo k <? 0).
  - destruct (reasons O cfg None es (rhs - c_lo k) s) as [o s1] eqn:R. destruct o as [ls|]; [|injection E as <-; now apply reasons_says with (1 := R)].
    assert (A : tg s s1) by (apply comm_tg with V; apply reasons_comm with (2 := R); apply HV).
    destruct (add_clause O _ _ (mark_inactive c s1)) as [b s2] eqn:C. injection E as _ <-. apply clause_longer in C. apply longer_l with O s1; [exact A|].
    unfold longer in *. assert (L : log (mark_inactive c s1) = log s1) by (unfold mark_inactive; destruct (css s1 c); auto; now destruct (_ && _)). now rewrite L in C.
  - destruct (is_true O s _); [|discriminate]. cbn [negb] in E.
    destruct (prop_elems O cfg _ _ es _ es s) as [b s1] eqn:P. injection E as -> <-. now apply prop_elems_says with (1 := P).
Qed.
Lemma prop_distinct_says c s s' : prop_distinct O cfg c s = (Ok false, s') -> longer s s'.
Proof.
  intros E. unfold prop_distinct in E. destruct (css s c) as [k|]; [|discriminate]. destruct (c_def k) as [| |clit es| |]; try discriminate.
  set (s0 := set_cs _ _ s) in E. change (longer s0 s'). apply andthen_says with (1 := E).
  - destruct (dist_items O cfg clit (-1) fst es _ _ _ _ s0) as [o1 s1] eqn:D1. apply comm_tg with V. now apply dist_items_comm with (2 := D1).
  - destruct (dist_items O cfg clit (-1) fst es _ _ _ _ s0) as [o1 s1] eqn:D1. cbn [fst snd]. intros ->. now apply dist_items_says with (1 := D1).
  - intros s1 s2 E2. apply andthen_says with (1 := E2).
    + destruct (dist_items O cfg clit 1 snd es _ _ _ _ s1) as [o1 s3] eqn:D1. apply comm_tg with V. now apply dist_items_comm with (2 := D1).
    + destruct (dist_items O cfg clit 1 snd es _ _ _ _ s1) as [o1 s3] eqn:D1. cbn [fst snd]. intros ->. now apply dist_items_says with (1 := D1).
    + discriminate.
Qed.
Lemma prop_disjoint_says c s s' : prop_disjoint srt O cfg c s = (Ok false, s') -> longer s s'.
Proof.
  intros E. unfold prop_disjoint in E. destruct (css s c) as [k|]; [|discriminate]. destruct (c_def k) as [| | |clit es|]; try discriminate.
  destruct (dj_refresh s (c_iv k)) as [iv| |]; try discriminate. unfold dj_run in E.
  destruct (dj_groups O cfg _ false clit (c_force k) _ [] s) as [[o1 iv1] s1] eqn:D1. destruct o1 as [[]| |]; [| |discriminate..].
  - destruct (dj_groups O cfg _ true clit (c_force k) _ [] s1) as [[o2 iv2] s2] eqn:D2. injection E as -> <-. apply dj_groups_says in D2.
    change (longer s s2). apply longer_l with O s1; [|exact D2]. apply comm_tg with V. now apply (dj_groups_comm O cfg V _ _ _ _ _ _ _ _ _ _ (HI _) (HI _) D1).
  - injection E as <-. change (longer s s1). now apply dj_groups_says with (1 := D1).
Qed.
Lemma prop_nonlin_says c s s' : prop_nonlin O cfg c s = (Ok false, s') -> longer s s'.
Proof.
  intros E. unfold prop_nonlin in E. destruct (css s c) as [k|]; [|discriminate]. destruct (c_def k) as [| | | |clit coa x y cob z rhs]; try discriminate.
  assert (F : forall ls t, factor_reason cfg x y s = (ls, t) -> tg s t) by (intros ls t F; apply comm_tg with V; now apply factor_reason_comm with (3 := F)).
  destruct (nonlin_step _ _ _ _ _ _) as [[| |w|w|]| |]; try discriminate.
  - destruct (factor_reason cfg x y s) as [ls s1]. specialize (F _ _ eq_refl). destruct z as [z|].
    + destruct (if cob <? 0 then _ else _) as [q s2] eqn:G. destruct (add_clause O Learnt _ s2) as [b s3] eqn:C. injection E as _ <-. apply clause_longer in C.
      apply longer_l with O s1; [exact F|]. apply longer_l with O s2; [|exact C]. destruct (cob <? 0); [|now apply get_tg in G].
      destruct (get_literal cfg z _ s1) as [u s4] eqn:G1. injection G as _ <-. now apply get_tg in G1.
    + destruct (add_clause O Learnt _ s1) as [b s3] eqn:C. injection E as _ <-. apply clause_longer in C. now apply longer_l with O s1.
  - destruct z as [z|]; [|discriminate]. destruct (factor_reason cfg x y s) as [ls s1]. specialize (F _ _ eq_refl).
    destruct (get_literal cfg z w s1) as [q s2] eqn:G. apply get_tg in G. destruct (add_clause O Learnt _ s2) as [b s3] eqn:C. injection E as _ <-. apply clause_longer in C.
    apply longer_l with O s1; [exact F|]. now apply longer_l with O s2.
  - destruct z as [z|]; [|discriminate]. destruct (factor_reason cfg x y s) as [ls s1]. specialize (F _ _ eq_refl).
    destruct (get_literal cfg z w s1) as [q s2] eqn:G. apply get_tg in G. destruct (add_clause O Learnt _ s2) as [b s3] eqn:C. injection E as _ <-. apply clause_longer in C.
    apply longer_l with O s1; [exact F|]. now apply longer_l with O s2.
Qed.
Lemma prop_con_says c s s' : prop_con srt O cfg chk c s = (Ok false, s') -> longer s s'.
Proof.
  unfold prop_con. destruct (css s c) as [k|]; [|discriminate].
  destruct (c_def k); eauto using prop_sum_says, prop_distinct_says, prop_disjoint_says, prop_nonlin_says.
Qed.

(** ** The loop of check *)
Lemma fixed6_mark c s : fixed6 s (mark_todo c s).
Proof. unfold mark_todo, fixed6. destruct (css s c) as [k|]; [|now repeat split]. destruct (negb _); [|now repeat split]. now destruct (c_todo k). Qed.
Lemma fixed6_refl s : fixed6 s s.
Proof. now repeat split. Qed.
Lemma fixed6_trans s s1 s2 : fixed6 s s1 -> fixed6 s1 s2 -> fixed6 s s2.
Proof. intros (A1 & A2 & A3 & A4 & A5 & A6) (B1 & B2 & B3 & B4 & B5 & B6). repeat split; congruence. Qed.
Lemma fixed6_watches n x d ws : forall s, fixed6 s (snd (update_watches n x d ws s)).
Proof.
  induction ws as [|(i, c) ws IH]; intros s; cbn [update_watches]; [apply fixed6_refl|]. destruct (css s c) as [k|].
  - destruct (removable_at n k).
    + apply (fixed6_trans s (set_remw (remw s ++ [(x, i, c)]) s)); [now repeat split|apply IH].
    + destruct (cs_update i d k) as [b k1]. set (s2 := if b then _ else _).
      assert (A : fixed6 s s2). { unfold s2. destruct b; [apply (fixed6_mark c (set_cs c k1 s))|now repeat split]. }
      pose proof (IH s2) as B. destruct (update_watches n x d ws s2) as [w s3]. now apply fixed6_trans with s2.
  - pose proof (IH s) as B. now destruct (update_watches n x d ws s) as [w s3].
Qed.
Lemma fixed6_constraints x d s : fixed6 s (update_constraints x d s).
Proof. unfold update_constraints. pose proof (fixed6_watches (cur_level s) x d (wat s x) s) as H. destruct (update_watches _ _ _ _ _) as [w t1]. exact H. Qed.
Lemma fixed6_integrate s : fixed6 s (integrate s).
Proof.
  assert (U : forall xs s, fixed6 s (fold_left integrate_upper xs s)).
  { induction xs as [|x xs IH]; intros t; cbn [fold_left]; [apply fixed6_refl|]. apply fixed6_trans with (integrate_upper t x); [|apply IH]. apply (fixed6_constraints x (udiff t x) t). }
  assert (L : forall xs s, fixed6 s (fold_left integrate_lower xs s)).
  { induction xs as [|x xs IH]; intros t; cbn [fold_left]; [apply fixed6_refl|]. apply fixed6_trans with (integrate_lower t x); [|apply IH]. apply (fixed6_constraints x (ldiff t x) t). }
  unfold integrate. set (s1 := fold_left integrate_upper (inu s) s). apply fixed6_trans with s1; [apply U|]. exact (L (inl (set_inu [] s1)) (set_inu [] s1)).
Qed.
Lemma fixed6_clear c s : fixed6 s (clear_todo s c).
Proof. unfold clear_todo. destruct (css s c); [now repeat split|apply fixed6_refl]. Qed.
Lemma tg_todo cs : forall ret s o s', run_todo srt O cfg chk cs ret s = (o, s') -> tg s s' /\ (ret = true -> o = Ok false -> longer s s').
Proof.
  induction cs as [|c cs IH]; intros ret s o s' E; cbn [run_todo] in E.
  { injection E as <- <-. split; [apply tg_refl|]. intros -> Q. discriminate. }
  assert (A : tg s (clear_todo s c)) by apply tg_fixed6, fixed6_clear.
  set (s1 := clear_todo s c) in *. destruct ret; cbn [negb] in E.
  2: { destruct (IH _ _ _ _ E) as (B & _). split; [now apply tg_trans with s1|discriminate]. }
  destruct (css s1 c) as [k|] eqn:K; [|injection E as <- <-; split; [exact A|discriminate]]. destruct (is_false _ _ _).
  - assert (B : tg s1 (mark_inactive c s1)) by (apply talk_tg with cfg; apply (mark_inactive_own O cfg c k s1 K)).
    destruct (IH _ _ _ _ E) as (C & D). split; [eapply tg_trans; [exact A|]; now apply tg_trans with (mark_inactive c s1)|].
    intros _ Q. apply longer_l with O s1; [exact A|]. apply longer_l with O (mark_inactive c s1); auto.
  - destruct (prop_con srt O cfg chk c s1) as [o1 s2] eqn:P. assert (B : tg s1 s2) by (apply talk_tg with cfg; apply (prop_con_frame O cfg srt chk c k s1 o1 s2 K P)).
    assert (AB : tg s s2) by now apply tg_trans with s1.
    destruct o1 as [b|e|]; [|injection E as <- <-; split; [exact AB|discriminate]..].
    destruct (IH _ _ _ _ E) as (C & D). split; [now apply tg_trans with s2|]. intros _ Q. destruct b.
    + apply longer_l with O s2; auto.
    + apply prop_con_says in P. apply longer_r with O s2; [|exact C]. now apply longer_l with O s1.
Qed.
Lemma tg_loop n : forall s o s', check_loop srt O cfg chk n s = Some (o, s') ->
  tg s s' /\ (o = Ok false -> longer s s') /\ (o = Ok true -> fmap s' = []).
Proof.
  induction n as [|n IH]; intros s o s' E; cbn [check_loop] in E; [discriminate|].
  destruct (if is_nil (fmap s) then _ else _) as [ok s1] eqn:E1.
  assert (A : tg s s1 /\ (ok = false -> longer s s1)).
  { destruct (is_nil _); [injection E1 as <- <-; split; [apply tg_refl|discriminate]|]. destruct (update_domain_tg O cfg TRUE_LIT s ok s1 E1) as (A & B & _). auto. }
  destruct A as [A1 A2]. destruct ok; cbn [negb] in E.
  2: { injection E as <- <-. split; [exact A1|]. split; [auto|discriminate]. }
  assert (B : tg s (integrate s1)) by (eapply tg_trans; [exact A1|apply tg_fixed6, fixed6_integrate]).
  set (s2 := integrate s1) in *. destruct (run_todo srt O cfg chk (tod s2) true s2) as [o1 s3] eqn:R.
  destruct (tg_todo _ _ _ _ _ R) as (C & D). assert (BC : tg s s3) by now apply tg_trans with s2.
  destruct o1 as [b|e|]; [|injection E as <- <-; split; [exact BC|]; split; discriminate..].
  assert (F : tg s (set_tod [] s3)) by (eapply tg_trans; [exact BC|now apply tg_fixed6]).
  destruct b; cbn [negb orb] in E.
  - destruct (is_nil (fmap (set_tod [] s3))) eqn:NI.
    + injection E as <- <-. split; [exact F|]. split; [discriminate|]. intros _. destruct (fmap (set_tod [] s3)); [reflexivity|discriminate].
    + destruct (IH _ _ _ E) as (X1 & X2 & X3). split; [now apply tg_trans with (set_tod [] s3)|]. split; [|auto]. intros Q. apply longer_l with O (set_tod [] s3); auto.
  - injection E as <- <-. split; [exact F|]. split; [|discriminate]. intros _. change (longer s s3). apply longer_l with O s2; auto.
Qed.
Lemma tg_check n s o s' : solver_check srt O cfg chk n s = Some (o, s') -> tg s s' /\ (o = Ok false -> longer s s') /\ (o = Ok true -> fmap s = [] -> fmap s' = []).
Proof.
  unfold solver_check. destruct (_ && _).
  - intros E; injection E as <- <-. split; [apply tg_refl|]. split; [discriminate|auto].
  - intros E. destruct (tg_loop _ _ _ _ E) as (A & B & C). auto.
Qed.

(** ** propagate *)
Lemma fixed6_marks l ps : forall s, fixed6 s (fold_left (fun s (p : lit * cid) => if fst p =? l then mark_todo (snd p) s else s) ps s).
Proof.
  induction ps as [|p ps IH]; intros s; cbn [fold_left]; [apply fixed6_refl|].
  eapply fixed6_trans; [|apply IH]. destruct (_ =? _); [apply fixed6_mark|apply fixed6_refl].
Qed.
Lemma tg_lit l s ok s' : propagate_lit O cfg l s = (ok, s') -> tg s s' /\ (ok = false -> longer s s') /\ (ok = true -> tab s -> below (nxt s) l -> holds l s') /\ (ok = true -> fmap s = [] -> fmap s' = []).
Proof.
  unfold propagate_lit. set (s1 := fold_left _ (l2c s) s). intros E.
  assert (A : fixed6 s s1) by apply fixed6_marks.
  assert (T1 : tg s s1) by now apply tg_fixed6. destruct (update_domain_tg O cfg l s1 ok s' E) as (B & C & D & F & G). split; [now apply tg_trans with s1|]. split; [intros Q; apply longer_l with O s1; auto|].
  destruct A as (A1 & A2 & A3 & A4 & A5 & A6). split; [|intros Q Z; apply G; [exact Q|congruence]]. intros Q T BL. apply D; auto; [now apply (tg_tab _ _ _ T1)|now rewrite A3].
Qed.
Lemma tg_propagate_lits ls : forall s ok s', propagate_lits O cfg ls s = (ok, s') -> tg s s' /\ (ok = false -> longer s s') /\
  (ok = true -> tab s -> Forall (below (nxt s)) ls -> Forall (fun l => holds l s') ls) /\ (ok = true -> fmap s = [] -> fmap s' = []).
Proof.
  induction ls as [|l ls IH]; intros s ok s' E; cbn [propagate_lits] in E.
  - injection E as <- <-. split; [apply tg_refl|]. split; [discriminate|]. split; auto.
  - destruct (propagate_lit O cfg l s) as [ok1 s1] eqn:E1. destruct (tg_lit _ _ _ _ E1) as (A & B & C & D). destruct ok1.
    + destruct (IH _ _ _ E) as (X1 & X2 & X3 & X4). split; [now apply tg_trans with s1|]. split; [intros Q; apply longer_l with O s1; auto|]. split; [|auto].
      intros Q T F. inversion_clear F as [|? ? F1 F2]. assert (T1 := tg_tab _ _ _ A T). assert (N := tg_nxt _ _ _ A). constructor.
      * apply tg_holds with O s1; auto. destruct F1. lia.
      * apply X3; auto. apply Forall_impl with (2 := F2). intros a. unfold below. lia.
    + injection E as <- <-. split; [auto|]. split; [auto|]. split; discriminate.
Qed.
Lemma tg_propagate ls s ok s' : solver_propagate O cfg ls s = (ok, s') -> tg (push_level (dlevel O s) s) s' /\ (ok = false -> longer s s') /\
  (ok = true -> tab s -> Forall (below (nxt s)) ls -> Forall (fun l => holds l s') ls) /\ (ok = true -> fmap s = [] -> fmap s' = []).
Proof.
  unfold solver_propagate. set (s1 := push_level (dlevel O s) s). intros E.
  assert (A : vst s1 = vst s /\ lmap s1 = lmap s /\ nxt s1 = nxt s /\ log s1 = log s /\ fmap s1 = fmap s) by (unfold s1, push_level; now destruct (_ <? _)%nat).
  destruct (tg_propagate_lits _ _ _ _ E) as (B & C & D & F). clearbody s1. destruct A as (A1 & A2 & A3 & A4 & A5).
  split; [exact B|]. split; [intros Q; unfold longer; rewrite <- A4; now apply C|]. split; [|intros; apply F; auto; congruence].
  intros Q T L. apply D; auto; [|now rewrite A3]. apply tab_ext with (4 := T); intros; unfold key; congruence.
Qed.

(** ** check *)
Lemma tg_split x s : tg s (snd (split cfg x s)).
Proof. unfold split. destruct (is_assigned _); [apply tg_refl|apply tg_get]. Qed.
Lemma tg_split_every xs : forall r s, tg s (snd (split_every cfg xs r s)).
Proof.
  induction xs as [|x xs IH]; intros r s; cbn [split_every]; [apply tg_refl|]. pose proof (tg_split x s) as A. destruct (split cfg x s) as [b s1]. cbn [snd] in A. eapply tg_trans; [exact A|apply IH].
Qed.
Lemma tg_slast x s : (slast s <= nvars s -> x <= nvars s)%nat -> tg s (set_slast x s).
Proof.
  intros X. constructor; auto; try reflexivity; try (intros; cbn; lia).
  - exists []. split; [reflexivity|]. split; [constructor|now left].
  - apply tab_ext; auto.
  - intros _. apply out_ext; auto. intros; cbn; lia.
Qed.
Lemma tg_split_first xs : forall s, (slast s <= nvars s -> forall x, In x xs -> x <= nvars s)%nat -> tg s (snd (split_first cfg xs s)).
Proof.
  induction xs as [|x xs IH]; intros s X; cbn [split_first]; [apply tg_refl|]. pose proof (tg_split x s) as A.
  assert (SL : slast (snd (split cfg x s)) = slast s). { unfold split. destruct (is_assigned _); [reflexivity|]. exact (same_get slast (fun _ => eq_refl) s _ (get_literal_same cfg x _ s)). }
  destruct (split cfg x s) as [b s1]. cbn [snd] in A, SL. pose proof (tg_nv _ _ _ A) as N.
  destruct b; [|eapply tg_trans; [exact A|apply IH]; rewrite SL, N; intros L y Y; apply X; [exact L|now right]].
  eapply tg_trans; [exact A|apply tg_slast]. rewrite SL, N. intros L. apply X; [exact L|now left].
Qed.
Lemma tg_check_full s : tg s (snd (solver_check_full O cfg sol s)).
Proof.
  unfold solver_check_full. set (r := if split_all cfg then _ else _).
  assert (A : tg s (snd r)) by (unfold r; destruct (split_all cfg); [apply tg_split_every|apply tg_split_first; intros L x; rewrite in_app_iff, !in_seq; lia]).
  destruct r as [b s1]. cbn [snd] in A. destruct b; [exact A|]. now destruct sol.
Qed.
Lemma tg_minimize c m b l s s' : check_minimize c m b l s = Ok s' -> fixed6 s s'.
Proof.
  unfold check_minimize. destruct (b =? no_bound); [intros E; injection E as <-; apply fixed6_refl|].
  destruct (iadd _ _ _) as [z|e|]; [|discriminate..]. cbn [bind]. intros E. injection E as <-. unfold update_minimize.
  destruct (match mbound s with None => true | Some b => z <? b end).
  - eapply fixed6_trans; [|apply fixed6_mark]. now repeat split.
  - destruct (_ <? _)%nat; [|apply fixed6_refl]. eapply fixed6_trans; [|apply fixed6_mark]. now repeat split.
Qed.
Lemma tg_prop_check n m b s o s' : prop_check srt O cfg chk sol n m b s = Some (o, s') -> tg s s'.
Proof.
  unfold prop_check. set (q := match m with Some (c, m) => check_minimize c m b (dlevel O s) s | None => Ok s end).
  assert (A : forall s1, q = Ok s1 -> tg s s1).
  { unfold q. destruct m as [[c m]|]; intros s1 E; [apply tg_fixed6; eapply tg_minimize; eauto|injection E as <-; apply tg_refl]. }
  destruct q as [s1|e|]; [|intros E; injection E as <- <-; apply tg_refl..]. specialize (A s1 eq_refl).
  destruct (solver_check srt O cfg chk n s1) as [[o1 s2]|] eqn:K; [|discriminate]. apply tg_check in K as (K & _).
  assert (B : tg s s2) by now apply tg_trans with s1. destruct o1 as [r|e|]; [|intros E; injection E as <- <-; exact B..].
  destruct r; [|intros E; injection E as <- <-; exact B].
  destruct (_ && _); intros E; injection E; [|intros <- _; exact B]. intros E1. pose proof (tg_check_full s2) as C. rewrite E1 in C. now apply tg_trans with s2.
Qed.
End Says.
