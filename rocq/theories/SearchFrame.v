(** What the propagation of a constraint changes, whatever the assignment is. *)
From Verif Require Import Base Util IntervalSet VarState VarStateProofs Terms TermsSpec Solver OrderSpec
  OrderProofs1 OrderProofs2 Sum PropProofs ConSpec Distinct DistinctProofs DistinctProofs2 Nonlin Disjoint Search SearchSpec.
Open Scope Z_scope.
Notation lit := Z (only parsing).

Section Frame.
Context (O : oracle) (cfg : config).

(** Asking for order literals of variables in [V] and sending clauses. *)
Inductive comm (V : var -> Prop) : state -> state -> Prop :=
| comm_refl s : comm V s s
| comm_get s x v s' : V x -> comm V s s' -> comm V s (snd (get_literal cfg x v s'))
| comm_upd s x v t s' : V x -> comm V s s' -> comm V s (snd (update_literal O cfg x v t s'))
| comm_clause s t c s' : comm V s s' -> comm V s (snd (add_clause O t c s')).
Hint Constructors comm : core.

Lemma comm_trans V s s1 s2 : comm V s s1 -> comm V s1 s2 -> comm V s s2.
Proof. intros A B. revert A. induction B; intros A; eauto. Qed.
Lemma comm_weaken (V W : var -> Prop) s s' : (forall x, V x -> W x) -> comm V s s' -> comm W s s'.
Proof. intros H. induction 1; eauto. Qed.
Lemma comm_get1 (V : var -> Prop) x v s l s' : get_literal cfg x v s = (l, s') -> V x -> comm V s s'.
Proof. intros E H. replace s' with (snd (get_literal cfg x v s)) by now rewrite E. auto. Qed.
Lemma comm_upd1 (V : var -> Prop) x v t s l s' : update_literal O cfg x v t s = (l, s') -> V x -> comm V s s'.
Proof. intros E H. replace s' with (snd (update_literal O cfg x v t s)) by now rewrite E. auto. Qed.
Lemma comm_clause1 (V : var -> Prop) t c s b s' : add_clause O t c s = (b, s') -> comm V s s'.
Proof. intros E. replace s' with (snd (add_clause O t c s)) by now rewrite E. auto. Qed.

(** *** Frames of communication *)
Lemma comm_frame V s s' : comm V s s' -> same3 s s' /\ css s' = css s /\ ina s' = ina s.
Proof.
  induction 1 as [s|s x v s' H C IH|s x v t s' H C IH|s t c s' C IH]; [now split|..]; destruct IH as (A & B & D).
  - pose proof (get_literal_same cfg x v s') as S. split; [apply same3_trans with s'; [easy|now apply same_same3]|].
    rewrite (same_get css ltac:(easy) _ _ S), (same_get ina ltac:(easy) _ _ S). now split.
  - destruct (update_literal O cfg x v t s') as [l s2] eqn:E. cbn [snd].
    destruct (update_literal_same3 O cfg x v t s' l s2 E) as (P & Q & R).
    { intros G. replace s2 with (snd (get_literal cfg x v s')) by now rewrite G. apply get_literal_same. }
    split; [now apply same3_trans with s'|]. rewrite Q, R. now split.
  - split; [|now split]. apply same3_trans with s'; [easy|]. now split.
Qed.

(** *** Inner functions only communicate *)
Ltac inj := match goal with H : (_, _) = (_, _) |- _ => injection H as <- <- end.
Ltac atom := first [ eapply comm_get1; [eassumption|solve [auto]] | eapply comm_upd1; [eassumption|solve [auto]] | eapply comm_clause1; eassumption ].
Ltac hyp := match goal with H : comm ?V ?s ?s' |- comm ?V ?s ?s' => exact H end.
Ltac one := first [ apply comm_refl | hyp | atom ].

(** Splits all matches of an equation for a pair. *)
Ltac crush :=
  repeat match goal with
  | H : (_, _) = (_, _) |- _ => injection H as H; subst
  | H : context [match ?e with _ => _ end] |- _ => let Q := fresh "Q" in destruct e eqn:Q; try discriminate
  end.

Lemma calc_reason_comm (V : var -> Prop) x co slack s r s' : V x -> calc_reason O cfg x co slack s = (r, s') -> comm V s s'.
Proof.
  intros H E. unfold calc_reason in E. destruct (0 <? co).
  - destruct (get_literal cfg x (lb (vst s x) - 1) s) as [lr s1] eqn:G. assert (A : comm V s s1) by atom.
    destruct (refine_reasons cfg && _ && _); [|injection E as _ <-; exact A].
    destruct (_ <? _) in E; [|injection E as _ <-; exact A].
    match type of E with context [match order_ge ?a ?b with _ => _ end] =>
      destruct (match order_ge a b with Some (w, l) => _ | None => _ end) as [[[[ret l] slk] cur] s2] eqn:M end.
    assert (B : comm V s s2).
    { destruct (order_ge _ _) as [[w l0]|]; [|injection M as _ _ _ _ <-; exact A].
      destruct (w + 1 <? _) in M; [|injection M as _ _ _ _ <-; exact A].
      destruct (is_false O s1 l0); [injection M as _ _ _ _ <-; exact A|].
      destruct (add_clause O Learnt [lr; - l0] s1) as [b s3] eqn:K. injection M as _ _ _ _ <-. eapply comm_trans; [exact A|atom]. }
    destruct (ret && _ && _ && _); [|injection E as _ <-; exact B].
    destruct (get_literal cfg x _ s2) as [g s3] eqn:G2. assert (C : comm V s s3) by (eapply comm_trans; [exact B|atom]).
    destruct (is_false O s3 g); [injection E as _ <-; exact C|].
    destruct (add_clause O Learnt [l; - g] s3) as [b s4] eqn:K. injection E as _ <-. eapply comm_trans; [exact C|atom].
  - destruct (get_literal cfg x (ub (vst s x)) s) as [lr s1] eqn:G. assert (A : comm V s s1) by atom.
    destruct (refine_reasons cfg && _ && _); [|injection E as _ <-; exact A].
    destruct (_ <? _) in E; [|injection E as _ <-; exact A].
    match type of E with context [match order_le ?a ?b with _ => _ end] =>
      destruct (match order_le a b with Some (w, l) => _ | None => _ end) as [[[[ret l] slk] cur] s2] eqn:M end.
    assert (B : comm V s s2).
    { destruct (order_le _ _) as [[w l0]|]; [|injection M as _ _ _ _ <-; exact A].
      destruct (_ <? w) in M; [|injection M as _ _ _ _ <-; exact A].
      destruct (is_false O s1 (- l0)); [injection M as _ _ _ _ <-; exact A|].
      destruct (add_clause O Learnt [- lr; l0] s1) as [b s3] eqn:K. injection M as _ _ _ _ <-. eapply comm_trans; [exact A|atom]. }
    destruct (ret && _ && _ && _); [|injection E as _ <-; exact B].
    destruct (get_literal cfg x _ s2) as [g s3] eqn:G2. assert (C : comm V s s3) by (eapply comm_trans; [exact B|atom]).
    destruct (is_false O s3 (- g)); [injection E as _ <-; exact C|].
    destruct (add_clause O Learnt [l; - - g] s3) as [b s4] eqn:K. injection E as _ <-. eapply comm_trans; [exact C|atom].
Qed.
Lemma reasons_comm (V : var -> Prop) skip es : forall slack s o s', (forall e, In e es -> V (snd e)) -> reasons O cfg skip es slack s = (o, s') -> comm V s s'.
Proof.
  induction es as [|[co x] r IH]; intros slack s o s' H E; cbn [reasons] in E; [injection E as _ <-; auto|].
  assert (Hr : forall e, In e r -> V (snd e)) by (intros; apply H; now right).
  destruct (match skip with Some y => _ | None => _ end); [now apply IH with (2 := E)|].
  destruct (calc_reason O cfg x co slack s) as [[[ret l] sl] s1] eqn:C.
  assert (A : comm V s s1) by (apply calc_reason_comm with (2 := C); apply (H (co, x)); now left).
  destruct ret; [|injection E as _ <-; exact A].
  destruct (reasons O cfg skip r sl s1) as [o1 s2] eqn:R. injection E as _ <-. apply comm_trans with s1; [exact A|now apply IH with (2 := R)].
Qed.
Lemma prop_elem_comm (V : var -> Prop) tag clit es slack co x s b s' : (forall e, In e es -> V (snd e)) -> V x ->
  prop_elem O cfg tag clit es slack co x s = (b, s') -> comm V s s'.
Proof.
  intros H Hx E. unfold prop_elem in E. destruct (if 0 <? co then _ else _) in E; [injection E as _ <-; auto|].
  destruct (if has_lit _ _ then _ else _) as [l s1] eqn:G.
  assert (A : comm V s s1).
  { destruct (has_lit _ _); [|injection G as _ <-; auto]. destruct (get_literal cfg x _ s) as [g s2] eqn:G2. injection G as _ <-. atom. }
  destruct ((l =? 0) || _); [|injection E as _ <-; exact A].
  destruct (reasons O cfg (Some x) es _ s1) as [o s2] eqn:R.
  assert (B : comm V s s2) by (apply comm_trans with s1; [exact A|now apply reasons_comm with (2 := R)]).
  destruct o as [ls|]; [|injection E as _ <-; exact B].
  destruct (update_literal O cfg x _ _ s2) as [g s3] eqn:U.
  apply comm_trans with s3; [apply comm_trans with s2; [exact B|atom]|]. atom.
Qed.
Lemma prop_elems_comm (V : var -> Prop) tag clit es slack todo : forall s b s', (forall e, In e es -> V (snd e)) -> (forall e, In e todo -> V (snd e)) ->
  prop_elems O cfg tag clit es slack todo s = (b, s') -> comm V s s'.
Proof.
  induction todo as [|[co x] r IH]; intros s b s' H Ht E; cbn [prop_elems] in E; [injection E as _ <-; auto|].
  destruct (prop_elem O cfg tag clit es slack co x s) as [ok s1] eqn:P.
  assert (A : comm V s s1) by (apply prop_elem_comm with (3 := P); [exact H|apply (Ht (co, x)); now left]).
  destruct ok; [|injection E as _ <-; exact A]. apply comm_trans with s1; [exact A|]. apply IH with (3 := E); [exact H|]. intros; apply Ht; now right.
Qed.

Lemma reason_assigned_comm (V : var -> Prop) es : forall r s ls s', (forall e, In e es -> V (snd e)) -> reason_assigned O cfg es r s = (ls, s') -> comm V s s'.
Proof.
  induction es as [|[co x] t IH]; intros r s ls s' H E; cbn [reason_assigned] in E; [injection E as _ <-; auto|].
  assert (Hx : V x) by (apply (H (co, x)); now left).
  destruct (get_literal cfg x (ub (vst s x)) s) as [u s1] eqn:G1. destruct (get_literal cfg x (lb (vst s1 x) - 1) s1) as [l s2] eqn:G2.
  apply comm_trans with s2; [apply comm_trans with s1; atom|]. apply IH with (2 := E). intros; apply H; now right.
Qed.
Lemma reason_bounded_comm (V : var -> Prop) sgn fact es : forall r s ls s', (forall e, In e es -> V (snd e)) ->
  reason_bounded O cfg sgn fact es r s = (ls, s') -> comm V s s'.
Proof.
  induction es as [|[co x] t IH]; intros r s ls s' H E; cbn [reason_bounded] in E; [injection E as _ <-; auto|].
  assert (Hx : V x) by (apply (H (co, x)); now left). assert (Ht : forall e, In e t -> V (snd e)) by (intros; apply H; now right).
  destruct (0 <? sgn * co).
  - destruct (get_literal cfg x (ub (vst s x)) s) as [u s1] eqn:G1. destruct (update_literal O cfg x (ub (vst s1 x) - 1) _ s1) as [l s2] eqn:G2.
    assert (A : comm V s s2) by (apply comm_trans with s1; atom).
    destruct (is_true O s2 l); [injection E as _ <-; exact A|]. apply comm_trans with s2; [exact A|]. now apply IH with (2 := E).
  - destruct (get_literal cfg x (lb (vst s x) - 1) s) as [u s1] eqn:G1. destruct (update_literal O cfg x (lb (vst s1 x)) _ s1) as [l s2] eqn:G2.
    assert (A : comm V s s2) by (apply comm_trans with s1; atom).
    destruct (is_true O s2 (- l)); [injection E as _ <-; exact A|]. apply comm_trans with s2; [exact A|]. now apply IH with (2 := E).
Qed.
Lemma dist_pair_comm (V : var -> Prop) clit sgn ei ej s b s' : (forall e, In e (snd ei) -> V (snd e)) -> (forall e, In e (snd ej) -> V (snd e)) ->
  dist_pair O cfg clit sgn ei ej s = (b, s') -> comm V s s'.
Proof.
  intros Hi Hj E. unfold dist_pair in E. destruct (reason_assigned O cfg (snd ei) _ s) as [r s1] eqn:A.
  destruct (reason_bounded O cfg sgn _ (snd ej) r s1) as [o s2] eqn:B.
  assert (C : comm V s s2) by (apply comm_trans with s1; [now apply reason_assigned_comm with (2 := A)|now apply reason_bounded_comm with (2 := B)]).
  destruct o as [r2|]; [|injection E as _ <-; exact C]. apply comm_trans with s2; [exact C|atom].
Qed.
Definition dvars (es : list delem) (V : var -> Prop) : Prop := forall e t, In e es -> In t (snd e) -> V (snd t).
Lemma dist_others_comm (V : var -> Prop) clit sgn es i js : forall s r s', dvars es V -> dist_others O cfg clit sgn es i js s = (r, s') -> comm V s s'.
Proof.
  induction js as [|j js IH]; intros s r s' H E; cbn [dist_others] in E; [injection E as _ <-; auto|].
  destruct (Nat.eqb j i); [now apply IH with (2 := E)|].
  destruct (nth_error es i) as [ei|] eqn:Ei; [|injection E as _ <-; auto]. destruct (nth_error es j) as [ej|] eqn:Ej; [|injection E as _ <-; auto].
  destruct (dist_pair O cfg clit sgn ei ej s) as [ok s1] eqn:P. apply nth_error_In in Ei, Ej.
  assert (A : comm V s s1) by (apply dist_pair_comm with (3 := P); eauto).
  destruct ok; [|injection E as _ <-; exact A]. apply comm_trans with s1; [exact A|now apply IH with (2 := E)].
Qed.
Lemma andthen_comm (V : var -> Prop) x f s r s' : andthen x f = (r, s') -> comm V s (snd x) ->
  (forall s1 r1 s2, f s1 = (r1, s2) -> comm V s1 s2) -> comm V s s'.
Proof.
  intros E A B. destruct x as [o s1]. cbn [snd] in A. unfold andthen in E.
  destruct o as [[]| |]; try (injection E as _ <-; exact A). apply comm_trans with s1; [exact A|now apply B with (1 := E)].
Qed.
Lemma dist_item_comm (V : var -> Prop) clit sgn f es asg tlo tup i s r s' : dvars es V -> dist_item O cfg clit sgn f es asg tlo tup i s = (r, s') -> comm V s s'.
Proof.
  intros H E. unfold dist_item in E. destruct (nth_error asg i) as [[lo hi]|]; [|injection E as _ <-; auto].
  destruct (lo =? hi).
  - unfold dist_assigned in E. apply andthen_comm with (1 := E).
    + destruct (dist_others O cfg clit 1 es i (with_value snd asg lo) s) as [o s1] eqn:D. now apply dist_others_comm with (2 := D).
    + intros s1 r1 s2 D. now apply dist_others_comm with (2 := D).
  - destruct (find _ _) as [j|]; [|injection E as _ <-; auto]. destruct (memb j tlo || memb j tup); [injection E as _ <-; auto|].
    destruct (nth_error es j) as [ej|] eqn:Ej; [|injection E as _ <-; auto]. destruct (nth_error es i) as [ei|] eqn:Ei; [|injection E as _ <-; auto].
    destruct (dist_pair O cfg clit sgn ej ei s) as [ok s1] eqn:P. injection E as _ <-. apply nth_error_In in Ei, Ej. apply dist_pair_comm with (3 := P); eauto.
Qed.
Lemma dist_items_comm (V : var -> Prop) clit sgn f es asg tlo tup is : forall s r s', dvars es V ->
  dist_items O cfg clit sgn f es asg tlo tup is s = (r, s') -> comm V s s'.
Proof.
  induction is as [|i is IH]; intros s r s' H E; cbn [dist_items] in E; [injection E as _ <-; auto|].
  apply andthen_comm with (1 := E).
  - destruct (dist_item O cfg clit sgn f es asg tlo tup i s) as [o s1] eqn:D. now apply dist_item_comm with (2 := D).
  - intros s1 r1 s2 D. now apply IH with (2 := D).
Qed.

Definition ivars (V : var -> Prop) (iv : list ival) : Prop := forall i, In i iv -> V (iv_var i).
Lemma dj_update_bound_comm (V : var -> Prop) up r i b s o i' s' : V (iv_var i) -> dj_update_bound O cfg up r i b s = (o, i', s') ->
  comm V s s' /\ iv_var i' = iv_var i.
Proof.
  intros H E. unfold dj_update_bound in E. destruct up.
  - destruct (get_literal cfg (iv_var i) _ s) as [g s1] eqn:G. assert (A : comm V s s1) by atom.
    destruct (bind _ _) as [w| |]; [|injection E as _ <- <-; now split|injection E as _ <- <-; now split].
    destruct (update_literal O cfg (iv_var i) _ _ s1) as [l s2] eqn:U. destruct (add_clause O Learnt _ s2) as [ok s3] eqn:C.
    injection E as _ <- <-. split; [|easy]. apply comm_trans with s1; [exact A|apply comm_trans with s2; atom].
  - destruct (get_literal cfg (iv_var i) _ s) as [g s1] eqn:G. assert (A : comm V s s1) by atom.
    destruct (isub int32 b 1) as [w| |]; [|injection E as _ <- <-; now split|injection E as _ <- <-; now split].
    destruct (update_literal O cfg (iv_var i) _ _ s1) as [l s2] eqn:U. destruct (add_clause O Learnt _ s2) as [ok s3] eqn:C.
    injection E as _ <- <-. split; [|easy]. apply comm_trans with s1; [exact A|apply comm_trans with s2; atom].
Qed.
Lemma dj_reason_comm (V : var -> Prop) up clit a is s ls s' : ivars V is -> dj_reason O cfg up clit a is s = (ls, s') -> comm V s s'.
Proof.
  unfold dj_reason. generalize (if is_fixed O s clit then [] else [- clit]). revert s.
  induction is as [|i t IH]; intros s r H E; cbn [dj_reason_loop] in E; [injection E as _ <-; auto|].
  assert (Hx : V (iv_var i)) by (apply H; now left). assert (Ht : ivars V t) by (intros j J; apply H; now right).
  destruct (a <=? dlower up i); [|now apply IH with (2 := E)].
  destruct (get_literal cfg (iv_var i) _ s) as [l s1] eqn:G1. destruct (get_literal cfg (iv_var i) _ s1) as [u s2] eqn:G2.
  apply comm_trans with s2; [apply comm_trans with s1; atom|now apply IH with (2 := E)].
Qed.
Lemma dj_hall_comm (V : var -> Prop) up clit a b pre post : forall reason s o post' s', ivars V pre -> ivars V post ->
  dj_hall O cfg up clit a b pre reason post s = (o, post', s') -> comm V s s' /\ ivars V post'.
Proof.
  induction post as [|j t IH]; intros reason s o post' s' Hp Hq E; cbn [dj_hall] in E; [injection E as _ <- <-; now split|].
  assert (Hx : V (iv_var j)) by (apply Hq; now left). assert (Ht : ivars V t) by (intros i J; apply Hq; now right).
  destruct (_ && _) in E.
  - destruct (match reason with Some r => _ | None => _ end) as [r s1] eqn:R.
    assert (A : comm V s s1) by (destruct reason; [injection R as _ <-; auto|now apply dj_reason_comm with (2 := R)]).
    destruct (iadd int32 b 1) as [b1| |]; [|injection E as _ <- <-; now split|injection E as _ <- <-; now split].
    destruct (dj_update_bound O cfg up r j b1 s1) as [[o1 j1] s2] eqn:U.
    destruct (dj_update_bound_comm V _ _ _ _ _ _ _ _ Hx U) as (B & J1).
    assert (BB : comm V s s2) by now apply comm_trans with s1.
    assert (HJ : forall q, ivars V q -> ivars V (j1 :: q)) by (intros q Q i [<-|J]; [now rewrite J1|now apply Q]).
    destruct o1 as [[]| |]; try (injection E as _ <- <-; split; [exact BB|now apply HJ]).
    destruct (dj_hall O cfg up clit a b pre (Some r) t s2) as [[o2 t2] s3] eqn:D. injection E as _ <- <-.
    destruct (IH _ _ _ _ _ Hp Ht D) as (C & T). split; [now apply comm_trans with s2|now apply HJ].
  - destruct (dj_hall O cfg up clit a b pre reason t s) as [[o2 t2] s3] eqn:D. injection E as _ <- <-.
    destruct (IH _ _ _ _ _ Hp Ht D) as (C & T). split; [exact C|]. intros i [<-|J]; [exact Hx|now apply T].
Qed.
Lemma dj_insert_loop_vars (V : var -> Prop) up pre : forall x k pre' x' k' c, ivars V pre -> V (iv_var x) ->
  dj_insert_loop up x k pre = Ok (pre', x', k', c) -> ivars V pre' /\ V (iv_var x').
Proof.
  induction pre as [|j t IH]; intros x k pre' x' k' c Hp Hx E; cbn [dj_insert_loop] in E; [injection E as <- <- _ _; now split|].
  assert (Hj : V (iv_var j)) by (apply Hp; now left). assert (Ht : ivars V t) by (intros i J; apply Hp; now right).
  destruct (dlower up j <? dlower up x).
  - destruct (iadd int32 (iv_u j) (iv_weight x)) as [u| |]; cbn [bind] in E; try discriminate.
    destruct (dupper up x <? u); [injection E as <- <- _ _; split; [|exact Hx]; intros i [<-|J]; [exact Hj|now apply Ht]|].
    match type of E with context [dj_insert_loop up x ?kk t] => destruct (dj_insert_loop up x kk t) as [[[[t1 x1] k1] c1]| |] eqn:D end; cbn [bind] in E; try discriminate.
    injection E as <- <- _ _. destruct (IH _ _ _ _ _ _ Ht Hx D) as (A & B). split; [|exact B]. intros i [<-|J]; [exact Hj|now apply A].
  - destruct (iadd int32 (iv_u x) (iv_weight j)) as [u| |]; cbn [bind] in E; try discriminate.
    destruct (dj_insert_loop up (set_u x u) k t) as [[[[t1 x1] k1] c1]| |] eqn:D; cbn [bind] in E; try discriminate.
    injection E as <- <- _ _. destruct (IH (set_u x u) _ _ _ _ _ Ht Hx D) as (A & B). split; [|exact B]. intros i [<-|J]; [exact Hj|now apply A].
Qed.
Lemma ivars_app (V : var -> Prop) a b : ivars V (a ++ b) <-> ivars V a /\ ivars V b.
Proof.
  split; [intros H; split; intros i J; apply H, in_or_app; auto|]. intros [A B] i J. apply in_app_or in J as [J|J]; auto.
Qed.
Lemma ivars_cons (V : var -> Prop) a b : ivars V (a :: b) <-> V (iv_var a) /\ ivars V b.
Proof. split; [intros H; split; [apply H; now left|intros i J; apply H; now right]|]. intros [A B] i [<-|J]; auto. Qed.
Lemma ivars_nil (V : var -> Prop) : ivars V [].
Proof. now intros i []. Qed.
Lemma dj_insert_comm (V : var -> Prop) up clit pre x post s o pre' x' post' s' : ivars V pre -> V (iv_var x) -> ivars V post ->
  dj_insert O cfg up clit pre x post s = (o, (pre', x', post'), s') -> comm V s s' /\ ivars V pre' /\ V (iv_var x') /\ ivars V post'.
Proof.
  intros Hp Hx Hq E. unfold dj_insert in E.
  destruct (bind _ _) as [u| |] in E; [|injection E as _ <- <- <- <-; now repeat split|injection E as _ <- <- <- <-; now repeat split].
  match type of E with context [dj_insert_loop up ?xx None pre] => destruct (dj_insert_loop up xx None pre) as [[[[p1 x1] k1] c1]| |] eqn:D end.
  2,3: injection E as _ <- <- <- <-; now repeat split.
  match type of D with dj_insert_loop up ?xx _ _ = _ => destruct (dj_insert_loop_vars V up pre xx _ _ _ _ _ Hp Hx D) as (A & B) end.
  assert (AB : ivars V (p1 ++ [x1])) by (apply ivars_app; split; [exact A|apply ivars_cons; split; [exact B|apply ivars_nil]]).
  destruct c1 as [a|].
  - destruct (dj_reason O cfg up clit a (p1 ++ [x1]) s) as [r s1] eqn:R. destruct (add_clause O Learnt r s1) as [b s2] eqn:K.
    injection E as _ <- <- <- <-. split; [|now split]. apply comm_trans with s1; [now apply dj_reason_comm with (2 := R)|atom].
  - destruct (dupper up x1 <? iv_u x1).
    + destruct (dj_reason O cfg up clit (dlower up x1) (p1 ++ [x1]) s) as [r s1] eqn:R. destruct (add_clause O Learnt r s1) as [b s2] eqn:K.
      injection E as _ <- <- <- <-. split; [|now split]. apply comm_trans with s1; [now apply dj_reason_comm with (2 := R)|atom].
    + match type of E with context [if ?q then Some (dlower up x1) else k1] => destruct (if q then Some (dlower up x1) else k1) as [a|] end.
      2: injection E as _ <- <- <- <-; now repeat split.
      destruct (dj_hall O cfg up clit a (dupper up x1) (p1 ++ [x1]) None post s) as [[o1 post1] s1] eqn:H. injection E as _ <- <- <- <-.
      destruct (dj_hall_comm V _ _ _ _ _ _ _ _ _ _ _ AB Hq H) as (C & Q). now repeat split.
Qed.
Lemma dj_items_comm (V : var -> Prop) up clit n : forall pre post s o iv s', ivars V pre -> ivars V post ->
  dj_items O cfg n up clit pre post s = (o, iv, s') -> comm V s s' /\ ivars V iv.
Proof.
  induction n as [|n IH]; intros pre post s o iv s' Hp Hq E; cbn [dj_items] in E.
  { injection E as _ <- <-. split; [auto|]. now apply ivars_app. }
  destruct post as [|x post]; [injection E as _ <- <-; split; [auto|now apply ivars_app]|]. apply ivars_cons in Hq as [Hx Hq].
  destruct (dj_insert O cfg up clit pre x post s) as [[o1 [[p1 x1] q1]] s1] eqn:D.
  destruct (dj_insert_comm V _ _ _ _ _ _ _ _ _ _ _ Hp Hx Hq D) as (A & P1 & X1 & Q1).
  assert (F : comm V s s1 /\ ivars V (p1 ++ x1 :: q1)) by (split; [exact A|]; apply ivars_app; split; [easy|now apply ivars_cons]).
  destruct o1 as [[]| |]; try (injection E as _ <- <-; exact F).
  destruct (IH _ _ _ _ _ _ (proj2 (ivars_app V p1 [x1]) (conj P1 (proj2 (ivars_cons V x1 []) (conj X1 (ivars_nil V))))) Q1 E) as (B & C).
  split; [now apply comm_trans with s1|exact C].
Qed.
Lemma dj_group_vars (V : var -> Prop) up rl : forall mn chg g g' c' r, ivars V rl -> ivars V g -> dj_group up mn chg g rl = (g', c', r) -> ivars V g' /\ ivars V r.
Proof.
  induction rl as [|y t IH]; intros mn chg g g' c' r Hr Hg E; cbn [dj_group] in E; [injection E as <- _ <-; now split|].
  apply ivars_cons in Hr as [Hy Ht]. destruct (mn <=? dupper up y).
  - apply IH with (3 := E); [exact Ht|]. now apply ivars_cons.
  - injection E as <- _ <-. split; [easy|]. now apply ivars_cons.
Qed.
Lemma ivars_rev (V : var -> Prop) l : ivars V l -> ivars V (rev l).
Proof. intros H i J. apply H. now apply in_rev. Qed.
Lemma dj_groups_comm (V : var -> Prop) up clit force n : forall rl done s o iv s', ivars V rl -> ivars V done ->
  dj_groups O cfg n up clit force rl done s = (o, iv, s') -> comm V s s' /\ ivars V iv.
Proof.
  induction n as [|n IH]; intros rl done s o iv s' Hr Hd E; cbn [dj_groups] in E.
  { injection E as _ <- <-. split; [auto|]. apply ivars_app. split; [now apply ivars_rev|easy]. }
  destruct rl as [|y r]; [injection E as _ <- <-; now split|].
  apply ivars_cons in Hr as [Hy Hr].
  destruct (dj_group up (dlower up y) (force || dchanged y) [y] r) as [[g chg] r1] eqn:G.
  destruct (dj_group_vars V _ _ _ _ _ _ _ _ Hr (proj2 (ivars_cons V y []) (conj Hy (ivars_nil V))) G) as (Hg & Hr1).
  destruct chg.
  - destruct (dj_items O cfg (length g) up clit [] g s) as [[o1 g1] s1] eqn:D.
    destruct (dj_items_comm V _ _ _ _ _ _ _ _ _ (ivars_nil V) Hg D) as (A & G1).
    assert (F : comm V s s1 /\ ivars V (rev r1 ++ g1 ++ done)) by (split; [exact A|]; apply ivars_app; split; [now apply ivars_rev|now apply ivars_app]).
    destruct o1 as [[]| |]; try (injection E as _ <- <-; exact F).
    destruct (IH _ _ _ _ _ _ Hr1 (proj2 (ivars_app V g1 done) (conj G1 Hd)) E) as (B & C). split; [now apply comm_trans with s1|exact C].
  - apply IH with (3 := E); [easy|now apply ivars_app].
Qed.
Lemma dj_refresh_vars (V : var -> Prop) s iv : forall iv', ivars V iv -> dj_refresh s iv = Ok iv' -> ivars V iv'.
Proof.
  induction iv as [|i t IH]; intros iv' H E; cbn [dj_refresh] in E; [injection E as <-; easy|].
  apply ivars_cons in H as [Hi Ht].
  destruct (iadd int32 _ _) as [w| |]; cbn [bind] in E; try discriminate. destruct (isub int32 _ _) as [r| |]; cbn [bind] in E; try discriminate.
  destruct (dj_refresh s t) as [t1| |]; cbn [bind] in E; try discriminate. injection E as <-. apply ivars_cons. split; [exact Hi|now apply IH].
Qed.

Lemma factor_reason_comm (V : var -> Prop) x y s ls s' : V x -> V y -> factor_reason cfg x y s = (ls, s') -> comm V s s'.
Proof.
  intros Hx Hy E. unfold factor_reason, range_reason in E.
  destruct (get_literal cfg x (ub (vst s x)) s) as [u s1] eqn:G1. destruct (get_literal cfg x (lb (vst s1 x) - 1) s1) as [l s2] eqn:G2.
  destruct (get_literal cfg y (ub (vst s2 y)) s2) as [u' s3] eqn:G3. destruct (get_literal cfg y (lb (vst s3 y) - 1) s3) as [l' s4] eqn:G4.
  injection E as _ <-. apply comm_trans with s2; [apply comm_trans with s1; atom|apply comm_trans with s3; atom].
Qed.

(** *** Propagation of a constraint *)


(** New order literals are watched, or true or false; the communication goes on. *)
Definition wgrow (s s' : state) : Prop := (exists es, log s' = es ++ log s /\ Forall within es) /\
  forall x w l, In (w, l) (lits (vst s' x)) ->
    In (w, l) (lits (vst s x)) \/ Z.abs l = 1 \/ (In (EWatch l) (log s') /\ In (EWatch (- l)) (log s')).
Lemma wgrow_refl s : wgrow s s.
Proof. split; [exists []; split; [reflexivity|constructor]|]. auto. Qed.
Lemma wgrow_trans s s1 s2 : wgrow s s1 -> wgrow s1 s2 -> wgrow s s2.
Proof.
  intros [(e1 & L1 & W1) A] [(e2 & L2 & W2) B]. split; [exists (e2 ++ e1); split; [now rewrite L2, L1, app_assoc|now apply Forall_app]|].
  intros x w l H. apply B in H as [H|[H|H]]; auto. apply A in H as [H|[H|(H & H')]]; auto.
  right; right. rewrite L2. split; apply in_or_app; now right.
Qed.
Lemma wgrow_eq s s' u u' : vst u = vst s -> log u = log s -> vst u' = vst s' -> log u' = log s' -> wgrow s s' -> wgrow u u'.
Proof. intros A B C D. unfold wgrow. now rewrite A, B, C, D. Qed.
Lemma in_m_set_weak m v l : forall w k, In (w, k) (m_set m v l) -> (w, k) = (v, l) \/ In (w, k) m.
Proof.
  induction m as [|[u j] r IH]; intros w k H; cbn [m_set] in H.
  - destruct H as [H|[]]; auto.
  - repeat match type of H with context [if ?b then _ else _] => destruct b end; cbn [In] in *.
    + destruct H as [H|H]; auto.
    + destruct H as [H|H]; auto.
    + destruct H as [H|H]; auto. apply IH in H as [H|H]; auto.
Qed.
Lemma litmap_log x l v s : log (snd (update_litmap x l v s)) = log s.
Proof.
  unfold update_litmap. cbn [snd]. destruct (vlit_lt _ _ =? 0), (vlit_gt _ _ =? 0); cbn; auto.
  - now destruct (valid_entry _ _).
  - now destruct (valid_entry _ _).
  - destruct (valid_entry s _); cbn; now destruct (valid_entry _ _).
Qed.
Lemma store_in x v l s y w k : In (w, k) (lits (vst (store_lit x v l s) y)) -> In (w, k) (lits (vst s y)) \/ (w, k) = (v, l).
Proof.
  unfold store_lit, set_vs. cbn [vst set_vst]. unfold upd. destruct (Nat.eqb_spec y x) as [->|]; [|auto]. cbn [lits set_lits].
  intros H. apply in_m_set_weak in H. tauto.
Qed.
Lemma get_literal_wgrow x v s : wgrow s (snd (get_literal cfg x v s)).
Proof.
  unfold get_literal. destruct (v <? _); [apply wgrow_refl|]. destruct (_ <=? v); [apply wgrow_refl|]. destruct (vfind _ _); [apply wgrow_refl|].
  unfold add_literal. cbn [snd].
  set (l := if sign_value cfg <=? v then - nxt s else nxt s).
  set (s1 := emit (ELit (nxt s)) (set_nxt (nxt s + 1) s)).
  assert (LG : log (litmap_add x v l (store_lit x v l s1)) = ELit (nxt s) :: log s).
  { unfold litmap_add. pose proof (litmap_log x l v (store_lit x v l s1)) as H. destruct (update_litmap x l v (store_lit x v l s1)) as [[p n] s2]. exact H. }
  split.
  - exists [EWatch (- l); EWatch l; ELit (nxt s)]. cbn [add_watch emit log set_log]. rewrite LG. split; [reflexivity|]. now repeat constructor.
  - intros y w k. cbn [add_watch emit vst log set_log]. rewrite litmap_add_vst. intros H. apply store_in in H as [H|H]; [now left|].
    right; right. injection H as -> ->. split; [right; now left|now left].
Qed.
Lemma update_literal_wgrow x v t s : wgrow s (snd (update_literal O cfg x v t s)).
Proof.
  pose proof (get_literal_wgrow x v s) as G. unfold update_literal. destruct t; [| |exact G];
  (destruct (0 <? dlevel O s)%nat; [exact G|]);
  (destruct (v <? _); [apply wgrow_refl|]; destruct (_ <=? v); [apply wgrow_refl|]; destruct (vfind _ _); [apply wgrow_refl|]);
  match goal with |- context [update_litmap ?x ?l ?v ?st] => pose proof (litmap_vst x l v st) as HV; pose proof (litmap_log x l v st) as HL; destruct (update_litmap x l v st) as [[p n] s1] end;
  cbn [snd] in *; (split; [exists []; split; [exact HL|constructor]|]); intros y w k; cbn [push_fact set_fmap vst]; rewrite HV; intros H; apply store_in in H as [H|H]; auto;
  injection H as -> ->; right; left; reflexivity.
Qed.
Lemma comm_wgrow V s s' : comm V s s' -> wgrow s s'.
Proof.
  induction 1 as [s|s x v s' H C IH|s x v t s' H C IH|s t c s' C IH]; [apply wgrow_refl|..]; apply wgrow_trans with (1 := IH).
  - apply get_literal_wgrow.
  - apply update_literal_wgrow.
  - split; [exists [EClause t c]; split; [reflexivity|now repeat constructor]|]. auto.
Qed.

(** The parts of a constraint state a propagation does not change. *)
Definition kept (k k' : cst) : Prop := c_def k' = c_def k /\ c_todo k' = c_todo k /\ c_lo k' = c_lo k /\ c_hi k' = c_hi k.
(** Communication and changes of the data of constraints. *)
Inductive talk : state -> state -> Prop :=
| talk_refl s : talk s s
| talk_get s x v s' : talk s s' -> talk s (snd (get_literal cfg x v s'))
| talk_upd s x v t s' : talk s s' -> talk s (snd (update_literal O cfg x v t s'))
| talk_clause s t c s' : talk s s' -> talk s (snd (add_clause O t c s'))
| talk_data s f i s' : talk s s' -> talk s (set_css f (set_ina i s')).
Lemma talk_comm V s s1 s' : talk s s1 -> comm V s1 s' -> talk s s'.
Proof. intros T C. revert T. induction C; intros T; auto using talk. Qed.
(** What the propagation of constraint [c] changes: the communication with clasp, its own data and whether it is inactive. *)
Record cframe (c : cid) (k : cst) (s s' : state) : Prop := {
  cf_same : same3 s s';
  cf_grow : wgrow s s';
  cf_talk : talk s s';
  cf_other : forall d, d <> c -> css s' d = css s d;
  cf_own : exists k', css s' c = Some k' /\ kept k k' /\
    ((c_inact k' = c_inact k /\ ina s' = ina s) \/
     (c_removable (c_def k) = true /\ marked_inactive k = false /\ c_inact k' = S (cur_level s) /\ ina s' = ina s ++ [c])) }.

Lemma kept_refl k : kept k k.
Proof. now repeat split. Qed.
Lemma cframe_comm V c k s s' : css s c = Some k -> comm V s s' -> cframe c k s s'.
Proof.
  intros K C. destruct (comm_frame V s s' C) as (A & B & D). pose proof (comm_wgrow V s s' C). pose proof (talk_comm V s s s' (talk_refl s) C). constructor; auto.
  - intros d _. now rewrite B.
  - exists k. rewrite B. split; [easy|]. split; [apply kept_refl|]. now left.
Qed.
Lemma cframe_after V c k s s1 s' : cframe c k s s1 -> comm V s1 s' -> cframe c k s s'.
Proof.
  intros [A B X D (k' & E & F & G)] C. destruct (comm_frame V s1 s' C) as (A' & B' & D'). constructor.
  - now apply same3_trans with s1.
  - apply wgrow_trans with s1; [easy|now apply comm_wgrow with V].
  - now apply talk_comm with V s1.
  - intros d N. rewrite B'. now apply D.
  - exists k'. rewrite B', D'. now split.
Qed.
Lemma cframe_set c k s s1 k' : cframe c k s s1 -> kept k k' -> (forall k1, css s1 c = Some k1 -> c_inact k' = c_inact k1) -> cframe c k s (set_cs c k' s1).
Proof.
  intros [A B X D (k1 & E & F & G)] K I. specialize (I k1 E). constructor.
  - apply same3_trans with s1; [easy|]. now split.
  - apply (wgrow_eq s s1); easy.
  - replace (set_cs c k' s1) with (set_css (upd (css s1) c (Some k')) (set_ina (ina s1) s1)) by (destruct s1; reflexivity). now apply talk_data.
  - intros d N. unfold set_cs. cbn [css set_css]. unfold upd. destruct (Nat.eqb_spec d c); [contradiction|now apply D].
  - exists k'. unfold set_cs. cbn [css set_css ina]. unfold upd. rewrite Nat.eqb_refl. split; [easy|]. split; [exact K|]. now rewrite I.
Qed.
Lemma cframe_mark V c k s s1 : css s c = Some k -> comm V s s1 -> cframe c k s (mark_inactive c s1).
Proof.
  intros K C. destruct (comm_frame V s s1 C) as (SM & B & A). pose proof (comm_wgrow V s s1 C) as W. unfold mark_inactive. rewrite B, K.
  destruct (c_removable (c_def k) && negb (marked_inactive k)) eqn:Q; [|now apply cframe_comm with V].
  apply andb_true_iff in Q as [Q1 Q2]. apply negb_true_iff in Q2. constructor.
  - apply same3_trans with s1; [easy|]. now split.
  - apply (wgrow_eq s s1); easy.
  - apply talk_data. apply talk_comm with V s; [apply talk_refl|exact C].
  - intros d N. unfold set_cs. cbn [css set_css set_ina]. unfold upd. destruct (Nat.eqb_spec d c); [contradiction|now rewrite B].
  - exists (set_inact (S (cur_level s1)) k). unfold set_cs. cbn [css set_css set_ina ina]. unfold upd. rewrite Nat.eqb_refl. split; [easy|].
    split; [now repeat split|]. right. cbn. now rewrite (same3_cur _ _ SM), A.
Qed.

Lemma prop_sum_frame chk c k s r s' : css s c = Some k -> prop_sum O cfg chk c s = (r, s') -> cframe c k s s'.
Proof.
  intros K E. unfold prop_sum in E. rewrite K in E. set (V := fun _ : var => True).
  assert (R0 : cframe c k s s) by (apply cframe_comm with V; auto).
  destruct (sum_es (c_def k)) as [es|] eqn:Q; [|injection E as _ <-; exact R0].
  assert (HV : forall e, In e es -> V (snd e)) by easy.
  destruct (sum_rhs s (c_def k)) as [[rhs|]| |]; try (injection E as _ <-; exact R0).
  destruct (chk && _); [injection E as _ <-; exact R0|].
  destruct (c_hi k <=? rhs); [injection E as _ <-; apply cframe_mark with V; auto|].
  destruct (rhs - c_lo k <? 0).
  - destruct (reasons O cfg None es (rhs - c_lo k) s) as [o s1] eqn:R. assert (A : comm V s s1) by now apply reasons_comm with (2 := R).
    destruct o as [ls|]; [|injection E as _ <-; now apply cframe_comm with V].
    destruct (add_clause O _ _ (mark_inactive c s1)) as [b s2] eqn:C. injection E as _ <-.
    apply cframe_after with V (mark_inactive c s1); [now apply cframe_mark with V|atom].
  - destruct (is_true O s _); [|injection E as _ <-; exact R0]. cbn [negb] in E.
    destruct (prop_elems O cfg _ _ es _ es s) as [b s1] eqn:P. injection E as _ <-. apply cframe_comm with V; auto. now apply prop_elems_comm with (3 := P).
Qed.
Lemma prop_distinct_frame c k s r s' : css s c = Some k -> prop_distinct O cfg c s = (r, s') -> cframe c k s s'.
Proof.
  intros K E. unfold prop_distinct in E. rewrite K in E. set (V := fun _ : var => True).
  assert (R0 : cframe c k s s) by (apply cframe_comm with V; auto).
  destruct (c_def k) as [| |clit es| |] eqn:Q; try (injection E as _ <-; exact R0).
  assert (HV : dvars es V) by easy.
  set (asg := dist_refresh s es (c_dirty k) (c_asg k)) in *. set (k0 := set_dist asg [] (c_tup k) (c_tlo k) k) in *.
  set (s0 := set_cs c k0 s) in *.
  assert (F0 : cframe c k s s0).
  { apply cframe_set; [exact R0|now repeat split|]. intros k1 H. now rewrite K in H; injection H as <-. }
  assert (K0 : css s0 c = Some k0) by (unfold s0, set_cs; cbn; unfold upd; now rewrite Nat.eqb_refl).
  destruct (dist_items O cfg clit (-1) fst es asg (c_tlo k) (c_tup k) (c_tlo k) s0) as [o1 s1] eqn:D1.
  assert (C1 : comm V s0 s1) by now apply dist_items_comm with (2 := D1).
  unfold andthen in E at 1. destruct o1 as [[]| |]; try (injection E as _ <-; now apply cframe_after with V s0).
  destruct (dist_items O cfg clit 1 snd es asg (c_tlo k) (c_tup k) (c_tup k) s1) as [o2 s2] eqn:D2.
  assert (C2 : comm V s0 s2) by (apply comm_trans with s1; [exact C1|now apply dist_items_comm with (2 := D2)]).
  unfold andthen in E at 1. destruct o2 as [[]| |]; try (injection E as _ <-; now apply cframe_after with V s0).
  injection E as _ <-. apply cframe_set; [now apply cframe_after with V s0|now repeat split|].
  intros k1 H. destruct (comm_frame V s0 s2 C2) as (_ & B & _). rewrite B, K0 in H. now injection H as <-.
Qed.
Lemma prop_disjoint_frame srt c k s r s' : css s c = Some k -> prop_disjoint srt O cfg c s = (r, s') -> cframe c k s s'.
Proof.
  intros K E. unfold prop_disjoint in E. rewrite K in E. set (V := fun _ : var => True).
  assert (R0 : cframe c k s s) by (apply cframe_comm with V; auto).
  destruct (c_def k) as [| | |clit es|] eqn:Q; try (injection E as _ <-; exact R0).
  destruct (dj_refresh s (c_iv k)) as [iv| |]; try (injection E as _ <-; exact R0).
  assert (HV : forall iv, ivars V iv) by easy.
  assert (F : forall s1 iv1, comm V s s1 -> cframe c k s (set_cs c (set_disj iv1 false k) s1)).
  { intros s1 iv1 C. apply cframe_set; [now apply cframe_comm with V|now repeat split|].
    intros k1 H. destruct (comm_frame V s s1 C) as (_ & B & _). rewrite B, K in H. now injection H as <-. }
  unfold dj_run in E.
  destruct (dj_groups O cfg _ false clit (c_force k) _ [] s) as [[o1 iv1] s1] eqn:D1.
  destruct (dj_groups_comm V _ _ _ _ _ _ _ _ _ _ (HV _) (HV _) D1) as (C1 & _).
  destruct o1 as [[]| |]; try (injection E as _ <-; now apply F).
  destruct (dj_groups O cfg _ true clit (c_force k) _ [] s1) as [[o2 iv2] s2] eqn:D2.
  destruct (dj_groups_comm V _ _ _ _ _ _ _ _ _ _ (HV _) (HV _) D2) as (C2 & _).
  injection E as _ <-. apply F. now apply comm_trans with s1.
Qed.
Lemma prop_nonlin_frame c k s r s' : css s c = Some k -> prop_nonlin O cfg c s = (r, s') -> cframe c k s s'.
Proof.
  intros K E. unfold prop_nonlin in E. rewrite K in E. set (V := fun _ : var => True).
  assert (R0 : cframe c k s s) by (apply cframe_comm with V; auto).
  assert (HV : forall x, V x) by easy.
  destruct (c_def k) as [| | | |clit coa x y cob z rhs] eqn:Q; try (injection E as _ <-; exact R0).
  destruct (nonlin_step _ _ _ _ _ _) as [[| |w|w|]| |]; try (injection E as _ <-; exact R0).
  - injection E as _ <-. apply cframe_mark with V; auto.
  - destruct (factor_reason cfg x y s) as [ls s1] eqn:F. assert (A : comm V s s1) by now apply factor_reason_comm with (3 := F).
    destruct z as [z|].
    + destruct (if cob <? 0 then _ else _) as [q s2] eqn:G.
      assert (B : comm V s1 s2).
      { destruct (cob <? 0); [|atom]. destruct (get_literal cfg z _ s1) as [u s3] eqn:G1. injection G as _ <-. atom. }
      destruct (add_clause O Learnt _ s2) as [b s3] eqn:C. injection E as _ <-. apply cframe_comm with V; auto.
      apply comm_trans with s1; [exact A|apply comm_trans with s2; [exact B|atom]].
    + destruct (add_clause O Learnt _ s1) as [b s3] eqn:C. injection E as _ <-. apply cframe_comm with V; auto. apply comm_trans with s1; [exact A|atom].
  - destruct z as [z|]; [|injection E as _ <-; exact R0].
    destruct (factor_reason cfg x y s) as [ls s1] eqn:F. assert (A : comm V s s1) by now apply factor_reason_comm with (3 := F).
    destruct (get_literal cfg z w s1) as [q s2] eqn:G. destruct (add_clause O Learnt _ s2) as [b s3] eqn:C. injection E as _ <-. apply cframe_comm with V; auto.
    apply comm_trans with s1; [exact A|apply comm_trans with s2; atom].
  - destruct z as [z|]; [|injection E as _ <-; exact R0].
    destruct (factor_reason cfg x y s) as [ls s1] eqn:F. assert (A : comm V s s1) by now apply factor_reason_comm with (3 := F).
    destruct (get_literal cfg z w s1) as [q s2] eqn:G. destruct (add_clause O Learnt _ s2) as [b s3] eqn:C. injection E as _ <-. apply cframe_comm with V; auto.
    apply comm_trans with s1; [exact A|apply comm_trans with s2; atom].
Qed.
Lemma prop_con_frame srt chk c k s r s' : css s c = Some k -> prop_con srt O cfg chk c s = (r, s') -> cframe c k s s'.
Proof.
  intros K E. unfold prop_con in E. rewrite K in E.
  destruct (c_def k); eauto using prop_sum_frame, prop_distinct_frame, prop_disjoint_frame, prop_nonlin_frame.
Qed.
End Frame.
