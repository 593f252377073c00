(** The data of constraints that stays the same during search: definitions, and the intervals of disjoint constraints
    up to their order. *)
From Verif Require Import Base Util IntervalSet VarState Terms TermsSpec TermsProofs Solver OrderSpec OrderProofs2 Orders Sum SumProofs2 PropProofs ConSpec
  Distinct DistinctProofs2 Disjoint DisjointProofs Nonlin Objective Search SearchSpec SearchFrame SearchInv SearchInv3 SearchInv5 SearchMain FreshSearch.
From Coq Require Import Permutation.
Open Scope Z_scope.

(** ** Intervals *)

Section Keys.
Context (O : oracle) (cfg : config).

Lemma update_bound_key up r i b s o i' s' : dj_update_bound O cfg up r i b s = (o, i', s') -> key i' = key i.
Proof.
  unfold dj_update_bound. destruct up; destruct (get_literal _ _ _ _) as [g s1]; [destruct (bind (ineg int32 b) _)|destruct (isub int32 b 1)];
    try (intros E; now injection E as _ <- _); destruct (update_literal _ _ _ _ _ _) as [l s2]; destruct (add_clause _ _ _ _) as [ok s3]; intros E; now injection E as _ <- _.
Qed.
Lemma hall_keys up clit a b pre post : forall reason s o post' s', dj_hall O cfg up clit a b pre reason post s = (o, post', s') -> map key post' = map key post.
Proof.
  induction post as [|j t IH]; intros reason s o post' s' E; cbn [dj_hall] in E; [now injection E as _ <- _|].
  destruct (_ && _).
  - destruct (match reason with Some r => (r, s) | None => dj_reason O cfg up clit a pre s end) as [r s1]. destruct (iadd _ _ _) as [b1| |]; try now injection E as _ <- _.
    destruct (dj_update_bound O cfg up r j b1 s1) as [[o1 j1] s2] eqn:U. apply update_bound_key in U. destruct o1 as [[]| |].
    + destruct (dj_hall O cfg up clit a b pre (Some r) t s2) as [[o2 t2] s3] eqn:H. apply IH in H. injection E as _ <- _. cbn. now rewrite U, H.
    + injection E as _ <- _. cbn. now rewrite U.
    + injection E as _ <- _. cbn. now rewrite U.
    + injection E as _ <- _. cbn. now rewrite U.
  - destruct (dj_hall O cfg up clit a b pre reason t s) as [[o2 t2] s3] eqn:H. apply IH in H. injection E as _ <- _. cbn. now rewrite H.
Qed.
Lemma insert_loop_keys up pre : forall x k pre' x' k' c, dj_insert_loop up x k pre = Ok (pre', x', k', c) -> map key pre' = map key pre /\ key x' = key x.
Proof.
  induction pre as [|j t IH]; intros x k pre' x' k' c E; cbn [dj_insert_loop] in E; [now injection E as <- <- _ _|].
  destruct (_ <? _).
  - apply bind_ok in E as (u & _ & E). destruct (_ <? u); [now injection E as <- <- _ _|]. apply bind_ok in E as ([[[t1 x1] k1] c1] & E1 & E). apply IH in E1 as [A B].
    injection E as <- <- _ _. cbn. now rewrite A, B.
  - apply bind_ok in E as (u & _ & E). apply bind_ok in E as ([[[t1 x1] k1] c1] & E1 & E). apply IH in E1 as [A B].
    injection E as <- <- _ _. cbn. now rewrite A, B.
Qed.
Lemma insert_keys up clit pre x post s o pre' x' post' s' : dj_insert O cfg up clit pre x post s = (o, (pre', x', post'), s') ->
  map key pre' = map key pre /\ key x' = key x /\ map key post' = map key post.
Proof.
  unfold dj_insert. cbv zeta. destruct (bind (iadd int32 _ _) _) as [u| |]; try (intros E; now injection E as _ <- <- <- _).
  destruct (dj_insert_loop up _ None pre) as [[[[p1 x1] k1] [a|]]| |] eqn:L; try (intros E; now injection E as _ <- <- <- _); apply insert_loop_keys in L as [A B].
  - destruct (dj_reason _ _ _ _ _ _ _) as [r s1]. destruct (add_clause _ _ _ _) as [b s2]. intros E. now injection E as _ <- <- <- _.
  - destruct (_ <? iv_u x1).
    + destruct (dj_reason _ _ _ _ _ _ _) as [r s1]. destruct (add_clause _ _ _ _) as [b s2]. intros E. now injection E as _ <- <- <- _.
    + match goal with |- context [match ?o with Some _ => _ | None => _ end] => destruct o as [a|] end; [|intros E; now injection E as _ <- <- <- _].
      destruct (dj_hall _ _ _ _ _ _ _ _ _ _) as [[o1 p2] s1] eqn:H. apply hall_keys in H. intros E. injection E as _ <- <- <- _. now rewrite H.
Qed.
Lemma items_keys up clit n : forall pre post s o iv s', dj_items O cfg n up clit pre post s = (o, iv, s') -> map key iv = map key (pre ++ post).
Proof.
  induction n as [|n IH]; intros pre post s o iv s' E; cbn [dj_items] in E; [now injection E as _ <- _|].
  destruct post as [|x post]; [now injection E as _ <- _|].
  destruct (dj_insert O cfg up clit pre x post s) as [[o1 [[pre1 x1] post1]] s1] eqn:I. apply insert_keys in I as (A & B & C).
  assert (Q : map key (pre1 ++ x1 :: post1) = map key (pre ++ x :: post)) by (rewrite !map_app; cbn [map]; now rewrite A, B, C).
  destruct o1 as [[]| |]; try (injection E as _ <- _; exact Q). apply IH in E. rewrite E, <- app_assoc. exact Q.
Qed.
Lemma group_keys up rl : forall mn chg g g' c r, dj_group up mn chg g rl = (g', c, r) -> rev r ++ g' = rev rl ++ g.
Proof.
  induction rl as [|y rl IH]; intros mn chg g g' c r E; cbn [dj_group] in E; [now injection E as <- _ <-|].
  destruct (_ <=? _).
  - apply IH in E. rewrite E. cbn [rev]. now rewrite <- app_assoc.
  - now injection E as <- _ <-.
Qed.
Lemma groups_keys up clit force n : forall rl done s o iv s', dj_groups O cfg n up clit force rl done s = (o, iv, s') -> map key iv = map key (rev rl ++ done).
Proof.
  induction n as [|n IH]; intros rl done s o iv s' E; cbn [dj_groups] in E; [now injection E as _ <- _|].
  destruct rl as [|y r]; [now injection E as _ <- _|].
  destruct (dj_group up _ _ [y] r) as [[g chg] r1] eqn:G. apply group_keys in G. cbn [rev]. rewrite <- app_assoc. change ([y] ++ done) with ([y] ++ done).
  destruct chg.
  - destruct (dj_items O cfg (length g) up clit [] g s) as [[o1 g1] s1] eqn:I. apply items_keys in I. cbn [app] in I.
    assert (Q : map key (rev r1 ++ g1 ++ done) = map key (rev r ++ [y] ++ done)).
    { rewrite (app_assoc (rev r)), <- G, <- app_assoc, !map_app. now rewrite I. }
    destruct o1 as [[]| |]; try (injection E as _ <- _; exact Q). apply IH in E. now rewrite E.
  - apply IH in E. rewrite E, (app_assoc (rev r)), <- G, <- app_assoc. reflexivity.
Qed.
Lemma refresh_keys s iv : forall iv', dj_refresh s iv = Ok iv' -> map key iv' = map key iv.
Proof.
  induction iv as [|i t IH]; intros iv' E; cbn [dj_refresh] in E; [now injection E as <-|].
  apply bind_ok in E as (w & _ & E). apply bind_ok in E as (r & _ & E). apply bind_ok in E as (t1 & E1 & E). apply IH in E1. injection E as <-. cbn. now rewrite E1.
Qed.
End Keys.

(** ** Constraints *)

Definition ck (k k' : cst) : Prop := c_def k' = c_def k /\ Permutation (map key (c_iv k')) (map key (c_iv k)).
Definition cons (s s' : state) : Prop := forall c, match css s c, css s' c with Some k, Some k' => ck k k' | None, None => True | _, _ => False end.
Lemma ck_refl k : ck k k.
Proof. now split. Qed.
Lemma ck_trans k k1 k2 : ck k k1 -> ck k1 k2 -> ck k k2.
Proof. intros [A B] [C D]. split; [congruence|]. now apply Permutation_trans with (map key (c_iv k1)). Qed.
Lemma cons_css s s' : css s' = css s -> cons s s'.
Proof. intros E c. rewrite E. destruct (css s c); auto using ck_refl. Qed.
Lemma cons_refl s : cons s s.
Proof. now apply cons_css. Qed.
Lemma cons_trans s s1 s2 : cons s s1 -> cons s1 s2 -> cons s s2.
Proof. intros A B c. specialize (A c). specialize (B c). destruct (css s c), (css s1 c), (css s2 c); try easy. eauto using ck_trans. Qed.
Lemma cons_set c k k' s : css s c = Some k -> ck k k' -> cons s (set_cs c k' s).
Proof.
  intros K Q d. unfold set_cs. cbn [css set_css]. unfold upd. destruct (Nat.eqb_spec d c) as [->|]; [now rewrite K|]. destruct (css s d); auto using ck_refl.
Qed.
Lemma cons_fold {A} (f : state -> A -> state) l : (forall s a, cons s (f s a)) -> forall s, cons s (fold_left f l s).
Proof. intros H. induction l as [|a l IH]; intros s; [apply cons_refl|]. cbn. apply cons_trans with (f s a); auto. Qed.
Lemma cons_mark c s : cons s (mark_todo c s).
Proof.
  unfold mark_todo. destruct (css s c) as [k|] eqn:K; [|apply cons_refl]. destruct (negb _); [|apply cons_refl].
  assert (A : cons s (set_cs c (set_todo true k) s)) by (apply cons_set with k; auto; now split).
  cbv zeta. destruct (c_todo k); auto.
Qed.
Lemma cons_inactive c s : cons s (mark_inactive c s).
Proof.
  unfold mark_inactive. destruct (css s c) as [k|] eqn:K; [|apply cons_refl]. destruct (_ && _); [|apply cons_refl].
  change (cons s (set_cs c (set_inact (S (cur_level s)) k) s)). apply cons_set with k; auto. now split.
Qed.
Lemma cons_clear s c : cons s (clear_todo s c).
Proof. unfold clear_todo. destruct (css s c) as [k|] eqn:K; [|apply cons_refl]. apply cons_set with k; auto. now split. Qed.
Lemma cons_activate s c : cons s (activate s c).
Proof. unfold activate. destruct (css s c) as [k|] eqn:K; [|apply cons_refl]. apply cons_set with k; auto. now split. Qed.
Lemma ck_update i d k : ck k (snd (cs_update i d k)).
Proof.
  unfold cs_update, sum_update, dist_update. destruct (c_def k); try apply ck_refl; cbn; repeat (destruct (_ <? _); try (now split)); now split.
Qed.
Lemma ck_undo i d k : ck k (cs_undo i d k).
Proof.
  unfold cs_undo, sum_undo, dist_undo, disj_undo. destruct (c_def k); try apply ck_refl; cbn; repeat (destruct (_ <? _); try (now split)); now split.
Qed.
Lemma cons_watches n x d ws : forall s, cons s (snd (update_watches n x d ws s)).
Proof.
  induction ws as [|(i, c) r IH]; intros s; cbn [update_watches]; [apply cons_refl|]. destruct (css s c) as [k|] eqn:K.
  - destruct (removable_at n k); [apply (IH (set_remw _ s))|]. pose proof (ck_update i d k) as Q. destruct (cs_update i d k) as [b k1]. cbn [snd] in Q.
    set (s1 := if b then mark_todo c (set_cs c k1 s) else set_cs c k1 s). assert (A : cons s s1).
    { apply cons_trans with (set_cs c k1 s); [now apply cons_set with k|]. unfold s1. destruct b; [apply cons_mark|apply cons_refl]. }
    specialize (IH s1). cbv zeta. destruct (update_watches n x d r s1) as [w s2]. now apply cons_trans with s1.
  - specialize (IH s). now destruct (update_watches n x d r s).
Qed.
Lemma cons_integrate s : cons s (integrate s).
Proof.
  assert (A : forall s x d, cons s (update_constraints x d s)).
  { intros t x d. unfold update_constraints. pose proof (cons_watches (cur_level t) x d (wat t x) t) as Q. destruct (update_watches _ _ _ _ t) as [w t1]. exact Q. }
  unfold integrate. apply cons_trans with (fold_left integrate_upper (inu s) s).
  - apply cons_fold. intros t x. apply (A t x).
  - set (t := fold_left integrate_upper (inu s) s). change (cons (set_inu [] t) (fold_left integrate_lower (inl (set_inu [] t)) (set_inu [] t))).
    apply cons_fold. intros t1 x. apply (A t1 x).
Qed.
Lemma cons_undo_watch d s w : cons s (undo_watch d s w).
Proof. unfold undo_watch. destruct (css s (snd w)) as [k|] eqn:K; [|apply cons_refl]. apply cons_set with k; auto using ck_undo. Qed.
Lemma cons_each f xs : (forall x s s', f x s = Ok s' -> cons s s') -> forall s s', undo_each f xs s = Ok s' -> cons s s'.
Proof.
  intros H. induction xs as [|x r IH]; intros s s' E; cbn [undo_each] in E; [injection E as <-; apply cons_refl|].
  apply bind_ok in E as (s1 & E1 & E). apply cons_trans with s1; eauto.
Qed.
Lemma cons_lower x s s' : undo_lower1 x s = Ok s' -> cons s s'.
Proof.
  unfold undo_lower1. destruct (lbs (vst s x)) as [|(n, b) r]; [discriminate|]. intros E. injection E as <-. set (s1 := set_vs x _ s).
  change (cons s (if lb (vst s x) - b - ldiff s x =? 0 then s1 else fold_left (undo_watch (lb (vst s x) - b - ldiff s x)) (wat s x) s1)).
  destruct (_ =? 0); [now apply cons_css|]. apply cons_trans with s1; [now apply cons_css|]. apply cons_fold. intros. apply cons_undo_watch.
Qed.
Lemma cons_upper x s s' : undo_upper1 x s = Ok s' -> cons s s'.
Proof.
  unfold undo_upper1. destruct (ubs (vst s x)) as [|(n, b) r]; [discriminate|]. intros E. injection E as <-. set (s1 := set_vs x _ s).
  change (cons s (if ub (vst s x) - b - udiff s x =? 0 then s1 else fold_left (undo_watch (ub (vst s x) - b - udiff s x)) (wat s x) s1)).
  destruct (_ =? 0); [now apply cons_css|]. apply cons_trans with s1; [now apply cons_css|]. apply cons_fold. intros. apply cons_undo_watch.
Qed.
Lemma cons_undo s s' : solver_undo s = Ok s' -> cons s s'.
Proof.
  unfold solver_undo. destruct (lvls s) as [|l [|l1 r]]; try discriminate. intros E. apply bind_ok in E as (s1 & E & E1). injection E1 as <-.
  unfold level_undo in E. apply bind_ok in E as (s2 & E2 & E). apply bind_ok in E as (s3 & E3 & E). injection E as <-.
  apply cons_each in E2; [|exact cons_lower]. apply cons_each in E3; [|exact cons_upper].
  apply cons_trans with s2; auto. apply cons_trans with s3; [exact E3|]. set (t := set_inu [] _). set (t1 := fold_left activate _ t). set (t2 := fold_left readd_watch _ _).
  set (t3 := fold_left clear_todo _ _). change (cons t t3).
  apply cons_trans with t1; [apply cons_fold, cons_activate|]. apply cons_trans with t2; [|apply cons_trans with (set_remw (firstn (o_rem l) (remw t2)) t2); [now apply cons_css|apply cons_fold, cons_clear]].
  apply cons_trans with (set_ina (firstn (o_ina l) (ina t1)) t1); [now apply cons_css|]. apply cons_fold. intros u ((x, i), c). now apply cons_css.
Qed.

Section Calls.
Context (srt : (ival -> Z) -> list ival -> list ival) (SP : forall f l, Permutation (srt f l) l) (O : oracle) (cfg : config) (chk sol : bool).

Lemma cons_get x v s : cons s (snd (get_literal cfg x v s)).
Proof. apply cons_css. apply (only_get cfg x v s). Qed.
Lemma cons_upd x v t s : cons s (snd (update_literal O cfg x v t s)).
Proof. apply cons_css. apply (only_upd O cfg x v t s). Qed.
Lemma upper_css x l v n s : css (snd (update_upper O cfg x l v n s)) = css s.
Proof.
  unfold update_upper. destruct (_ <? _).
  - pose proof (proj1 (proj2 (only_get cfg x (lb (vst s x) - 1) s))) as A. destruct (get_literal _ _ _ _) as [g s1]. cbn [snd] in *. unfold add_clause, cc_propagate. now destruct (o_answer _ _).
  - set (s1 := if _ <? _ then level_update_upper x v s else s). assert (A : css s1 = css s).
    { unfold s1. destruct (_ <? _); auto. unfold level_update_upper. destruct (_ && _); destruct (_ =? _); reflexivity. }
    destruct (is_true O s1 n); auto. rewrite (proj1 (proj2 (only_propvars O cfg 1 (map snd (vwith_gt (vst s1 x) v)) l s1))). exact A.
Qed.
Lemma lower_css x l v n s : css (snd (update_lower O cfg x l v n s)) = css s.
Proof.
  unfold update_lower. destruct (_ <? _).
  - pose proof (proj1 (proj2 (only_get cfg x (ub (vst s x)) s))) as A. destruct (get_literal _ _ _ _) as [g s1]. cbn [snd] in *. unfold add_clause, cc_propagate. now destruct (o_answer _ _).
  - set (s1 := if _ <? _ then level_update_lower x v s else s). assert (A : css s1 = css s).
    { unfold s1. destruct (_ <? _); auto. unfold level_update_lower. destruct (_ && _); destruct (_ =? _); reflexivity. }
    destruct (is_true O s1 (- n)); auto. rewrite (proj1 (proj2 (only_propvars O cfg (- 1) (map snd (vwith_lt (vst s1 x) v)) l s1))). exact A.
Qed.
Lemma fact_css f s : css (snd (apply_fact O cfg f s)) = css s.
Proof.
  unfold apply_fact. match goal with |- context [if f_lit f =? TRUE_LIT then ?u else ?v] => set (p := if f_lit f =? TRUE_LIT then u else v) end. assert (A : css (snd p) = css s) by (unfold p; destruct (_ =? _); [apply upper_css|apply lower_css]).
  destruct p as [ok s1]. cbn [snd] in A. destruct ok; auto. cbn [snd].
  rewrite (proj1 (proj2 (only_erase (f_var f) (f_val f) (snd (update_litmap (f_var f) 0 (f_val f) s1))))), (proj1 (proj2 (only_litmap (f_var f) 0 (f_val f) s1))). exact A.
Qed.
Lemma facts_css fs : forall s, css (snd (apply_facts O cfg fs s)) = css s.
Proof.
  induction fs as [|f fs IH]; intros s; cbn [apply_facts]; [reflexivity|]. pose proof (fact_css f s) as A. destruct (apply_fact O cfg f s) as [[] s1]; auto. now rewrite IH.
Qed.
Lemma domain_css l s : css (snd (update_domain O cfg l s)) = css s.
Proof.
  unfold update_domain. match goal with |- context [if ?b then (TRUE_LIT, ?u) else (l, s)] => set (p := if b then (TRUE_LIT, u) else (l, s)) end. assert (A : css (snd p) = css s).
  { unfold p. destruct (_ && _); auto. cbn [snd]. now rewrite (proj1 (proj2 (only_fix (- l) (- TRUE_LIT) _))), (proj1 (proj2 (only_fix l TRUE_LIT s))). }
  destruct p as [l1 s1]. cbn [snd] in A. destruct (l1 =? TRUE_LIT); [now rewrite facts_css|].
  match goal with |- context [match valid_entry s1 l1 with Some e => @?u e | None => ?v end] => set (q := match valid_entry s1 l1 with Some e => u e | None => v end); cbv beta in q end. assert (B : css (snd q) = css s).
  { unfold q. destruct (valid_entry s1 l1); [now rewrite upper_css|exact A]. }
  destruct q as [ok s2]. cbn [snd] in B. destruct ok; auto. destruct (valid_entry s2 (- l1)); auto. now rewrite lower_css.
Qed.
Lemma cons_propagate_lits ls : forall s, cons s (snd (propagate_lits O cfg ls s)).
Proof.
  induction ls as [|l ls IH]; intros s; cbn [propagate_lits]; [apply cons_refl|]. assert (A : cons s (snd (propagate_lit O cfg l s))).
  { unfold propagate_lit. set (t := fold_left _ (l2c s) s). apply cons_trans with t; [|apply cons_css, domain_css].
    unfold t. apply (cons_fold (fun s (p : Z * cid) => if fst p =? l then mark_todo (snd p) s else s)). intros u p. destruct (_ =? _); [apply cons_mark|apply cons_refl]. }
  destruct (propagate_lit O cfg l s) as [ok s1]. cbn [snd] in A. destruct ok; auto. now apply cons_trans with s1.
Qed.
Lemma cons_propagate ls s : cons s (snd (solver_propagate O cfg ls s)).
Proof.
  unfold solver_propagate. apply cons_trans with (push_level (dlevel O s) s); [|apply cons_propagate_lits]. unfold push_level. destruct (_ <? _)%nat; now apply cons_css.
Qed.
Lemma cons_disjoint c s r s' : prop_disjoint srt O cfg c s = (r, s') -> cons s s'.
Proof.
  intros E. unfold prop_disjoint in E. destruct (css s c) as [k|] eqn:K; [|injection E as _ <-; apply cons_refl].
  destruct (c_def k) as [| | |l es|] eqn:D; try (injection E as _ <-; apply cons_refl).
  destruct (dj_refresh s (c_iv k)) as [iv| |] eqn:R; try (injection E as _ <-; apply cons_refl). apply refresh_keys in R.
  assert (RUN : forall up f iv s o iv' s', dj_run srt O cfg up l f iv s = (o, iv', s') -> Permutation (map key iv') (map key iv) /\ css s' = css s).
  { intros up f i1 u o i2 u' H. unfold dj_run in H. assert (H1 := H). apply groups_keys in H1. rewrite app_nil_r, rev_involutive in H1. split.
    - rewrite H1. apply Permutation_map, SP.
    - apply (dj_groups_comm O cfg (fun _ => True)) in H; [destruct H as [H _]; apply comm_frame in H; tauto|intros i _; exact Logic.I|intros i _; exact Logic.I]. }
  assert (F : forall iv1 s1, css s1 = css s -> Permutation (map key iv1) (map key iv) -> cons s (set_cs c (set_disj iv1 false k) s1)).
  { intros iv1 s1 C P. apply cons_trans with s1; [now apply cons_css|]. apply cons_set with k; [congruence|]. split; [reflexivity|]. cbn. now rewrite <- R. }
  destruct (dj_run srt O cfg false l (c_force k) iv s) as [[o1 iv1] s1] eqn:E1. apply RUN in E1 as [P1 C1].
  destruct o1 as [[]| |]; try (injection E as _ <-; now apply F).
  destruct (dj_run srt O cfg true l (c_force k) iv1 s1) as [[o2 iv2] s2] eqn:E2. apply RUN in E2 as [P2 C2]. injection E as _ <-. apply F; [congruence|].
  now apply Permutation_trans with (map key iv1).
Qed.
Lemma cons_comm V s s' : comm O cfg V s s' -> cons s s'.
Proof. intros C. apply comm_frame in C. apply cons_css, C. Qed.
Lemma cons_after V s s1 s' : cons s s1 -> comm O cfg V s1 s' -> cons s s'.
Proof. intros A C. apply cons_trans with s1; auto. now apply cons_comm with V. Qed.
Hint Constructors comm : core.
Ltac atom := first [ eapply comm_get1; [eassumption|solve [auto]] | eapply comm_upd1; [eassumption|solve [auto]] | eapply comm_clause1; eassumption ].
Lemma cons_sum c k s r s' : css s c = Some k -> prop_sum O cfg chk c s = (r, s') -> cons s s'.
Proof.
  intros K E. unfold prop_sum in E. rewrite K in E. set (V := fun _ : var => True).
  assert (R0 : cons s s) by apply cons_refl.
  destruct (sum_es (c_def k)) as [es|] eqn:Q; [|injection E as _ <-; exact R0].
  assert (HV : forall e, In e es -> V (snd e)) by easy.
  destruct (sum_rhs s (c_def k)) as [[rhs|]| |]; try (injection E as _ <-; exact R0).
  destruct (chk && _); [injection E as _ <-; exact R0|].
  destruct (c_hi k <=? rhs); [injection E as _ <-; apply cons_inactive|].
  destruct (rhs - c_lo k <? 0).
  - destruct (reasons O cfg None es (rhs - c_lo k) s) as [o s1] eqn:R. assert (A : comm O cfg V s s1) by now apply reasons_comm with (2 := R).
    destruct o as [ls|]; [|injection E as _ <-; now apply cons_comm with V].
    destruct (add_clause O _ _ (mark_inactive c s1)) as [b s2] eqn:C. injection E as _ <-.
    apply cons_trans with s1; [now apply cons_comm with V|]. apply cons_trans with (mark_inactive c s1); [apply cons_inactive|]. apply cons_comm with V. atom.
  - destruct (is_true O s _); [|injection E as _ <-; exact R0]. cbn [negb] in E.
    destruct (prop_elems O cfg _ _ es _ es s) as [b s1] eqn:P. injection E as _ <-. apply cons_comm with V. now apply prop_elems_comm with (3 := P).
Qed.
Lemma cons_distinct c k s r s' : css s c = Some k -> prop_distinct O cfg c s = (r, s') -> cons s s'.
Proof.
  intros K E. unfold prop_distinct in E. rewrite K in E. set (V := fun _ : var => True).
  assert (R0 : cons s s) by apply cons_refl.
  destruct (c_def k) as [| |clit es| |] eqn:Q; try (injection E as _ <-; exact R0).
  assert (HV : dvars es V) by easy.
  set (asg := dist_refresh s es (c_dirty k) (c_asg k)) in *. set (k0 := set_dist asg [] (c_tup k) (c_tlo k) k) in *.
  set (s0 := set_cs c k0 s) in *.
  assert (F0 : cons s s0).
  { apply cons_set with k; [exact K|now split]. }
  assert (K0 : css s0 c = Some k0) by (unfold s0, set_cs; cbn; unfold upd; now rewrite Nat.eqb_refl).
  destruct (dist_items O cfg clit (-1) fst es asg (c_tlo k) (c_tup k) (c_tlo k) s0) as [o1 s1] eqn:D1.
  assert (C1 : comm O cfg V s0 s1) by now apply dist_items_comm with (2 := D1).
  unfold andthen in E at 1. destruct o1 as [[]| |]; try (injection E as _ <-; now apply cons_after with V s0).
  destruct (dist_items O cfg clit 1 snd es asg (c_tlo k) (c_tup k) (c_tup k) s1) as [o2 s2] eqn:D2.
  assert (C2 : comm O cfg V s0 s2) by (apply comm_trans with s1; [exact C1|now apply dist_items_comm with (2 := D2)]).
  unfold andthen in E at 1. destruct o2 as [[]| |]; try (injection E as _ <-; now apply cons_after with V s0).
  injection E as _ <-. apply cons_trans with s2; [now apply cons_after with V s0|]. apply cons_set with k0; [|now split].
  destruct (comm_frame O cfg V s0 s2 C2) as (_ & B & _). now rewrite B.
Qed.
Lemma cons_nonlin c k s r s' : css s c = Some k -> prop_nonlin O cfg c s = (r, s') -> cons s s'.
Proof.
  intros K E. unfold prop_nonlin in E. rewrite K in E. set (V := fun _ : var => True).
  assert (R0 : cons s s) by apply cons_refl.
  assert (HV : forall x, V x) by easy.
  destruct (c_def k) as [| | | |clit coa x y cob z rhs] eqn:Q; try (injection E as _ <-; exact R0).
  destruct (nonlin_step _ _ _ _ _ _) as [[| |w|w|]| |]; try (injection E as _ <-; exact R0).
  - injection E as _ <-. apply cons_inactive.
  - destruct (factor_reason cfg x y s) as [ls s1] eqn:F. assert (A : comm O cfg V s s1) by now apply factor_reason_comm with (3 := F).
    destruct z as [z|].
    + destruct (if cob <? 0 then _ else _) as [q s2] eqn:G.
      assert (B : comm O cfg V s1 s2).
      { destruct (cob <? 0); [|atom]. destruct (get_literal cfg z _ s1) as [u s3] eqn:G1. injection G as _ <-. atom. }
      destruct (add_clause O Learnt _ s2) as [b s3] eqn:C. injection E as _ <-. apply cons_comm with V.
      apply comm_trans with s1; [exact A|apply comm_trans with s2; [exact B|atom]].
    + destruct (add_clause O Learnt _ s1) as [b s3] eqn:C. injection E as _ <-. apply cons_comm with V. apply comm_trans with s1; [exact A|atom].
  - destruct z as [z|]; [|injection E as _ <-; exact R0].
    destruct (factor_reason cfg x y s) as [ls s1] eqn:F. assert (A : comm O cfg V s s1) by now apply factor_reason_comm with (3 := F).
    destruct (get_literal cfg z w s1) as [q s2] eqn:G. destruct (add_clause O Learnt _ s2) as [b s3] eqn:C. injection E as _ <-. apply cons_comm with V.
    apply comm_trans with s1; [exact A|apply comm_trans with s2; atom].
  - destruct z as [z|]; [|injection E as _ <-; exact R0].
    destruct (factor_reason cfg x y s) as [ls s1] eqn:F. assert (A : comm O cfg V s s1) by now apply factor_reason_comm with (3 := F).
    destruct (get_literal cfg z w s1) as [q s2] eqn:G. destruct (add_clause O Learnt _ s2) as [b s3] eqn:C. injection E as _ <-. apply cons_comm with V.
    apply comm_trans with s1; [exact A|apply comm_trans with s2; atom].
Qed.
Lemma cons_con c s r s' : prop_con srt O cfg chk c s = (r, s') -> cons s s'.
Proof.
  intros E. unfold prop_con in E. destruct (css s c) as [k|] eqn:K; [|injection E as _ <-; apply cons_refl].
  destruct (c_def k); [now apply (cons_sum c k) in E..|now apply (cons_distinct c k) in E|now apply cons_disjoint in E|now apply (cons_nonlin c k) in E].
Qed.
Lemma cons_run_todo cs : forall ret s o s', run_todo srt O cfg chk cs ret s = (o, s') -> cons s s'.
Proof.
  induction cs as [|c cs IH]; intros ret s o s' E; cbn [run_todo] in E; [injection E as _ <-; apply cons_refl|].
  apply cons_trans with (clear_todo s c); [apply cons_clear|]. set (s1 := clear_todo s c) in *. destruct (negb ret); [now apply IH in E|].
  destruct (css s1 c) as [k|]; [|injection E as _ <-; apply cons_refl]. destruct (is_false _ _ _).
  - apply IH in E. apply cons_trans with (mark_inactive c s1); [apply cons_inactive|exact E].
  - destruct (prop_con srt O cfg chk c s1) as [o1 s2] eqn:P. apply cons_con in P. apply cons_trans with s2; [exact P|]. destruct o1; [now apply IH in E|injection E as _ <-; apply cons_refl..].
Qed.
Lemma cons_check_loop n : forall s o s', check_loop srt O cfg chk n s = Some (o, s') -> cons s s'.
Proof.
  induction n as [|n IH]; intros s o s' E; cbn [check_loop] in E; [discriminate|].
  assert (A : cons s (snd (if is_nil (fmap s) then (true, s) else update_domain O cfg TRUE_LIT s))).
  { destruct (is_nil _); [apply cons_refl|]. apply cons_css, domain_css. }
  destruct (if is_nil (fmap s) then _ else _) as [ok s1]. cbn [snd] in A. apply cons_trans with (1 := A). destruct ok; cbn [negb] in E; [|injection E as _ <-; apply cons_refl].
  apply cons_trans with (1 := cons_integrate s1). destruct (run_todo _ _ _ _ _ _ _) as [o1 s3] eqn:R. apply cons_run_todo in R. apply cons_trans with (1 := R).
  destruct o1 as [b|e|]; try (injection E as _ <-; apply cons_refl). destruct (negb b || _); [injection E as _ <-; now apply cons_css|].
  apply IH in E. apply cons_trans with (2 := E). now apply cons_css.
Qed.
Lemma cons_check n s o s' : solver_check srt O cfg chk n s = Some (o, s') -> cons s s'.
Proof. unfold solver_check. destruct (_ && _); [intros E; injection E as _ <-; apply cons_refl|]. apply cons_check_loop. Qed.
Lemma split_css x s : css (snd (split cfg x s)) = css s.
Proof. apply (split_only cfg x s). Qed.
Lemma split_first_css xs : forall s, css (snd (split_first cfg xs s)) = css s.
Proof.
  induction xs as [|x xs IH]; intros s; cbn [split_first]; [reflexivity|]. pose proof (split_css x s) as A. destruct (split cfg x s) as [[] s1]; cbn [snd] in *; [exact A|now rewrite IH].
Qed.
Lemma check_full_css s : css (snd (solver_check_full O cfg sol s)) = css s.
Proof.
  unfold solver_check_full. match goal with |- context [if split_all cfg then ?u else ?v] => set (p := if split_all cfg then u else v) end. assert (A : css (snd p) = css s).
  { unfold p. destruct (split_all cfg); [apply (split_every_only cfg)|apply split_first_css]. }
  destruct p as [b s1]. cbn [snd] in A. destruct b; [exact A|]. now destruct sol.
Qed.
Lemma cons_minimize c m b l s s' : check_minimize c m b l s = Ok s' -> cons s s'.
Proof.
  unfold check_minimize. destruct (_ =? _); [intros E; injection E as <-; apply cons_refl|]. intros E. apply bind_ok in E as (b1 & _ & E). injection E as <-.
  unfold update_minimize. destruct (match mbound s with None => true | Some b0 => b1 <? b0 end); [|destruct (_ <? _)%nat; [|apply cons_refl]].
  - apply cons_trans with (set_mlevel l (set_mbound (Some b1) s)); [now apply cons_css|apply cons_mark].
  - apply cons_trans with (set_mlevel l s); [now apply cons_css|apply cons_mark].
Qed.
Lemma cons_prop_check n m b s o s' : prop_check srt O cfg chk sol n m b s = Some (o, s') -> cons s s'.
Proof.
  intros E. unfold prop_check in E. set (q := match m with Some (c, m) => check_minimize c m b (dlevel O s) s | None => Ok s end) in E.
  destruct q as [s1|e|] eqn:Q; try (injection E as _ <-; apply cons_refl). assert (A : cons s s1).
  { destruct m as [[c m]|]; unfold q in Q; [now apply cons_minimize in Q|injection Q as <-; apply cons_refl]. }
  apply cons_trans with (1 := A). destruct (solver_check srt O cfg chk n s1) as [[o2 s2]|] eqn:C; [|discriminate]. apply cons_check in C. apply cons_trans with (1 := C).
  destruct o2 as [[]| |]; try (injection E as _ <-; apply cons_refl). destruct (_ && _).
  - injection E as E. apply cons_css. pose proof (check_full_css s2) as X. now rewrite E in X.
  - injection E as _ <-. apply cons_refl.
Qed.
Lemma cons_simplify n : forall s o s', solver_simplify srt O cfg chk n s = Some (o, s') -> cons s s'.
Proof.
  induction n as [|n IH]; intros s o s' E; cbn [solver_simplify] in E; [discriminate|].
  unfold cc_propagate in E. set (s1 := emit EProp s) in *. apply cons_trans with s1; [now apply cons_css|].
  destruct (negb _); [injection E as _ <-; apply cons_refl|]. destruct (_ && _); [injection E as _ <-; apply cons_refl|].
  pose proof (cons_propagate (skipn (toff s1) (o_trail O (log s1))) s1) as A. destruct (solver_propagate O cfg _ s1) as [ok s2]. cbn [snd] in A.
  apply cons_trans with (1 := A). destruct (negb ok); [injection E as _ <-; apply cons_refl|]. set (s3 := set_toff _ s2) in *. apply cons_trans with s3; [now apply cons_css|].
  destruct (solver_check srt O cfg chk _ s3) as [[o4 s4]|] eqn:C; [|discriminate]. apply cons_check in C. apply cons_trans with (1 := C).
  destruct o4 as [[]| |]; try (injection E as _ <-; apply cons_refl). now apply IH in E.
Qed.
Lemma cons_bounds n other s o s' : update_bounds srt O cfg chk n other s = Some (o, s') -> cons s s'.
Proof.
  unfold update_bounds. pose proof (take_bounds_only O cfg other (seq 0 (nvars other)) s) as (_ & A & _). destruct (take_bounds _ _ _ _ s) as [ok s1]. cbn [snd] in A.
  intros E. apply cons_trans with s1; [now apply cons_css|]. destruct ok; [now apply cons_check in E|injection E as _ <-; apply cons_refl].
Qed.
End Calls.

(** ** All states of solvers *)

(** The intervals of a disjoint constraint are those of its elements. *)
Definition ivs (s : state) : Prop := forall c k l es, css s c = Some k -> c_def k = CDisjoint l es -> Permutation (map key (c_iv k)) es.
Lemma ivs_cons s s' : cons s s' -> ivs s -> ivs s'.
Proof.
  intros C H c k l es K D. specialize (C c). rewrite K in C. destruct (css s c) as [k0|] eqn:K0; [|easy]. destruct C as [C1 C2].
  apply Permutation_trans with (1 := C2). apply (H c k0 l es K0). congruence.
Qed.
Lemma init_keys es : map key (disj_init es) = es.
Proof. unfold disj_init. rewrite map_map. unfold key. cbn. rewrite <- (map_id es) at 2. apply map_ext. now intros (w, x). Qed.
Section Reach.
Context (srt : (ival -> Z) -> list ival -> list ival) (SP : forall f l, Permutation (srt f l) l) (chk sol : bool).
Lemma ivs_callback O cfg s s' : callback srt O cfg chk sol s s' -> ivs s -> ivs s'.
Proof.
  intros C H. destruct C as [n s|ls s ST|fuel m bound s s' E|s s' E|s s' L E|mn mx s L ST M|c d s L ST V|c s s' L P E|rm s L|s L|s L|fuel b s s' L ST E|fuel other b s s' L E].
  - exact H.
  - apply ivs_cons with (2 := H), cons_propagate.
  - apply ivs_cons with (2 := H). now apply (cons_prop_check srt SP) in E.
  - apply ivs_cons with (2 := H). now apply cons_undo in E.
  - apply ivs_cons with (2 := H), cons_css, E.
  - exact H.
  - unfold add_constraint. destruct (css s c) as [k|] eqn:K; [exact H|]. apply (ivs_cons _ _ (cons_mark c _)). intros c1 k l es K1 D.
    assert (X : forall W u, css (fold_left (add_var_watch c) W u) = css u).
    { induction W as [|w W IH]; intros u; cbn [fold_left]; [reflexivity|]. now rewrite IH. }
    rewrite X in K1. unfold set_cs in K1. cbn [css set_l2c set_css] in K1. unfold upd in K1. destruct (Nat.eqb c1 c); [|now apply (H c1 k l es)].
    injection K1 as <-. destruct d; cbn [cs_init c_def] in D; try discriminate. injection D as -> ->. cbn [cs_init c_iv]. now rewrite init_keys.
  - unfold remove_constraint in E. destruct (css s c) as [k|] eqn:K; [|discriminate]. injection E as <-. intros c1 k1 l es K1 D. cbn [css set_css] in K1. unfold upd in K1.
    destruct (Nat.eqb c1 c); [discriminate|]. apply (H c1 k1 l es); auto.
    assert (X : forall W u, css (fold_left (remove_var_watch c) W u) = css u).
    { induction W as [|w W IH]; intros u; cbn [fold_left]; [reflexivity|]. now rewrite IH. }
    rewrite <- K1. destruct (marked_inactive k), (c_todo k); cbn [css set_tod set_ina set_l2c]; now rewrite X.
  - unfold remove_constraints. set (t := set_wat _ s). set (t1 := fold_left activate (ina t) t). set (t2 := fold_left clear_todo _ _).
    assert (A : cons s t2).
    { apply cons_trans with t1; [apply (cons_fold activate (ina t) cons_activate t)|]. unfold t2. apply (cons_fold clear_todo _ cons_clear (set_ina _ t1)). }
    intros c1 k1 l es K1 D. cbn [css set_css] in K1. destruct (removed rm c1); [discriminate|]. exact (ivs_cons _ _ A H c1 k1 l es K1 D).
  - exact H.
  - intros c k l es K D. apply (H c k l es); auto. rewrite <- K. unfold solver_update.
    assert (X : forall W u, css (fold_left (fun s k => remove_entry k s) W u) = css u).
    { induction W as [|w W IH]; intros u; cbn [fold_left]; [reflexivity|]. rewrite IH. unfold remove_entry. destruct (lmap u w) as [e|]; auto. destruct (_ <? _); auto. cbn [css set_lmap].
      now rewrite (proj1 (proj2 (only_litmap (e_var e) 0 (e_val e) (erase_lit (e_var e) (e_val e) u)))), (proj1 (proj2 (only_erase (e_var e) (e_val e) u))). }
    now rewrite X.
  - apply ivs_cons with (2 := H). now apply (cons_simplify srt SP) in E.
  - apply ivs_cons with (2 := H). now apply (cons_bounds srt SP) in E.
Qed.
Lemma reachable_ivs O cfg s : reachable srt chk sol O cfg s -> ivs s.
Proof.
  induction 1 as [O cfg|O cfg s s' _ IH C|O cfg O' cfg' m s s' RM IHm R IH E].
  - intros c k l es K. discriminate.
  - now apply (ivs_callback O cfg s).
  - rewrite (copy_equal srt chk sol O cfg O' cfg' m s s' RM R E). exact IHm.
Qed.
End Reach.
