(** Distinct constraints on the top level: what they keep is current or going to be updated. *)
From Verif Require Import Base Util VarState VarStateProofs Terms TermsSpec Solver OrderSpec OrderProofs1 OrderProofs2 OrderProofs3 OrderProofs4 OrderProofs5 OrderProofs7 Orders Sum SumProofs2 PropProofs ConSpec
  Distinct DistinctProofs DistinctProofs2 Disjoint DisjointProofs Objective Search SearchSpec SearchFrame SearchInv SearchInv3 SearchInv4 SearchInv5 SearchUndo SearchMain
  CheckSpec CheckFrame CheckGrow CheckSays CheckProofs FreshInv FreshCalls FreshSearch KeepCons KeepSpec KeepProofs KeepLoop KeepSearch KeepMain TranslationSpec.
From Coq Require Import Permutation Sorting.Sorted.
Open Scope Z_scope.

Definition outer (s : state) (a : Z * Z) (e : delem) : Prop := fst a <= fst (dist_init s e) /\ snd (dist_init s e) <= snd a.
Definition tight (s s' : state) : Prop := forall x, lb (vst s x) <= lb (vst s' x) /\ ub (vst s' x) <= ub (vst s x).
Lemma sum_lo_tight s s' es : tight s s' -> sum_lo s es <= sum_lo s' es /\ sum_hi s' es <= sum_hi s es.
Proof.
  intros T. unfold sum_lo, sum_hi. induction es as [|[co x] es IH]; cbn [map zsum fold_right]; [lia|].
  assert (A : lo_of s (co, x) <= lo_of s' (co, x) /\ hi_of s' (co, x) <= hi_of s (co, x)).
  { clear IH. destruct (T x). unfold lo_of, hi_of. cbn [fst snd]. destruct (0 <? co) eqn:Q; nia. }
  unfold zsum in *. cbn [fold_right]. lia.
Qed.
Lemma outer_tight s s' a e : tight s s' -> outer s a e -> outer s' a e.
Proof. intros T [A B]. destruct (sum_lo_tight s s' (snd e) T). unfold outer, dist_init in *. cbn [fst snd] in *. lia. Qed.

Section Dist.
Context (srt : (ival -> Z) -> list ival -> list ival) (SP : forall f l, Permutation (srt f l) l) (SS : forall f l, StronglySorted Z.le (map f (srt f l))).
Context (O : oracle) (cfg : config) (chk sol : bool) (Base : interp -> Prop) (n0 : Z).
Context (BO : base_ok Base n0) (CO : clasp_ok O Base) (U : units_pos O) (CA : calm O).

(** The constraint [x] is the one being propagated. *)
Definition dok (s : state) (k : cst) (l : lit) (es : list delem) : Prop :=
  Forall2 (outer s) (c_asg k) es /\ (c_inact k <> 0%nat -> is_false O s l = true).
Definition dd (x : option cid) (s : state) : Prop := forall c k l es, css s c = Some k -> c_def k = CDistinct l es ->
  dok s k l es /\ (x = Some c \/ c_dirty k = [] \/ c_todo k = true \/ is_false O s l = true).

(** Queued constraints may have changed. *)
Definition queued (k k' : cst) : Prop :=
  c_def k' = c_def k /\ c_asg k' = c_asg k /\ c_inact k' = c_inact k /\ (c_todo k' = true \/ c_inact k <> 0%nat \/ (c_dirty k' = c_dirty k /\ c_todo k' = c_todo k)).
Definition queues (s s' : state) : Prop := forall c, match css s' c with Some k' => exists k, css s c = Some k /\ (match c_def k with CDistinct _ _ => queued k k' | _ => c_def k' = c_def k end) | None => True end.
Lemma queued_refl k : queued k k.
Proof. repeat split; auto. Qed.
Lemma queues_css s s' : css s' = css s -> queues s s'.
Proof. intros E c. rewrite E. destruct (css s c) as [k|]; auto. exists k. split; auto. destruct (c_def k); auto using queued_refl. Qed.
Lemma queues_trans s s1 s2 : queues s s1 -> queues s1 s2 -> queues s s2.
Proof.
  intros A B c. specialize (A c). specialize (B c). destruct (css s2 c) as [k2|]; auto. destruct B as (k1 & K1 & B). rewrite K1 in A. destruct A as (k & K & A). exists k. split; auto.
  assert (DE : c_def k1 = c_def k) by (destruct (c_def k) eqn:D; auto; destruct A; congruence). rewrite DE in B. destruct (c_def k) eqn:D; try congruence.
  destruct A as (A1 & A2 & A3 & A4), B as (B1 & B2 & B3 & B4). repeat split; try congruence. rewrite A3 in B4. destruct B4 as [B4|[B4|[B4 B5]]]; auto. destruct A4 as [A4|[A4|[A4 A5]]]; auto.
  - left. congruence.
  - right. right. split; congruence.
Qed.
Lemma queues_fold {A} (f : state -> A -> state) l : (forall s a, queues s (f s a)) -> forall s, queues s (fold_left f l s).
Proof. intros H. induction l as [|a l IH]; intros s; cbn [fold_left]; [now apply queues_css|]. apply queues_trans with (f s a); auto. Qed.
Lemma queues_set s c k k' : css s c = Some k -> queued k k' -> queues s (set_cs c k' s).
Proof.
  intros K Q d. destruct (Nat.eq_dec d c) as [->|N].
  - rewrite set_cs_same. exists k. split; auto. destruct Q as [Q0 Q]. destruct (c_def k) eqn:D; auto. rewrite <- D in Q0. now split.
  - rewrite set_cs_other by auto. destruct (css s d) as [kd|]; auto. exists kd. split; auto. destruct (c_def kd); auto using queued_refl.
Qed.
Lemma queues_mark c s : queues s (mark_todo c s).
Proof.
  unfold mark_todo. destruct (css s c) as [k|] eqn:K; [|now apply queues_css]. destruct (negb _); [|now apply queues_css]. cbv zeta.
  assert (A : queues s (set_cs c (set_todo true k) s)) by (apply queues_set with k; auto; repeat split; auto).
  destruct (c_todo k); exact A.
Qed.
Lemma queues_watches n x d ws : forall s, queues s (snd (update_watches n x d ws s)).
Proof.
  induction ws as [|[i c] ws IH]; intros s; cbn [update_watches]; [now apply queues_css|]. destruct (css s c) as [k|] eqn:K.
  - destruct (removable_at n k).
    + apply queues_trans with (2 := IH _). now apply queues_css.
    + destruct (cs_update i d k) as [b k1] eqn:Q. set (s1 := if b then mark_todo c (set_cs c k1 s) else set_cs c k1 s).
      assert (A : queues s s1).
      { unfold cs_update in Q. destruct (c_def k) as [l r es|a es|l es|l es|l ca x1 y cb z rhs] eqn:D.
        3:{ unfold dist_update in Q. injection Q as <- <-. set (k1 := if 0 <? i then _ else _) in *. assert (E : c_def k1 = c_def k /\ c_asg k1 = c_asg k /\ c_inact k1 = c_inact k) by (unfold k1; destruct (0 <? i); auto).
            clearbody k1. destruct E as (E1 & E2 & E3). unfold s1, mark_todo. rewrite set_cs_same. intros e. destruct (Nat.eq_dec e c) as [->|N].
            - destruct (negb (marked_inactive k1)) eqn:MI; cbv zeta.
              + assert (X : forall u, css u c = Some (set_todo true k1) -> match css u c with Some k' => exists k, css s c = Some k /\ (match c_def k with CDistinct _ _ => queued k k' | _ => c_def k' = c_def k end) | None => True end).
                { intros u ->. exists k. split; auto. rewrite D. repeat split; auto. }
                destruct (c_todo k1); apply X; cbn; unfold upd; now rewrite Nat.eqb_refl.
              + rewrite set_cs_same. exists k. split; auto. rewrite D. repeat split; auto. right. left. unfold marked_inactive in MI. rewrite <- E3. destruct (Nat.ltb_spec 0 (c_inact k1)); [lia|discriminate].
            - assert (X : forall u, css u e = css s e -> match css u e with Some k' => exists k, css s e = Some k /\ (match c_def k with CDistinct _ _ => queued k k' | _ => c_def k' = c_def k end) | None => True end).
              { intros u ->. destruct (css s e) as [ke|]; auto. exists ke. split; auto. destruct (c_def ke); auto using queued_refl. }
              apply Nat.eqb_neq in N. destruct (negb _); cbv zeta; [destruct (c_todo k1)|]; apply X; cbn; unfold upd; now rewrite N. }
        all: assert (E : c_def k1 = c_def k) by (unfold sum_update in Q; repeat (match type of Q with context [if ?q then _ else _] => destruct q end); injection Q as _ <-; reflexivity).
        all: assert (A : queues s (set_cs c k1 s)) by (intros e; destruct (Nat.eq_dec e c) as [->|N]; [rewrite set_cs_same; exists k; split; auto; rewrite D; congruence|
          rewrite set_cs_other by auto; destruct (css s e) as [ke|]; auto; exists ke; split; auto; destruct (c_def ke); auto using queued_refl]).
        all: unfold s1; destruct b; auto; apply queues_trans with (1 := A), queues_mark. }
      specialize (IH s1). destruct (update_watches n x d ws s1) as [w t]. cbn [snd] in *. now apply queues_trans with s1.
  - specialize (IH s). destruct (update_watches n x d ws s) as [w t]. exact IH.
Qed.
Lemma queues_integrate s : queues s (integrate s).
Proof.
  assert (A : forall x d s, queues s (update_constraints x d s)).
  { intros x d t. unfold update_constraints. pose proof (queues_watches (cur_level t) x d (wat t x) t) as H. destruct (update_watches _ _ _ _ _) as [w t1]. cbn [snd] in H. apply queues_trans with t1; auto. now apply queues_css. }
  unfold integrate. cbv zeta. set (u := fold_left integrate_upper (inu s) s). assert (B : queues s u).
  { apply queues_fold. intros t x. unfold integrate_upper. cbv zeta. apply queues_trans with (1 := A x (udiff t x) t). now apply queues_css. }
  apply queues_trans with (1 := B). apply queues_trans with (set_inu [] u); [now apply queues_css|].
  assert (C : forall t xs, queues t (fold_left integrate_lower xs t)).
  { intros t xs. apply queues_fold. intros t1 x. unfold integrate_lower. cbv zeta. apply queues_trans with (1 := A x (ldiff t1 x) t1). now apply queues_css. }
  apply queues_trans with (1 := C (set_inu [] u) (inl (set_inu [] u))). now apply queues_css.
Qed.
Lemma queues_lits ls : forall s, queues s (snd (propagate_lits O cfg ls s)).
Proof.
  induction ls as [|l ls IH]; intros s; cbn [propagate_lits]; [now apply queues_css|]. unfold propagate_lit. set (s1 := fold_left _ (l2c s) s).
  assert (A : queues s s1). { unfold s1. apply queues_fold. intros t p. destruct (_ =? _); [apply queues_mark|now apply queues_css]. }
  pose proof (domain_css O cfg l s1) as B. destruct (update_domain O cfg l s1) as [ok s2]. cbn [snd] in B. assert (C : queues s s2) by (apply queues_trans with (1 := A); now apply queues_css).
  destruct ok; auto. now apply queues_trans with s2.
Qed.

Lemma false_later s s' l : later O (log s) (log s') -> is_false O s l = true -> is_false O s' l = true.
Proof. intros L. unfold is_false. now apply (later_is_true O Base CO s). Qed.
Lemma dok_later s s' k k' l es : tight s s' -> later O (log s) (log s') -> c_asg k' = c_asg k -> c_inact k' = c_inact k -> dok s k l es -> dok s' k' l es.
Proof.
  intros T L A I [F Q]. split.
  - rewrite A. clear - F T. induction F as [|a e x y H F IH]; constructor; auto. now apply outer_tight with s.
  - rewrite I. intros N. now apply false_later with s; auto.
Qed.
Lemma dd_queues x s s' : tight s s' -> later O (log s) (log s') -> queues s s' -> dd x s -> dd x s'.
Proof.
  intros T L Q D c k' l es K' E. specialize (Q c). rewrite K' in Q. destruct Q as (k & K & Q).
  assert (E0 : c_def k = CDistinct l es) by (destruct (c_def k) eqn:D0; try congruence; destruct Q as [Q _]; congruence). rewrite E0 in Q. destruct Q as (Q1 & Q2 & Q3 & Q4).
  destruct (D c k l es K E0) as [A B]. split; [now apply (dok_later s s' k k')|]. destruct B as [B|[B|[B|B]]]; auto.
  - destruct Q4 as [Q4|[Q4|[Q4 Q5]]]; auto. + right. right. right. apply false_later with s; auto. now apply A. + right. left. congruence.
  - destruct Q4 as [Q4|[Q4|[Q4 Q5]]]; auto. + right. right. right. apply false_later with s; auto. now apply A. + right. right. left. congruence.
  - right. right. right. now apply false_later with s.
Qed.
Lemma tight_refl s : tight s s.
Proof. intros x. lia. Qed.
Lemma tight_same3 s s' : same3 s s' -> tight s s'.
Proof. intros F x. destruct (same3_bnds _ _ x F) as (-> & -> & _). lia. Qed.
Lemma dd_weak x s : dd None s -> dd x s.
Proof. intros D c k l es K E. destruct (D c k l es K E) as [A [B|B]]; [discriminate|auto]. Qed.
Lemma dd_clear c s : dd None s -> dd (Some c) (clear_todo s c).
Proof.
  intros D d k l es K E. unfold clear_todo in *. destruct (css s c) as [kc|] eqn:KC; [|exact (dd_weak (Some c) s D d k l es K E)].
  destruct (Nat.eq_dec d c) as [->|N].
  - rewrite set_cs_same in K. injection K as <-. destruct (D c kc l es KC E) as [A _]. split; auto.
  - rewrite set_cs_other in K by auto. destruct (D d k l es K E) as [A [B|B]]; [discriminate|]. split; auto.
Qed.
Lemma dd_inactive c k s : css s c = Some k -> is_false O s (c_lit (c_def k)) = true -> dd (Some c) s -> dd None (mark_inactive c s).
Proof.
  intros K F D d kd l es KD E. unfold mark_inactive in *. rewrite K in *. destruct (c_removable (c_def k) && negb (marked_inactive k)).
  - cbn [css set_ina] in KD. destruct (Nat.eq_dec d c) as [->|N].
    + rewrite set_cs_same in KD. injection KD as <-. change (c_def (set_inact (S (cur_level s)) k)) with (c_def k) in E. destruct (D c k l es K E) as [[A _] _]. rewrite E in F. repeat split; auto.
    + rewrite set_cs_other in KD by auto. destruct (D d kd l es KD E) as [A [B|B]]; [congruence|]. split; auto.
  - destruct (D d kd l es KD E) as [A [B|B]]; [|split; auto]. injection B as <-. replace kd with k in * by congruence. rewrite E in F. split; auto.
Qed.
Lemma dd_prop c k s b s' : css s c = Some k -> later O (log s) (log s') -> prop_con srt O cfg chk c s = (Ok b, s') -> dd (Some c) s -> dd None s'.
Proof.
  intros K L P D. assert (F := prop_con_frame O cfg srt chk c k s (Ok b) s' K P). destruct F as [F1 _ _ F4 (k' & K' & KP & X)].
  assert (T := tight_same3 _ _ F1). intros d kd l es KD E. destruct (Nat.eq_dec d c) as [->|N].
  - replace kd with k' in * by congruence. assert (E0 : c_def k = CDistinct l es) by (rewrite <- (proj1 KP); auto).
    unfold prop_con in P. rewrite K, E0 in P. destruct (prop_distinct_data O cfg c k l es s (Ok b) s' K E0 P) as (tup & tlo & Q & INC).
    destruct (D c k l es K E0) as [[A B] _]. rewrite K' in Q. injection Q as ->. split; [|right; left; reflexivity]. split.
    + cbn [c_asg set_dist]. unfold dist_refresh. clear - A T. generalize 0%nat as m. induction A as [|a e asg es H A IH]; intros m; cbn [length seq combine map]; [constructor|]. constructor; auto.
      destruct (memb m (c_dirty k)); [|now apply outer_tight with s]. apply outer_tight with s; auto. unfold outer. lia.
    + cbn [c_inact set_dist]. intros N. apply false_later with s; auto.
  - rewrite (F4 d N) in KD. destruct (D d kd l es KD E) as [A [B|[B|[B|B]]]]; [congruence|..]; (split; [now apply (dok_later s s' kd kd)|]); auto.
    right. right. right. now apply false_later with s.
Qed.

Context (guard : bool) (SO : guard = true -> steady O).
Context (s0 : state) (PD : forall c k, css s0 c = Some k -> posted s0 (c_def k)) (DV : forall c k, css s0 c = Some k -> Forall (fun x => x < nvars s0)%nat (cvars (c_def k))).
Notation inner := (inner O n0 guard s0).

Lemma dd_run G cs : forall s s', inner G s -> settled s -> tod_run cs s -> dd None s -> run_todo srt O cfg chk cs true s = (Ok true, s') -> dd None s'.
Proof.
  induction cs as [|c cs IH]; intros s s' I ST T DD E; cbn [run_todo negb] in E.
  - injection E as <-. exact DD.
  - destruct (clear_todo_tod c cs s T) as (T1 & k & K & KT & KR).
    assert (S1 := clear_todo_same3 c s). assert (F1 := fixed6_clear c s).
    assert (P1 : pstep O Base T2 s (clear_todo s c) true) by (apply (pstep_fixed O Base); auto; apply I).
    assert (I1 : inner G (clear_todo s c)).
    { apply (inner_pstep O Base n0 CO guard SO s0 G s _ _ I P1); [apply clear_todo_core, I|apply dinv_clear_todo, I|apply cons_clear]. }
    assert (ST1 := settled_same3 _ _ S1 ST). rewrite <- (same3_cur _ _ S1) in KR. assert (D1 := dd_clear c s DD).
    set (s1 := clear_todo s c) in *. rewrite K in E. clear I P1 T S1 F1 ST DD. clearbody s1. clear s. rename s1 into s. rename I1 into I.
    destruct (is_false O s (c_lit (c_def k))) eqn:NF.
    + assert (F := mark_inactive_own O cfg c k s K). assert (F1 := cf_same _ _ _ _ _ _ F).
      assert (P1 : pstep O Base T2 s (mark_inactive c s) true).
      { apply (pstep_fixed O Base); auto; [|apply I]. unfold mark_inactive. rewrite K. destruct (_ && _); now repeat split. }
      apply IH with (mark_inactive c s); auto.
      * apply (inner_pstep O Base n0 CO guard SO s0 G s _ _ I P1); [now apply (cframe_core O cfg G c k s); [apply I| |]|now apply dinv_mark_inactive with k; [|apply I]|apply cons_inactive].
      * now apply settled_same3 with s.
      * now apply (cframe_tod O cfg cs c k s).
      * now apply dd_inactive with k.
    + destruct (prop_con srt O cfg chk c s) as [o1 s2] eqn:P. assert (F := prop_con_frame O cfg srt chk c k s o1 s2 K P).
      assert (F1 := cf_same _ _ _ _ _ _ F).
      assert (C2 : core G s2) by (apply (cframe_core O cfg G c k s); auto; apply I).
      assert (ST2 : settled s2) by now apply settled_same3 with s.
      assert (T2' : tod_run cs s2) by now apply (cframe_tod O cfg cs c k s).
      destruct o1 as [[|]|e|]; try discriminate.
      2:{ assert (X : forall cs s o s', run_todo srt O cfg chk cs false s = (o, s') -> o = Ok false).
          { clear. induction cs as [|c cs IH]; intros s o s' E; cbn [run_todo negb] in E; [now injection E as <- <-|]. now apply IH in E. }
          apply X in E. discriminate. }
      destruct (cons_def _ _ _ _ (in_cons _ _ _ _ _ _ I) K) as (k0 & K0 & DK).
      assert (PS : pstep O Base (demand guard (mbound s) (c_def k)) s s2 true).
      { destruct I. apply (con_keep srt SP SS O cfg chk Base n0 BO CO U guard SO G c k s true s2); auto. apply posted_mono with s0; auto. rewrite DK. now apply PD with c. }
      assert (CN := cons_con srt SP O cfg chk c s (Ok true) s2 P).
      assert (D2 : dinv G s2) by (apply (dinv_prop_con srt O cfg chk G c k s (Ok true)); auto; apply I).
      apply IH with s2; auto.
      * now apply (inner_pstep O Base n0 CO guard SO s0 G s s2 _ I PS).
      * apply (dd_prop c k s true); auto. now apply (ps_later _ _ _ _ _ _ PS).
Qed.
Lemma dd_facts G s s1 : sinv G s -> inner G s -> fc O s -> dd None s -> (if is_nil (fmap s) then (true, s) else update_domain O cfg TRUE_LIT s) = (true, s1) -> dd None s1.
Proof.
  intros S I F D E. destruct (is_nil (fmap s)) eqn:N; [now injection E as <-|].
  pose proof (update_domain_tg O cfg TRUE_LIT s true s1 E) as (T & _). pose proof (domain_css O cfg TRUE_LIT s) as Q. rewrite E in Q. apply dd_queues with s; auto.
  - intros x. pose proof (tg_tight _ _ _ T x). lia.
  - unfold update_domain in E. cbn [negb Z.eqb TRUE_LIT Pos.eqb andb] in E. now apply facts_later in E.
  - now apply queues_css.
Qed.
Lemma dd_loop G n : forall s s', sinv G s -> inner G s -> fc O s -> dd None s -> check_loop srt O cfg chk n s = Some (Ok true, s') -> dd None s'.
Proof.
  induction n as [|n IH]; intros s s' S I F DD E; cbn [check_loop] in E; [discriminate|].
  destruct (if is_nil (fmap s) then _ else _) as [ok s1] eqn:E1. destruct (facts_keep O cfg Base n0 BO CO CA guard SO s0 G s ok s1 S I F E1) as (A1 & A2 & A3 & A4 & A5 & A6 & A7).
  destruct ok; cbn [negb] in E; [|discriminate]. specialize (A7 eq_refl). assert (DD1 := dd_facts G s s1 S I F DD E1).
  destruct (integrate_sinv G s1 A5) as [B1 B2]. assert (F2 := fixed6_integrate s1).
  assert (I2 : inner G (integrate s1)).
  { apply (inner_fixed6 O n0 guard s0 G s1); auto; [apply B1|apply dinv_integrate; auto; apply A7|apply cons_integrate]. }
  assert (FC2 : fc O (integrate s1)) by (apply (fc_tg O CA) with s1; auto using tg_fixed6).
  assert (DD2 : dd None (integrate s1)).
  { apply dd_queues with s1; auto using queues_integrate; destruct F2 as (V & _ & _ & LG & _); [|rewrite LG; apply later_refl]. intros x. rewrite V. lia. }
  set (s2 := integrate s1) in *. destruct (run_todo srt O cfg chk (tod s2) true s2) as [o s3] eqn:R. destruct o as [ret|e|]; [|discriminate..].
  destruct ret; cbn [negb orb] in E; [|discriminate].
  assert (DD3 := dd_run G (tod s2) s2 s3 I2 B2 (tod_ok_run _ _ (proj2 B1)) DD2 R).
  assert (DD4 : dd None (set_tod [] s3)) by exact DD3.
  destruct (is_nil (fmap (set_tod [] s3))) eqn:Q; [injection E as <-; exact DD4|].
  destruct (run_todo_inv srt O cfg chk G _ _ _ _ _ (in_core _ _ _ _ _ _ I2) B2 (tod_ok_run _ _ (proj2 B1)) R) as (C1 & C2 & C3 & C4).
  assert (P := run_keep srt SP SS O cfg chk Base n0 BO CO U guard SO s0 PD DV G (tod s2) true s2 true s3 I2 B2 (tod_ok_run _ _ (proj2 B1)) R).
  assert (I3 : inner G s3).
  { apply (inner_pstep O Base n0 CO guard SO s0 G s2 s3 _ I2 P); auto; [apply (dinv_run_todo srt O cfg chk G _ _ _ _ _ (in_core _ _ _ _ _ _ I2) B2 (tod_ok_run _ _ (proj2 B1)) (in_dinv _ _ _ _ _ _ I2) R)|].
    apply (cons_run_todo srt SP O cfg chk _ _ _ _ _ R). }
  assert (F4 : fixed6 s3 (set_tod [] s3)) by now repeat split.
  assert (S4 : sinv G (set_tod [] s3)) by (apply set_tod_sinv; auto; apply tod_run_nil; now apply (C4 true)).
  assert (I4 : inner G (set_tod [] s3)). { apply (inner_fixed6 O n0 guard s0 G s3); auto; [apply S4| |now apply cons_css]. apply dinv_fields with s3; auto. apply I3. }
  assert (FC4 : fc O (set_tod [] s3)). { apply (fc_tg O CA) with s2; auto. apply tg_trans with s3; [now apply tg_todo in R|now apply tg_fixed6]. }
  apply (IH _ s' S4 I4 FC4 DD4 E).
Qed.
End Dist.
