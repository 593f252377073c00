(** Translation of distinct constraints. *)
From Verif Require Import Base Util IntervalSet IntervalSetProofs VarState VarStateProofs Terms TermsSpec Solver OrderSpec
  OrderProofs1 OrderProofs2 OrderProofs3 OrderProofs6 OrderProofs7 OrderProofs8 Sum PropProofs SumProofs SumProofs2 ConSpec Translate TranslateProofs Distinct DistinctProofs.
Open Scope Z_scope.
Notation lit := Z (only parsing).
Notation iwf := IntervalSetProofs.wf.
Notation wf := OrderSpec.wf.

(** ** Domains of elements *)

(** [d] is the distance of a value of the terms from their smallest value. *)
Fixpoint shifts (s : state) (ts : list (Z * var)) (d : Z) : Prop :=
  match ts with
  | [] => d = 0
  | (co, x) :: r => exists k, 0 <= k <= ub (vst s x) - lb (vst s x) /\ shifts s r (d - Z.abs co * k)
  end.
Lemma fold_add_ok d cur : forall m, iwf m ->
  iwf (fold_left (fun m p => add m (fst p + d) (snd p + d)) cur m) /\
  forall z, mem (fold_left (fun m p => add m (fst p + d) (snd p + d)) cur m) z <-> mem m z \/ mem cur (z - d).
Proof.
  induction cur as [|[a b] r IH]; intros m W; cbn [fold_left fst snd].
  - split; [easy|]. intros z. pose proof (mem_nil (z - d)). tauto.
  - destruct (IH (add m (a + d) (b + d)) (add_wf _ _ _ W)) as (A & B). split; [easy|]. intros z. rewrite B, (add_mem _ _ _ _ W), mem_cons.
    intuition lia.
Qed.
Lemma dist_shifts_ok cur co n : forall d m, iwf m ->
  iwf (dist_shifts cur co n d m) /\
  forall z, mem (dist_shifts cur co n d m) z <-> mem m z \/ exists k, 0 <= k < Z.of_nat n /\ mem cur (z - (d + co * k)).
Proof.
  induction n as [|n IH]; intros d m W; cbn [dist_shifts].
  - split; [easy|]. intros z. split; [tauto|]. intros [H|(k & K & _)]; [easy|lia].
  - destruct (fold_add_ok d cur m W) as (A & B). destruct (IH (d + co) _ A) as (C & D). split; [easy|]. intros z. rewrite D, B. split.
    + intros [[H|H]|(k & K & H)]; [tauto| |].
      * right. exists 0. split; [lia|]. now replace (z - (d + co * 0)) with (z - d) by lia.
      * right. exists (k + 1). split; [lia|]. now replace (z - (d + co * (k + 1))) with (z - (d + co + co * k)) by lia.
    + intros [H|(k & K & H)]; [tauto|]. destruct (Z.eq_dec k 0) as [->|N].
      * left. right. now replace (z - d) with (z - (d + co * 0)) by lia.
      * right. exists (k - 1). split; [lia|]. now replace (z - (d + co + co * (k - 1))) with (z - (d + co * k)) by lia.
Qed.
Lemma dist_domain_ok s ts : Forall (fun e => lb (vst s (snd e)) <= ub (vst s (snd e))) ts -> forall m, iwf m ->
  iwf (dist_domain s ts m) /\ forall z, mem (dist_domain s ts m) z <-> exists d, shifts s ts d /\ mem m (z - d).
Proof.
  induction 1 as [|[co x] r H F IH]; intros m W; cbn [dist_domain shifts].
  - split; [easy|]. intros z. split; [intros H; exists 0; now rewrite Z.sub_0_r|]. intros (d & -> & H). now rewrite Z.sub_0_r in H.
  - cbn [snd] in H. set (n := Z.to_nat (ub (vst s x) - lb (vst s x))).
    destruct (dist_shifts_ok m (Z.abs co) n (Z.abs co) m W) as (A & B). destruct (IH _ A) as (C & D). split; [easy|]. intros z. rewrite D. split.
    + intros (d & S & M). apply B in M as [M|(k & K & M)].
      * exists d. split; [|easy]. exists 0. split; [lia|]. now replace (d - Z.abs co * 0) with d by lia.
      * exists (d + Z.abs co * (k + 1)). split.
        -- exists (k + 1). split; [lia|]. now replace (d + Z.abs co * (k + 1) - Z.abs co * (k + 1)) with d by lia.
        -- now replace (z - (d + Z.abs co * (k + 1))) with (z - d - (Z.abs co + Z.abs co * k)) by lia.
    + intros (d & (k & K & S) & M). exists (d - Z.abs co * k). split; [easy|]. apply B. destruct (Z.eq_dec k 0) as [->|N].
      * left. now replace (z - (d - Z.abs co * 0)) with (z - d) by lia.
      * right. exists (k - 1). split; [lia|]. now replace (z - (d - Z.abs co * k) - (Z.abs co + Z.abs co * (k - 1))) with (z - d) by lia.
Qed.
Definition edomain (s : state) (e : delem) : iset := dist_domain s (snd e) (add [] (fst (dist_init s e)) (fst (dist_init s e) + 1)).
Lemma edomain_ok s e : Forall (fun e => lb (vst s (snd e)) <= ub (vst s (snd e))) (snd e) ->
  iwf (edomain s e) /\ forall z, mem (edomain s e) z <-> shifts s (snd e) (z - fst (dist_init s e)).
Proof.
  intros F. assert (W0 : iwf (add [] (fst (dist_init s e)) (fst (dist_init s e) + 1))) by now apply add_wf.
  destruct (dist_domain_ok s (snd e) F _ W0) as (A & B). split; [easy|]. intros z. unfold edomain. rewrite B. split.
  - intros (d & S & M). rewrite add_mem in M by easy. destruct M as [M|M]; [|now apply mem_nil in M]. now replace (z - fst (dist_init s e)) with d by lia.
  - intros S. exists (z - fst (dist_init s e)). split; [easy|]. apply add_mem; [easy|]. lia.
Qed.
Lemma shifts_range s ts d : Forall (fun e => lb (vst s (snd e)) <= ub (vst s (snd e))) ts -> shifts s ts d -> 0 <= d <= sum_hi s ts - sum_lo s ts.
Proof.
  unfold sum_hi, sum_lo. intros F. revert d. induction F as [|[co x] r H F IH]; intros d; cbn [shifts map zsum fold_right]; [intros ->; lia|].
  intros (k & K & S). apply IH in S. fold (zsum (map (hi_of s) r)) (zsum (map (lo_of s) r)). unfold hi_of at 1, lo_of at 1. cbn [fst snd] in *.
  destruct (0 <? co) eqn:E; nia.
Qed.
Lemma shifts_value s ts nu : Forall (fun e => lb (vst s (snd e)) <= nu (snd e) <= ub (vst s (snd e))) ts -> shifts s ts (lval nu ts - sum_lo s ts).
Proof.
  induction 1 as [|[co x] r H F IH]; cbn [shifts lval]; [easy|]. cbn [snd] in H.
  exists (if 0 <? co then nu x - lb (vst s x) else ub (vst s x) - nu x). split; [destruct (0 <? co); lia|].
  unfold sum_lo. cbn [map zsum fold_right]. fold (zsum (map (lo_of s) r)). fold (sum_lo s r). unfold lo_of. cbn [fst snd].
  match goal with |- shifts s r ?d => replace d with (lval nu r - sum_lo s r); [exact IH|] end.
  destruct (0 <? co) eqn:E; [rewrite Z.abs_eq by lia|rewrite Z.abs_neq by lia]; lia.
Qed.
Lemma shifts_one s co x d fx : shifts s [(co, x)] d -> exists w, lb (vst s x) <= w <= ub (vst s x) /\ fx + sum_lo s [(co, x)] + d = fx + co * w.
Proof.
  intros (k & K & S). cbn in S. unfold sum_lo. cbn [map zsum fold_right]. unfold lo_of. cbn [fst snd]. destruct (0 <? co) eqn:E.
  - exists (lb (vst s x) + k). split; [lia|]. rewrite Z.abs_eq in S by lia. lia.
  - exists (ub (vst s x) - k). split; [lia|]. rewrite Z.abs_neq in S by lia. lia.
Qed.

(** ** Counting values *)
Fixpoint csorted (m : list (Z * nat)) : Prop :=
  match m with
  | [] => True
  | (v, _) :: r => Forall (fun p => v < fst p) r /\ csorted r
  end.
Lemma bump_in v m : forall p, In p (bump v m) -> fst p = v \/ In p m.
Proof.
  induction m as [|[w n] r IH]; intros p; cbn; [intros [<-|[]]; now left|].
  destruct (v <? w); [intros [<-|H]; [now left|now right]|]. destruct (w =? v) eqn:E.
  - intros [<-|H]; [left; cbn; lia|right; now right].
  - intros [<-|H]; [right; now left|]. destruct (IH p H) as [Q|Q]; [now left|right; now right].
Qed.
Lemma bump_sorted v m : csorted m -> csorted (bump v m).
Proof.
  induction m as [|[w n] r IH]; cbn; [intros _; split; [constructor|easy]|]. intros (A & B). destruct (v <? w) eqn:E1.
  - split; [|now split]. constructor; [cbn; lia|]. eapply Forall_impl; [|exact A]. cbn beta. intros p Hp. lia.
  - destruct (w =? v) eqn:E2; [now split|]. split; [|now apply IH]. rewrite Forall_forall in *. intros p Hp. apply bump_in in Hp as [->|Hp]; [lia|now apply A].
Qed.
Lemma count_gt m v : Forall (fun p => v < fst p) m -> count_of m v = 0%nat.
Proof.
  intros F. unfold count_of. destruct (find _ m) as [[w n]|] eqn:E; [|easy]. apply find_some in E as (A & B). rewrite Forall_forall in F. apply F in A. cbn in *. lia.
Qed.
Lemma count_cons w n m v : count_of ((w, n) :: m) v = if w =? v then n else count_of m v.
Proof. unfold count_of. cbn. now destruct (w =? v). Qed.
Lemma bump_count v m w : csorted m -> count_of (bump v m) w = if v =? w then S (count_of m v) else count_of m w.
Proof.
  induction m as [|[u n] r IH]; intros S; cbn [bump].
  - rewrite count_cons. destruct (v =? w); [easy|]. easy.
  - destruct S as (A & B). destruct (v <? u) eqn:E1.
    + rewrite (count_cons v 1). destruct (v =? w) eqn:E; [|easy]. rewrite count_cons. replace (u =? v) with false by lia.
      rewrite count_gt; [easy|]. eapply Forall_impl; [|exact A]. cbn beta. intros p Hp. lia.
    + destruct (u =? v) eqn:E2.
      * rewrite !count_cons, E2. replace (v =? w) with (u =? w) by lia. now destruct (u =? w).
      * rewrite !count_cons, E2, IH by easy. destruct (u =? w) eqn:E3; [|easy]. replace (v =? w) with false by lia. easy.
Qed.
Lemma fold_bump vs : forall m, csorted m -> csorted (fold_left (fun m v => bump v m) vs m) /\
  forall w, count_of (fold_left (fun m v => bump v m) vs m) w = (count_of m w + count_occ Z.eq_dec vs w)%nat.
Proof.
  induction vs as [|v vs IH]; intros m S; cbn [fold_left count_occ]; [split; [easy|intros; lia]|].
  destruct (IH (bump v m) (bump_sorted v m S)) as (A & B). split; [easy|]. intros w. rewrite B, (bump_count v m w S).
  destruct (v =? w) eqn:E, (Z.eq_dec v w); try lia. subst. lia.
Qed.
(** The number of domains containing a value. *)
Definition in_doms (doms : list iset) (v : Z) : nat := length (filter (fun d => contains d v) doms).
Lemma values_count d v : iwf d -> count_occ Z.eq_dec (values d) v = if contains d v then 1%nat else 0%nat.
Proof.
  intros W. assert (S := values_sorted d None W). assert (N : NoDup (values d)).
  { clear W. induction S as [|a l S IH F]; constructor; auto. intros H. rewrite Forall_forall in F. apply F in H. lia. }
  pose proof (contains_spec d v W) as C. rewrite <- values_in in C. destruct (contains d v).
  - apply NoDup_count_occ'; tauto.
  - apply count_occ_not_In. intros H. apply C in H. discriminate.
Qed.
Lemma dist_counts_ok doms : Forall iwf doms -> csorted (dist_counts doms) /\ forall v, count_of (dist_counts doms) v = in_doms doms v.
Proof.
  intros F. unfold dist_counts.
  assert (G : forall m, csorted m -> csorted (fold_left (fun m d => fold_left (fun m v => bump v m) (values d) m) doms m) /\
    forall v, count_of (fold_left (fun m d => fold_left (fun m v => bump v m) (values d) m) doms m) v = (count_of m v + in_doms doms v)%nat).
  { induction F as [|d r W F IH]; intros m S; cbn [fold_left]; [split; [easy|intros; unfold in_doms; cbn; lia]|].
    destruct (fold_bump (values d) m S) as (A & B). destruct (IH _ A) as (C & D). split; [easy|]. intros v. rewrite D, B, (values_count d v W).
    unfold in_doms. cbn [filter]. destruct (contains d v); cbn [length]; lia. }
  destruct (G [] ltac:(exact I)) as (A & B). split; [easy|]. intros v. now rewrite B.
Qed.
Lemma count_in m v n : csorted m -> In (v, n) m -> count_of m v = n.
Proof.
  induction m as [|[w k] r IH]; [easy|]. intros (A & B) [H|H]; rewrite count_cons.
  - injection H as <- <-. now rewrite Z.eqb_refl.
  - rewrite Forall_forall in A. pose proof (A _ H) as X. cbn in X. replace (w =? v) with false by lia. now apply IH.
Qed.
Lemma count_pos m v : (0 < count_of m v)%nat -> In (v, count_of m v) m.
Proof.
  intros H. unfold count_of in *. destruct (find _ m) as [[w n]|] eqn:E; [|cbn in H; lia]. apply find_some in E as (A & B). cbn in B. now replace v with w by lia.
Qed.

Lemma Forall2_impl {A B} (R S : A -> B -> Prop) l m : (forall a b, R a b -> S a b) -> Forall2 R l m -> Forall2 S l m.
Proof. intros H. induction 1; constructor; auto. Qed.
Lemma add_clause_in O Base t c s b s' : add_clause O t c s = (b, s') -> forall I, good Base s' I -> clause_true I c.
Proof. intros E I (_ & _ & G). injection E as _ <-. now inversion G. Qed.
Section DistinctTranslate.
Context (O : oracle) (cfg : config) (Base : interp -> Prop) (n0 : Z).
Context (BO : base_ok Base n0) (CO : clasp_ok O Base).
Notation good := (good Base).
Notation step := (step Base).
Notation holds := (holds Base).
Notation pstep := (pstep O Base).
Notation top_ready := (top_ready O n0).

(** ** A literal defined by clauses *)
Lemma fresh_value s (g : interp -> bool) I nu : wf s -> n0 <= nxt s -> (forall I J, agree_below (nxt s) I J -> g I = g J) -> good s I -> order_ok s I nu ->
  exists J, agree_below (nxt s) I J /\ good (snd (add_literal s)) J /\ order_ok (snd (add_literal s)) J nu /\ J (nxt s) = g J.
Proof.
  intros W Hn Hg (A1 & B & C) HO. pose proof (wf_nxt s (proj1 W)) as Nx. set (J := fun i => if i =? nxt s then g I else I i).
  assert (AJ : agree_below (nxt s) I J). { intros i Hi. unfold J. destruct (i =? nxt s) eqn:E; [lia|easy]. }
  exists J. split; [easy|]. split; [|split].
  - split; [|split].
    + apply (BO I J); [|easy]. now apply agree_mono with (nxt s).
    + rewrite <- B. symmetry. apply AJ. lia.
    + cbn. constructor; [easy|]. rewrite Forall_forall in *. intros e He. apply ev_true_agree with (nxt s) I; auto.
      pose proof (wf_log s (proj1 W)) as WL. rewrite Forall_forall in WL. now apply WL.
  - intros y Hy. cbn [add_literal snd vst emit set_log set_nxt nvars] in Hy |- *. destruct (HO y Hy) as [B1 B2]. split; [easy|].
    intros w z Hz. rewrite <- (lit_true_agree (nxt s) I J z AJ); [now apply B2|]. now apply (wf_lits s (proj1 W)) in Hz.
  - rewrite <- (Hg I J AJ). unfold J. now rewrite Z.eqb_refl.
Qed.
Lemma pstep_fresh P s (g : interp -> bool) s' b : wf s -> n0 <= nxt s -> (forall I J, agree_below (nxt s) I J -> g I = g J) ->
  pstep (fun I _ => I (nxt s) = g I) (snd (add_literal s)) s' b -> pstep P s s' b.
Proof.
  intros W Hn Hg [A1 A2 A3 A4 A5]. destruct (add_literal_ok Base n0 s W Hn) as (W1 & [S1 S2 S3 S4 S5]). destruct A2 as [T1 T2' T3 T4 T5].
  constructor; auto.
  - constructor.
    + lia.
    + lia.
    + destruct S3 as (e1 & E1), T3 as (e2 & E2). exists (e2 ++ e1). now rewrite E2, E1, app_assoc.
    + intros I nu G Od _. destruct (fresh_value s g I nu W Hn Hg G Od) as (J & J1 & J2 & J3 & J4).
      destruct (T4 J nu J2 J3 J4) as (K & mu & K1 & K2 & K3 & K4). exists K, mu. split.
      { intros i Hi. rewrite (J1 i Hi). apply K1. lia. }
      split; [exact K2|]. now split.
    + intros I nu G Od. destruct (T5 I nu G Od) as (B1 & B2 & _). destruct (S5 I nu B1 B2) as (B3 & B4 & _). now split; [|split].
  - intros Hb. apply later_trans with (log (snd (add_literal s))); auto. cbn. apply later_step; [constructor|exact I].
Qed.

(** ** The literal for an element having a value *)
Definition litb (I : interp) (l : lit) : bool := if 0 <? l then I l else negb (I (- l)).
Lemma litb_true I l : litb I l = true <-> lit_true I l.
Proof. unfold litb, lit_true. destruct (0 <? l); [easy|]. destruct (I (- l)); cbn; split; congruence. Qed.
Lemma litb_agree n I J l : agree_below n I J -> below n l -> litb I l = litb J l.
Proof. intros A B. pose proof (lit_true_agree n I J l A B) as H. rewrite <- !litb_true in H. destruct (litb I l), (litb J l); try easy; [symmetry|]; now apply H. Qed.

Lemma dist_lit_ok (P : interp -> (var -> Z) -> Prop) v f c x s ok l s' : dep (nxt s) (nvars s) P -> top_ready s -> fmap s = [] -> (x < nvars s)%nat -> c <> 0 ->
  dist_lit O cfg v (f, c, Some x) s = ((ok, l), s') ->
  pstep P s s' ok /\ fmap s' = fmap s /\ (ok = true -> below (nxt s') l /\ (Z.divide c (v - f) -> holds s' (fun I nu => lit_true I l <-> f + c * nu x = v))).
Proof.
  intros D R F0 Hx Hc E. unfold dist_lit in E. set (w := Z.quot (v - f) c) in *.
  destruct (get_literal cfg x w s) as [a s1] eqn:E1. destruct (pstep_get O cfg Base n0 BO P x w s a s1 (tr_wf _ _ _ R) Hx (tr_nxt _ _ _ R) E1) as (R1 & M1 & S1).
  pose proof (top_pstep O Base n0 CO _ _ _ R1 R) as R1'. pose proof (nvars_pstep _ _ _ _ _ _ _ R1 Hx) as Hx1.
  destruct (get_literal cfg x (w - 1) s1) as [b s2] eqn:E2. destruct (pstep_get O cfg Base n0 BO P x (w - 1) s1 b s2 (tr_wf _ _ _ R1') Hx1 (tr_nxt _ _ _ R1') E2) as (R2 & M2 & S2).
  pose proof (top_pstep O Base n0 CO _ _ _ R2 R1') as R2'. pose proof (nvars_pstep _ _ _ _ _ _ _ R2 Hx1) as Hx2.
  assert (R12 : pstep P s s2 true) by (apply pstep_trans with s1; auto).
  assert (F2 : fmap s2 = fmap s) by (rewrite (same_fmap _ _ S2); apply (same_fmap _ _ S1)).
  pose proof (means_holds Base s1 a x w Hx1 M1) as Ha1. pose proof (holds_pstep _ _ _ _ _ _ _ R2 Ha1) as Ha. clear Ha1.
  pose proof (means_holds Base s2 b x (w - 1) Hx2 M2) as Hb.
  assert (Ba : below (nxt s2) a) by (apply below_pstep with (1 := R2); apply lit_means_below with x w; [apply R1'|easy|easy]).
  assert (Bb : below (nxt s2) b) by (apply lit_means_below with x (w - 1); [apply R2'|easy|easy]).
  assert (V : forall nu : var -> Z, Z.divide c (v - f) -> f + c * nu x = v <-> nu x = w).
  { intros nu (w' & Hw). assert (w = w') as -> by (unfold w; now rewrite Hw, Z.quot_mul). nia. }
  destruct (a =? TRUE_LIT) eqn:Ca.
  { injection E as <- <- <-. split; [easy|]. split; [easy|]. intros _. split; [destruct Bb; split; lia|]. intros Dv I nu G Od.
    pose proof (Hb I nu G Od) as H1. pose proof (Ha I nu G Od) as H2. apply Z.eqb_eq in Ca. subst a. cbv beta in H1, H2.
    assert (T : lit_true I TRUE_LIT) by apply G. rewrite lit_true_neg by apply Bb. rewrite V, H1 by easy. apply H2 in T. lia. }
  replace (- b =? - TRUE_LIT) with false in E.
  2: { symmetry. apply Z.eqb_neq. intros Q. assert (b = TRUE_LIT) by lia. clear Q. subst b. destruct M2 as [(Q & _)|[(_ & Q)|Q]].
    - discriminate Q.
    - unfold get_literal in E1. destruct (w <? minb (vst s x)) eqn:X1.
      + pose proof (tr_bnds _ _ _ R x Hx). destruct (same3_bnds _ _ x (ps_same _ _ _ _ _ _ R12)) as (_ & _ & _ & X2). rewrite X2 in Q.
        destruct (wf_top s (proj1 (tr_wf _ _ _ R)) (tr_level _ _ _ R) x Hx) as (Y1 & Y2). unfold minb, maxb in *. rewrite Y1, Y2 in *. cbn in *. lia.
      + destruct (same3_bnds _ _ x (ps_same _ _ _ _ _ _ R12)) as (_ & _ & _ & X2). rewrite X2 in Q.
        replace (maxb (vst s x) <=? w) with true in E1 by lia. injection E1 as <- <-. discriminate Ca.
    - apply (wff_all _ _ (proj2 (tr_wf _ _ _ R2'))) in Q as (q & Q & _); [|easy|easy]. rewrite F2, F0 in Q. destruct Q. }
  destruct (add_literal s2) as [l0 s3] eqn:E3. assert (s3 = snd (add_literal s2)) as E3' by now rewrite E3.
  assert (l0 = nxt s2) as -> by (now injection E3 as <- _). assert (N3 : nxt s3 = nxt s2 + 1) by now rewrite E3'.
  assert (W3 : wf s3). { rewrite E3'. apply (add_literal_ok Base n0); apply R2'. }
  pose proof (wf_nxt s2 (proj1 (tr_wf _ _ _ R2'))) as Nx.
  set (g := fun I : interp => litb I a && litb I (- b)).
  assert (Hg : forall I J, agree_below (nxt s2) I J -> g I = g J).
  { intros I J A. unfold g. f_equal; apply litb_agree with (nxt s2); auto. destruct Bb; split; lia. }
  set (P' := fun (I : interp) (_ : var -> Z) => I (nxt s2) = g I).
  assert (D' : dep (nxt s3) (nvars s3) P').
  { intros I J nu nu' A _. unfold P'. rewrite <- (A (nxt s2)) by lia. intros ->. apply Hg. apply agree_mono with (nxt s3); [lia|easy]. }
  assert (L0 : forall I, lit_true I (nxt s2) <-> I (nxt s2) = true). { intros I. unfold lit_true. now replace (0 <? nxt s2) with true by lia. }
  assert (L1 : forall I, lit_true I (- nxt s2) <-> I (nxt s2) = false). { intros I. unfold lit_true. replace (0 <? - nxt s2) with false by lia. now rewrite Z.opp_involutive. }
  assert (GT : forall I, g I = true <-> lit_true I a /\ lit_true I (- b)). { intros I. unfold g. now rewrite andb_true_iff, !litb_true. }
  assert (La : forall I, lit_true I (- a) <-> ~ lit_true I a) by (intros; apply lit_true_neg, Ba).
  assert (Lb : forall I, lit_true I (- - b) <-> ~ lit_true I (- b)) by (intros; apply lit_true_neg; destruct Bb; lia).
  assert (IMP : forall I nu, P' I nu -> clause_true I [- a; - - b; nxt s2] /\ clause_true I [a; - nxt s2] /\ clause_true I [- b; - nxt s2]).
  { intros I nu Hp. unfold P' in Hp. destruct (g I) eqn:Eg.
    - destruct (proj1 (GT I) Eg) as (T1 & T2'). split; [|split]; [exists (nxt s2); split; [right; right; now left|now apply L0]|exists a; split; [now left|easy]|exists (- b); split; [now left|easy]].
    - split; [|split; exists (- nxt s2); (split; [right; now left|now apply L1])].
      unfold g in Eg. apply andb_false_iff in Eg as [Eg|Eg].
      + exists (- a). split; [now left|]. apply La. rewrite <- litb_true. congruence.
      + exists (- - b). split; [right; now left|]. apply Lb. rewrite <- litb_true. congruence. }
  assert (Fc : forall s9 : state, nxt s9 = nxt s3 -> Forall (below (nxt s9)) [- a; - - b; nxt s2] /\ Forall (below (nxt s9)) [a; - nxt s2] /\ Forall (below (nxt s9)) [- b; - nxt s2]).
  { intros s9 ->. rewrite N3. destruct Ba as (Ba0 & Ba1), Bb as (Bb0 & Bb1). split; [|split]; repeat (apply Forall_cons; [split; lia|]); constructor. }
  assert (FIN : forall s9 okk, pstep P' s3 s9 okk -> pstep P s s9 okk).
  { intros s9 okk H. apply pstep_trans with s2; auto. apply pstep_fresh with g; [apply R2'|apply R2'|exact Hg|]. rewrite <- E3'. exact H. }
  assert (F3 : fmap s3 = fmap s) by (rewrite E3'; exact F2).
  destruct (add_clause O Learnt [- a; - - b; nxt s2] s3) as [ok1 s4] eqn:A1.
  destruct (pstep_clause O Base P' _ _ s3 ok1 s4 W3 (proj1 (Fc s3 eq_refl)) ltac:(intros I nu _ _ Hp; apply (IMP I nu Hp)) A1) as (Q1 & SM1 & N4).
  assert (F4 : fmap s4 = fmap s) by now rewrite (same_fmap _ _ SM1).
  destruct ok1; [|injection E as <- <- <-; split; [now apply FIN|split; easy]].
  destruct (add_clause O Learnt [a; - nxt s2] s4) as [ok2 s5] eqn:A2.
  destruct (pstep_clause O Base P' _ _ s4 ok2 s5 (ps_wf _ _ _ _ _ _ Q1) (proj1 (proj2 (Fc s4 N4))) ltac:(intros I nu _ _ Hp; apply (IMP I nu Hp)) A2) as (Q2 & SM2 & N5).
  assert (F5 : fmap s5 = fmap s) by now rewrite (same_fmap _ _ SM2).
  assert (Q12 : pstep P' s3 s5 ok2) by (apply pstep_trans with s4; auto).
  destruct ok2; [|injection E as <- <- <-; split; [now apply FIN|split; easy]].
  destruct (add_clause O Learnt [- b; - nxt s2] s5) as [ok3 s6] eqn:A3. injection E as <- <- <-.
  destruct (pstep_clause O Base P' _ _ s5 ok3 s6 (ps_wf _ _ _ _ _ _ Q2) (proj2 (proj2 (Fc s5 (eq_trans N5 N4)))) ltac:(intros I nu _ _ Hp; apply (IMP I nu Hp)) A3) as (Q3 & SM3 & N6).
  split; [apply FIN; apply pstep_trans with s5; auto|]. split; [now rewrite (same_fmap _ _ SM3)|]. intros _. split; [rewrite N6, N5, N4, N3; split; lia|].
  intros Dv I nu G Od. rewrite V by easy.
  assert (C3 : clause_true I [- b; - nxt s2]) by exact (add_clause_in O Base _ _ _ _ _ A3 I G).
  assert (G5 : good s5 I /\ order_ok s5 I nu). { destruct (st_bwd _ _ _ _ _ (ps_step _ _ _ _ _ _ Q3) I nu G Od) as (X1 & X2 & _). now split. }
  assert (C2 : clause_true I [a; - nxt s2]) by exact (add_clause_in O Base _ _ _ _ _ A2 I (proj1 G5)).
  assert (G4 : good s4 I /\ order_ok s4 I nu). { destruct (st_bwd _ _ _ _ _ (ps_step _ _ _ _ _ _ Q2) I nu (proj1 G5) (proj2 G5)) as (X1 & X2 & _). now split. }
  assert (C1 : clause_true I [- a; - - b; nxt s2]) by exact (add_clause_in O Base _ _ _ _ _ A1 I (proj1 G4)).
  assert (G3 : good s3 I /\ order_ok s3 I nu). { destruct (st_bwd _ _ _ _ _ (ps_step _ _ _ _ _ _ Q1) I nu (proj1 G4) (proj2 G4)) as (X1 & X2 & _). now split. }
  assert (G2 : good s2 I /\ order_ok s2 I nu).
  { destruct (add_literal_ok Base n0 s2 (tr_wf _ _ _ R2') (tr_nxt _ _ _ R2')) as (_ & X). rewrite <- E3' in X. destruct (st_bwd _ _ _ _ _ X I nu (proj1 G3) (proj2 G3)) as (X1 & X2 & _). now split. }
  specialize (Ha I nu (proj1 G2) (proj2 G2)). specialize (Hb I nu (proj1 G2) (proj2 G2)). cbv beta in Ha, Hb.
  assert (Hb' : lit_true I (- b) <-> w <= nu x) by (rewrite lit_true_neg by apply Bb; rewrite Hb; lia).
  assert (N : lit_true I (- nxt s2) <-> ~ lit_true I (nxt s2)) by (apply lit_true_neg; lia).
  destruct C1 as (q1 & Q11 & Q12'), C2 as (q2 & Q21 & Q22), C3 as (q3 & Q31 & Q32). split.
  - intros T. assert (X1 : lit_true I a) by (destruct Q21 as [<-|[<-|[]]]; tauto). assert (X2 : lit_true I (- b)) by (destruct Q31 as [<-|[<-|[]]]; tauto).
    apply Ha in X1. apply Hb' in X2. lia.
  - intros Hv. assert (T1 : lit_true I a) by (apply Ha; lia). assert (T2' : lit_true I (- b)) by (apply Hb'; lia).
    destruct Q11 as [<-|[<-|[<-|[]]]]; [apply La in Q12'; easy|apply Lb in Q12'; easy|easy].
Qed.
(** ** Weights of a value *)
(** [CS] is what the constraints added for new variables demand. *)
Definition rep (s : state) (CS : (var -> Z) -> Prop) (cnt : list (Z * nat)) (d : iset) (de : Z * Z * option var) (e : delem) : Prop :=
  iwf d /\ (forall I nu, good s I -> order_ok s I nu -> CS nu -> mem d (eval nu e)) /\
  match de with
  | (f, c, Some x) => c <> 0 /\ (x < nvars s)%nat /\ (forall v, mem d v -> Z.divide c (v - f)) /\
      (forall I nu, good s I -> order_ok s I nu -> CS nu -> f + c * nu x = eval nu e)
  | (_, _, None) => snd e = [] /\ (forall v, mem d v -> v = fst e) \/ (forall v, mem d v -> (count_of cnt v <= 1)%nat)
  end.
Lemma rep_pstep Q s s' b CS cnt d de e : pstep Q s s' b -> rep s CS cnt d de e -> rep s' CS cnt d de e.
Proof.
  intros R (A & B & C).
  assert (Bw : forall I nu, good s' I -> order_ok s' I nu -> good s I /\ order_ok s I nu).
  { intros I nu G Od. destruct (st_bwd _ _ _ _ _ (ps_step _ _ _ _ _ _ R) I nu G Od) as (X1 & X2 & _). now split. }
  split; [easy|]. split; [intros I nu G Od; destruct (Bw I nu G Od); now apply (B I nu)|]. destruct de as [[f c] [x|]]; [|easy].
  destruct C as (C1 & C2 & C3 & C4). split; [easy|]. split; [now apply nvars_pstep with (1 := R)|]. split; [easy|].
  intros I nu G Od. destruct (Bw I nu G Od). now apply (C4 I nu).
Qed.
Lemma dist_wlits_ok (P : interp -> (var -> Z) -> Prop) CS cnt v l es : (1 < count_of cnt v)%nat -> forall s ok wl s', dep (nxt s) (nvars s) P -> top_ready s -> fmap s = [] ->
  Forall2 (fun p e => rep s CS cnt (fst p) (snd p) e) l es ->
  dist_wlits O cfg v l s = ((ok, wl), s') ->
  pstep P s s' ok /\ fmap s' = fmap s /\ (ok = true -> Forall (fun p => below (nxt s') (fst p)) wl /\
    holds s' (fun I nu => CS nu -> wsum I wl = Z.of_nat (count_occ Z.eq_dec (map (eval nu) es) v))).
Proof.
  intros Hv s ok wl s' D R F0 F. revert s ok wl s' D R F0 F. revert es. induction l as [|[d de] l IH]; intros es s ok wl s' D R F0 F E.
  - inversion F; subst. injection E as <- <- <-. split; [apply pstep_refl, R|]. split; [easy|]. intros _. split; [constructor|]. easy.
  - inversion F as [|? e ? es' H F']; subst. cbn [fst snd] in H. cbn [dist_wlits] in E. destruct (contains d v) eqn:Cd.
    + apply contains_spec in Cd; [|apply H]. destruct (dist_lit O cfg v de s) as [[ok1 l1] s1] eqn:E1.
      assert (L : pstep P s s1 ok1 /\ fmap s1 = fmap s /\ (ok1 = true -> below (nxt s1) l1 /\ holds s1 (fun I nu => CS nu -> (lit_true I l1 <-> eval nu e = v)))).
      { destruct H as (_ & _ & H). destruct de as [[f c] [x|]].
        - destruct H as (H1 & H2 & H3 & H4). destruct (dist_lit_ok P v f c x s ok1 l1 s1 D R F0 H2 H1 E1) as (Q1 & Q2 & Q3).
          split; [easy|]. split; [easy|]. intros Hok. destruct (Q3 Hok) as (Q4 & Q5'). pose proof (Q5' (H3 v Cd)) as Q5. split; [easy|]. intros I nu G Od Hcs.
          rewrite (Q5 I nu G Od). destruct (st_bwd _ _ _ _ _ (ps_step _ _ _ _ _ _ Q1) I nu G Od) as (X1 & X2 & _). now rewrite (H4 I nu X1 X2 Hcs).
        - destruct H as [(H1 & H2)|H]; [|apply H in Cd; lia]. injection E1 as <- <- <-. split; [apply pstep_refl, R|]. split; [easy|]. intros _.
          split; [pose proof (wf_nxt s (proj1 (tr_wf _ _ _ R))); unfold TRUE_LIT; split; lia|]. intros I nu G Od _. apply H2 in Cd. subst v. unfold eval. rewrite H1. cbn [lval].
          split; [lia|intros _; apply G]. }
      destruct L as (L1 & L2 & L3). destruct ok1; [|injection E as <- <- <-; split; [easy|split; easy]]. destruct (L3 eq_refl) as (L4 & L5).
      destruct (dist_wlits O cfg v l s1) as [[ok2 wl2] s2] eqn:E2. injection E as <- <- <-.
      destruct (IH es' s1 ok2 wl2 s2) as (J1 & J2 & J3); auto.
      { now apply dep_pstep with (1 := L1). } { exact (top_pstep O Base n0 CO _ _ _ L1 R). } { now rewrite L2. }
      { eapply Forall2_impl; [|exact F']. intros p e'. now apply rep_pstep with (1 := L1). }
      split; [apply pstep_trans with s1; auto|]. split; [now rewrite J2|]. intros Hok. destruct (J3 Hok) as (J4 & J5). split.
      * constructor; [|easy]. now apply below_pstep with (1 := J1).
      * intros I nu G Od Hcs. specialize (J5 I nu G Od Hcs). pose proof (holds_pstep _ _ _ _ _ _ _ J1 L5 I nu G Od Hcs) as X. cbv beta in X. cbn [map count_occ].
        destruct (Z.eq_dec (eval nu e) v) as [Q|Q]; [rewrite wsum_true by now apply X|rewrite wsum_false by (intros Y; now apply Q, X)]; lia.
    + destruct (IH es' s ok wl s' D R F0 F' E) as (J1 & J2 & J3). split; [easy|]. split; [easy|]. intros Hok. destruct (J3 Hok) as (J4 & J5). split; [easy|].
      intros I nu G Od Hcs. rewrite (J5 I nu G Od Hcs). cbn [map count_occ].
      destruct (Z.eq_dec (eval nu e) v) as [Q|Q]; [|easy]. exfalso. destruct H as (H1 & H2 & _).
      destruct (st_bwd _ _ _ _ _ (ps_step _ _ _ _ _ _ J1) I nu G Od) as (X1 & X2 & _). specialize (H2 I nu X1 X2 Hcs). rewrite Q in H2.
      apply contains_spec in H2; [congruence|easy].
Qed.

(** ** All values *)
Lemma dist_weights_ok (P : interp -> (var -> Z) -> Prop) CS cnt0 clit l es cnt : forall s ok s', dep (nxt s) (nvars s) P -> top_ready s -> fmap s = [] -> below (nxt s) clit ->
  (forall v n, In (v, n) cnt -> count_of cnt0 v = n) ->
  holds s (fun I nu => P I nu -> CS nu /\ (lit_true I clit -> NoDup (map (eval nu) es))) ->
  Forall2 (fun p e => rep s CS cnt0 (fst p) (snd p) e) l es ->
  dist_weights O cfg clit cnt l s = (ok, s') ->
  pstep P s s' ok /\ (ok = true -> holds s' (fun I nu => CS nu -> lit_true I clit -> forall v n, In (v, n) cnt -> (1 < n)%nat -> (count_occ Z.eq_dec (map (eval nu) es) v <= 1)%nat)).
Proof.
  induction cnt as [|[v n] cnt IH]; intros s ok s' D R F0 Bl HC HP F E.
  - injection E as <- <-. split; [apply pstep_refl, R|]. now intros _ I nu _ _ _ _ v n [].
  - cbn [dist_weights] in E. destruct (n <=? 1)%nat eqn:Cn.
    + destruct (IH s ok s' D R F0 Bl) as (A & B); auto. { intros; apply HC; now right. } split; [easy|]. intros Hok I nu G Od Hcs T v' n' [H|H] Hn.
      * injection H as <- <-. apply Nat.leb_le in Cn. lia.
      * apply (B Hok I nu G Od Hcs T v' n' H Hn).
    + apply Nat.leb_gt in Cn. destruct (dist_wlits O cfg v l s) as [[ok1 wl] s1] eqn:E1.
      assert (Hv : (1 < count_of cnt0 v)%nat) by (rewrite (HC v n (or_introl eq_refl)); easy).
      destruct (dist_wlits_ok P CS cnt0 v l es Hv s ok1 wl s1 D R F0 F E1) as (A1 & A2 & A3).
      destruct ok1; [|injection E as <- <-; split; easy]. destruct (A3 eq_refl) as (A4 & A5).
      unfold add_weight in E. assert (Bl1 := below_pstep O Base _ _ _ _ _ A1 Bl). pose proof (top_pstep O Base n0 CO _ _ _ A1 R) as R1.
      assert (N : exists s2, (if is_false O s1 clit then (true, s1) else (true, emit (EWeight clit wl 1) s1)) = (true, s2) /\ pstep P s1 s2 true /\ fmap s2 = fmap s1 /\
        holds s2 (fun I nu => CS nu -> lit_true I clit -> (count_occ Z.eq_dec (map (eval nu) es) v <= 1)%nat)).
      { destruct (is_false O s1 clit) eqn:Fl.
        - exists s1. split; [easy|]. split; [apply pstep_refl, R1|]. split; [easy|]. intros I nu (G1 & G2 & G3) Od _ T. exfalso.
          assert (lit_true I (- clit)) as X; [|apply lit_true_neg in X; [easy|apply Bl]].
          apply (cl_top _ _ CO (log s1)); auto. left. apply R1.
        - eexists. split; [reflexivity|]. split; [|split; [easy|]].
          + constructor.
            * apply wf_emit; [apply R1|]. now split.
            * apply step_weaken with (P := P) (Q := fun I _ => ev_true I (EWeight clit wl 1)); try easy. apply emit_step.
              intros I nu Gd Od HP'. cbn. intros T. destruct (holds_pstep _ _ _ _ _ _ _ A1 HP I nu Gd Od HP') as (Hcs & Hd).
              rewrite (A5 I nu Gd Od Hcs). specialize (Hd T). rewrite (NoDup_count_occ Z.eq_dec) in Hd. specialize (Hd v). lia.
            * apply same_same3, same_emit.
            * now apply grow_vst.
            * intros _. apply later_step; [constructor|exact Logic.I].
          + intros I nu (G1 & G2 & G3) Od Hcs T. inversion G3 as [|? ? X1 X2]; subst. cbn in X1. specialize (X1 T).
            specialize (A5 I nu (conj G1 (conj G2 X2)) Od Hcs). lia. }
      destruct N as (s2 & N1 & N2 & N3 & N4). rewrite N1 in E. clear N1.
      assert (R12 : pstep P s s2 true) by (apply pstep_trans with s1; auto).
      destruct (IH s2 ok s') as (B1 & B2); auto.
      { now apply dep_pstep with (1 := R12). } { exact (top_pstep O Base n0 CO _ _ _ R12 R). } { now rewrite N3, A2. } { now apply below_pstep with (1 := R12). }
      { intros; apply HC; now right. } { now apply holds_pstep with (1 := R12). }
      { eapply Forall2_impl; [|exact F]. intros p e'. now apply rep_pstep with (1 := R12). }
      split; [apply pstep_trans with s2; auto|]. intros Hok I nu G Od Hcs T v' n' [H|H] Hn.
      * injection H as <- <-. apply (holds_pstep _ _ _ _ _ _ _ B1 N4 I nu G Od Hcs T).
      * apply (B2 Hok I nu G Od Hcs T v' n' H Hn).
Qed.
(** ** New variables *)
(** Only variables are added. *)
Record vext (s s' : state) : Prop := {
  vx_log : log s' = log s; vx_nxt : nxt s' = nxt s; vx_fmap : fmap s' = fmap s;
  vx_nv : (nvars s <= nvars s')%nat; vx_vst : forall y, (y < nvars s)%nat -> vst s' y = vst s y }.
Lemma vext_refl s : vext s s.
Proof. now constructor. Qed.
Lemma vext_trans s s1 s2 : vext s s1 -> vext s1 s2 -> vext s s2.
Proof.
  intros [A1 A2 A3 A4 A5] [B1 B2 B3 B4 B5]. constructor; try congruence; [lia|]. intros y Hy. rewrite B5 by lia. now apply A5.
Qed.
Lemma vext_bwd s s' I nu : vext s s' -> good s' I -> order_ok s' I nu -> good s I /\ order_ok s I nu.
Proof.
  intros [A1 A2 A3 A4 A5] G Od. split; [unfold OrderSpec.good in *; now rewrite A1 in G|]. intros y Hy. rewrite <- A5 by easy. apply Od. lia.
Qed.
Definition csok (cs : list constr) (nu : var -> Z) : Prop := Forall (fun d => match d with CSum _ rhs es => lval nu es <= rhs | _ => False end) cs.
(** Linear constraints over existing variables that always hold. *)
Definition plain (n : nat) (cs : list constr) : Prop :=
  Forall (fun d => match d with CSum l _ es => l = TRUE_LIT /\ Forall (fun t => fst t <> 0 /\ (snd t < n)%nat) es | _ => False end) cs.
Lemma plain_mono n m cs : (n <= m)%nat -> plain n cs -> plain m cs.
Proof.
  intros H. apply Forall_impl. intros [l r es| | | |]; try easy. intros (-> & F). split; [easy|]. eapply Forall_impl; [|exact F]. intros t (A & B). split; [easy|lia].
Qed.
Lemma csok_ext n cs nu nu' : plain n cs -> ext_nu n nu nu' -> csok cs nu -> csok cs nu'.
Proof.
  intros Pl E. induction Pl as [|[l r es| | | |] cs H F IH]; intros Hc; try easy; [constructor|]. inversion Hc; subst. constructor; [|now apply IH].
  rewrite (lval_ext n nu nu' es E); [easy|]. eapply Forall_impl; [|apply H]. now intros t [].
Qed.
Lemma csok_csem n cs mb I nu : plain n cs -> I 1 = true -> (csok cs nu <-> Forall (fun d => csem mb d I nu) cs).
Proof.
  intros Pl I1. unfold csok. rewrite !Forall_forall. unfold plain in Pl. rewrite Forall_forall in Pl. split; intros H d Hd; specialize (H d Hd); specialize (Pl d Hd); destruct d; try easy; cbn in *.
  destruct Pl as (-> & _). now apply H.
Qed.

Definition entry_of (s : state) (e : delem) : delem * (Z * Z) * iset := (e, dist_init s e, edomain s e).
Lemma entries s es : combine (combine es (map (dist_init s) es)) (map (edomain s) es) = map (entry_of s) es.
Proof. induction es as [|e r IH]; [easy|]. cbn. now rewrite IH. Qed.

Lemma elem_bounds s e : top_ready s -> elems_ok s e -> Forall (fun t => lb (vst s (snd t)) <= ub (vst s (snd t))) e.
Proof. intros R. apply Forall_impl. intros t (_ & H). now apply R. Qed.
Lemma elem_range s e I nu : top_ready s -> elems_ok s e -> order_ok s I nu -> Forall (fun t => lb (vst s (snd t)) <= nu (snd t) <= ub (vst s (snd t))) e.
Proof. intros R F Od. eapply Forall_impl; [|exact F]. intros t (_ & H). now apply (top_range O n0 s (snd t) I nu). Qed.
Lemma eval_mem s e I nu : top_ready s -> elems_ok s (snd e) -> order_ok s I nu -> mem (edomain s e) (eval nu e).
Proof.
  intros R F Od. destruct (edomain_ok s e (elem_bounds s _ R F)) as (_ & M). apply M. unfold eval, dist_init. cbn [fst].
  replace (fst e + lval nu (snd e) - (fst e + sum_lo s (snd e))) with (lval nu (snd e) - sum_lo s (snd e)) by lia.
  apply shifts_value. now apply (elem_range s _ I nu).
Qed.
Lemma lval_neg nu ts : lval nu (map (fun t => (- fst t, snd t)) ts) = - lval nu ts.
Proof. induction ts as [|[c x] r IH]; [easy|]. cbn [map lval fst snd]. rewrite IH. lia. Qed.

Lemma dist_var_ok s0 e a s de cs s1 cnt : top_ready s0 -> vext s0 s -> top_ready s -> elems_ok s0 (snd e) -> snd e <> [] ->
  fst a <= fst (dist_init s0 e) -> snd (dist_init s0 e) <= snd a ->
  dist_var e a s = (de, cs, s1) ->
  vext s s1 /\ top_ready s1 /\ plain (nvars s1) cs /\
  (forall I nu, order_ok s I nu -> exists nu', ext_nu (nvars s) nu nu' /\ order_ok s1 I nu' /\ csok cs nu') /\
  rep s1 (csok cs) cnt (edomain s0 e) de e.
Proof.
  intros R0 X R F N La Ua E. destruct (edomain_ok s0 e (elem_bounds s0 _ R0 F)) as (Wd & Md).
  assert (M : forall s1, vext s0 s1 -> forall I nu, good s1 I -> order_ok s1 I nu -> mem (edomain s0 e) (eval nu e)).
  { intros s2 X2 I nu G Od. destruct (vext_bwd s0 s2 I nu X2 G Od). now apply eval_mem with I. }
  assert (Ea : snd (dist_init s0 e) = fst e + sum_hi s0 (snd e) /\ fst (dist_init s0 e) = fst e + sum_lo s0 (snd e)) by now split.
  destruct Ea as (Ea2 & Ea1). rewrite Ea1 in La. rewrite Ea2 in Ua.
  assert (C : (exists co x, snd e = [(co, x)]) \/ (let '(x, s9) := add_variable (fst a) (snd a) s in
      ((0, 1, Some x), [CSum TRUE_LIT (- fst e) ((-1, x) :: snd e); CSum TRUE_LIT (fst e) (map (fun t => (- fst t, snd t)) ((-1, x) :: snd e))], s9) = (de, cs, s1))).
  { unfold dist_var in E. destruct (snd e) as [|[co x] [|t r]]; [easy|left; now exists co, x|right; exact E]. }
  destruct C as [(co & x & C)|C].
  - unfold dist_var in E. rewrite C in *. injection E as <- <- <-. split; [apply vext_refl|]. split; [easy|]. split; [constructor|]. split.
    + intros I nu Od. exists nu. split; [easy|]. split; [easy|constructor].
    + inversion F as [|? ? (H1 & H2) _]; subst. cbn [fst snd] in *. split; [easy|]. split; [intros I nu G Od _; apply (M s X I nu G Od)|]. split; [easy|].
      split; [pose proof (vx_nv _ _ X); lia|]. split.
      * intros v Hv. apply Md in Hv. apply (shifts_one s0 co x _ (fst e)) in Hv as (w & _ & Hw). rewrite Ea1 in Hw. exists w. lia.
      * intros I nu _ _ _. unfold eval. rewrite C. cbn. lia.
  - clear E. destruct (add_variable _ _ s) as [x s9] eqn:E. injection C as <- <- <-.
    destruct (add_variable_ok Base _ _ s x s9 (tr_wf _ _ _ R) E (tr_level _ _ _ R)) as (W & -> & Nv & _).
    assert (V : vst s9 = upd (vst s) (nvars s) (mkvs (fst a) (snd a) [] [] [])) by now injection E as <-.
    assert (VX : vext s s9).
    { constructor; try (injection E as <-; reflexivity); [lia|]. intros y Hy. rewrite V. apply upd_other. lia. }
    pose proof (vext_trans _ _ _ X VX) as X9. pose proof (vx_nv _ _ X) as Hnv.
    assert (LH : sum_lo s0 (snd e) <= sum_hi s0 (snd e)).
    { pose proof (shifts_range s0 (snd e) 0 (elem_bounds s0 _ R0 F)) as H.
      assert (shifts s0 (snd e) 0); [|apply H in H0; lia]. pose proof (elem_bounds s0 _ R0 F) as FB. clear - FB.
      induction FB as [|[co x] r H FB IH]; [easy|]. cbn. exists 0. cbn in H. split; [lia|]. match goal with |- shifts _ _ ?d => replace d with 0 by lia end. exact IH. }
    assert (Fx : Forall (fun t => fst t <> 0 /\ (snd t < nvars s9)%nat) ((-1, nvars s) :: snd e)).
    { constructor; [cbn; split; [lia|lia]|]. eapply Forall_impl; [|exact F]. intros t (A & B). split; [easy|lia]. }
    split; [exact VX|]. split; [|split; [|split]].
    + constructor; [exact W|rewrite (vx_nxt _ _ VX); apply R| | |].
      * rewrite <- (tr_level _ _ _ R). now injection E as <-.
      * unfold dlevel. rewrite (vx_log _ _ VX). apply R.
      * intros y Hy. rewrite V. unfold upd. destruct (Nat.eqb_spec y (nvars s)); [cbn [lb ub]; lia|]. apply R. lia.
    + constructor; [now split|]. constructor; [|constructor]. split; [easy|]. inversion Fx as [|? ? H1 H2]; subst. constructor; [cbn; split; [easy|apply H1]|].
      apply Forall_map. eapply Forall_impl; [|exact H2]. cbn [fst snd]. intros [c y] (A & B). cbn [fst snd] in A, B |- *. split; [lia|easy].
    + intros I nu Od. assert (EX : exists mu : var -> Z, ext_nu (nvars s) nu mu /\ mu (nvars s) = eval nu e).
      { exists (fun y => if Nat.eqb y (nvars s) then eval nu e else nu y). split; [intros y Hy; destruct (Nat.eqb_spec y (nvars s)); [lia|easy]|]. now rewrite Nat.eqb_refl. }
      destruct EX as (mu & EN & EX). exists mu.
      assert (EV : lval mu (snd e) = lval nu (snd e)).
      { apply lval_ext with (nvars s); [exact EN|]. eapply Forall_impl; [|exact F]. intros t (A & B). lia. }
      split; [exact EN|]. split.
      * intros y Hy. rewrite V. unfold upd. destruct (Nat.eqb_spec y (nvars s)) as [->|Ny]; [|rewrite (EN y) by lia; apply Od; lia].
        split; [|easy]. unfold minb, maxb. cbn [lbs ubs lb ub]. cbn [last]. rewrite EX. unfold eval.
        assert (Od0 : order_ok s0 I nu). { intros z Hz. rewrite <- (vx_vst _ _ X z Hz). apply Od. lia. }
        pose proof (top_lval O n0 s0 (snd e) I nu R0 F Od0). lia.
      * apply Forall_cons; [|apply Forall_cons; [|apply Forall_nil]].
        -- cbn [lval]. rewrite EV, EX. unfold eval. lia.
        -- cbn [map lval fst snd]. rewrite lval_neg, EV, EX. unfold eval. lia.
    + split; [easy|]. split; [intros I nu G Od _; apply (M s9 X9 I nu G Od)|]. split; [easy|]. split; [lia|]. split.
      * intros v _. exists v. lia.
      * intros I nu _ _ Hc. inversion Hc as [|? ? H1 Hc']; subst. inversion Hc' as [|? ? H2 _]; subst. cbn [map lval fst snd] in H1, H2. rewrite lval_neg in H2. unfold eval. lia.
Qed.
Lemma csok_app cs1 cs2 nu : csok (cs1 ++ cs2) nu <-> csok cs1 nu /\ csok cs2 nu.
Proof. apply Forall_app. Qed.
Lemma rep_vext s s' (CS CS' : (var -> Z) -> Prop) cnt d de e : vext s s' -> (forall nu, CS' nu -> CS nu) -> rep s CS cnt d de e -> rep s' CS' cnt d de e.
Proof.
  intros X HC (A & B & C). assert (Bw := fun I nu => vext_bwd s s' I nu X).
  split; [easy|]. split; [intros I nu G Od Hc; destruct (Bw I nu G Od); apply (B I nu); auto|]. destruct de as [[f c] [x|]]; [|easy].
  destruct C as (C1 & C2 & C3 & C4). split; [easy|]. split; [pose proof (vx_nv _ _ X); lia|]. split; [easy|].
  intros I nu G Od Hc. destruct (Bw I nu G Od). apply (C4 I nu); auto.
Qed.
Lemma dist_vars_ok s0 cnt es : top_ready s0 -> forall s des cs s', vext s0 s -> top_ready s -> Forall (fun e => elems_ok s0 (snd e)) es ->
  dist_vars cnt (map (entry_of s0) es) s = (des, cs, s') ->
  vext s s' /\ top_ready s' /\ plain (nvars s') cs /\
  (forall I nu, order_ok s I nu -> exists nu', ext_nu (nvars s) nu nu' /\ order_ok s' I nu' /\ csok cs nu') /\
  Forall2 (fun p e => rep s' (csok cs) cnt (fst p) (snd p) e) (combine (map (edomain s0) es) des) es.
Proof.
  intros R0. induction es as [|e es IH]; intros s des cs s' X R F E.
  - injection E as <- <- <-. split; [apply vext_refl|]. split; [easy|]. split; [constructor|]. split; [|constructor].
    intros I nu Od. exists nu. split; [easy|]. split; [easy|constructor].
  - inversion F as [|? ? F1 F2]; subst. cbn [map dist_vars] in E. unfold entry_of at 1 in E.
    destruct (if negb (is_nil (snd e)) && existsb (fun v => (1 <? count_of cnt v)%nat) (values (edomain s0 e)) then dist_var e (dist_init s0 e) s else ((fst e, 1, None), [], s)) as [[de cs1] s1] eqn:E1.
    destruct (dist_vars cnt (map (entry_of s0) es) s1) as [[des2 cs2] s2] eqn:E2. injection E as <- <- <-.
    destruct (edomain_ok s0 e (elem_bounds s0 _ R0 F1)) as (Wd & Md).
    assert (A : vext s s1 /\ top_ready s1 /\ plain (nvars s1) cs1 /\
      (forall I nu, order_ok s I nu -> exists nu', ext_nu (nvars s) nu nu' /\ order_ok s1 I nu' /\ csok cs1 nu') /\ rep s1 (csok cs1) cnt (edomain s0 e) de e).
    { destruct (negb (is_nil (snd e)) && existsb (fun v => (1 <? count_of cnt v)%nat) (values (edomain s0 e))) eqn:C.
      - apply andb_true_iff in C as (C & _). apply (dist_var_ok s0 e (dist_init s0 e) s de cs1 s1 cnt); auto; try lia. intros Q. rewrite Q in C. discriminate.
      - injection E1 as <- <- <-. split; [apply vext_refl|]. split; [easy|]. split; [constructor|]. split.
        + intros I nu Od. exists nu. split; [easy|]. split; [easy|constructor].
        + split; [easy|]. split; [intros I nu G Od _; destruct (vext_bwd s0 s I nu X G Od); now apply eval_mem with I|].
          apply andb_false_iff in C as [C|C].
          * left. destruct (snd e) eqn:Q; [|discriminate]. split; [easy|]. intros v Hv. apply Md in Hv. cbn in Hv. unfold dist_init in Hv. rewrite Q in Hv. cbn in Hv. lia.
          * right. intros v Hv. apply values_in in Hv. destruct (1 <? count_of cnt v)%nat eqn:Q; [|apply Nat.ltb_ge in Q; lia].
            assert (true = false) by (rewrite <- C; symmetry; apply existsb_exists; now exists v). discriminate. }
    destruct A as (A1 & A2 & A3 & A4 & A5).
    destruct (IH s1 des2 cs2 s2) as (B1 & B2 & B3 & B4 & B5); auto. { now apply vext_trans with s. }
    split; [now apply vext_trans with s1|]. split; [easy|]. pose proof (vx_nv _ _ A1) as Hn1. pose proof (vx_nv _ _ B1) as Hn2. split; [|split].
    + apply Forall_app. split; [now apply plain_mono with (nvars s1)|easy].
    + intros I nu Od. destruct (A4 I nu Od) as (nu1 & C1 & C2 & C3). destruct (B4 I nu1 C2) as (nu2 & D1 & D2 & D3). exists nu2. split.
      { intros y Hy. rewrite (D1 y) by lia. now apply C1. }
      split; [easy|]. apply csok_app. split; [|easy]. apply (csok_ext (nvars s1)) with nu1; auto.
    + cbn [map combine]. constructor.
      * cbn [fst snd]. apply (rep_vext s1 s2 (csok cs1)); auto. intros nu Hc. now apply csok_app in Hc.
      * eapply Forall2_impl; [|exact B5]. intros p e'. apply rep_vext; [apply vext_refl|]. intros nu Hc. now apply csok_app in Hc.
Qed.

(** ** The translation *)
Lemma count_le s I nu es v : top_ready s -> Forall (fun e => elems_ok s (snd e)) es -> order_ok s I nu ->
  (count_occ Z.eq_dec (map (eval nu) es) v <= in_doms (map (edomain s) es) v)%nat.
Proof.
  intros R F Od. unfold in_doms. induction F as [|e es H F IH]; [cbn; lia|]. cbn [map count_occ filter].
  destruct (Z.eq_dec (eval nu e) v) as [Q|Q]; [|destruct (contains _ v); cbn [length]; lia].
  pose proof (eval_mem s e I nu R H Od) as M. rewrite Q in M. apply contains_spec in M; [|apply (edomain_ok s e (elem_bounds s _ R H))]. rewrite M. cbn [length]. lia.
Qed.
Lemma translate_distinct_ok limit k s r s' clit es : top_ready s -> fmap s = [] -> c_def k = CDistinct clit es -> Forall (fun e => elems_ok s (snd e)) es -> below (nxt s) clit ->
  c_asg k = map (dist_init s) es -> translate_distinct O cfg limit k s = (r, s') ->
  exists ok rm cs, r = Ok (ok, rm, cs) /\ wf s' /\ plain (nvars s') cs /\ (ok = true -> rm = false -> s' = s /\ cs = []) /\
    (forall I nu, good s I -> order_ok s I nu -> csem None (CDistinct clit es) I nu ->
      exists J nu', agree_below (nxt s) I J /\ ext_nu (nvars s) nu nu' /\ good s' J /\ order_ok s' J nu' /\ Forall (fun d => csem None d J nu') cs) /\
    (rm = true -> forall I nu, good s' I -> order_ok s' I nu -> Forall (fun d => csem None d I nu) cs ->
      good s I /\ order_ok s I nu /\ csem None (CDistinct clit es) I nu).
Proof.
  intros R F0 Ed F Bl Ea E. unfold translate_distinct in E. rewrite Ed in E. destruct (negb _).
  { injection E as <- <-. exists true, false, []. split; [easy|]. split; [apply R|]. split; [constructor|]. split; [easy|]. split; [|easy].
    intros I nu G Od _. exists I, nu. split; [apply agree_refl|]. split; [easy|]. split; [easy|]. split; [easy|constructor]. }
  rewrite Ea in E. match type of E with context [map ?f (combine es (map (dist_init s) es))] =>
    assert (ED : map f (combine es (map (dist_init s) es)) = map (edomain s) es) end.
  { clear. induction es as [|e es IH]; [easy|]. cbn [map combine fst snd]. now rewrite IH. }
  rewrite ED, entries in E. clear ED. set (cnt := dist_counts (map (edomain s) es)) in *.
  destruct (dist_vars cnt (map (entry_of s) es) s) as [[des cs] s1] eqn:E1.
  destruct (dist_vars_ok s cnt es R s des cs s1 (vext_refl s) R F E1) as (A1 & A2 & A3 & A4 & A5).
  destruct (dist_weights O cfg clit cnt (combine (map (edomain s) es) des) s1) as [ok s2] eqn:E2. injection E as <- <-.
  assert (Fw : Forall iwf (map (edomain s) es)).
  { apply Forall_map. eapply Forall_impl; [|exact F]. intros e H. apply (edomain_ok s e (elem_bounds s _ R H)). }
  destruct (dist_counts_ok _ Fw) as (Sc & Hc). fold cnt in Sc, Hc.
  set (P := fun (I : interp) nu => csok cs nu /\ (lit_true I clit -> NoDup (map (eval nu) es))).
  pose proof (vx_nv _ _ A1) as Hn.
  assert (X : forall n nu nu' e, ext_nu n nu nu' -> (nvars s <= n)%nat -> In e es -> eval nu' e = eval nu e).
  { intros n nu nu' e En Hm He. unfold eval. f_equal. apply lval_ext with n; auto. rewrite Forall_forall in F. eapply Forall_impl; [|apply F, He]. intros t (_ & B). lia. }
  assert (XM : forall n nu nu', ext_nu n nu nu' -> (nvars s <= n)%nat -> map (eval nu') es = map (eval nu) es).
  { intros n nu nu' En Hm. apply map_ext_in. intros e He. now apply X with n. }
  assert (D : dep (nxt s1) (nvars s1) P).
  { intros I J nu nu' Ag En (H1 & H2). split; [now apply (csok_ext (nvars s1) cs nu)|].
    rewrite <- (lit_true_agree (nxt s1) I J clit Ag), (XM (nvars s1) nu nu') by (auto; rewrite (vx_nxt _ _ A1); exact Bl). easy. }
  destruct (dist_weights_ok P (csok cs) cnt clit (combine (map (edomain s) es) des) es cnt s1 ok s2) as (B1 & B2); auto.
  { rewrite (vx_fmap _ _ A1). exact F0. } { rewrite (vx_nxt _ _ A1). exact Bl. } { intros v n. now apply count_in. } { now intros I nu _ _ H. }
  exists ok, ok, cs. split; [easy|]. split; [apply B1|]. split; [apply plain_mono with (nvars s1); [apply (st_nv _ _ _ _ _ (ps_step _ _ _ _ _ _ B1))|easy]|].
  split; [intros -> Q; discriminate|]. split.
  - intros I nu G Od Hd. destruct (A4 I nu Od) as (nu1 & C1 & C2 & C3).
    assert (G1 : good s1 I) by (unfold OrderSpec.good in *; now rewrite (vx_log _ _ A1)).
    destruct (st_fwd _ _ _ _ _ (ps_step _ _ _ _ _ _ B1) I nu1 G1 C2) as (J & nu2 & D1 & D2 & D3 & D4).
    { split; [easy|]. intros T. specialize (Hd T). rewrite (XM (nvars s) nu nu1 C1) by lia. now apply clashes_nodup. }
    exists J, nu2. split; [now rewrite <- (vx_nxt _ _ A1)|]. split; [intros y Hy; rewrite (D2 y) by lia; now apply C1|]. split; [easy|]. split; [easy|].
    apply (csok_csem (nvars s1)); [easy|apply D3|]. now apply (csok_ext (nvars s1) cs nu1).
  - intros -> I nu G Od Hcs. apply (csok_csem (nvars s1)) in Hcs; [|easy|apply G].
    destruct (st_bwd _ _ _ _ _ (ps_step _ _ _ _ _ _ B1) I nu G Od) as (G1 & Od1 & _). destruct (vext_bwd s s1 I nu A1 G1 Od1) as (G0 & Od0).
    split; [easy|]. split; [easy|]. intros T. apply (clashes_nodup es nu). apply (NoDup_count_occ Z.eq_dec). intros v.
    pose proof (count_le s I nu es v R F Od0) as Hle. rewrite <- Hc in Hle. destruct (le_lt_dec (count_of cnt v) 1) as [Q|Q]; [lia|].
    apply (B2 eq_refl I nu G Od Hcs T v (count_of cnt v)); [apply count_pos; lia|easy].
Qed.
End DistinctTranslate.

(** ** Ranges of the auxiliary variables *)
Definition in_vals (z : Z) : Prop := MIN_VAL <= z <= MAX_VAL.
Definition fresh_valid (n : nat) (s : state) : Prop :=
  forall x, (n <= x < nvars s)%nat -> in_vals (lb (vst s x)) /\ in_vals (ub (vst s x)).
Lemma fresh_same n s s' : nvars s' = nvars s -> (forall x, vbounds (vst s' x) = vbounds (vst s x)) -> fresh_valid n s -> fresh_valid n s'.
Proof.
  intros N V F x Hx. rewrite N in Hx. specialize (V x). specialize (F x Hx). unfold vbounds in V. now injection V as -> -> _ _.
Qed.
Lemma get_literal_same cfg x v s : same s (snd (get_literal cfg x v s)).
Proof.
  unfold get_literal. destruct (_ <? _); [apply same_refl|]. destruct (_ <=? _); [apply same_refl|]. destruct (vfind _ _); [apply same_refl|].
  unfold add_literal, litmap_add. cbv zeta. set (l := if _ <=? v then _ else _). set (s1 := store_lit x v l (emit _ _)).
  pose proof (same_litmap x l v s1) as A. destruct (update_litmap x l v s1) as [[p q] s2]. cbn [snd] in A |- *. unfold add_watch.
  apply same_trans with (emit (EWatch l) (set_lmap (updz (lmap s2) (Z.abs l) (Some (mke x (0 <? l) v p q))) s2)); [|apply same_emit].
  apply same_trans with s2; [|split; reflexivity].
  apply same_trans with s1; [|exact A]. unfold s1, store_lit. apply same_trans with (emit (ELit (nxt s)) (set_nxt (nxt s + 1) s)); [split; reflexivity|].
  apply same_lits.
Qed.
Lemma fresh_get cfg n x v s : fresh_valid n s -> fresh_valid n (snd (get_literal cfg x v s)).
Proof. pose proof (get_literal_same cfg x v s) as S. apply fresh_same; [now apply same_nvars|apply S]. Qed.
Lemma dist_lit_valid O cfg n v de s : fresh_valid n s -> fresh_valid n (snd (dist_lit O cfg v de s)).
Proof.
  intros F. unfold dist_lit. destruct de as [[fixed co] [x|]]; [|easy].
  pose proof (fresh_get cfg n x (Z.quot (v - fixed) co) s F) as F1. destruct (get_literal _ _ _ s) as [a s1]. cbn [snd] in F1.
  pose proof (fresh_get cfg n x (Z.quot (v - fixed) co - 1) s1 F1) as F2. destruct (get_literal _ _ _ s1) as [b s2]. cbn [snd] in F2.
  destruct (a =? TRUE_LIT); [easy|]. destruct (- b =? - TRUE_LIT); [easy|].
  cbn. destruct (o_answer _ _); [|exact F2]. destruct (o_answer _ _); exact F2.
Qed.
Lemma dist_wlits_valid O cfg n v l : forall s, fresh_valid n s -> fresh_valid n (snd (dist_wlits O cfg v l s)).
Proof.
  induction l as [|[d de] r IH]; intros s F; cbn [dist_wlits]; [easy|]. destruct (contains d v); [|now apply IH].
  pose proof (dist_lit_valid O cfg n v de s F) as F1. destruct (dist_lit _ _ _ _ s) as [[ok g] s1]. cbn [snd] in F1. destruct ok; [|easy].
  specialize (IH s1 F1). destruct (dist_wlits _ _ _ _ s1) as [[ok wl] s2]. exact IH.
Qed.
Lemma dist_weights_valid O cfg n clit cnt l : forall s, fresh_valid n s -> fresh_valid n (snd (dist_weights O cfg clit cnt l s)).
Proof.
  induction cnt as [|[v k] r IH]; intros s F; cbn [dist_weights]; [easy|]. destruct (_ <=? _)%nat; [now apply IH|].
  pose proof (dist_wlits_valid O cfg n v l s F) as F1. destruct (dist_wlits _ _ _ _ s) as [[ok wl] s1]. cbn [snd] in F1. destruct ok; [|easy].
  unfold add_weight. destruct (is_false _ _ _); apply IH; exact F1.
Qed.
Lemma dist_vars_valid n cnt l : Forall (fun q => in_vals (fst (snd (fst q))) /\ in_vals (snd (snd (fst q)))) l ->
  forall s, fresh_valid n s -> fresh_valid n (snd (dist_vars cnt l s)).
Proof.
  induction 1 as [|[[e a] d] r [V1 V2] F IH]; intros s H; cbn [dist_vars]; [easy|]. cbn [fst snd] in V1, V2.
  match goal with |- context [if ?q then _ else _] => destruct q end.
  - assert (H1 : fresh_valid n (snd (dist_var e a s))).
    { assert (A : fresh_valid n (snd (add_variable (fst a) (snd a) s))).
      { intros x. cbn. unfold upd. intros Hx. destruct (Nat.eqb_spec x (nvars s)); [subst; cbn; now split|]. apply H. lia. }
      unfold dist_var. destruct (snd e) as [|[co x] [|t q]]; [|exact H|]; (destruct (add_variable _ _ s) as [y s1]; exact A). }
    destruct (dist_var e a s) as [[de cs] s1]. cbn [snd] in H1. specialize (IH s1 H1). destruct (dist_vars cnt r s1) as [[des cs2] s2]. exact IH.
  - specialize (IH s H). destruct (dist_vars cnt r s) as [[des cs2] s2]. exact IH.
Qed.
Lemma translate_distinct_valid O cfg limit k s r s' : (forall a, In a (c_asg k) -> fst a <= snd a) ->
  translate_distinct O cfg limit k s = (r, s') -> fresh_valid (nvars s) s'.
Proof.
  intros AS E. unfold translate_distinct in E. assert (H0 : fresh_valid (nvars s) s) by (intros x Hx; lia).
  destruct (c_def k) as [| |clit es| |]; try (injection E as _ <-; exact H0).
  destruct (dist_estimate limit (c_asg k)) eqn:D; cbn [negb] in E; [|injection E as _ <-; exact H0].
  apply andb_true_iff in D as (D & _). rewrite forallb_forall in D.
  match type of E with (let '(_, _) := dist_vars ?c ?l s in _) = _ => assert (V := dist_vars_valid (nvars s) c l) end.
  assert (F : Forall (fun a : Z * Z => in_vals (fst a) /\ in_vals (snd a)) (c_asg k)).
  { apply Forall_forall. intros a Ha. specialize (D a Ha). specialize (AS a Ha). unfold in_vals. lia. }
  match type of V with Forall _ ?l -> _ => assert (G : Forall (fun q : (Z * list (Z * var)) * (Z * Z) * iset => in_vals (fst (snd (fst q))) /\ in_vals (snd (snd (fst q)))) l) end.
  { apply Forall_forall. intros [[e a] d] Hin. apply in_combine_l in Hin. apply in_combine_r in Hin. rewrite Forall_forall in F. exact (F a Hin). }
  specialize (V G s H0). destruct (dist_vars _ _ s) as [[des cs] s1]. cbn [snd] in V.
  match type of E with (let '(_, _) := dist_weights _ _ ?c ?n ?l _ in _) = _ => assert (W := dist_weights_valid O cfg (nvars s) c n l s1 V) end.
  destruct (dist_weights _ _ _ _ _ s1) as [ok s2]. injection E as _ <-. exact W.
Qed.
