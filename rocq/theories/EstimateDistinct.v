(** The translation of distinct constraints makes fewer than twice as many weight constraints as the limit says. *)
From Verif Require Import Base Util IntervalSet IntervalSetProofs VarState Solver OrderProofs1 Sum PropProofs Translate Translation Distinct DistinctProofs2 Estimate EstimateSpec EstimateProofs.
Open Scope Z_scope.

(** ** What the translation sends *)

(** [sent s s' n]: the log grows, by at most [n] weight constraints. *)
Definition sent (s s' : state) (n : nat) : Prop := exists new, log s' = new ++ log s /\ (weights_sent new <= n)%nat.
Lemma weights_app a b : weights_sent (a ++ b) = (weights_sent a + weights_sent b)%nat.
Proof. induction a as [|e a IH]; cbn; auto. destruct e; auto. cbn. now rewrite IH. Qed.
Lemma sent_refl s : sent s s 0.
Proof. exists []. auto. Qed.
Lemma sent_same s s' : log s' = log s -> sent s s' 0.
Proof. intros H. exists []. auto. Qed.
Lemma sent_trans s1 s2 s3 n m : sent s1 s2 n -> sent s2 s3 m -> sent s1 s3 (n + m).
Proof. intros (a & A1 & A2) (b & B1 & B2). exists (b ++ a). rewrite B1, A1, app_assoc, weights_app. split; [easy|lia]. Qed.
Lemma sent_more s s' n m : (n <= m)%nat -> sent s s' n -> sent s s' m.
Proof. intros L (a & A1 & A2). exists a. split; [easy|lia]. Qed.

Section Sent.
Context (O : oracle) (cfg : config).
Lemma get_sent x v s : sent s (snd (get_literal cfg x v s)) 0.
Proof.
  destruct (get_quiet cfg x v s) as [_ (new & A & B & _)]. exists new. split; [exact A|]. clear A. induction B as [|e r P F IH]; [easy|]. destruct e; try easy; exact IH.
Qed.
Lemma clause_sent t c s : sent s (snd (add_clause O t c s)) 0.
Proof. exists [EClause t c]. auto. Qed.
Lemma dist_lit_sent v de s : sent s (snd (dist_lit O cfg v de s)) 0.
Proof.
  unfold dist_lit. destruct de as [[f c] [x|]]; [|apply sent_refl].
  match goal with |- context [get_literal cfg x ?v s] => pose proof (get_sent x v s) as H1; destruct (get_literal cfg x v s) as [a s1] end. cbn [snd] in H1.
  match goal with |- context [get_literal cfg x ?v s1] => pose proof (get_sent x v s1) as H2; destruct (get_literal cfg x v s1) as [b s2] end. cbn [snd] in H2.
  assert (H12 := sent_trans _ _ _ _ _ H1 H2). destruct (a =? _); [exact H12|]. destruct (- b =? _); [exact H12|].
  destruct (add_literal s2) as [l s3] eqn:E3. assert (H3 : sent s2 s3 0) by (injection E3 as <- <-; exists [ELit (nxt s2)]; auto).
  assert (H13 := sent_trans _ _ _ _ _ H12 H3).
  pose proof (clause_sent Learnt [- a; - - b; l] s3) as H4. destruct (add_clause O Learnt _ s3) as [ok1 s4]. assert (H14 := sent_trans _ _ _ _ _ H13 H4). destruct ok1; [|exact H14].
  pose proof (clause_sent Learnt [a; - l] s4) as H5. destruct (add_clause O Learnt _ s4) as [ok2 s5]. assert (H15 := sent_trans _ _ _ _ _ H14 H5). destruct ok2; [|exact H15].
  pose proof (clause_sent Learnt [- b; - l] s5) as H6. destruct (add_clause O Learnt _ s5) as [ok3 s6]. exact (sent_trans _ _ _ _ _ H15 H6).
Qed.
Lemma dist_wlits_sent v l : forall s, sent s (snd (dist_wlits O cfg v l s)) 0.
Proof.
  induction l as [|[d de] r IH]; intros s; cbn [dist_wlits]; [apply sent_refl|]. destruct (contains d v); [|apply IH].
  pose proof (dist_lit_sent v de s) as H1. destruct (dist_lit O cfg v de s) as [[ok l] s1]. cbn [snd] in H1. destruct ok; [|exact H1].
  specialize (IH s1). destruct (dist_wlits O cfg v r s1) as [[ok wl] s2]. exact (sent_trans _ _ _ _ _ H1 IH).
Qed.
(** The values that more than one element can have. *)
Definition shared (cnt : list (Z * nat)) : list Z := map fst (filter (fun p => (1 <? snd p)%nat) cnt).
Lemma dist_weights_sent clit l cnt : forall s, sent s (snd (dist_weights O cfg clit cnt l s)) (length (shared cnt)).
Proof.
  unfold shared. induction cnt as [|[v n] r IH]; intros s; cbn [dist_weights filter snd]; [apply sent_refl|].
  destruct (n <=? 1)%nat eqn:E. { replace (1 <? n)%nat with false; [apply IH|]. symmetry. apply Nat.ltb_ge. now apply Nat.leb_le. }
  replace (1 <? n)%nat with true by (symmetry; apply Nat.ltb_lt; now apply Nat.leb_gt). cbn [map length].
  pose proof (dist_wlits_sent v l s) as H1. destruct (dist_wlits O cfg v l s) as [[ok wl] s1]. cbn [snd] in H1. destruct ok; [|eapply sent_more; [|exact H1]; lia].
  assert (H2 : sent s1 (snd (add_weight O clit wl 1 s1)) 1).
  { unfold add_weight. destruct (is_false O s1 clit); [eapply sent_more; [|apply sent_refl]; lia|]. exists [EWeight clit wl 1]. auto. }
  destruct (add_weight O clit wl 1 s1) as [ok s2]. cbn [snd] in H2. assert (H12 := sent_trans _ _ _ _ _ H1 H2). destruct ok; [|eapply sent_more; [|exact H12]; lia].
  exact (sent_trans _ _ _ _ _ H12 (IH s2)).
Qed.
Lemma dist_vars_sent cnt l : forall s, sent s (snd (dist_vars cnt l s)) 0.
Proof.
  induction l as [|[[e a] d] r IH]; intros s; cbn [dist_vars]; [apply sent_refl|].
  destruct (if negb (is_nil (snd e)) && existsb (fun v => (1 <? count_of cnt v)%nat) (values d) then dist_var e a s else ((fst e, 1, None), [], s)) as [[de cs] s1] eqn:E.
  assert (H : sent s s1 0).
  { destruct (_ && _); [|injection E as _ _ <-; apply sent_refl]. unfold dist_var in E. destruct (snd e) as [|[co x] [|]]; injection E as _ _ <-; now apply sent_same. }
  specialize (IH s1). destruct (dist_vars cnt r s1) as [[des css] s2]. exact (sent_trans _ _ _ _ _ H IH).
Qed.
End Sent.

(** ** How many values are shared *)
Lemma fold_intervals asg : forall m, IntervalSetProofs.wf m ->
  IntervalSetProofs.wf (fold_left (fun m (a : Z * Z) => add m (fst a) (snd a)) asg m) /\
  forall z, mem (fold_left (fun m (a : Z * Z) => add m (fst a) (snd a)) asg m) z <-> mem m z \/ exists a, In a asg /\ fst a <= z < snd a.
Proof.
  induction asg as [|a r IH]; intros m W; cbn [fold_left].
  - split; [easy|]. intros z. split; [tauto|]. intros [H|(a & [] & _)]. exact H.
  - destruct (IH _ (add_wf m (fst a) (snd a) W)) as [A B]. split; [easy|]. intros z. rewrite B, (add_mem _ _ _ _ W). split.
    + intros [[H|H]|(b & I & H)]; [right; exists a; split; [now left|easy]|tauto|right; exists b; split; [now right|easy]].
    + intros [H|(b & [<-|I] & H)]; [tauto|tauto|]. right. exists b. auto.
Qed.
(** The values of intervals including their right ends. *)
Definition closed (m : iset) : list Z := flat_map (fun p => zseq (fst p) (Z.to_nat (snd p - fst p + 1))) m.
Lemma closed_length m : forall lo, wf_from lo m -> Z.of_nat (length (closed m)) <= 2 * zsum (map (fun p => snd p - fst p) m).
Proof.
  unfold closed. induction m as [|[x y] r IH]; intros lo W; cbn [flat_map map zsum fold_right]; [cbn; lia|]. destruct W as (_ & W1 & W2). specialize (IH _ W2).
  rewrite app_length. assert (ZL : forall n x, length (zseq x n) = n) by (induction n as [|n IHn]; intros; cbn; auto). rewrite ZL. cbn [fst snd]. fold (zsum (map (fun p => snd p - fst p) r)). lia.
Qed.
Lemma closed_in m v : In v (closed m) <-> exists p, In p m /\ fst p <= v <= snd p.
Proof.
  unfold closed. rewrite in_flat_map. split; intros ([x y] & A & B); exists (x, y); split; auto; cbn [fst snd] in *.
  - apply zseq_in in B. lia.
  - apply zseq_in. lia.
Qed.
Lemma csorted_nodup m : csorted m -> NoDup (shared m).
Proof.
  unfold shared. induction m as [|[v n] r IH]; cbn [filter map]; [constructor|]. intros [A B]. cbn [snd]. destruct (1 <? n)%nat; [|now apply IH]. cbn [map fst]. constructor; [|now apply IH].
  intros H. apply in_map_iff in H as (p & P1 & P2). apply filter_In in P2 as [P2 _]. rewrite Forall_forall in A. apply A in P2. lia.
Qed.
Definition fixed (asg : list (Z * Z)) : list (Z * Z) := filter (fun a => fst a =? snd a) asg.
Definition pair_dec : forall a b : Z * Z, {a = b} + {a <> b}.
Proof. decide equality; apply Z.eq_dec. Defined.
Lemma shared_open asg doms v : Forall2 (fun a d => contains d v = true -> fst a <= v <= snd a) asg doms ->
  (exists a, In a asg /\ fst a < snd a /\ fst a <= v <= snd a) \/ (in_doms doms v <= count_occ pair_dec (fixed asg) (v, v))%nat.
Proof.
  unfold in_doms, fixed. induction 1 as [|[lo hi] d asg doms H F IH]; [right; cbn; lia|]. cbn [filter fst snd] in *.
  destruct IH as [(a & A1 & A2)|IH]; [left; exists a; split; [now right|easy]|]. destruct (contains d v).
  - specialize (H eq_refl). destruct (lo =? hi) eqn:E; [|left; exists (lo, hi); cbn; split; [now left|lia]]. right. assert (lo = v /\ hi = v) as [-> ->] by lia.
    cbn [count_occ length]. destruct (pair_dec (v, v) (v, v)); [lia|easy].
  - right. destruct (lo =? hi); [|exact IH]. cbn [count_occ]. destruct (pair_dec _ _); lia.
Qed.

(** ** The bound *)
Lemma distinct_within O cfg limit l es k s r s' : spread s k l es -> translate_distinct O cfg limit k s = (r, s') ->
  exists new, log s' = new ++ log s /\ ((0 < weights_sent new)%nat -> Z.of_nat (weights_sent new) <= 2 * (limit - 1)).
Proof.
  intros (D & F & G & N) E. unfold translate_distinct in E. rewrite D in E.
  destruct (dist_estimate limit (c_asg k)) eqn:ES; cbn [negb] in E; [|injection E as <- <-; exists []; split; [easy|cbn; lia]]. cbv zeta in E.
  set (doms := map (fun p => dist_domain s (snd (fst p)) (add [] (fst (snd p)) (fst (snd p) + 1))) (combine es (c_asg k))) in E.
  assert (SENT : sent s s' (length (shared (dist_counts doms)))).
  { match type of E with context [dist_vars ?c ?x s] => pose proof (dist_vars_sent c x s) as H1; destruct (dist_vars c x s) as [[des cs] s1] end. cbn [snd] in H1.
    match type of E with context [dist_weights O cfg ?a ?b ?c s1] => pose proof (dist_weights_sent O cfg a c b s1) as H2; destruct (dist_weights O cfg a b c s1) as [ok s2] end.
    injection E as _ <-. exact (sent_trans _ _ _ _ _ H1 H2). }
  destruct SENT as (new & N1 & N2). exists new. split; [exact N1|]. intros _. clear E N1.
  assert (DE : doms = map (edomain s) es).
  { unfold doms. rewrite G. clear. induction es as [|e r IH]; [easy|]. cbn [map combine]. rewrite IH. reflexivity. }
  assert (W : Forall IntervalSetProofs.wf doms).
  { rewrite DE. apply Forall_map. eapply Forall_impl; [|exact F]. intros e H. now apply edomain_ok. }
  destruct (dist_counts_ok doms W) as [CS CC]. set (m := fold_left (fun m (a : Z * Z) => add m (fst a) (snd a)) (c_asg k) []).
  destruct (fold_intervals (c_asg k) [] I) as [WM MM]. fold m in WM, MM.
  assert (INC : incl (shared (dist_counts doms)) (closed m)).
  { intros v H. unfold shared in H. apply in_map_iff in H as ([w n] & <- & H). apply filter_In in H as [H C]. cbn [fst snd] in *. apply Nat.ltb_lt in C.
    apply (count_in _ _ _ CS) in H. rewrite CC in H.
    destruct (shared_open (c_asg k) doms w) as [(a & A1 & A2 & A3)|X].
    - rewrite DE, G. clear - F. induction F as [|e r H F IH]; cbn [map]; constructor; [|exact IH]. intros C. destruct (edomain_ok s e H) as [W M]. apply (contains_spec _ _ W) in C.
      apply M in C. apply shifts_range in C; [|exact H]. unfold dist_init in C. cbn [fst snd] in *. lia.
    - apply closed_in. assert (Q : mem m (Z.min w (snd a - 1))). { apply MM. right. exists a. split; [exact A1|]. lia. }
      destruct Q as (x & y & Q1 & Q2). exists (x, y). split; [exact Q1|]. cbn [fst snd]. lia.
    - exfalso. pose proof (proj1 (NoDup_count_occ pair_dec _) N (w, w)) as Y. unfold fixed in X. rewrite H in X. apply (Nat.lt_irrefl n). eapply Nat.le_lt_trans; [eapply Nat.le_trans; [exact X|exact Y]|exact C]. }
  pose proof (NoDup_incl_length (csorted_nodup _ CS) INC) as LE. pose proof (closed_length m None WM) as CL.
  unfold dist_estimate in ES. fold m in ES. apply andb_prop in ES as [_ ES]. lia.
Qed.
