(** Constraint propagation in general: what a run of a propagator may do. *)
From Verif Require Import Base Util VarState VarStateProofs Terms TermsSpec Solver OrderSpec
  OrderProofs1 OrderProofs2 OrderProofs3 OrderProofs6 OrderProofs7 OrderProofs8 Sum.
Open Scope Z_scope.

(** Nothing but order literals, facts, the communication with clasp and the data of
    constraints changes. *)
Definition strip3 (s : state) : state := set_ina [] (set_css (fun _ => None) (set_fmap [] (strip s))).
Definition same3 (s s' : state) : Prop := strip3 s' = strip3 s /\ forall y, vbounds (vst s' y) = vbounds (vst s y).
(** Order literals are only added. *)
Definition grow (s s' : state) : Prop := forall x w l, In (w, l) (lits (vst s x)) -> In (w, l) (lits (vst s' x)).

Lemma same3_refl s : same3 s s.
Proof. now split. Qed.
Lemma same3_trans s s1 s2 : same3 s s1 -> same3 s1 s2 -> same3 s s2.
Proof. intros [A B] [C D]. split; [now rewrite C|]. intros y. now rewrite D. Qed.
Lemma same3_get {A} (f : state -> A) : (forall s, f s = f (strip3 s)) -> forall s s', same3 s s' -> f s' = f s.
Proof. intros F s s' [H _]. now rewrite (F s'), (F s), H. Qed.
Lemma same3_nvars s s' : same3 s s' -> nvars s' = nvars s.
Proof. now apply same3_get. Qed.
Lemma same3_cur s s' : same3 s s' -> cur_level s' = cur_level s.
Proof. now apply same3_get. Qed.
Lemma same3_mbound s s' : same3 s s' -> mbound s' = mbound s.
Proof. now apply same3_get. Qed.
Lemma same3_bnds s s' y : same3 s s' -> lb (vst s' y) = lb (vst s y) /\ ub (vst s' y) = ub (vst s y) /\ minb (vst s' y) = minb (vst s y) /\ maxb (vst s' y) = maxb (vst s y).
Proof. intros [_ H]. specialize (H y). unfold vbounds in H. unfold minb, maxb. injection H as -> -> -> ->. easy. Qed.
Lemma same_same3 s s' : same s s' -> same3 s s'.
Proof. intros [H B]. split; [|easy]. unfold strip3. now rewrite H. Qed.
Lemma grow_refl s : grow s s.
Proof. easy. Qed.
Lemma grow_trans s s1 s2 : grow s s1 -> grow s1 s2 -> grow s s2.
Proof. intros A B x w l H. now apply B, A. Qed.
Lemma grow_vst s s' : vst s' = vst s -> grow s s'.
Proof. intros E x w l. now rewrite E. Qed.

Lemma find_none_set m v l : sorted m -> m_find m v = None -> forall w k, In (w, k) m -> In (w, k) (m_set m v l).
Proof. intros S N w k H. apply in_m_set; auto. right. split; [|easy]. intros ->. apply m_find_in in H; auto. congruence. Qed.
Lemma litmap_vst x l v s : vst (snd (update_litmap x l v s)) = vst s.
Proof.
  unfold update_litmap. cbn [snd]. destruct (vlit_lt _ _ =? 0), (vlit_gt _ _ =? 0); cbn; auto.
  - now destruct (valid_entry _ _).
  - now destruct (valid_entry _ _).
  - destruct (valid_entry s _); cbn; now destruct (valid_entry _ _).
Qed.
Lemma litmap_add_vst x v l s : vst (litmap_add x v l s) = vst s.
Proof.
  unfold litmap_add. pose proof (litmap_vst x l v s) as H. destruct (update_litmap x l v s) as [[p n] s1]. exact H.
Qed.
Lemma store_grow x v l s : sorted (lits (vst s x)) -> vfind (vst s x) v = None -> grow s (store_lit x v l s).
Proof.
  intros S N y w k H. unfold store_lit, set_vs. cbn [vst set_vst]. unfold upd. destruct (Nat.eqb y x) eqn:E; [|easy].
  apply Nat.eqb_eq in E. subst. cbn [lits set_lits]. now apply find_none_set.
Qed.
Lemma get_literal_grow cfg x v s l s' : sorted (lits (vst s x)) -> get_literal cfg x v s = (l, s') -> grow s s'.
Proof.
  intros S. unfold get_literal. destruct (v <? _); [intros E; injection E as _ <-; easy|].
  destruct (_ <=? v); [intros E; injection E as _ <-; easy|].
  destruct (vfind (vst s x) v) eqn:F; [intros E; injection E as _ <-; easy|].
  unfold add_literal. intros E. injection E as _ <-.
  eapply grow_trans; [|apply grow_vst; cbn [vst emit add_watch set_log]; apply litmap_add_vst].
  eapply grow_trans; [|apply store_grow; [exact S|exact F]]. easy.
Qed.
Lemma update_literal_grow O cfg x v t s l s' : sorted (lits (vst s x)) -> update_literal O cfg x v t s = (l, s') -> grow s s'.
Proof.
  intros S. unfold update_literal.
  assert (G : get_literal cfg x v s = (l, s') -> grow s s') by now apply get_literal_grow.
  destruct t; [| |exact G]; destruct (0 <? dlevel O s)%nat; auto;
  (destruct (v <? minb _); [intros E; injection E as _ <-; easy|]);
  (destruct (maxb _ <=? v); [intros E; injection E as _ <-; easy|]);
  (destruct (vfind _ v) eqn:F; [intros E; injection E as _ <-; easy|]);
  match goal with |- context [update_litmap ?x ?l ?v ?st] => pose proof (litmap_vst x l v st) as HV; destruct (update_litmap x l v st) as [[p n] s1] end;
  intros E; injection E as _ <-; cbn [snd] in HV;
  (eapply grow_trans; [|apply grow_vst; cbn [vst push_fact set_fmap]; exact HV]); now apply store_grow.
Qed.
Lemma update_literal_same3 O cfg x v t s l s' : update_literal O cfg x v t s = (l, s') ->
  (get_literal cfg x v s = (l, s') -> same s s') -> same3 s s' /\ css s' = css s /\ ina s' = ina s.
Proof.
  unfold update_literal. intros E SG.
  assert (SG' : get_literal cfg x v s = (l, s') -> same3 s s' /\ css s' = css s /\ ina s' = ina s).
  { intros H. apply SG in H. split; [now apply same_same3|]. split; [apply (same_get css)|apply (same_get ina)]; easy. }
  destruct t; [| |exact (SG' E)]; (destruct (0 <? dlevel O s)%nat; [exact (SG' E)|]); clear SG SG'; revert E;
  (destruct (v <? minb _); [intros E; injection E as _ <-; now split|]);
  (destruct (maxb _ <=? v); [intros E; injection E as _ <-; now split|]);
  (destruct (vfind _ v) eqn:F; [intros E; injection E as _ <-; now split|]);
  match goal with |- context [update_litmap ?x ?l ?v ?st] => pose proof (same_litmap x l v st) as HV; destruct (update_litmap x l v st) as [[p n] s1] end;
  intros E; injection E as _ <-; cbn [snd] in HV;
  (eapply same_trans in HV; [|apply same_lits]); (split; [|split; [apply (same_get css) in HV; [exact HV|easy]|apply (same_get ina) in HV; [exact HV|easy]]]);
  (apply same_same3 in HV; exact HV).
Qed.

Lemma wf_push n s : wf s -> wf (push_level n s).
Proof.
  intros W. unfold push_level. destruct (_ <? _)%nat eqn:C; [|exact W].
  destruct W as [[A1 A2 A3 A4 A5 A6] [B1 B2 B3]]. split; constructor; auto. cbn. lia.
Qed.
Lemma wf_set_css f s : wf s -> wf (set_css f s).
Proof. intros [[A1 A2 A3 A4 A5 A6] [B1 B2 B3]]. split; constructor; auto. Qed.

Section Propagators.
Context (O : oracle) (cfg : config) (Base : interp -> Prop) (n0 : Z).
Context (BO : base_ok Base n0) (CO : clasp_ok O Base).
Notation good := (good Base).
Notation step := (step Base).

(** What all remaining solutions satisfy. *)
Definition holds (s : state) (F : interp -> (var -> Z) -> Prop) : Prop := forall I nu, good s I -> order_ok s I nu -> F I nu.
Lemma holds_step P Q s s' F : step P Q s s' -> holds s F -> holds s' F.
Proof. intros S H I nu G Od. destruct (st_bwd _ _ _ _ _ S I nu G Od) as (G1 & O1 & _). now apply H. Qed.

Record pstep (P : interp -> (var -> Z) -> Prop) (s s' : state) (b : bool) : Prop := {
  ps_wf : wf s';
  ps_step : step P T2 s s';
  ps_same : same3 s s';
  ps_grow : grow s s';
  ps_later : b = true -> later O (log s) (log s') }.

Lemma pstep_refl P s b : wf s -> pstep P s s b.
Proof.
  intros W. constructor; auto using same3_refl, grow_refl.
  - apply step_weaken with T2 T2; try easy. apply step_refl. now right.
  - intros _. constructor.
Qed.
Lemma dep_mono n m n' m' P : n <= n' -> (m <= m')%nat -> dep n m P -> dep n' m' P.
Proof.
  intros A B D I J nu nu' H1 H2. apply D; [now apply agree_mono with n'|]. intros x Hx. apply H2. lia.
Qed.
Lemma pstep_trans P s s1 s2 b : dep (nxt s) (nvars s) P -> pstep P s s1 true -> pstep P s1 s2 b -> pstep P s s2 b.
Proof.
  intros D [A1 A2 A3 A4 A5] [B1 B2 B3 B4 B5]. constructor; auto.
  - apply step_trans with (5 := A2) (6 := B2); try easy; tauto.
  - now apply same3_trans with s1.
  - now apply grow_trans with s1.
  - intros Hb. apply later_trans with (log s1); auto.
Qed.
Lemma pstep_weaken (P P' : interp -> (var -> Z) -> Prop) s s' b : holds s (fun I nu => P' I nu -> P I nu) -> pstep P s s' b -> pstep P' s s' b.
Proof.
  intros H [A1 A2 A3 A4 A5]. constructor; auto. apply step_weaken with (1 := A2); auto.
Qed.
Lemma pstep_false P s s' b : pstep P s s' b -> pstep P s s' false.
Proof. intros [A1 A2 A3 A4 A5]. constructor; auto; try easy. Qed.

Lemma pstep_holds (P : interp -> (var -> Z) -> Prop) s s' b : pstep P s s' b -> holds s' P -> step P P s s'.
Proof.
  intros R H. destruct (ps_step _ _ _ _ R) as [A1 A2 A3 A4 A5]. constructor; auto. intros I nu Gd Od. destruct (A5 I nu Gd Od) as (B1 & B2 & _).
  split; [exact B1|]. split; [exact B2|]. now apply H.
Qed.

Lemma pstep_get P x v s l s' : wf s -> (x < nvars s)%nat -> n0 <= nxt s -> get_literal cfg x v s = (l, s') ->
  pstep P s s' true /\ lit_means s' l x v /\ same s s'.
Proof.
  intros W Hx Hn G. destruct (get_literal_ok cfg Base n0 BO x v s l s' (proj1 W) Hx Hn G) as [A B C D F].
  split; [|now split]. constructor.
  - split; [easy|]. rewrite (same_fmap _ _ D). apply B, W.
  - now apply step_weaken with T2 T2.
  - now apply same_same3.
  - apply get_literal_grow with cfg x v l; auto. now apply W.
  - intros _. exact (get_literal_later O cfg x v s l s' G).
Qed.
Lemma means_holds s l x v : (x < nvars s)%nat -> lit_means s l x v -> holds s (fun I nu => lit_true I l <-> nu x <= v).
Proof. intros Hx M I nu G Od. apply (lit_means_ok s l x v I nu); auto. apply G. Qed.
Lemma pstep_update (P : interp -> (var -> Z) -> Prop) x v t s l s' : wf s -> (x < nvars s)%nat -> n0 <= nxt s -> holds s (fun I nu => P I nu -> truth_ok t x v I nu) ->
  update_literal O cfg x v t s = (l, s') ->
  pstep P s s' true /\ lit_means s' l x v /\ css s' = css s /\ ina s' = ina s.
Proof.
  intros W Hx Hn H U. destruct (update_literal_ok O cfg Base n0 BO x v t s l s' W Hx Hn U) as [A B C D F].
  destruct (update_literal_same3 O cfg x v t s l s' U) as (S3 & Cs & Cn).
  { intros G. now apply (pstep_get T2) in G. }
  split; [|now csplit]. constructor; auto.
  - apply step_weaken with (1 := B); auto.
  - apply update_literal_grow with O cfg x v t l; auto. now apply W.
  - intros _. exact (update_literal_later O cfg x v t s l s' U).
Qed.
Lemma pstep_clause (P : interp -> (var -> Z) -> Prop) t c s b s' : wf s -> Forall (below (nxt s)) c -> holds s (fun I nu => P I nu -> clause_true I c) ->
  add_clause O t c s = (b, s') -> pstep P s s' b /\ same s s' /\ nxt s' = nxt s.
Proof.
  intros W B H E. destruct (add_clause_wf O t c s b s' E W B) as (W1 & SM & NX). split; [|now split]. constructor; auto.
  - apply step_weaken with (1 := add_clause_step O Base t c s b s' P E H); easy.
  - now apply same_same3.
  - apply grow_vst. apply same_add_clause in E. tauto.
  - intros ->. now apply add_clause_later in E.
Qed.

(** Facts about clasp's assignment. *)
Lemma fixed_false s l : l <> 0 -> is_false O s l = true -> is_fixed O s l = true -> holds s (fun I nu => ~ lit_true I l).
Proof.
  intros Nz F X I nu (G1 & G2 & G3) _. apply lit_true_neg; auto. apply (cl_top _ _ CO (log s)); auto. right. now apply (cl_fixneg _ _ CO).
Qed.
Lemma later_false s s' l : later O (log s) (log s') -> is_false O s l = true -> is_false O s' l = true.
Proof. intros L. apply (later_true O Base CO _ _ _ L). Qed.
Lemma later_is_true s s' l : later O (log s) (log s') -> is_true O s l = true -> is_true O s' l = true.
Proof. intros L. apply (later_true O Base CO _ _ _ L). Qed.

(** Every bound that is not the bound of the top level is explained by a literal. *)
Definition justified (s : state) : Prop := forall x, (x < nvars s)%nat ->
  (minb (vst s x) < lb (vst s x) -> exists l, In (lb (vst s x) - 1, l) (lits (vst s x)) /\ is_false O s l = true) /\
  (ub (vst s x) < maxb (vst s x) -> exists l, In (ub (vst s x), l) (lits (vst s x)) /\ is_true O s l = true).
Definition bounds_ok (s : state) : Prop := forall x, (x < nvars s)%nat ->
  minb (vst s x) <= lb (vst s x) /\ lb (vst s x) <= ub (vst s x) /\ ub (vst s x) <= maxb (vst s x).

Lemma justified_pstep P s s' : pstep P s s' true -> justified s -> justified s'.
Proof.
  intros [A1 A2 A3 A4 A5] J x Hx. rewrite (same3_nvars _ _ A3) in Hx. destruct (J x Hx) as (J1 & J2).
  destruct (same3_bnds _ _ x A3) as (-> & -> & -> & ->). split.
  - intros H. destruct (J1 H) as (l & L1 & L2). exists l. split; [now apply A4|]. now apply later_false with s; [apply A5|].
  - intros H. destruct (J2 H) as (l & L1 & L2). exists l. split; [now apply A4|]. now apply later_is_true with s; [apply A5|].
Qed.
Lemma bounds_ok_same3 s s' : same3 s s' -> bounds_ok s -> bounds_ok s'.
Proof.
  intros A J x Hx. rewrite (same3_nvars _ _ A) in Hx. destruct (same3_bnds _ _ x A) as (-> & -> & -> & ->). now apply J.
Qed.

(** The literal of the current bound. *)
Lemma lower_false x s l s' : wf s -> justified s -> bounds_ok s -> (x < nvars s)%nat ->
  get_literal cfg x (lb (vst s x) - 1) s = (l, s') -> s' = s /\ is_false O s l = true.
Proof.
  intros W J B Hx E. destruct (J x Hx) as (J1 & _). destruct (B x Hx) as (B1 & B2 & B3). unfold get_literal in E.
  destruct (lb (vst s x) - 1 <? minb (vst s x)) eqn:C1.
  { injection E as <- <-. split; [easy|]. apply (cl_one _ _ CO). }
  destruct J1 as (k & K1 & K2); [lia|]. replace (maxb (vst s x) <=? lb (vst s x) - 1) with false in E by lia.
  assert (F : vfind (vst s x) (lb (vst s x) - 1) = Some k) by (apply m_find_in; [now apply W|easy]).
  rewrite F in E. injection E as <- <-. now split.
Qed.
Lemma upper_true x s l s' : wf s -> justified s -> bounds_ok s -> (x < nvars s)%nat ->
  get_literal cfg x (ub (vst s x)) s = (l, s') -> s' = s /\ is_true O s l = true.
Proof.
  intros W J B Hx E. destruct (J x Hx) as (_ & J1). destruct (B x Hx) as (B1 & B2 & B3). unfold get_literal in E.
  replace (ub (vst s x) <? minb (vst s x)) with false in E by lia.
  destruct (maxb (vst s x) <=? ub (vst s x)) eqn:C1.
  { injection E as <- <-. split; [easy|]. apply (cl_one _ _ CO). }
  destruct J1 as (k & K1 & K2); [lia|].
  assert (F : vfind (vst s x) (ub (vst s x)) = Some k) by (apply m_find_in; [now apply W|easy]).
  rewrite F in E. injection E as <- <-. now split.
Qed.

(** Unit propagation above the top level (clauses added during initialization are queued,
    base.hh 306-326, and have no immediate effect). *)
Definition units_pos : Prop := forall lg t c l, (0 < o_level O lg)%nat -> o_answer O (EClause t c :: lg) = true -> In l c ->
  (forall l', In l' c -> l' <> l -> o_true O lg (- l') = true) -> o_true O (EClause t c :: lg) l = true.
Lemma units_units_pos : units O -> units_pos.
Proof. intros U lg t c l _. apply U. Qed.
Lemma unit2 (U : units_pos) t a b s s' : (0 < dlevel O s)%nat -> add_clause O t [a; b] s = (true, s') -> is_false O s a = true -> is_true O s' b = true.
Proof.
  intros L E F. injection E as A <-. cbn in *. apply (U (log s) t [a; b]); auto; [cbn; tauto|].
  intros l [<-|[<-|[]]] N; [exact F|easy].
Qed.
Lemma all_false (U : units O) t c s s' b : c <> [] -> Forall (fun l => is_false O s l = true) c -> add_clause O t c s = (b, s') -> b = false.
Proof.
  intros N F E. destruct b; [|easy]. exfalso. injection E as A <-. destruct c as [|l r]; [easy|]. rewrite Forall_forall in F.
  assert (H : o_true O (EClause t (l :: r) :: log s) l = true).
  { apply (U (log s) t (l :: r)); auto; [now left|]. intros l' H _. now apply F. }
  apply (cl_cons _ _ CO _ l H). apply (cl_mono _ _ CO); [exact A|]. apply F. now left.
Qed.

End Propagators.
