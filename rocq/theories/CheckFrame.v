(** What the callbacks do with order literals and bounds, whatever clasp answers. *)
From Verif Require Import Base Util VarState VarStateProofs Terms TermsSpec Solver OrderSpec OrderProofs1 OrderProofs2 Orders Sum PropProofs ConSpec
  Distinct DistinctProofs2 Disjoint Objective Search SearchSpec CheckSpec SearchFrame SearchGrow.
Open Scope Z_scope.

(** ** The table of order literals *)

(** Variable, value and sign of the entry of a literal. *)
Definition ekey (e : entry) : var * Z * bool := (e_var e, e_val e, e_pos e).
Definition key (s : state) (k : Z) : option (var * Z * bool) := option_map ekey (lmap s k).
Record tab (s : state) : Prop := {
  tb_nxt : 1 < nxt s;
  tb_sorted : forall x, sorted (lits (vst s x));
  tb_keys : forall k q, key s k = Some q -> k < nxt s;
  tb_lits : forall x w l, In (w, l) (lits (vst s x)) -> below (nxt s) l /\ (Z.abs l <> 1 -> key s (Z.abs l) = Some (x, w, 0 <? l)) }.
(** Order literals stored as true or false come from facts. *)
Definition cov (fs : list fact) (s : state) : Prop := forall x w l, In (w, l) (lits (vst s x)) -> Z.abs l = 1 -> exists f, In f fs /\ f_var f = x /\ f_val f = w.
(** Variables not added yet have no literals and no values. *)
Record out (s : state) : Prop := {
  ot_keys : forall k q, key s k = Some q -> (fst (fst q) < nvars s)%nat;
  ot_vars : forall x, (nvars s <= x)%nat -> lits (vst s x) = [] /\ lbs (vst s x) = [] /\ ubs (vst s x) = [] /\ ub (vst s x) <= lb (vst s x) }.
Section Tg.
Context (O : oracle).
Record tg (s s' : state) : Prop := {
  tg_log : exists es, log s' = es ++ log s /\ Forall within es /\ ((es = [] /\ nxt s' = nxt s) \/ Exists news es);
  tg_nxt : nxt s <= nxt s';
  tg_tab : tab s -> tab s';
  tg_lits : tab s -> forall x w l, In (w, l) (lits (vst s' x)) ->
    In (w, l) (lits (vst s x)) \/ Z.abs l = 1 \/ (nxt s <= Z.abs l /\ In (EWatch l) (log s') /\ In (EWatch (- l)) (log s'));
  tg_cov : tab s -> cov (fmap s) s -> cov (fmap s') s';
  tg_fmap : calm O -> (0 < dlevel O s)%nat -> fmap s = [] -> fmap s' = [];
  tg_tight : forall x, lb (vst s x) <= lb (vst s' x) /\ ub (vst s' x) <= ub (vst s x);
  tg_lvls : lvls s' = lvls s;
  tg_nv : nvars s' = nvars s;
  tg_last : (slast s <= nvars s -> slast s' <= nvars s)%nat;
  tg_out : cur_level s = 0%nat -> out s -> out s' }.
(** The fields without influence on order literals. *)
Definition rest (s : state) : list level * nat * nat := (lvls s, nvars s, slast s).

Lemma calm_app lg es : calm O -> Forall within es -> o_level O (es ++ lg) = o_level O lg.
Proof. intros C. induction es as [|e es IH]; intros F; [reflexivity|]. inversion_clear F. cbn [app]. rewrite C by auto. auto. Qed.
Lemma tg_level s s' : tg s s' -> calm O -> dlevel O s' = dlevel O s.
Proof. intros T C. destruct (tg_log _ _ T) as (es & E & W & _). unfold dlevel. rewrite E. now apply calm_app. Qed.
Lemma tg_trans s s1 s2 : tg s s1 -> tg s1 s2 -> tg s s2.
Proof.
  intros A B. constructor.
  - destruct (tg_log _ _ A) as (e1 & L1 & W1 & N1), (tg_log _ _ B) as (e2 & L2 & W2 & N2). exists (e2 ++ e1).
    split; [now rewrite L2, L1, app_assoc|]. split; [now apply Forall_app|]. rewrite Exists_app.
    destruct N1 as [(-> & N1)|N1]; [|now right; right]. destruct N2 as [(-> & N2)|N2]; [|now right; left]. left. split; [reflexivity|congruence].
  - pose proof (tg_nxt _ _ A). pose proof (tg_nxt _ _ B). lia.
  - intros T. apply (tg_tab _ _ B), (tg_tab _ _ A), T.
  - intros T x w l H. pose proof (tg_nxt _ _ A). apply (tg_lits _ _ B (tg_tab _ _ A T)) in H as [H|[H|H]]; auto.
    + apply (tg_lits _ _ A T) in H as [H|[H|(H1 & H2 & H3)]]; auto. right; right. split; auto.
      destruct (tg_log _ _ B) as (e2 & -> & _). split; apply in_or_app; now right.
    + right; right. intuition lia.
  - intros T C. apply (tg_cov _ _ B (tg_tab _ _ A T)). now apply (tg_cov _ _ A).
  - intros C L F. apply (tg_fmap _ _ B C); [now rewrite (tg_level _ _ A C)|]. now apply (tg_fmap _ _ A).
  - intros x. pose proof (tg_tight _ _ A x). pose proof (tg_tight _ _ B x). lia.
  - rewrite (tg_lvls _ _ B). apply A.
  - rewrite (tg_nv _ _ B). apply A.
  - intros L. rewrite <- (tg_nv _ _ A). apply (tg_last _ _ B). rewrite (tg_nv _ _ A). now apply (tg_last _ _ A).
  - intros L H. apply (tg_out _ _ B); [unfold cur_level; now rewrite (tg_lvls _ _ A)|now apply (tg_out _ _ A)].
Qed.
Lemma tab_ext s s' : (forall x, lits (vst s' x) = lits (vst s x)) -> (forall k, key s' k = key s k) -> nxt s' = nxt s -> tab s -> tab s'.
Proof.
  intros A B C [P Q R T]. constructor.
  - now rewrite C.
  - intros x. now rewrite A.
  - intros k q. rewrite B, C. apply R.
  - intros x w l. rewrite A, B, C. apply T.
Qed.
Lemma cov_ext fs s s' : (forall x, lits (vst s' x) = lits (vst s x)) -> cov fs s -> cov fs s'.
Proof. intros A B x w l. rewrite A. apply B. Qed.
Lemma out_ext s s' : (forall k q, key s' k = Some q -> key s k = Some q) -> (forall x, (nvars s <= x)%nat -> lits (vst s' x) = lits (vst s x)) ->
  (forall x, lbs (vst s' x) = lbs (vst s x) /\ ubs (vst s' x) = ubs (vst s x)) ->
  (forall x, lb (vst s x) <= lb (vst s' x) /\ ub (vst s' x) <= ub (vst s x)) -> nvars s' = nvars s -> out s -> out s'.
Proof.
  intros A B C D E [F G]. constructor.
  - intros k q H. rewrite E. apply (F k), A, H.
  - intros x L. rewrite E in L. destruct (G x L) as (G1 & G2 & G3 & G4). destruct (C x) as [-> ->]. rewrite (B x L). destruct (D x). repeat split; auto. lia.
Qed.
(** Steps without effect on order literals. *)
Lemma tg_still s s' : (forall x, lits (vst s' x) = lits (vst s x)) -> (forall k, key s' k = key s k) -> nxt s' = nxt s -> log s' = log s -> fmap s' = fmap s ->
  (forall x, lb (vst s x) <= lb (vst s' x) /\ ub (vst s' x) <= ub (vst s x)) -> rest s' = rest s ->
  (cur_level s = 0%nat -> forall x, lbs (vst s' x) = lbs (vst s x) /\ ubs (vst s' x) = ubs (vst s x)) -> tg s s'.
Proof.
  intros A B C D E F G H. injection G as G1 G2 G3. constructor; auto.
  - exists []. split; [exact D|]. split; [constructor|]. now left.
  - lia.
  - now apply tab_ext.
  - intros _ x w l. rewrite A. auto.
  - intros _. rewrite E. now apply cov_ext.
  - now rewrite E.
  - now rewrite G3.
  - intros L. apply out_ext; auto. intros k q. now rewrite B.
Qed.
Definition fixed6 (s s' : state) : Prop := vst s' = vst s /\ lmap s' = lmap s /\ nxt s' = nxt s /\ log s' = log s /\ fmap s' = fmap s /\ rest s' = rest s.
Lemma tg_fixed6 s s' : fixed6 s s' -> tg s s'.
Proof. intros (A & B & C & D & E & F). apply tg_still; auto; intros x; unfold key; rewrite ?A, ?B; auto. lia. Qed.
Lemma tg_refl s : tg s s.
Proof. now apply tg_fixed6. Qed.
(** Communication without effect on order literals. *)
Lemma tg_say es s s' : vst s' = vst s -> lmap s' = lmap s -> nxt s' = nxt s -> fmap s' = fmap s -> log s' = es ++ log s -> Forall within es -> Exists news es -> rest s' = rest s -> tg s s'.
Proof.
  intros A B C D E F G H. injection H as H1 H2 H3. constructor.
  - exists es. auto.
  - lia.
  - apply tab_ext; auto; intros; unfold key; now rewrite ?A, ?B.
  - intros _ x w l. rewrite A. auto.
  - intros _. rewrite D. apply cov_ext. intros. now rewrite A.
  - now rewrite D.
  - intros x. rewrite A. lia.
  - exact H1.
  - exact H2.
  - now rewrite H3.
  - intros _. apply out_ext; auto; intros; unfold key in *; rewrite ?A, ?B in *; auto. lia.
Qed.
Lemma tg_clause t c s : tg s (snd (add_clause O t c s)).
Proof. apply tg_say with [EClause t c]; try reflexivity; repeat constructor. Qed.
Lemma tg_conflict c s : tg s (let '(ok, s1) := add_clause O Learnt c s in if ok then snd (cc_propagate O s1) else s1).
Proof.
  unfold add_clause, cc_propagate. destruct (o_answer _ _); cbn [snd].
  - apply tg_say with [EProp; EClause Learnt c]; try reflexivity; [repeat constructor|apply Exists_cons_tl; now constructor].
  - apply tg_say with [EClause Learnt c]; try reflexivity; repeat constructor.
Qed.

(** *** Changes of the table *)
Lemma key_litmap x l v s k : key (snd (update_litmap x l v s)) k = key s k.
Proof.
  unfold update_litmap. cbn [snd]. set (s1 := if vlit_lt _ _ =? 0 then s else _).
  assert (U : forall t p e e' k, lmap t p = Some e -> ekey e' = ekey e -> key (set_lmap (updz (lmap t) p (Some e')) t) k = key t k).
  { intros t p e e' j L E. unfold key. cbn [lmap set_lmap]. unfold updz. destruct (Z.eqb_spec j p) as [->|]; [|reflexivity]. rewrite L. cbn [option_map]. now rewrite E. }
  assert (V : forall t p e, valid_entry t p = Some e -> lmap t (Z.abs p) = Some e).
  { intros t p e. unfold valid_entry, lookup. destruct (lmap t (Z.abs p)) as [e0|]; [|discriminate]. destruct (Bool.eqb _ _); [auto|discriminate]. }
  assert (K1 : key s1 k = key s k).
  { unfold s1. destruct (_ =? 0); [reflexivity|]. destruct (valid_entry s _) as [e|] eqn:E; [|reflexivity]. apply U with e; [now apply V|reflexivity]. }
  rewrite <- K1. clearbody s1. destruct (vlit_gt _ _ =? 0); [reflexivity|]. destruct (valid_entry s1 _) as [e|] eqn:E; [|reflexivity]. apply U with e; [now apply V|reflexivity].
Qed.
Lemma litmap_nxt x l v s : nxt (snd (update_litmap x l v s)) = nxt s.
Proof.
  unfold update_litmap. cbn [snd]. destruct (vlit_lt _ _ =? 0), (vlit_gt _ _ =? 0); cbn; auto.
  - now destruct (valid_entry _ _).
  - now destruct (valid_entry _ _).
  - destruct (valid_entry s _); cbn; now destruct (valid_entry _ _).
Qed.
Lemma litmap_fmap x l v s : fmap (snd (update_litmap x l v s)) = fmap s.
Proof. apply same_fmap, same_litmap. Qed.
Lemma litmap_rest x l v s : rest (snd (update_litmap x l v s)) = rest s.
Proof. apply same_get with (f := rest); [reflexivity|apply same_litmap]. Qed.
Lemma tg_litmap x l v s : tg s (snd (update_litmap x l v s)).
Proof.
  apply tg_still; auto using key_litmap, litmap_nxt, litmap_log, litmap_fmap, litmap_rest; intros; rewrite litmap_vst; auto. lia.
Qed.
Lemma store_lits x v l s y w k : sorted (lits (vst s x)) -> (In (w, k) (lits (vst (store_lit x v l s) y)) <->
  (y = x /\ w = v /\ k = l) \/ (~ (y = x /\ w = v) /\ In (w, k) (lits (vst s y)))).
Proof.
  intros S. unfold store_lit, set_vs. cbn [vst set_vst]. unfold upd. destruct (Nat.eqb_spec y x) as [->|N]; [|intuition].
  cbn [lits set_lits]. rewrite in_m_set by exact S. intuition.
Qed.
Lemma store_sorted x v l s y : sorted (lits (vst s y)) -> sorted (lits (vst (store_lit x v l s) y)).
Proof. intros S. unfold store_lit, set_vs. cbn [vst set_vst]. unfold upd. destruct (Nat.eqb_spec y x) as [->|N]; [|auto]. cbn [lits set_lits]. now apply m_set_sorted. Qed.
Lemma store_bounds x v l s y : lb (vst (store_lit x v l s) y) = lb (vst s y) /\ ub (vst (store_lit x v l s) y) = ub (vst s y).
Proof. unfold store_lit, set_vs. cbn [vst set_vst]. unfold upd. now destruct (Nat.eqb_spec y x) as [->|N]. Qed.
Lemma erase_lits x v s y w k : sorted (lits (vst s x)) -> (In (w, k) (lits (vst (erase_lit x v s) y)) <-> ~ (y = x /\ w = v) /\ In (w, k) (lits (vst s y))).
Proof.
  intros S. unfold erase_lit, set_vs. cbn [vst set_vst]. unfold upd. destruct (Nat.eqb_spec y x) as [->|N]; [|intuition].
  cbn [lits set_lits]. rewrite OrderProofs1.in_m_erase by exact S. intuition.
Qed.
Lemma tg_erase x v s : tg s (erase_lit x v s).
Proof.
  assert (T : tab s -> tab (erase_lit x v s)).
  { intros [P Q R T]. constructor; auto.
    - intros y. unfold erase_lit, set_vs. cbn [vst set_vst]. unfold upd. destruct (Nat.eqb_spec y x) as [->|]; [|auto]. apply m_erase_sorted, Q.
    - intros y w l H. apply erase_lits in H as [_ H]; [|apply Q]. now apply T. }
  constructor; auto.
  - exists []. split; [reflexivity|]. split; [constructor|now left].
  - cbn. lia.
  - intros T0 y w l H. apply erase_lits in H as [_ H]; [|apply T0]. auto.
  - intros T0 C y w l H. apply erase_lits in H as [_ H]; [|apply T0]. now apply C.
  - intros y. unfold erase_lit, set_vs. cbn [vst set_vst]. unfold upd. destruct (Nat.eqb_spec y x) as [->|]; cbn; lia.
  - intros _ H. apply out_ext with s; auto; intros y; unfold erase_lit, set_vs; cbn [vst set_vst]; unfold upd; destruct (Nat.eqb_spec y x) as [->|]; cbn; auto; try lia.
    intros L. destruct (ot_vars _ H x L) as (-> & _). reflexivity.
Qed.
Lemma out_guard x v s : out s -> minb (vst s x) <= v -> v < maxb (vst s x) -> (x < nvars s)%nat.
Proof.
  intros [_ G] A B. destruct (Nat.lt_ge_cases x (nvars s)) as [|L]; [assumption|]. destruct (G x L) as (_ & G1 & G2 & G3).
  unfold minb in A. unfold maxb in B. rewrite G1 in A. rewrite G2 in B. lia.
Qed.
(** A new order literal. *)
Lemma tg_get cfg x v s : tg s (snd (get_literal cfg x v s)).
Proof.
  unfold get_literal. destruct (Z.ltb_spec v (minb (vst s x))) as [|G1]; [apply tg_refl|]. destruct (Z.leb_spec (maxb (vst s x)) v) as [|G2]; [apply tg_refl|]. destruct (vfind _ _); [apply tg_refl|].
  unfold add_literal. cbn [snd]. set (l := if sign_value cfg <=? v then - nxt s else nxt s).
  set (s1 := emit (ELit (nxt s)) (set_nxt (nxt s + 1) s)). set (s2 := store_lit x v l s1).
  assert (AL : 1 < nxt s -> Z.abs l = nxt s) by (unfold l; destruct (_ <=? _); lia).
  assert (LG : log (litmap_add x v l s2) = ELit (nxt s) :: log s).
  { unfold litmap_add. pose proof (litmap_log x l v s2) as H. destruct (update_litmap x l v s2) as [[p n] s3]. exact H. }
  assert (NX : nxt (litmap_add x v l s2) = nxt s + 1).
  { unfold litmap_add. pose proof (litmap_nxt x l v s2) as H. destruct (update_litmap x l v s2) as [[p n] s3]. exact H. }
  assert (FM : fmap (litmap_add x v l s2) = fmap s).
  { unfold litmap_add. pose proof (litmap_fmap x l v s2) as H. destruct (update_litmap x l v s2) as [[p n] s3]. exact H. }
  assert (LV : rest (litmap_add x v l s2) = rest s).
  { unfold litmap_add. pose proof (litmap_rest x l v s2) as H. destruct (update_litmap x l v s2) as [[p n] s3]. exact H. }
  assert (KE : forall k, key (litmap_add x v l s2) k = if k =? Z.abs l then Some (x, v, 0 <? l) else key s k).
  { intros k. unfold litmap_add. pose proof (key_litmap x l v s2 k) as H. destruct (update_litmap x l v s2) as [[p n] s3]. cbn [snd] in H.
    unfold key in *. cbn [lmap set_lmap]. unfold updz. destruct (_ =? _); [reflexivity|exact H]. }
  assert (VS : vst (litmap_add x v l s2) = vst s2) by apply litmap_add_vst.
  set (s3 := litmap_add x v l s2) in *. clearbody s3. injection LV as LV1 LV2 LV3.
  assert (T : tab s -> tab (add_watch (- l) (add_watch l s3))).
  { intros [P Q R T]. specialize (AL P). constructor.
    - cbn. rewrite NX. lia.
    - intros y. cbn. rewrite VS. apply store_sorted. apply Q.
    - intros k q H. change (key s3 k = Some q) in H. rewrite KE in H. cbn. rewrite NX. destruct (Z.eqb_spec k (Z.abs l)) as [->|]; [lia|]. apply R in H. lia.
    - intros y w k H. change (key (add_watch (- l) (add_watch l s3)) (Z.abs k)) with (key s3 (Z.abs k)). cbn in *. rewrite VS in H. rewrite NX, KE.
      apply store_lits in H; [|apply Q]. destruct H as [(-> & -> & ->)|(_ & H)].
      + rewrite Z.eqb_refl. split; [|auto]. split; [|lia]. intros E0. rewrite E0 in AL. cbn in AL. lia.
      + cbn in H. apply T in H as [(B1 & B2) K]. split; [split; [auto|lia]|]. intros N. destruct (Z.eqb_spec (Z.abs k) (Z.abs l)); [lia|auto]. }
  constructor; auto.
  - exists [EWatch (- l); EWatch l; ELit (nxt s)]. cbn [add_watch emit log set_log]. rewrite LG. split; [reflexivity|].
    split; [now repeat constructor|]. right. apply Exists_cons_tl, Exists_cons_tl. now constructor.
  - cbn. rewrite NX. lia.
  - intros T0 y w k H. cbn in H. rewrite VS in H. apply store_lits in H; [|apply T0]. destruct H as [(-> & -> & ->)|(_ & H)]; [|now left].
    right; right. rewrite (AL (tb_nxt _ T0)). cbn. rewrite LG. split; [lia|]. split; [right; now left|now left].
  - intros T0 C y w k H A1. cbn in H. rewrite VS in H. cbn. rewrite FM. apply store_lits in H; [|apply T0]. destruct H as [(-> & -> & ->)|(_ & H)]; [|now apply (C y w k)].
    pose proof (AL (tb_nxt _ T0)). pose proof (tb_nxt _ T0). lia.
  - intros _ _ E. cbn. now rewrite FM.
  - intros y. cbn [vst add_watch emit set_log]. rewrite VS. unfold s2. destruct (store_bounds x v l s1 y) as [-> ->]. cbn. lia.
  - cbn. now rewrite LV3.
  - intros _ H. pose proof (out_guard x v s H G1 G2) as X. destruct H as [F G]. constructor.
    + intros k q K. change (key s3 k = Some q) in K. cbn. rewrite LV2. rewrite KE in K. destruct (_ =? _); [injection K as <-; exact X|now apply F with k].
    + intros y L. cbn in L |- *. rewrite LV2 in L. rewrite VS. unfold s2, store_lit, set_vs. cbn [vst set_vst]. unfold upd. destruct (Nat.eqb_spec y x) as [->|]; [lia|]. now apply G.
Qed.
(** Storing a literal as true or false together with a fact. *)
Lemma tg_store x v t f s s' : Z.abs t = 1 -> f_var f = x -> f_val f = v -> (calm O -> dlevel O s = 0%nat) -> vst s' = vst (store_lit x v t s) ->
  (tab s -> forall k, key s' k = key s k \/ (key s' k = None /\ forall y w l, In (w, l) (lits (vst s' y)) -> Z.abs l <> 1 -> Z.abs l <> k)) ->
  nxt s' = nxt s -> log s' = log s -> fmap s' = fmap s ++ [f] -> rest s' = rest s ->
  (out s -> (x < nvars s)%nat /\ forall k q, key s' k = Some q -> key s k = Some q) -> tg s s'.
Proof.
  intros A FV FW L B K C D E LV0 OT. constructor.
  - exists []. split; [exact D|]. split; [constructor|now left].
  - lia.
  - intros TT. pose proof TT as [P Q R T]. constructor.
    + lia.
    + intros y. rewrite B. apply store_sorted, Q.
    + intros k q H. rewrite C. destruct (K TT k) as [K1|(K1 & _)]; [rewrite K1 in H; eauto|congruence].
    + intros y w l H. pose proof H as H0. rewrite B in H. rewrite C. apply store_lits in H; [|apply Q]. destruct H as [(-> & -> & ->)|(_ & H)].
      * split; [|lia]. split; lia.
      * apply T in H as [B1 B2]. split; [auto|]. intros N. destruct (K TT (Z.abs l)) as [->|(_ & K2)]; [auto|]. destruct (K2 y w l H0 N eq_refl).
  - intros T0 y w l H. rewrite B in H. apply store_lits in H; [|apply T0]. destruct H as [(-> & -> & ->)|(_ & H)]; auto.
  - intros T0 CV y w l H A1. rewrite B in H. rewrite E. apply store_lits in H; [|apply T0]. destruct H as [(-> & -> & ->)|(_ & H)].
    + exists f. split; [apply in_or_app; right; now left|auto].
    + destruct (CV y w l H A1) as (g & G1 & G2). exists g. split; [apply in_or_app; now left|auto].
  - intros CA LV. specialize (L CA). lia.
  - intros y. rewrite B. destruct (store_bounds x v t s y) as [-> ->]. lia.
  - now injection LV0.
  - now injection LV0.
  - injection LV0 as _ _ LV3. now rewrite LV3.
  - intros _ H. destruct (OT H) as (X & KK). injection LV0 as _ LV2 _. apply out_ext with s; auto; intros y; rewrite B.
    + intros Y. unfold store_lit, set_vs. cbn [vst set_vst]. unfold upd. destruct (Nat.eqb_spec y x) as [->|]; [lia|reflexivity].
    + unfold store_lit, set_vs. cbn [vst set_vst]. unfold upd. now destruct (Nat.eqb_spec y x) as [->|].
    + destruct (store_bounds x v t s y) as [-> ->]. lia.
Qed.
Lemma tg_upd cfg x v t s : tg s (snd (update_literal O cfg x v t s)).
Proof.
  pose proof (tg_get cfg x v s) as G. unfold update_literal. destruct t; [| |exact G];
  (destruct (0 <? dlevel O s)%nat eqn:LV; [exact G|]);
  (destruct (Z.ltb_spec v (minb (vst s x))) as [|G1]; [apply tg_refl|]; destruct (Z.leb_spec (maxb (vst s x)) v) as [|G2]; [apply tg_refl|]; destruct (vfind _ _); [apply tg_refl|]);
  apply Nat.ltb_ge in LV;
  match goal with |- context [update_litmap ?x ?l ?v ?st] => pose proof (litmap_vst x l v st) as HV; pose proof (litmap_log x l v st) as HL;
    pose proof (litmap_nxt x l v st) as HN; pose proof (litmap_fmap x l v st) as HF; pose proof (litmap_rest x l v st) as HLV; pose proof (key_litmap x l v st) as HK; destruct (update_litmap x l v st) as [[p n] s1] end;
  cbn [snd] in *;
  match goal with |- context [mkf ?l x v ?q] => apply (tg_store x v l (mkf l x v q)) end; auto; try lia; try (cbn; now rewrite HF);
    (try solve [intros _ k; left; exact (HK k)]); intros OT; (split; [now apply out_guard with v|]); intros k q K; rewrite <- K; symmetry; exact (HK k).
Qed.
Lemma valid_key s l e : valid_entry s l = Some e -> key s (Z.abs l) = Some (e_var e, e_val e, 0 <? l).
Proof.
  unfold valid_entry, lookup, key. destruct (lmap s (Z.abs l)) as [e0|]; [|discriminate]. destruct (Bool.eqb _ _) eqn:B; [|discriminate].
  intros E; injection E as ->. apply Bool.eqb_prop in B. cbn [option_map]. unfold ekey. now rewrite B.
Qed.
Lemma tg_fix l t s : Z.abs t = 1 -> (calm O -> dlevel O s = 0%nat) -> tg s (fix_literal l t s).
Proof.
  intros A L. unfold fix_literal. destruct (valid_entry s l) as [e|] eqn:V; [|apply tg_refl]. apply valid_key in V.
  set (q := if t =? TRUE_LIT then _ else _). set (s1 := store_lit (e_var e) (e_val e) t s).
  apply (tg_store (e_var e) (e_val e) t (mkf t (e_var e) (e_val e) q)); auto.
  - cbn [vst set_lmap push_fact set_fmap]. now rewrite litmap_vst.
  - intros T k. unfold key at 1 3. cbn [lmap set_lmap]. unfold updz. destruct (Z.eqb_spec k (Z.abs l)) as [->|].
    + right. split; [reflexivity|]. intros y w j H N N2. cbn [vst set_lmap push_fact set_fmap] in H. rewrite litmap_vst in H.
      apply store_lits in H; [|apply T]. destruct H as [(-> & -> & ->)|(NE & H)]; [lia|]. apply T in H as [_ H]. specialize (H N). rewrite N2, V in H.
      injection H as E1 E2 _. auto.
    + left. change (key (snd (update_litmap (e_var e) t (e_val e) s1)) k = key s k). now rewrite key_litmap.
  - exact (litmap_nxt (e_var e) t (e_val e) s1).
  - exact (litmap_log (e_var e) t (e_val e) s1).
  - cbn [fmap set_lmap push_fact set_fmap]. now rewrite (litmap_fmap (e_var e) t (e_val e) s1).
  - exact (litmap_rest (e_var e) t (e_val e) s1).
  - intros OT. split; [exact (ot_keys _ OT _ _ V)|]. intros k j. unfold key at 1. cbn [lmap set_lmap]. unfold updz. destruct (Z.eqb_spec k (Z.abs l)) as [->|]; [discriminate|].
    change (key (snd (update_litmap (e_var e) t (e_val e) s1)) k = Some j -> key s k = Some j). now rewrite key_litmap.
Qed.
(** Afterwards the literal is not used any more. *)
Lemma fix_gone l t s : tab s -> Z.abs t = 1 -> Z.abs l <> 1 -> forall y w k, In (w, k) (lits (vst (fix_literal l t s) y)) -> k <> l.
Proof.
  intros T A N y w k H ->. unfold fix_literal in H. destruct (valid_entry s l) as [e|] eqn:V.
  - apply valid_key in V. cbn [vst set_lmap push_fact set_fmap] in H. rewrite litmap_vst in H.
    apply store_lits in H; [|apply T]. destruct H as [(-> & -> & ->)|(NE & H)]; [lia|]. apply T in H as [_ H]. specialize (H N). rewrite V in H. injection H as E1 E2. auto.
  - apply T in H as [_ H]. specialize (H N). unfold valid_entry, lookup in V. unfold key in H. destruct (lmap s (Z.abs l)) as [e|]; [|discriminate].
    cbn in H. injection H as _ _ H. rewrite H, Bool.eqb_reflx in V. discriminate.
Qed.
Lemma fix_sub l t s : tab s -> Z.abs t = 1 -> forall y w k, Z.abs k <> 1 -> In (w, k) (lits (vst (fix_literal l t s) y)) -> In (w, k) (lits (vst s y)).
Proof.
  intros T A y w k N H. unfold fix_literal in H. destruct (valid_entry s l) as [e|] eqn:V; [|exact H].
  cbn [vst set_lmap push_fact set_fmap] in H. rewrite litmap_vst in H. apply store_lits in H; [|apply T]. destruct H as [(-> & -> & ->)|(NE & H)]; [lia|auto].
Qed.
Lemma talk_tg cfg s s' : talk O cfg s s' -> tg s s'.
Proof.
  induction 1; [apply tg_refl|..]; eapply tg_trans; eauto.
  - apply tg_get.
  - apply tg_upd.
  - apply tg_clause.
  - now apply tg_fixed6.
Qed.
End Tg.
