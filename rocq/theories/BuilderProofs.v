From Verif Require Import Base Util UtilProofs IntervalSet IntervalSetProofs VarState Terms TermsSpec TermsProofs TermsProofs3 StatementsProofs Solver OrderSpec OrderProofs1 OrderProofs2 OrderProofs3 OrderProofs5 OrderProofs6 OrderProofs7
  Sum PropProofs ConSpec Search SearchSpec SearchFrame SearchGrow SearchInv5 SearchSetup Builder BuilderSpec.
From Coq Require Import Permutation.
Open Scope Z_scope.

Lemma ck_val t x r : ck t x = Ok r -> r = x.
Proof. unfold ck. destruct (in_range _ _); [|discriminate]. intros E. now injection E as <-. Qed.

(** ** Frames of add_simple and add_dom *)
Section Frames.
Context (O : oracle) (cfg : config).
Lemma only_clause t c s : literals_only s (snd (add_clause O t c s)).
Proof. apply only_emit. Qed.
Lemma only_litmap_add x v l s : literals_only s (litmap_add x v l s).
Proof.
  unfold litmap_add. pose proof (only_litmap x l v s) as H. destruct (update_litmap _ _ _ _) as [[p n] s1]. cbn [snd] in H.
  eapply only_trans; [exact H|]. now repeat split.
Qed.
Lemma wgrow_clause t c s : wgrow s (snd (add_clause O t c s)).
Proof. apply wgrow_emit. exact Logic.I. Qed.
Lemma wgrow_literal s : wgrow s (snd (add_literal s)).
Proof. cbn [add_literal snd]. eapply wgrow_trans; [|apply wgrow_emit; exact Logic.I]. now apply wgrow_same. Qed.
Lemma only_literal s : literals_only s (snd (add_literal s)).
Proof. now repeat split. Qed.

Definition fr (s s' : state) : Prop := literals_only s s' /\ wgrow s s'.
Lemma fr_refl s : fr s s.
Proof. split; [apply only_refl|apply wgrow_refl]. Qed.
Lemma fr_trans s s1 s2 : fr s s1 -> fr s1 s2 -> fr s s2.
Proof. intros [A B] [C D]. split; [now apply only_trans with s1|now apply wgrow_trans with s1]. Qed.
Lemma fr_clause t c s : fr s (snd (add_clause O t c s)).
Proof. split; [apply only_clause|apply wgrow_clause]. Qed.
Lemma fr_literal s : fr s (snd (add_literal s)).
Proof. split; [apply only_literal|apply wgrow_literal]. Qed.
Lemma fr_get x v s : fr s (snd (get_literal cfg x v s)).
Proof. split; [apply only_get|apply get_literal_wgrow]. Qed.
Lemma fr_upd x v t s : fr s (snd (update_literal O cfg x v t s)).
Proof. split; [apply only_upd|apply update_literal_wgrow]. Qed.
Lemma fr_watched x v l s : fr s (store_lit x v l (litmap_add x v l (add_watch (- l) (add_watch l s)))).
Proof.
  set (s1 := add_watch (- l) (add_watch l s)). split.
  - apply only_trans with s1; [eapply only_trans; apply only_emit|]. eapply only_trans; [apply only_litmap_add|apply only_store].
  - assert (W1 : wgrow s s1) by (eapply wgrow_trans; apply wgrow_emit; exact Logic.I).
    assert (L : log (store_lit x v l (litmap_add x v l s1)) = log s1).
    { unfold store_lit, litmap_add. pose proof (litmap_log x l v s1) as H. destruct (update_litmap _ _ _ _) as [[p n] s2]. exact H. }
    destruct W1 as ((es & E & F) & W). split; [exists es; rewrite L; auto|].
    intros y w k I. apply store_in in I as [I|I].
    + assert (V : vst (litmap_add x v l s1) = vst s1). { unfold litmap_add. pose proof (litmap_vst x l v s1) as H. destruct (update_litmap _ _ _ _) as [[p n] s2]. exact H. }
      rewrite V in I. apply W in I. rewrite L. exact I.
    + injection I as -> ->. right. right. rewrite L. split; [right|]; now left.
Qed.
Lemma add_simple_fr clit co x rhs strict s : fr s (snd (add_simple O cfg clit co x rhs strict s)).
Proof.
  unfold add_simple. destruct (negb strict && _); [apply fr_refl|].
  destruct (strict && _ && _ && _).
  - assert (F : forall t l, Z.abs l = 1 -> fr s (snd (let '((p, n), s1) := update_litmap x l (simple_value co rhs) s in
        (true, store_lit x (simple_value co rhs) l (push_fact (mkf l x (simple_value co rhs) (match t with TTrue => n | _ => p end)) s1))))).
    { intros t l A. pose proof (only_litmap x l (simple_value co rhs) s) as H. pose proof (wgrow_litmap x l (simple_value co rhs) s) as H'.
      destruct (update_litmap _ _ _ _) as [[p n] s1]. cbn [snd] in *. split.
      - eapply only_trans; [exact H|]. eapply only_trans; [|apply only_store]. now repeat split.
      - eapply wgrow_trans; [exact H'|]. eapply wgrow_trans; [|now apply wgrow_store]. now apply wgrow_same. }
    destruct (if 0 <? co then _ else _).
    + apply (F TTrue). reflexivity.
    + apply (F TFalse). reflexivity.
    + destruct (lookup s _) as [e|].
      * destruct (add_literal s) as [l' s1] eqn:E1. assert (F1 : fr s s1) by (replace s1 with (snd (add_literal s)) by (now rewrite E1); apply fr_literal).
        destruct (add_clause O Learnt _ s1) as [ok s2] eqn:E2. assert (F2 : fr s1 s2) by (change s2 with (snd (ok, s2)); rewrite <- E2; apply fr_clause).
        destruct ok; [|apply fr_trans with s1; auto].
        destruct (add_clause O Learnt _ s2) as [ok s3] eqn:E3. assert (F3 : fr s2 s3) by (change s3 with (snd (ok, s3)); rewrite <- E3; apply fr_clause).
        destruct ok; [|apply fr_trans with s1; auto; now apply fr_trans with s2]. cbn [snd].
        apply fr_trans with s1; auto. apply fr_trans with s2; auto. apply fr_trans with s3; auto. apply fr_watched.
      * cbn [snd]. apply fr_watched.
  - pose proof (fr_upd x (simple_value co rhs) (if 0 <? co then truth_value O s clit else truth_value O s (- clit)) s) as F1.
    destruct (update_literal _ _ _ _ _ _) as [l s1]. cbn [snd] in F1.
    destruct (add_clause O Learnt _ s1) as [ok s2] eqn:E2. assert (F2 : fr s1 s2) by (change s2 with (snd (ok, s2)); rewrite <- E2; apply fr_clause).
    destruct ok; [|now apply fr_trans with s1]. destruct strict; [|now apply fr_trans with s1].
    apply fr_trans with s1; auto. apply fr_trans with s2; auto. apply fr_clause.
Qed.
Lemma dom_up_fr l x dom : forall py s, fr s (snd (dom_up O cfg l x py dom s)).
Proof.
  induction dom as [|(a, b) dom IH]; intros py s; cbn [dom_up]; [apply fr_refl|].
  destruct (match py with Some p => _ | None => _ end) as [ly s1] eqn:E1.
  assert (F1 : fr s s1).
  { destruct py as [p|]; [|injection E1 as _ <-; apply fr_refl]. pose proof (fr_get x (p - 1) s) as H. destruct (get_literal _ _ _ _). now injection E1 as _ <-. }
  destruct (update_literal O cfg x (a - 1) _ s1) as [lx s2] eqn:E2. assert (F2 : fr s1 s2) by (change s2 with (snd (lx, s2)); rewrite <- E2; apply fr_upd).
  destruct (add_clause O Learnt _ s2) as [ok s3] eqn:E3. assert (F3 : fr s2 s3) by (change s3 with (snd (ok, s3)); rewrite <- E3; apply fr_clause).
  destruct ok; (apply fr_trans with s1; auto; apply fr_trans with s2; auto). apply fr_trans with s3; auto.
Qed.
Lemma dom_down_fr l x dom : forall py s, fr s (snd (dom_down O cfg l x py dom s)).
Proof.
  induction dom as [|(a, b) dom IH]; intros py s; cbn [dom_down]; [apply fr_refl|].
  destruct (match py with Some p => _ | None => _ end) as [ly s1] eqn:E1.
  assert (F1 : fr s s1).
  { destruct py as [p|]; [|injection E1 as _ <-; apply fr_refl]. pose proof (fr_get x (p - 1) s) as H. destruct (get_literal _ _ _ _). now injection E1 as _ <-. }
  destruct (update_literal O cfg x (b - 1) _ s1) as [lx s2] eqn:E2. assert (F2 : fr s1 s2) by (change s2 with (snd (lx, s2)); rewrite <- E2; apply fr_upd).
  destruct (add_clause O Learnt _ s2) as [ok s3] eqn:E3. assert (F3 : fr s2 s3) by (change s3 with (snd (ok, s3)); rewrite <- E3; apply fr_clause).
  destruct ok; (apply fr_trans with s1; auto; apply fr_trans with s2; auto). apply fr_trans with s3; auto.
Qed.
Lemma add_dom_fr l x dom s : fr s (snd (add_dom O cfg l x dom s)).
Proof.
  unfold add_dom. destruct (is_false _ _ _); [apply fr_refl|].
  pose proof (dom_up_fr (if is_true O s l then TRUE_LIT else l) x dom None s) as H. destruct (dom_up _ _ _ _ _ _ _) as [ok s1]. cbn [snd] in H.
  destruct ok; auto. apply fr_trans with s1; auto. apply dom_down_fr.
Qed.
End Frames.

Lemma lval_lin nu es : lval nu es = lin_val nu es.
Proof. induction es as [|[c x] es IH]; cbn; congruence. Qed.
Lemma lval_perm nu es es' : Permutation es es' -> lval nu es = lval nu es'.
Proof. induction 1 as [|[c x] a b P IH|[c x] [d y] a|a b c P1 IH1 P2 IH2]; cbn; lia. Qed.
Lemma lval_ext m nu nu' es : Forall (fun x => x < m)%nat (map snd es) -> ext_nu m nu nu' -> lval nu' es = lval nu es.
Proof.
  intros F E. induction es as [|[c x] es IH]; cbn in *; [easy|]. inversion_clear F. rewrite IH by easy. now rewrite (E x).
Qed.

Lemma csem_dep n m d : con_ok n m d -> dep n m (csem None d).
Proof.
  intros [B V] I J nu nu' A E. destruct d as [l rhs es|ad es|l es|l es|l ca x y cb z rhs]; cbn [csem cvars c_lit] in *; auto.
  - rewrite (lit_true_agree n I J l A B), (lval_ext m nu nu' es); auto.
  - rewrite (lit_true_agree n I J l A B). intros H T. specialize (H T). induction H as [|e es F H IH]; [constructor|].
    cbn [map concat] in V. apply Forall_app in V as [V1 V2]. constructor; [|now apply IH]. rewrite Forall_forall in *. intros f Hf.
    rewrite (lval_ext m nu nu' (snd e)), (lval_ext m nu nu' (snd f)); auto.
    + rewrite Forall_forall in *. intros y Hy. apply V2. apply in_concat. exists (map snd (snd f)). split; [|easy]. now apply in_map with (f := fun e => map snd (snd e)).
    + now rewrite Forall_forall.
  - rewrite (lit_true_agree n I J l A B). intros H T. specialize (H T). induction H as [|e es F H IH]; [constructor|].
    cbn [map] in V. inversion_clear V. constructor; [|now apply IH]. rewrite Forall_forall in *. intros f Hf.
    rewrite (E (snd e)), (E (snd f)); auto. apply H1. now apply in_map.
  - rewrite (lit_true_agree n I J l A B). inversion_clear V as [|? ? Vx V']. inversion_clear V' as [|? ? Vy Vz]. rewrite (E x), (E y) by easy.
    destruct z as [z|]; auto. inversion_clear Vz. now rewrite (E z).
Qed.
Lemma con_ok_mono n m n' m' d : n <= n' -> (m <= m')%nat -> con_ok n m d -> con_ok n' m' d.
Proof.
  intros Hn Hm [[B1 B2] V]. split; [split; auto; lia|]. rewrite Forall_forall in *. intros x Hx. specialize (V x Hx). lia.
Qed.

(** ** Simplification *)
Lemma add_seen_keys {K} (eqb : K -> K -> bool) co k acc : forall o r, add_seen eqb co k acc = Some o -> o = Ok r -> map snd r = map snd acc.
Proof.
  induction acc as [|[c k'] acc IH]; cbn [add_seen]; intros o r H E; [discriminate|]. destruct (eqb k k').
  - injection H as <-. inv_ok. reflexivity.
  - destruct (add_seen eqb co k acc) as [o'|] eqn:A; [|discriminate]. injection H as <-. inv_ok. cbn [map snd]. f_equal. eapply IH; reflexivity.
Qed.
Lemma collect_keys {K} (eqb : K -> K -> bool) isc dz ts : forall acc rhs a r, collect eqb isc dz ts acc rhs = Ok (a, r) ->
  incl (map snd a) (map snd acc ++ map snd ts) /\ (Forall (fun k => isc k = false) (map snd ts) -> r = rhs).
Proof.
  induction ts as [|[co k] ts IH]; cbn [collect map snd]; intros acc rhs a r H.
  - inv_ok. rewrite app_nil_r. split; [apply incl_refl|easy].
  - assert (S : forall A B : list K, incl (A ++ B) (A ++ k :: B)) by (intros A B z; rewrite !in_app_iff; cbn; tauto).
    destruct (dz && (co =? 0)).
    { apply IH in H as [H1 H2]. split; [eapply incl_tran; [exact H1|apply S]|]. intros F. inversion_clear F. auto. }
    destruct (isc k) eqn:C.
    { inv_ok. apply IH in H as [H1 H2]. split; [eapply incl_tran; [exact H1|apply S]|]. intros F. inversion_clear F. congruence. }
    destruct (add_seen eqb co k acc) as [o|] eqn:A.
    + inv_ok. apply IH in H as [H1 H2]. rewrite (add_seen_keys _ _ _ _ _ _ A H0) in H1. split; [eapply incl_tran; [exact H1|apply S]|].
      intros F. inversion_clear F. auto.
    + apply IH in H as [H1 H2]. rewrite map_app, <- app_assoc in H1. split; [exact H1|]. intros F. inversion_clear F. auto.
Qed.
Lemma simplify_keys dz ts vec r : simplify dz ts = Ok (vec, r) ->
  incl (map snd vec) (map snd ts) /\ (Forall (fun k => k <> None) (map snd ts) -> r = 0).
Proof.
  unfold simplify. intros H. inv_ok. destruct a as [acc r']. inv_ok. destruct (collect_keys _ _ _ _ _ _ _ _ H0) as [A B]. split.
  - intros k Hk. apply A. unfold drop_zeros in Hk. destruct dz; [|easy]. apply in_map_iff in Hk as (t & <- & Ht). apply filter_In in Ht. now apply in_map.
  - intros F. apply B. eapply Forall_impl; [|exact F]. intros [x|] N; [reflexivity|congruence].
Qed.
Lemma strip_keys vec : forall es, Terms.strip vec = Ok es -> map snd vec = map Some (map snd es) /\ map fst vec = map fst es.
Proof.
  induction vec as [|[c [x|]] vec IH]; cbn [Terms.strip]; intros es H; inv_ok; [now split|]. destruct (IH _ H0) as [A B]. split; cbn; congruence.
Qed.
(** Simplifying terms over variables. *)
Lemma simplify_vars ts vec r es m : simplify true (map (fun t => (fst t, Some (snd t))) ts) = Ok (vec, r) -> Terms.strip vec = Ok es ->
  Forall (fun t => snd t < m)%nat ts ->
  r = 0 /\ (forall nu, lin_val nu es = lin_val nu ts) /\ Forall (fun e => fst e <> 0 /\ (snd e < m)%nat) es.
Proof.
  intros S T F. destruct (simplify_keys _ _ _ _ S) as [I R]. destruct (strip_keys _ _ T) as [K1 K2].
  destruct (simplify_spec _ _ _ _ S) as (V & _ & _ & NZ & _). specialize (NZ eq_refl).
  assert (r = 0) as ->. { apply R. rewrite map_map. apply Forall_forall. intros k Hk. apply in_map_iff in Hk as (t & <- & _). discriminate. }
  split; [easy|]. split.
  - intros nu. rewrite (strip_val _ _ _ T). specialize (V nu). rewrite Z.sub_0_r in V. rewrite <- V. clear. induction ts as [|[c x] ts IH]; cbn; [easy|]. now rewrite IH.
  - rewrite Forall_forall. intros e He. split.
    + assert (N : Forall (fun c => c <> 0) (map fst vec)) by now apply Forall_map. rewrite K2 in N. rewrite Forall_map, Forall_forall in N. now apply N.
    + assert (X : In (Some (snd e)) (map snd vec)) by (rewrite K1; now apply in_map, in_map). apply I in X. rewrite map_map in X.
      apply in_map_iff in X as (t & E & Ht). cbn in E. injection E as E. rewrite <- E. rewrite Forall_forall in F. now apply F.
Qed.

(** ** Steps of the builder *)
Section Steps.
Context (O : oracle) (cfg : config) (srt : list (Z * var) -> list (Z * var)) (Base : interp -> Prop) (n0 : Z).
Context (BO : base_ok Base n0) (CO : clasp_ok O Base) (PS : forall es, Permutation (srt es) es).
Notation models := (models Base).
Notation Pr := (interp -> (var -> Z) -> Prop).

Notation top := (top O n0).

Record gstep (P Q R : Pr) (b b' : bld) : Prop := {
  g_top : top b';
  g_nxt : nxt (b_s b) <= nxt (b_s b');
  g_nv : nvars (b_s b') = nvars (b_s b);
  g_grow : wgrow (b_s b) (b_s b');
  g_fwd : forall I nu, models b I nu -> P I nu -> exists J, agree_below (nxt (b_s b)) I J /\ models b' J nu /\ Q J nu;
  g_bwd : forall I nu, models b' I nu -> models b I nu /\ R I nu }.

Lemma g_refl (P : Pr) (R : Pr) b : top b -> (forall I nu, models b I nu -> R I nu) -> gstep P P R b b.
Proof.
  intros T H. constructor; auto; try lia; [apply wgrow_refl|]. intros I nu M p. exists I. split; [easy|]. now split.
Qed.
Lemma g_trans (P Q Q' R1 R2 R : Pr) b b1 b2 : gstep P Q R1 b b1 -> gstep Q Q' R2 b1 b2 ->
  (forall I nu, models b2 I nu -> R1 I nu -> R2 I nu -> R I nu) -> gstep P Q' R b b2.
Proof.
  intros [A1 A2 A3 A4 A5 A6] [B1 B2 B3 B4 B5 B6] H. constructor; auto; try lia.
  - now apply wgrow_trans with (b_s b1).
  - intros I nu M p. destruct (A5 I nu M p) as (J & C1 & C2 & C3). destruct (B5 J nu C2 C3) as (K & D1 & D2 & D3).
    exists K. split; [|now split]. apply agree_trans with J; [easy|]. now apply agree_mono with (nxt (b_s b1)).
  - intros I nu M. destruct (B6 I nu M) as [M1 r2]. destruct (A6 I nu M1) as [M0 r1]. auto.
Qed.
Lemma g_weaken (P Q R P' Q' R' : Pr) b b' : gstep P Q R b b' ->
  (forall I nu, models b I nu -> P' I nu -> P I nu) -> (forall I nu, models b' I nu -> Q I nu -> Q' I nu) ->
  (forall I nu, models b' I nu -> models b I nu -> R I nu -> R' I nu) -> gstep P' Q' R' b b'.
Proof.
  intros [A1 A2 A3 A4 A5 A6] HP HQ HR. constructor; auto.
  - intros I nu M p. destruct (A5 I nu M (HP _ _ M p)) as (J & C1 & C2 & C3). exists J. auto.
  - intros I nu M. destruct (A6 I nu M). auto.
Qed.
Lemma g_built P b b' ok Q : gstep P Q (fun I nu => ok = true -> P I nu) b b' -> built Base P b b' ok.
Proof.
  intros [A1 A2 A3 A4 A5 A6]. constructor; auto; [apply A1|]. intros I nu M p. destruct (A5 I nu M p) as (J & C1 & C2 & _). eauto.
Qed.

Lemma models_dep b : top b -> dep (nxt (b_s b)) (nvars (b_s b)) (models b).
Proof.
  intros [[W C _ _ _] N _ _ _] I J nu nu' A E (G & HO & F). destruct G as (G1 & G2 & G3). pose proof (wf_nxt _ (proj1 W)) as Nx.
  split; [|split].
  - split; [|split].
    + apply (BO I J); [|easy]. now apply agree_mono with (nxt (b_s b)).
    + rewrite <- G2. symmetry. apply A. lia.
    + pose proof (wf_log _ (proj1 W)) as WL. rewrite Forall_forall in *. intros e He. apply ev_true_agree with (nxt (b_s b)) I; auto.
  - intros y Hy. destruct (HO y Hy) as [B1 B2]. rewrite (E y Hy). split; [easy|]. intros w z Hz.
    rewrite <- (lit_true_agree (nxt (b_s b)) I J z A); [now apply B2|]. now apply (wf_lits _ (proj1 W)) in Hz.
  - rewrite Forall_forall in *. intros p Hp. apply (csem_dep _ _ _ (C p Hp) I J nu nu' A E). now apply F.
Qed.

(** States changed by communication with clasp only. *)
Lemma settled_only s s' : literals_only s s' -> settled s -> settled s'.
Proof.
  intros (S3 & _ & _) (A & B & C). unfold settled.
  rewrite (same3_get inl ltac:(easy) _ _ S3), (same3_get inu ltac:(easy) _ _ S3), (same3_get ldiff ltac:(easy) _ _ S3), (same3_get udiff ltac:(easy) _ _ S3). auto.
Qed.
Lemma top_state b s : top b -> fr (b_s b) s -> OrderSpec.wf s -> nxt (b_s b) <= nxt s -> nvars s = nvars (b_s b) -> top (mkb s (b_cs b) (b_id b)).
Proof.
  intros [[W C Ids Rg ND] N L ST TP] [(S3 & CS & IN) WG] W' Nx NV. constructor; cbn [b_s b_cs b_id]; try lia.
  - constructor; cbn [b_s b_cs b_id]; auto.
    + eapply Forall_impl; [|exact C]. intros p. apply con_ok_mono; lia.
    + now rewrite CS.
    + now rewrite CS.
  - unfold cur_level in *. now rewrite (same3_get lvls ltac:(easy) _ _ S3).
  - apply settled_only with (b_s b); [split; [exact S3|now split]|easy].
  - now apply stays_grow with (b_s b).
Qed.
Lemma g_clause c b ok b' (P : Pr) : top b -> b_clause O c b = (ok, b') -> Forall (below (nxt (b_s b))) c ->
  (forall I nu, models b I nu -> P I nu -> clause_true I c) -> gstep P P (fun I _ => clause_true I c) b b'.
Proof.
  intros T E F H. unfold b_clause, on_s in E. destruct (add_clause O Learnt c (b_s b)) as [r s] eqn:A. injection E as <- <-.
  destruct (add_clause_wf O _ _ _ _ _ A (bo_wf _ (t_ok _ T)) F) as (W & SM & NX).
  pose proof (fr_clause O Learnt c (b_s b)) as FR. rewrite A in FR. cbn [snd] in FR. injection A as _ <-.
  constructor; cbn [b_s b_cs]; try (rewrite ?NX; lia); try easy.
  - apply top_state; auto; lia.
  - apply FR.
  - intros I nu M p. exists I. split; [easy|]. split; [|easy]. pose proof (H I nu M p) as CT. destruct M as (G & HO & Fc). split; [|now split]. apply good_emit. now split.
  - intros I nu (G & HO & Fc). apply good_emit in G as [G CT]. split; [|easy]. split; [easy|now split].
Qed.
Lemma g_literal b x b' (P Q : Pr) : top b -> b_literal b = (x, b') ->
  (forall I nu, models b I nu -> P I nu -> exists v : bool, Q (fun i => if i =? nxt (b_s b) then v else I i) nu) ->
  x = nxt (b_s b) /\ nxt (b_s b') = x + 1 /\ log (b_s b') = ELit x :: log (b_s b) /\ b_cs b' = b_cs b /\ gstep P Q (fun _ _ => True) b b'.
Proof.
  intros T E H. unfold b_literal, on_s in E. cbn [add_literal] in E. injection E as <- <-. cbn [b_s b_cs nxt emit set_nxt log].
  split; [easy|]. split; [easy|]. split; [easy|]. split; [easy|].
  destruct (add_literal_ok Base n0 (b_s b) (bo_wf _ (t_ok _ T)) (t_n0 _ T)) as [W S].
  pose proof (fr_literal (b_s b)) as FR. cbn [add_literal snd] in W, S, FR.
  assert (BM : forall I nu, models (mkb (emit (ELit (nxt (b_s b))) (set_nxt (nxt (b_s b) + 1) (b_s b))) (b_cs b) (b_id b)) I nu <-> models b I nu).
  { intros I nu. split.
    - intros ((G1 & G2 & G3) & HO & Fc). cbn in G3. inversion_clear G3. split; [|now split]. split; [easy|now split].
    - intros ((G1 & G2 & G3) & HO & Fc). split; [|now split]. split; [easy|]. split; [easy|]. cbn. now constructor. }
  constructor; cbn [b_s b_cs]; try (cbn; lia); try easy.
  - apply top_state; auto. cbn. lia.
  - apply FR.
  - intros I nu M p. destruct (H I nu M p) as (v & q). eexists. split; [|split; [|exact q]].
    + intros i Hi. destruct (i =? nxt (b_s b)) eqn:Ei; [lia|easy].
    + apply BM. apply (models_dep b T I _ nu nu); [|easy|easy]. intros i Hi. destruct (i =? nxt (b_s b)) eqn:Ei; [lia|easy].
  - intros I nu M. split; [now apply BM|easy].
Qed.
Lemma g_state (P : Pr) s b ok (Q : Pr) : top b -> fr (b_s b) s -> as_post Base P (b_s b) s ok ->
  dep (nxt (b_s b)) (nvars (b_s b)) Q -> (forall I nu, models b I nu -> Q I nu -> P I nu) ->
  gstep Q Q (fun I nu => ok = true -> P I nu) b (mkb s (b_cs b) (b_id b)).
Proof.
  intros T FR [W S SO SM _] D H. assert (NV : nvars s = nvars (b_s b)) by (exact (same2_get nvars ltac:(easy) _ _ SM)).
  assert (T' : top (mkb s (b_cs b) (b_id b))) by (apply top_state; auto; apply S).
  constructor; cbn [b_s b_cs]; auto.
  - apply S.
  - apply FR.
  - intros I nu M q. pose proof (H I nu M q) as p. pose proof M as (G & HO & Fc).
    destruct (st_fwd _ _ _ _ _ S I nu G HO p) as (J & nu' & A & E & G' & HO'). exists J. split; [easy|].
    assert (E' : ext_nu (nvars (b_s b)) nu' nu) by (intros x Hx; symmetry; now apply E).
    split; [|now apply (D I J nu nu)]. apply (models_dep _ T' J J nu' nu); cbn [b_s]; [easy|now rewrite NV|].
    split; [exact G'|]. split; [exact HO'|]. cbn [b_cs].
    pose proof (bo_cons _ (t_ok _ T)) as C. rewrite Forall_forall in *. intros q' Hq'.
    apply (csem_dep _ _ _ (C q' Hq') I J nu nu' A E). now apply Fc.
  - intros I nu (G & HO & Fc). destruct (st_bwd _ _ _ _ _ S I nu G HO) as (G0 & O0 & _). split; [split; [easy|now split]|].
    intros K. now destruct (st_bwd _ _ _ _ _ (SO K) I nu G HO) as (_ & _ & p).
Qed.
Lemma add_con_state c d s : css s c = None -> let s' := add_constraint c d s in
  vst s' = vst s /\ log s' = log s /\ nxt s' = nxt s /\ nvars s' = nvars s /\ lmap s' = lmap s /\ fmap s' = fmap s /\ lvls s' = lvls s /\
  (settled s -> settled s') /\ (exists k, css s' c = Some k /\ c_def k = d) /\ (forall c', c' <> c -> css s' c' = css s c').
Proof.
  intros K. unfold add_constraint. rewrite K. cbv zeta.
  destruct (cs_init_def s d) as (D1 & D2 & D3). set (k0 := cs_init s d) in *.
  set (s1 := set_l2c _ _). destruct (add_watches_spec c (cs_watches d) s1) as [F _]. set (s2 := fold_left _ _ _) in *.
  assert (CS : css s2 = upd (css s) c (Some k0)) by (rewrite F; reflexivity).
  unfold mark_todo. rewrite CS, upd_same. unfold marked_inactive. rewrite D2, D3. cbn [Nat.eqb negb].
  match goal with |- context [set_tod ?t ?s] => set (s3 := set_tod t s) end.
  assert (E : s3 = set_tod (tod s2 ++ [c]) (set_cs c (set_todo true k0) (set_wat (wat s2) s1))) by (unfold s3; now rewrite <- F).
  csplit; try (rewrite E; reflexivity).
  - intros H. rewrite E. exact H.
  - exists (set_todo true k0). split; [|exact D1]. rewrite E. cbn. apply upd_same.
  - intros c' Hc. rewrite E. cbn. now rewrite !upd_other by auto.
Qed.
Lemma NoDup_snoc {A} (l : list A) a : NoDup l -> ~ In a l -> NoDup (l ++ [a]).
Proof. intros N H. apply (NoDup_Add (a := a) (l := l)); [|now split]. rewrite <- (app_nil_r l) at 1. apply Add_app. Qed.
Lemma g_post d b (P : Pr) : top b -> con_ok (nxt (b_s b)) (nvars (b_s b)) d ->
  (forall I nu, models b I nu -> P I nu -> csem None d I nu) -> gstep P P (csem None d) b (post d b).
Proof.
  intros T C H. pose proof T as [[W Cs Ids Rg ND] N L ST TP].
  assert (K : css (b_s b) (b_id b) = None). { destruct (css (b_s b) (b_id b)) eqn:K; auto. assert (b_id b < b_id b)%nat by (apply Ids; congruence). lia. }
  destruct (add_con_state (b_id b) d (b_s b) K) as (E1 & E2 & E3 & E4 & E5 & E6 & E7 & E8 & E9 & E10).
  unfold post. set (s' := add_constraint (b_id b) d (b_s b)) in *.
  assert (MD : forall I nu, models (mkb s' (b_cs b ++ [(b_id b, d)]) (S (b_id b))) I nu <-> models b I nu /\ csem None d I nu).
  { intros I nu. unfold BuilderSpec.models, good, order_ok. cbn [b_s b_cs]. rewrite E1, E2, E4, Forall_app. split.
    - intros (A & B & D & F). inversion_clear F. tauto.
    - intros ((A & B & D) & F). auto. }
  constructor; cbn [b_s b_cs]; try lia.
  - constructor; cbn [b_s b_cs b_id]; try lia.
    + constructor; cbn [b_s b_cs b_id].
      * destruct W as [[W1 W2 W3 W4 W5 W6] [F1 F2 F3]]. split; constructor; unfold cur_level in *; rewrite ?E1, ?E2, ?E3, ?E4, ?E5, ?E6, ?E7; auto.
      * rewrite E3, E4. apply Forall_app. split; auto.
      * intros c Hc. destruct (Nat.eq_dec c (b_id b)) as [->|Ne]; [lia|]. rewrite E10 in Hc by auto. apply Ids in Hc. lia.
      * intros c d'. rewrite in_app_iff, Rg. cbn [In]. destruct (Nat.eq_dec c (b_id b)) as [->|Ne].
        -- rewrite K. destruct E9 as (k & Ek & Dk). rewrite Ek. split.
           ++ intros [(k' & X & _)|[X|[]]]; [discriminate|]. injection X as <-. eauto.
           ++ intros (k' & X & Y). right. left. congruence.
        -- rewrite E10 by auto. split; [intros [X|[X|[]]]; [easy|congruence]|auto].
      * rewrite map_app. cbn [map fst]. apply NoDup_snoc; [exact ND|]. intros Hin. apply in_map_iff in Hin as ((c & d') & Ec & Hin). cbn [fst] in Ec. subst c.
        apply Rg in Hin as (k & Ek & _). congruence.
    + unfold cur_level in *. now rewrite E7.
    + auto.
    + unfold stays_top in *. now rewrite E2.
  - now apply wgrow_same.
  - intros I nu M p. exists I. split; [easy|]. split; [|easy]. apply MD. auto.
  - intros I nu M. now apply MD.
Qed.

(** ** Linear constraints *)
Lemma vars_srt m es : Forall (fun x => x < m)%nat (map snd es) -> Forall (fun x => x < m)%nat (map snd (srt es)).
Proof.
  intros F. rewrite Forall_map in *. rewrite Forall_forall in *. intros e He. apply F. eapply Permutation_in; [apply PS|easy].
Qed.
Lemma lval_srt nu es : lval nu (srt es) = lin_val nu es.
Proof. rewrite (lval_perm nu _ _ (PS es)). apply lval_lin. Qed.
Lemma inv_terms_spec es : forall r, inv_terms es = Ok r -> map snd r = map snd es /\ forall nu, lin_val nu r = - lin_val nu es.
Proof.
  induction es as [|[c x] es IH]; cbn [inv_terms]; intros r H; inv_ok; [now split|].
  apply safe_inv_val in H0. subst. destruct (IH _ H1) as [A B]. split; [cbn; congruence|]. intros nu. cbn [lin_val]. rewrite B. lia.
Qed.
Lemma neg_terms_spec es : forall r, neg_terms es = Ok r -> map snd r = map snd es /\ (forall nu, lin_val nu r = - lin_val nu es) /\ (Forall (fun e => fst e <> 0) es -> Forall (fun e => fst e <> 0) r).
Proof.
  induction es as [|[c x] es IH]; cbn [neg_terms]; intros r H; inv_ok; [now split|].
  apply ck_val in H0. subst. destruct (IH _ H1) as (A & B & C). csplit; [cbn; congruence| |].
  - intros nu. cbn [lin_val]. rewrite B. lia.
  - intros F. inversion_clear F. constructor; [cbn in *; lia|auto].
Qed.
Lemma b_sum_ok l es rhs strict b ok b' (Q : Pr) : top b -> below (nxt (b_s b)) l -> Forall (fun e => fst e <> 0 /\ (snd e < nvars (b_s b))%nat) es ->
  b_sum O cfg srt l es rhs strict b = Ok (ok, b') -> dep (nxt (b_s b)) (nvars (b_s b)) Q ->
  (forall I nu, models b I nu -> Q I nu -> call_holds I nu (BSum l es rhs strict)) ->
  gstep Q Q (fun I nu => ok = true -> call_holds I nu (BSum l es rhs strict)) b b'.
Proof.
  intros T B F E D H. unfold b_sum in E. pose proof (stays_dlevel O _ (t_top _ T)) as D0.
  destruct (negb strict && is_false O (b_s b) l) eqn:C1.
  { injection E as <- <-. apply g_refl; auto. intros I nu (G & _) _. assert (~ lit_true I l) by (apply (top_false O Base CO (b_s b)); auto; [apply B|destruct strict; [discriminate|exact C1]]).
    cbn. split; [tauto|]. intros ->. discriminate. }
  assert (Fv : Forall (fun x => (x < nvars (b_s b))%nat) (map snd es)) by (apply Forall_map; eapply Forall_impl; [|exact F]; cbn; tauto).
  assert (PO : forall b2, (let b1 := post (CSum l rhs (srt es)) b in
        if strict then ies <- inv_terms es ;; r <- safe_add int32 rhs 1 ;; r <- safe_inv int32 r ;; Ok (true, post (CSum (- l) r (srt ies)) b1) else Ok (true, b1)) = Ok (ok, b2) ->
      gstep Q Q (fun I nu => ok = true -> call_holds I nu (BSum l es rhs strict)) b b2).
  { intros b2 E2. cbv zeta in E2.
    assert (G1 : gstep Q Q (csem None (CSum l rhs (srt es))) b (post (CSum l rhs (srt es)) b)).
    { apply g_post; auto; [split; [exact B|now apply vars_srt]|]. intros I nu M q. cbn. rewrite lval_srt. apply (H I nu M q). }
    destruct strict.
    - inv_ok. destruct (inv_terms_spec _ _ H0) as [V L]. apply safe_add_val in H1. apply safe_inv_val in H2. subst.
      eapply g_trans; [exact G1|apply g_post|].
      + apply G1.
      + split; [split; [destruct B; cbn; lia|]|].
        * cbn [c_lit]. rewrite Z.abs_opp. pose proof (g_nxt _ _ _ _ _ G1). destruct B. lia.
        * cbn [cvars]. rewrite (g_nv _ _ _ _ _ G1). apply vars_srt. exact (eq_ind _ (fun q => Forall _ q) Fv _ (eq_sym V)).
      + intros I nu M q. destruct (g_bwd _ _ _ _ _ G1 I nu M) as [M0 _]. destruct (H I nu M0 q) as [_ H2]. specialize (H2 eq_refl). cbn.
        rewrite lval_srt, L, lit_true_neg by apply B. intros N. destruct (Z_le_gt_dec (lin_val nu es) rhs); [tauto|lia].
      + intros I nu M c1 c2 _. cbn in c1, c2 |- *. rewrite lval_srt in *. rewrite L, lit_true_neg in c2 by apply B. split; [easy|].
        intros _ Hs. destruct (lit_true_dec I l); [easy|]. specialize (c2 ltac:(easy)). lia.
    - injection E2 as <- <-. eapply g_weaken; [exact G1|auto..]. intros I nu M M' c _. cbn in c |- *. rewrite lval_srt in c. now split. }
  destruct es as [|[co x] [|e es]]; [now apply PO| |now apply PO].
  injection E as E. unfold on_s in E. destruct (add_simple O cfg l co x rhs strict (b_s b)) as [r s] eqn:A. injection E as <- <-.
  inversion_clear F as [|? ? [F1 F2] _]. cbn [fst snd] in *.
  pose proof (add_simple_ok O cfg Base n0 BO CO l co x rhs strict (b_s b) r s (bo_wf _ (t_ok _ T)) F2 (t_n0 _ T) B F1 D0 A) as AS.
  pose proof (add_simple_fr O cfg l co x rhs strict (b_s b)) as FR. rewrite A in FR.
  assert (EQ : forall I nu, simple_sem l co x rhs strict I nu <-> call_holds I nu (BSum l [(co, x)] rhs strict)).
  { intros I nu. unfold simple_sem. cbn. replace (co * nu x + 0) with (co * nu x) by lia. reflexivity. }
  eapply g_weaken; [eapply g_state with (Q := Q); [exact T|exact FR|exact AS|exact D|]|auto..].
  - intros I nu M q. apply EQ. auto.
  - intros I nu _ _ X K. apply EQ. auto.
Qed.

(** ** Fresh literals *)
Lemma g_fresh b x b1 (Q A : Pr) : top b -> b_literal b = (x, b1) -> dep (nxt (b_s b)) (nvars (b_s b)) Q ->
  (forall I J nu, agree_below (nxt (b_s b)) I J -> (A I nu <-> A J nu)) -> (forall I nu, A I nu \/ ~ A I nu) ->
  gstep Q (fun I nu => Q I nu /\ (lit_true I x <-> A I nu)) (fun _ _ => True) b b1 /\ x = nxt (b_s b) /\ nxt (b_s b1) = x + 1 /\ 1 < x.
Proof.
  intros T E D DA DC. pose proof (wf_nxt _ (proj1 (bo_wf _ (t_ok _ T)))) as Nx.
  destruct (g_literal b x b1 Q (fun I nu => Q I nu /\ (lit_true I x <-> A I nu)) T E) as (-> & N & _ & _ & G).
  - assert (x = nxt (b_s b)) as -> by (unfold b_literal, on_s in E; cbn in E; now injection E as <-).
    intros I nu M q. assert (AG : forall v, agree_below (nxt (b_s b)) I (fun i => if i =? nxt (b_s b) then v else I i)).
    { intros v i Hi. destruct (i =? nxt (b_s b)) eqn:Ei; [lia|easy]. }
    assert (L : forall v, lit_true (fun i => if i =? nxt (b_s b) then v else I i) (nxt (b_s b)) <-> v = true).
    { intros v. unfold lit_true. replace (0 <? nxt (b_s b)) with true by lia. now rewrite Z.eqb_refl. }
    destruct (DC I nu) as [a|a]; [exists true|exists false]; (split; [now apply (D I _ nu nu)|]); rewrite L, <- (DA I _ nu (AG _)); [tauto|].
    split; [discriminate|tauto].
  - auto.
Qed.

Lemma dep_mono n m n' m' (P : Pr) : n <= n' -> (m <= m')%nat -> dep n m P -> dep n' m' P.
Proof. intros Hn Hm D I J nu nu' A E. apply D; [now apply agree_mono with n'|]. intros x Hx. apply E. lia. Qed.
Lemma dep_and n m (P Q : Pr) : dep n m P -> dep n m Q -> dep n m (fun I nu => P I nu /\ Q I nu).
Proof. intros A B I J nu nu' E F [p q]. split; [now apply (A I J nu nu')|now apply (B I J nu nu')]. Qed.
Lemma lin_ext m nu nu' es : Forall (fun e => snd e < m)%nat es -> ext_nu m nu nu' -> lin_val nu' es = lin_val nu es.
Proof. intros F E. rewrite <- !lval_lin. apply lval_ext with m; auto. now apply Forall_map. Qed.
Lemma below_mono' n n' l : n <= n' -> below n l -> below n' l.
Proof. intros H [A B]. split; [easy|lia]. Qed.
Lemma below_opp n l : below n l -> below n (- l).
Proof. intros [A B]. split; lia. Qed.

(** ** Non-linear constraints *)
Lemma b_nonlinear_ok l ca va vb cc vc rhs strict b ok b' (Q : Pr) : top b -> below (nxt (b_s b)) l ->
  (forall x, va = Some x \/ vb = Some x \/ vc = Some x -> (x < nvars (b_s b))%nat) -> (vc = None -> cc = 0) -> (ca <> 0 -> strict = false) ->
  b_nonlinear O cfg srt l ca va vb cc vc rhs strict b = Ok (ok, b') -> dep (nxt (b_s b)) (nvars (b_s b)) Q ->
  (forall I nu, models b I nu -> Q I nu -> call_holds I nu (BNonlin l ca va vb cc vc rhs strict)) ->
  gstep Q Q (fun I nu => ok = true -> call_holds I nu (BNonlin l ca va vb cc vc rhs strict)) b b'.
Proof.
  intros T B V Nc St E D H. unfold b_nonlinear in E.
  assert (L : forall es, (forall nu, nonlin_val nu ca va vb cc vc = lin_val nu es) -> Forall (fun e => fst e <> 0 /\ (snd e < nvars (b_s b))%nat) es ->
    b_sum O cfg srt l es rhs strict b = Ok (ok, b') -> gstep Q Q (fun I nu => ok = true -> call_holds I nu (BNonlin l ca va vb cc vc rhs strict)) b b').
  { intros es EQ F E'. assert (X : forall I nu, call_holds I nu (BNonlin l ca va vb cc vc rhs strict) <-> call_holds I nu (BSum l es rhs strict)) by (intros I nu; cbn; now rewrite EQ).
    eapply g_weaken; [eapply b_sum_ok with (1 := T) (2 := B) (3 := F) (4 := E') (5 := D)|auto..].
    - intros I nu M q. apply X. auto.
    - intros I nu _ _ Y K. apply X. auto. }
  destruct (ca =? 0) eqn:Ca.
  - assert (ca = 0) as -> by lia. destruct (cc =? 0) eqn:Cc.
    + assert (cc = 0) as -> by lia. apply L with (es := []); auto.
    + destruct vc as [z|]; [|discriminate]. apply L with (es := [(cc, z)]); auto.
      * intros nu. unfold nonlin_val. cbn. lia.
      * repeat constructor; cbn; [lia|]. apply V. auto.
  - destruct va as [x|]; [|discriminate]. destruct vb as [y|]; [|discriminate]. rewrite St in * by lia. injection E as <- <-.
    assert (X : forall I nu, csem None (CNonlin l ca x y cc vc rhs) I nu <-> call_holds I nu (BNonlin l ca (Some x) (Some y) cc vc rhs false)).
    { intros I nu. cbn. unfold nonlin_val. cbn [ov]. replace (ca * nu x * nu y) with (ca * (nu x * nu y)) by lia.
      destruct vc as [z|]; cbn [ov]; [|rewrite (Nc eq_refl)]; intuition (try discriminate; lia). }
    eapply g_weaken; [apply g_post with (P := Q); auto|auto..].
    + split; [exact B|]. cbn [cvars]. constructor; [apply V; auto|]. constructor; [apply V; auto|]. destruct vc; repeat constructor. apply V. auto.
    + intros I nu M q. apply X. auto.
    + intros I nu _ _ Y K. apply X. auto.
Qed.

(** ** Distinct *)
Definition differ (l : lit) (e1 e2 : list (Z * var) * Z) : Pr := fun I nu =>
  lit_true I l -> lin_val nu (fst e1) + snd e1 <> lin_val nu (fst e2) + snd e2.
Lemma clause2 I a c : clause_true I [a; c] <-> lit_true I a \/ lit_true I c.
Proof. apply clause2_true. Qed.
Lemma clause1 I a : clause_true I [a] <-> lit_true I a.
Proof. unfold clause_true. split; [intros (l & [<-|[]] & H); auto|intros H; exists a; cbn; auto]. Qed.

(** The two constraints on the sides, given literals for both of them. *)
Lemma differ_sides x y es rhs b ok b' (Q : Pr) : top b -> below (nxt (b_s b)) x -> below (nxt (b_s b)) y ->
  Forall (fun e => fst e <> 0 /\ (snd e < nvars (b_s b))%nat) es -> dep (nxt (b_s b)) (nvars (b_s b)) Q ->
  (forall I nu, models b I nu -> Q I nu -> (lit_true I x -> lin_val nu es < rhs) /\ (lit_true I y -> rhs < lin_val nu es)) ->
  (r1 <- isub int32 rhs 1 ;; r1 <- check_valid_value r1 ;;
   '(ok, b) <- b_sum O cfg srt x es r1 false b ;;
   if negb ok then Ok (false, b)
   else ns <- neg_terms es ;;
        r2 <- ineg int32 rhs ;; r2 <- isub int32 r2 1 ;; r2 <- check_valid_value r2 ;;
        b_sum O cfg srt y ns r2 false b) = Ok (ok, b') ->
  gstep Q Q (fun I nu => ok = true -> (lit_true I x -> lin_val nu es < rhs) /\ (lit_true I y -> rhs < lin_val nu es)) b b'.
Proof.
  intros T Bx By F D H E. apply bind_ok in E as (r0 & R0 & E). apply bind_ok in E as (r1 & R1 & E). apply ck_val in R0. apply check_valid_val in R1 as [-> _].
  apply bind_ok in E as ([ok1 b1] & S1 & E).
  assert (G1 : gstep Q Q (fun I nu => ok1 = true -> call_holds I nu (BSum x es r0 false)) b b1).
  { apply b_sum_ok; auto. intros I nu M q. cbn. split; [|discriminate]. intros X. apply (H I nu M q) in X. lia. }
  destruct ok1; cbn [negb] in E.
  - apply bind_ok in E as (ns & NT & E). apply bind_ok in E as (r2 & R2 & E). apply bind_ok in E as (r3 & R3 & E). apply bind_ok in E as (r4 & R4 & E).
    apply ck_val in R2, R3. apply check_valid_val in R4 as [-> _]. destruct (neg_terms_spec _ _ NT) as (K & V & Z).
    pose proof (g_nxt _ _ _ _ _ G1) as N1. pose proof (g_nv _ _ _ _ _ G1) as V1.
    assert (G2 : gstep Q Q (fun I nu => ok = true -> call_holds I nu (BSum y ns r3 false)) b1 b').
    { apply b_sum_ok; auto.
      - apply G1.
      - now apply below_mono' with (nxt (b_s b)).
      - rewrite V1. assert (Z' : Forall (fun e => fst e <> 0) ns) by (apply Z; eapply Forall_impl; [|exact F]; cbn; tauto).
        assert (Vs : Forall (fun x => x < nvars (b_s b))%nat (map snd ns)).
        { refine (eq_ind _ (fun q => Forall _ q) _ _ (eq_sym K)). apply Forall_map. eapply Forall_impl; [|exact F]. cbn. tauto. }
        rewrite Forall_map in Vs. rewrite Forall_forall in *. auto.
      - apply dep_mono with (nxt (b_s b)) (nvars (b_s b)); [lia|lia|easy].
      - intros I nu M q. destruct (g_bwd _ _ _ _ _ G1 I nu M) as [M0 _]. cbn. split; [|discriminate]. rewrite V. intros X. apply (H I nu M0 q) in X. lia. }
    eapply g_trans; [exact G1|exact G2|]. intros I nu M c1 c2 K2. destruct (c1 eq_refl) as [c1' _]. destruct (c2 K2) as [c2' _].
    rewrite V in c2'. split; intros X; [apply c1' in X|apply c2' in X]; lia.
  - injection E as <- <-. eapply g_weaken; [exact G1|auto..]. discriminate.
Qed.

Local Ltac fb := repeat (apply Forall_cons; [assumption|]); apply Forall_nil.
Lemma b_differ_ok l fixed e1 e2 b ok b' (Q : Pr) : top b -> below (nxt (b_s b)) l -> (fixed = true -> is_true O (b_s b) l = true) ->
  Forall (fun t => snd t < nvars (b_s b))%nat (fst e1) -> Forall (fun t => snd t < nvars (b_s b))%nat (fst e2) ->
  b_differ O cfg srt l fixed e1 e2 b = Ok (ok, b') -> dep (nxt (b_s b)) (nvars (b_s b)) Q ->
  (forall I nu, models b I nu -> Q I nu -> differ l e1 e2 I nu) ->
  gstep Q Q (fun I nu => ok = true -> differ l e1 e2 I nu) b b'.
Proof.
  destruct e1 as [t1 c1], e2 as [t2 c2]. cbn [fst snd] in *. intros T B FX F1 F2 E D H. pose proof (stays_dlevel O _ (t_top _ T)) as D0. unfold b_differ in E. cbn [fst snd] in E.
  apply bind_ok in E as (rhs0 & E1 & E). apply ck_val in E1. apply bind_ok in E as (ns & NT & E). apply bind_ok in E as ([vec r] & S & E).
  apply bind_ok in E as (es & ST & E). apply bind_ok in E as (rhs & E2 & E). apply ck_val in E2.
  destruct (neg_terms_spec _ _ NT) as (K & V & _).
  assert (Fn : Forall (fun t => snd t < nvars (b_s b))%nat ns).
  { rewrite <- Forall_map with (f := snd) (P := fun x => (x < nvars (b_s b))%nat). refine (eq_ind _ (fun q => Forall _ q) _ _ (eq_sym K)). now apply Forall_map. }
  assert (Fa : Forall (fun t => snd t < nvars (b_s b))%nat (t1 ++ ns)) by (apply Forall_app; split; assumption).
  pose proof (simplify_vars (t1 ++ ns) vec r es (nvars (b_s b)) S ST Fa) as (R0 & VE & Fe). subst r.
  assert (DI : forall nu, lin_val nu es = lin_val nu t1 - lin_val nu t2).
  { intros nu. rewrite VE. assert (A : forall a c, lin_val nu (a ++ c) = lin_val nu a + lin_val nu c).
    { intros a c. induction a as [|[k x] a IH]; cbn; [easy|]. rewrite IH. lia. } rewrite A, V. reflexivity. }
  assert (DF : forall I nu, differ l (t1, c1) (t2, c2) I nu <-> (lit_true I l -> lin_val nu es <> rhs)).
  { intros I nu. unfold differ. cbn [fst snd]. rewrite DI. subst. intuition lia. }
  assert (Fv : Forall (fun e => snd e < nvars (b_s b))%nat es) by (eapply Forall_impl; [|exact Fe]; cbn; tauto).
  clear E1 E2 S VE.
  destruct es as [|e0 es0] eqn:Es.
  { destruct (rhs =? 0) eqn:R.
    - assert (E' : b_clause O [- l] b = (ok, b')) by congruence. apply below_opp in B as B'.
      eapply g_weaken; [eapply g_clause with (P := Q) (1 := T) (2 := E'); [now constructor|]|auto..].
      + intros I nu M q. apply clause1, lit_true_neg; [apply B|]. intros L. apply (proj1 (DF I nu) (H I nu M q) L). cbn. lia.
      + intros I nu _ _ C _. apply DF. intros L. apply clause1, lit_true_neg in C; [tauto|apply B].
    - injection E as <- <-. apply g_refl; auto. intros I nu _ _. apply DF. intros _. cbn. lia. }
  rewrite <- Es in *. clear Es e0 es0.
  destruct (b_literal b) as [x b1] eqn:L1.
  destruct fixed.
  - (* the literal is true: x and its complement are the two sides *)
    destruct (g_fresh b x b1 Q (fun _ nu => lin_val nu es < rhs) T L1 D) as (G1 & X1 & X2 & X3); [easy|intros; lia|].
    cbn [negb] in E.
    set (Q1 := fun I nu => Q I nu /\ (lit_true I x <-> lin_val nu es < rhs)) in *.
    assert (D1 : dep (nxt (b_s b1)) (nvars (b_s b1)) Q1).
    { rewrite (g_nv _ _ _ _ _ G1). apply dep_and; [apply dep_mono with (nxt (b_s b)) (nvars (b_s b)); [lia|lia|easy]|].
      intros I J nu nu' A Ex. rewrite (lit_true_agree (nxt (b_s b1)) I J x A) by (split; lia). now rewrite (lin_ext (nvars (b_s b)) nu nu'). }
    assert (Bx : below (nxt (b_s b1)) x) by (split; lia). assert (Bx' : below (nxt (b_s b1)) (- x)) by now apply below_opp.
    assert (G2 : gstep Q1 Q1 (fun I nu => ok = true -> (lit_true I x -> lin_val nu es < rhs) /\ (lit_true I (- x) -> rhs < lin_val nu es)) b1 b').
    { apply differ_sides; auto.
      - apply G1.
      - now rewrite (g_nv _ _ _ _ _ G1).
      - intros I nu M [q q']. rewrite lit_true_neg by lia. destruct (g_bwd _ _ _ _ _ G1 I nu M) as [M0 _].
        assert (LT : lit_true I l) by (apply (top_true O Base CO (b_s b)); auto; apply M0).
        pose proof (proj1 (DF I nu) (H I nu M0 q) LT). split; [tauto|]. intros NX. destruct (Z_lt_le_dec (lin_val nu es) rhs); [tauto|lia]. }
    eapply g_trans; [exact G1|eapply g_weaken; [exact G2|auto| |]|].
    + intros I nu _ [q _]. exact q.
    + intros I nu _ _ R. exact R.
    + intros I nu _ _ R Hok. apply DF. intros _. destruct (R Hok) as [R1 R2]. rewrite lit_true_neg in R2 by lia. destruct (lit_true_dec I x); [specialize (R1 ltac:(easy))|specialize (R2 ltac:(easy))]; lia.
  - (* literals for both sides *)
    destruct (b_literal b1) as [y b2] eqn:L2.
    assert (LD : forall I J, agree_below (nxt (b_s b)) I J -> (lit_true I l <-> lit_true J l)) by (intros I J A; now apply lit_true_agree with (nxt (b_s b))).
    assert (Dec : forall I (p : bool), (lit_true I l /\ p = true) \/ ~ (lit_true I l /\ p = true)) by (intros I p; destruct (lit_true_dec I l), p; intuition discriminate).
    destruct (g_fresh b x b1 Q (fun I nu => lit_true I l /\ (lin_val nu es <? rhs) = true) T L1 D) as (G1 & X1 & X2 & X3); [intros I J nu A; now rewrite (LD I J A)|intros; apply Dec|].
    set (Q1 := fun I nu => Q I nu /\ (lit_true I x <-> lit_true I l /\ (lin_val nu es <? rhs) = true)) in *.
    assert (Bl1 : below (nxt (b_s b1)) l) by (apply below_mono' with (nxt (b_s b)); [lia|easy]).
    assert (D1 : dep (nxt (b_s b1)) (nvars (b_s b)) Q1).
    { apply dep_and; [apply dep_mono with (nxt (b_s b)) (nvars (b_s b)); [lia|lia|easy]|].
      intros I J nu nu' A Ex. rewrite (lit_true_agree (nxt (b_s b1)) I J x A), (lit_true_agree (nxt (b_s b1)) I J l A) by (try easy; split; lia). now rewrite (lin_ext (nvars (b_s b)) nu nu'). }
    assert (D1' : dep (nxt (b_s b1)) (nvars (b_s b1)) Q1) by now rewrite (g_nv _ _ _ _ _ G1).
    destruct (g_fresh b1 y b2 Q1 (fun I nu => lit_true I l /\ (rhs <? lin_val nu es) = true) (g_top _ _ _ _ _ G1) L2 D1') as (G2 & Y1 & Y2 & Y3);
      [intros I J nu A; now rewrite (lit_true_agree (nxt (b_s b1)) I J l A)|intros; apply Dec|].
    set (Q2 := fun I nu => Q1 I nu /\ (lit_true I y <-> lit_true I l /\ (rhs <? lin_val nu es) = true)) in *.
    assert (Bl : below (nxt (b_s b2)) l) by (apply below_mono' with (nxt (b_s b)); [lia|easy]).
    assert (Bx : below (nxt (b_s b2)) x) by (split; lia). assert (By : below (nxt (b_s b2)) y) by (split; lia).
    assert (V2 : nvars (b_s b2) = nvars (b_s b)) by (rewrite (g_nv _ _ _ _ _ G2); apply G1).
    assert (D2 : dep (nxt (b_s b2)) (nvars (b_s b2)) Q2).
    { rewrite V2. apply dep_and; [apply dep_mono with (nxt (b_s b1)) (nvars (b_s b)); [lia|lia|easy]|].
      intros I J nu nu' A Ex. rewrite (lit_true_agree (nxt (b_s b2)) I J y A), (lit_true_agree (nxt (b_s b2)) I J l A) by easy. now rewrite (lin_ext (nvars (b_s b)) nu nu'). }
    assert (G12 : gstep Q Q2 (fun _ _ => True) b b2) by (eapply g_trans; [exact G1|exact G2|easy]). clear G1 G2.
    assert (SEM : forall I nu, models b2 I nu -> Q2 I nu -> Q I nu /\ (lit_true I x <-> lit_true I l /\ lin_val nu es < rhs) /\ (lit_true I y <-> lit_true I l /\ rhs < lin_val nu es) /\ (lit_true I l -> lin_val nu es <> rhs)).
    { intros I nu M [[q q1] q2]. destruct (g_bwd _ _ _ _ _ G12 I nu M) as [M0 _]. rewrite !Z.ltb_lt in *. split; [easy|]. split; [easy|]. split; [easy|]. apply DF. auto. }
    (* clauses *)
    assert (GC : forall c b3 b4 ok4, nxt (b_s b3) = nxt (b_s b2) -> gstep Q2 Q2 (fun _ _ => True) b2 b3 -> Forall (below (nxt (b_s b2))) c ->
      (forall I nu, models b2 I nu -> Q2 I nu -> clause_true I c) -> b_clause O c b3 = (ok4, b4) ->
      nxt (b_s b4) = nxt (b_s b2) /\ gstep Q2 Q2 (fun I _ => clause_true I c) b3 b4).
    { intros c b3 b4 ok4 N3 G3 Fc Hc E4. split; [unfold b_clause, on_s in E4; cbn in E4; injection E4 as _ <-; exact N3|].
      eapply g_clause with (2 := E4); [apply G3|now rewrite N3|]. intros I nu M q. apply (Hc I nu); auto. now destruct (g_bwd _ _ _ _ _ G3 I nu M). }
    assert (GT : forall (R : Pr) b3 b4, gstep Q2 Q2 (fun _ _ => True) b2 b3 -> gstep Q2 Q2 R b3 b4 -> gstep Q2 Q2 (fun _ _ => True) b2 b4) by (intros R b3 b4 A C; eapply g_trans; [exact A|exact C|easy]).
    assert (STOP : forall b3, gstep Q2 Q2 (fun _ _ => True) b2 b3 -> gstep Q Q (fun I nu => false = true -> differ l (t1, c1) (t2, c2) I nu) b b3).
    { intros b3 G3. eapply g_trans with (R2 := fun _ _ => True); [exact G12|eapply g_weaken; [exact G3|auto| |auto]|discriminate]. intros I nu M q. apply (SEM I nu); [|easy]. now destruct (g_bwd _ _ _ _ _ G3 I nu M). }
    assert (G0 : gstep Q2 Q2 (fun _ _ => True) b2 b2) by (apply g_refl; [apply G12|easy]).
    assert (Bnl : below (nxt (b_s b2)) (- l)) by now apply below_opp. assert (Bnx : below (nxt (b_s b2)) (- x)) by now apply below_opp. assert (Bny : below (nxt (b_s b2)) (- y)) by now apply below_opp.
    assert (Nl : l <> 0) by apply B. assert (Nx : x <> 0) by lia. assert (Ny : y <> 0) by lia.
    destruct (b_clause O [x; y; - l] b2) as [k3 b3] eqn:C3.
    destruct (GC [x; y; - l] b2 b3 k3 eq_refl G0) as (N3 & S3); [fb| |exact C3|].
    { intros I nu M q. apply SEM in q as (_ & qx & qy & ql); auto. apply clause3_true. rewrite lit_true_neg by easy. destruct (lit_true_dec I l); [|tauto]. specialize (ql ltac:(easy)).
      destruct (Z_lt_le_dec (lin_val nu es) rhs); [left; tauto|right; left; apply qy; split; [easy|lia]]. }
    pose proof (GT _ _ _ G0 S3) as G3. destruct k3; cbn [negb] in E; [|injection E as <- <-; now apply STOP].
    destruct (b_clause O [- x; - y] b3) as [k4 b4] eqn:C4.
    destruct (GC [- x; - y] b3 b4 k4 N3 G3) as (N4 & S4); [fb| |exact C4|].
    { intros I nu M q. apply SEM in q as (_ & qx & qy & ql); auto. apply clause2. rewrite !lit_true_neg by easy. destruct (lit_true_dec I x) as [X|X]; [right|tauto]. intros Y. apply qx in X. apply qy in Y. lia. }
    pose proof (GT _ _ _ G3 S4) as G4. destruct k4; cbn [negb] in E; [|injection E as <- <-; now apply STOP].
    match type of E with context [b_clause O ?c b4] => destruct (b_clause O c b4) as [k5 b5] eqn:C5 end.
    destruct (GC [l; - x] b4 b5 k5 N4 G4) as (N5 & S5); [fb| |exact C5|].
    { intros I nu M q. apply SEM in q as (_ & qx & qy & ql); auto. apply clause2. rewrite !lit_true_neg by easy. destruct (lit_true_dec I x); [left|tauto]. now apply qx. }
    pose proof (GT _ _ _ G4 S5) as G5. destruct k5; cbn [negb] in E; [|injection E as <- <-; now apply STOP].
    match type of E with context [b_clause O ?c b5] => destruct (b_clause O c b5) as [k6 b6] eqn:C6 end.
    destruct (GC [l; - y] b5 b6 k6 N5 G5) as (N6 & S6); [fb| |exact C6|].
    { intros I nu M q. apply SEM in q as (_ & qx & qy & ql); auto. apply clause2. rewrite !lit_true_neg by easy. destruct (lit_true_dec I y); [left|tauto]. now apply qy. }
    pose proof (GT _ _ _ G5 S6) as G6. destruct k6; cbn [negb] in E; [|injection E as <- <-; now apply STOP].
    assert (V6 : nvars (b_s b6) = nvars (b_s b)) by (rewrite (g_nv _ _ _ _ _ G6); exact V2).
    assert (G7 : gstep Q2 Q2 (fun I nu => ok = true -> (lit_true I x -> lin_val nu es < rhs) /\ (lit_true I y -> rhs < lin_val nu es)) b6 b').
    { apply differ_sides; auto.
      - apply G6.
      - now rewrite N6.
      - now rewrite N6.
      - now rewrite V6.
      - now rewrite N6, V6, <- V2.
      - intros I nu M q. destruct (g_bwd _ _ _ _ _ G6 I nu M) as [M2 _]. apply SEM in q as (_ & qx & qy & _); auto. split; intros Y; [apply qx in Y|apply qy in Y]; tauto. }
    assert (GF : gstep Q2 Q2 (fun I nu => ok = true -> differ l (t1, c1) (t2, c2) I nu) b2 b').
    { eapply g_trans; [exact G6|exact G7|]. intros I nu M _ R Hok. apply DF. intros L. destruct (R Hok) as [R1 R2].
      destruct (g_bwd _ _ _ _ _ G7 I nu M) as [M6 _]. destruct (g_bwd _ _ _ _ _ S6 I nu M6) as [M5 _]. destruct (g_bwd _ _ _ _ _ S5 I nu M5) as [M4 _].
      destruct (g_bwd _ _ _ _ _ S4 I nu M4) as [M3 _]. destruct (g_bwd _ _ _ _ _ S3 I nu M3) as [M2 C]. apply clause3_true in C. rewrite lit_true_neg in C by easy.
      destruct C as [C|[C|C]]; [apply R1 in C; lia|apply R2 in C; lia|tauto]. }
    eapply g_trans; [exact G12|eapply g_weaken; [exact GF|auto| |]|].
    + intros I nu M q. apply (SEM I nu); [|easy]. now destruct (g_bwd _ _ _ _ _ GF I nu M).
    + intros I nu _ _ R. exact R.
    + intros I nu _ _ R. exact R.
Qed.
End Steps.
