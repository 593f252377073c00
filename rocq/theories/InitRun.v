(** The calls of the parser lead to a state in which simplification can start. *)
From Verif Require Import Base Util UtilProofs IntervalSet IntervalSetProofs VarState VarStateProofs Terms TermsSpec TermsProofs Solver OrderSpec
  OrderProofs1 OrderProofs2 OrderProofs3 OrderProofs5 OrderProofs7 OrderProofs8 Orders Sum PropProofs ConSpec SumProofs SumProofs2 Translate TranslateProofs
  Distinct DistinctProofs DistinctProofs2 Objective ObjectiveProofs Search SearchSpec SearchFrame SearchGrow SearchInv SearchInv3 SearchInv4 SearchInv5 SearchSetup SearchMain
  Builder BuilderSpec BuilderProofs BuilderProofs3 Translation TranslationSpec TranslationProofs TranslationProofs2 CheckSpec CheckFrame KeepSpec InitSpec InitFrame InitBuild InitReady InitDist.
From Coq Require Import Permutation.
Open Scope Z_scope.

(** Nothing has been propagated yet. *)
Record young (s : state) : Prop := {
  yo_cs : forall c k, css s c = Some k -> Forall (fun x => x < nvars s)%nat (cvars (c_def k)) /\
    match c_def k with CDistinct _ es => c_inact k = 0%nat /\ c_todo k = true /\ c_asg k = map (dist_init s) es | _ => True end;
  yo_mb : mbound s = None;
  yo_off : toff s = 0%nat }.

Lemma dist_init_bnds s s' es : (forall x, In x (concat (map (fun e : delem => map snd (snd e)) es)) -> vbounds (vst s' x) = vbounds (vst s x)) -> map (dist_init s') es = map (dist_init s) es.
Proof.
  intros B. apply map_ext_in. intros e He. unfold dist_init. assert (E : sum_lo s' (snd e) = sum_lo s (snd e) /\ sum_hi s' (snd e) = sum_hi s (snd e)); [|destruct E as [-> ->]; reflexivity].
  assert (V : forall t, In t (snd e) -> vbounds (vst s' (snd t)) = vbounds (vst s (snd t))).
  { intros t Ht. apply B. apply in_concat. exists (map snd (snd e)). split; [now apply (in_map (fun e : delem => map snd (snd e)))|now apply in_map]. }
  unfold sum_lo, sum_hi. split; f_equal; apply map_ext_in; intros t Ht; specialize (V t Ht); unfold vbounds in V; injection V as V1 V2 V3 V4; unfold lo_of, hi_of; now rewrite V1, V2.
Qed.

Lemma young_fd s s' : fd s s' -> young s -> young s'.
Proof.
  intros [[LO WG] DG] [A B C]. pose proof LO as (S3 & CS & IN). pose proof (proj2 S3) as VB. constructor.
  - intros c k K. rewrite CS in K. destruct (A c k K) as [A1 A2]. assert (NV : nvars s' = nvars s) by now apply (same3_get nvars). rewrite NV. split; auto.
    destruct (c_def k); auto. now rewrite (dist_init_bnds s s').
  - rewrite <- B. now apply (same3_get mbound).
  - rewrite <- C. now apply (same3_get toff).
Qed.
Lemma young_var mn mx s : young s -> young (snd (add_variable mn mx s)).
Proof.
  intros [A B C]. constructor; auto. intros c k K. change (css s c = Some k) in K. destruct (A c k K) as [A1 A2]. change (nvars (snd (add_variable mn mx s))) with (S (nvars s)). split.
  - eapply Forall_impl; [|exact A1]. cbn. lia.
  - destruct (c_def k) eqn:D; auto. rewrite (dist_init_bnds s); auto. intros x Hx. cbn. unfold upd. destruct (Nat.eqb_spec x (nvars s)) as [->|]; auto.
    rewrite Forall_forall in A1. specialize (A1 (nvars s) Hx). lia.
Qed.
Lemma add_con_misc c d s : mbound (add_constraint c d s) = mbound s /\ toff (add_constraint c d s) = toff s.
Proof.
  unfold add_constraint. destruct (css s c); [auto|]. cbv zeta. set (s1 := set_l2c _ _). destruct (add_watches_spec c (cs_watches d) s1) as [F _]. set (s2 := fold_left _ _ _) in *.
  unfold mark_todo. repeat match goal with |- context [match ?q with _ => _ end] => destruct q end; try (rewrite F; auto); cbn; rewrite F; auto.
Qed.
Lemma young_con c d s : Forall (fun x => x < nvars s)%nat (cvars d) -> young s -> young (add_constraint c d s).
Proof.
  intros V Y. destruct (css s c) as [k|] eqn:K; [unfold add_constraint; now rewrite K|]. destruct Y as [A B C]. destruct (add_con_misc c d s) as [M1 M2].
  destruct (add_con_state c d s K) as (E1 & E2 & E3 & E4 & E5 & E6 & E7 & E8 & E9 & E10). pose proof (add_con_css c d s K) as E11. constructor; try congruence.
  intros c' k' K'. rewrite E4. destruct (Nat.eq_dec c' c) as [->|N].
  - rewrite E11 in K'. injection K' as <-. destruct d; cbn [cs_init set_todo c_def c_inact c_todo c_asg]; split; auto. split; auto. split; auto. apply dist_init_bnds. intros x _. now rewrite E1.
  - rewrite E10 in K' by auto. destruct (A c' k' K') as [A1 A2]. split; auto. destruct (c_def k'); auto. rewrite (dist_init_bnds s); auto. intros x _. now rewrite E1.
Qed.
Lemma young_init n : young (set_nxt n init_state).
Proof. constructor; auto. intros c k K. discriminate. Qed.
Lemma young_dd O s : young s -> dd O None s.
Proof.
  intros [A _ _] c k l es K D. destruct (A c k K) as [_ Q]. rewrite D in Q. destruct Q as (Q1 & Q2 & Q3). split; auto. split; [|congruence]. rewrite Q3. clear. induction es as [|e es IH]; constructor; auto. split; lia.
Qed.

Section Run.
Context (isrt : (ival -> Z) -> list ival -> list ival) (O : oracle) (cfg : config) (chk sol : bool).
Context (srt : list (Z * var) -> list (Z * var)) (PS : forall es, Permutation (srt es) es).
Notation ready := (InitReady.ready isrt O cfg chk sol).
Notation from := (from srt).

Lemma from_le m m' c d : (m <= m')%nat -> from m c d -> from m' c d.
Proof. intros L (A & B & C). split; auto. split; auto. eapply Forall_impl; [|exact B]. cbn. lia. Qed.
Lemma bmv_young (D : constr -> Prop) b b1 : (forall d, D d -> Forall (fun x => x < nvars (b_s b))%nat (cvars d)) -> bmv D b b1 -> young (b_s b) -> young (b_s b1).
Proof.
  intros H B Y. induction B as [|b1 s B IH F|d b1 B IH Hd]; auto.
  - now apply young_fd with (b_s b1).
  - apply young_con; auto. rewrite (bmv_nv D b b1 B). now apply H.
Qed.

Lemma run_ready K b ops K' b' P M : run O cfg srt K b ops K' b' P -> Forall (op_tidy M) ops -> ready (b_s b) -> young (b_s b) ->
  ready (b_s b') /\ young (b_s b') /\ (nvars (b_s b) <= nvars (b_s b'))%nat /\ build O cfg srt ops b = Ok (true, b') /\
  exists ds, b_cs b' = b_cs b ++ ds /\ Forall (fun p => exists c, In (POp c) ops /\ from (nvars (b_s b')) c (snd p)) ds.
Proof.
  induction 1 as [K b|K b o ops b1 K' b' P OK E R IH]; intros T RD Y.
  { split; auto. split; auto. split; auto. split; auto. exists []. now rewrite app_nil_r. }
  inversion_clear T as [|? ? T1 T2].
  assert (X : ready (b_s b1) /\ young (b_s b1) /\ (nvars (b_s b) <= nvars (b_s b1))%nat /\
    exists ds, b_cs b1 = b_cs b ++ ds /\ Forall (fun p => exists c, o = POp c /\ from (nvars (b_s b1)) c (snd p)) ds).
  { destruct o as [c| |mn mx]; cbn [build op_ok op_tidy] in *.
    - apply bind_ok in E as ([ok b2] & E1 & E). assert (b2 = b1 /\ ok = true) as [-> ->] by (destruct ok; cbn [negb] in E; split; congruence).
      destruct T1 as [T1 _]. pose proof (build1_bmv O cfg srt PS K (nvars (b_s b)) c b true b1 OK T1 E1) as BM. pose proof (bmv_nv _ _ _ BM) as NV.
      assert (VV : forall d, from (nvars (b_s b)) c d -> Forall (fun x => x < nvars (b_s b))%nat (cvars d)) by (intros d (_ & V & _); exact V).
      split; [apply (mv_ready isrt O cfg chk sol (b_s b)); auto; now apply (bmv_mv _ b b1 VV)|]. split; [now apply (bmv_young _ b b1 VV BM)|]. split; [lia|].
      destruct (bmv_cs _ _ _ BM) as (ds & D1 & D2). exists ds. split; auto. eapply Forall_impl; [|exact D2]. intros p Hp. exists c. rewrite NV. auto.
    - assert (E' : snd (b_literal b) = b1) by congruence. rewrite <- E'. unfold b_literal, on_s. destruct (add_literal (b_s b)) as [l s1] eqn:A. pose proof (fd_literal (b_s b)) as F. rewrite A in F. cbn [snd] in F. cbn [snd b_s b_cs].
      split; [now apply (ready_fd isrt O cfg chk sol (b_s b))|]. split; [now apply young_fd with (b_s b)|]. split; [|exists []; now rewrite app_nil_r]. destruct F as [[LO _] _]. destruct LO as (S3 & _). rewrite (same3_get nvars) with (2 := S3); auto.
    - assert (E' : snd (on_s (add_variable mn mx) b) = b1) by congruence. rewrite <- E'. unfold on_s. pose proof (ready_variable isrt O cfg chk sol mn mx (b_s b)) as RV. pose proof (young_var mn mx (b_s b) Y) as YV. destruct (add_variable mn mx (b_s b)) as [x s1] eqn:A. cbn [snd b_s b_cs] in *. split; [now apply RV|]. split; auto.
      split; [|exists []; now rewrite app_nil_r]. unfold add_variable in A. injection A as _ <-. cbn. lia. }
  destruct X as (X1 & X2 & X3 & ds & X4 & X5). destruct (IH T2 X1 X2) as (Y1 & Y2 & Y3 & Y4 & ds' & Y5 & Y6).
  split; auto. split; auto. split; [lia|]. split.
  - destruct o as [c| |mn mx]; cbn [build] in *; [|assert (E' : snd (b_literal b) = b1) by congruence; now rewrite E'|assert (E' : snd (on_s (add_variable mn mx) b) = b1) by congruence; now rewrite E']. apply bind_ok in E as ([ok b2] & E1 & E). rewrite E1. cbn [bind]. destruct ok; cbn [negb] in *; [|discriminate]. injection E as ->. exact Y4.
  - exists (ds ++ ds'). split; [rewrite Y5, X4; now rewrite app_assoc|]. apply Forall_app. split.
    + eapply Forall_impl; [|exact X5]. intros p (c & -> & F). exists c. split; [now left|]. now apply from_le with (nvars (b_s b1)).
    + eapply Forall_impl; [|exact Y6]. intros p (c & I & F). exists c. split; [now right|exact F].
Qed.
End Run.
