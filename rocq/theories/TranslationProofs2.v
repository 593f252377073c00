From Coq Require Import Permutation.
From Verif Require Import Base Util UtilProofs IntervalSet IntervalSetProofs VarState VarStateProofs Terms TermsSpec TermsProofs TermsProofs2 Solver OrderSpec
  OrderProofs1 OrderProofs2 OrderProofs3 OrderProofs5 OrderProofs6 OrderProofs7 OrderProofs8 Sum PropProofs ConSpec SumProofs SumProofs2 Translate TranslateProofs
  Distinct DistinctProofs DistinctProofs2 Objective ObjectiveProofs Search SearchSpec SearchFrame SearchGrow SearchSetup SearchInv5 Builder BuilderSpec BuilderProofs
  Translation TranslationSpec TranslationProofs.
Open Scope Z_scope.

(** ** The loop *)
Lemma add_con_css c d s : css s c = None -> css (add_constraint c d s) c = Some (set_todo true (cs_init s d)).
Proof.
  intros K. unfold add_constraint. rewrite K. cbv zeta.
  destruct (cs_init_def s d) as (D1 & D2 & D3). set (k0 := cs_init s d) in *.
  set (s1 := set_l2c _ _). destruct (add_watches_spec c (cs_watches d) s1) as [F _]. set (s2 := fold_left _ _ _) in *.
  assert (CS : css s2 = upd (css s) c (Some k0)) by (rewrite F; reflexivity).
  unfold mark_todo. rewrite CS, upd_same. unfold marked_inactive. rewrite D2, D3. cbn [Nat.eqb negb].
  cbn. now rewrite upd_same.
Qed.
Lemma sums_bnds s s' es : Forall (fun e => (snd e < nvars s)%nat) es -> (forall x, (x < nvars s)%nat -> vbounds (vst s' x) = vbounds (vst s x)) ->
  sum_lo s' es = sum_lo s es /\ sum_hi s' es = sum_hi s es.
Proof.
  intros F B. unfold sum_lo, sum_hi. split; f_equal; apply map_ext_in; intros [co x] Hi; rewrite Forall_forall in F; specialize (F _ Hi); cbn [snd] in F;
    specialize (B x F); unfold vbounds in B; unfold lo_of, hi_of; cbn [fst snd]; injection B as B1 B2 _ _; now rewrite B1, B2.
Qed.
Lemma number_ids cs : forall id c, In c (map fst (number id cs)) <-> (id <= c < id + length cs)%nat.
Proof.
  induction cs as [|d cs IH]; intros id c; cbn [number map fst In length]; [lia|]. rewrite IH. lia.
Qed.
Lemma number_nodup cs : forall id, NoDup (map fst (number id cs)).
Proof.
  induction cs as [|d cs IH]; intros id; cbn [number map fst]; constructor; auto. rewrite number_ids. lia.
Qed.
Lemma number_all (P : constr -> Prop) cs : forall id, Forall P cs -> Forall (fun p => P (snd p)) (number id cs).
Proof. induction cs; intros id F; cbn [number]; constructor; inversion_clear F; auto. Qed.
Lemma number_back (P : constr -> Prop) cs : forall id, Forall (fun p => P (snd p)) (number id cs) -> Forall P cs.
Proof. induction cs; intros id F; constructor; cbn [number] in F; inversion_clear F; eauto. Qed.
Lemma number_rounds n cs : plain n cs -> forall id, rounds (number id cs) = length cs.
Proof.
  intros F. induction F as [|d cs Fd F IH]; intros id; [easy|]. cbn [number]. unfold rounds in *. cbn [map list_sum fold_right snd length]. 
  unfold list_sum in IH. rewrite IH. destruct d; easy.
Qed.

Section Loop.
Context (O : oracle) (cfg : config) (Base : interp -> Prop) (n0 : Z).
Context (BO : base_ok Base n0) (CO : clasp_ok O Base).
Context (dlimit mlimit : Z) (order : bool) (ch : cid -> choice).
Notation good := (good Base).
Notation models := (models Base).
Notation top_ready := (top_ready O n0).

Lemma current_prep s s' k : prep s s' -> later O (log s) (log s') -> con_ok (nxt s) (nvars s) (c_def k) -> current O s k -> current O s' k.
Proof.
  intros P L [_ V] C. pose proof (pp_bnds _ _ P) as B. unfold current in *. destruct (c_def k) as [l rhs es|ad es|l es|l es|l ca x y cb z rhs]; auto; cbn [cvars] in V.
  - rewrite Forall_map in V. destruct (sums_bnds s s' es V B) as [E1 E2]. rewrite E1, E2. destruct C as [Nz C]. split; auto.
    destruct C as [C|C]; auto. left. now apply (later_false O Base CO s s').
  - destruct C as [Nz C]. split; auto.
    assert (E : forall e, In e es -> dist_init s' e = dist_init s e).
    { intros e He. unfold dist_init. destruct (sums_bnds s s' (snd e)) as [E1 E2]; auto; [|now rewrite E1, E2].
      rewrite Forall_forall in *. intros t Ht. apply V. apply in_concat. exists (map snd (snd e)). split; [apply in_map_iff; now exists e|now apply in_map]. }
    destruct C as [C|[C1 C2]]; [left; rewrite C; apply map_ext_in; intros e He; now rewrite E|].
    right. split; [now apply (later_false O Base CO s s')|]. clear - C2 E. induction C2 as [|a e la le H C2 IH]; constructor.
    + rewrite E; [exact H|now left].
    + apply IH. intros e0 He. apply E. now right.
Qed.

Definition fine (s : state) (c : cid) (d : constr) : Prop :=
  (exists k, css s c = Some k /\ c_def k = d /\ current O s k) \/ (css s c = None /\ plain (nvars s) [d]).
Definition all (w : work) : list (cid * constr) := w_kept w ++ w_rm w ++ w_rest w.
Definition sat (l : list (cid * constr)) (I : interp) (nu : var -> Z) : Prop := Forall (fun p => csem None (snd p) I nu) l.
(** What holds whatever the result of the translation is. *)
Record wsem (b : bld) (w : work) : Prop := {
  ws_wf : wf (w_s w);
  ws_nxt : nxt (b_s b) <= nxt (w_s w);
  ws_nv : (nvars (b_s b) <= nvars (w_s w))%nat;
  ws_con : Forall (fun p => con_ok (nxt (w_s w)) (nvars (w_s w)) (snd p)) (all w);
  ws_fwd : forall I nu, models b I nu -> exists J nu', agree_below (nxt (b_s b)) I J /\ ext_nu (nvars (b_s b)) nu nu' /\
    good (w_s w) J /\ order_ok (w_s w) J nu' /\ sat (all w) J nu';
  ws_bwd : forall I nu, good (w_s w) I -> order_ok (w_s w) I nu -> good (b_s b) I /\ order_ok (b_s b) I nu /\
    (sat (w_kept w ++ w_rest w) I nu -> sat (b_cs b) I nu) }.
Record winv (b : bld) (w : work) : Prop := {
  wi_sem : wsem b w;
  wi_top : top_ready (w_s w);
  wi_f : fmap (w_s w) = [];
  wi_st : settled (w_s w);
  wi_stay : stays_top O (w_s w);
  wi_ids : NoDup (map fst (all w));
  wi_lt : forall c, In c (map fst (all w)) -> (c < w_id w)%nat;
  wi_css : forall c k, css (w_s w) c = Some k -> In (c, c_def k) (all w);
  wi_done : Forall (fun p => css (w_s w) (fst p) <> None) (w_kept w ++ w_rm w);
  wi_rest : Forall (fun p => fine (w_s w) (fst p) (snd p)) (w_rest w) }.

Lemma same_good s s' I nu : vst s' = vst s -> log s' = log s -> nvars s' = nvars s -> (good s' I <-> good s I) /\ (order_ok s' I nu <-> order_ok s I nu).
Proof. intros E1 E2 E3. unfold OrderSpec.good, order_ok. now rewrite E1, E2, E3. Qed.
Lemma fst_unique {A B} (l : list (A * B)) c d d' : NoDup (map fst l) -> In (c, d) l -> In (c, d') l -> d = d'.
Proof.
  induction l as [|[c0 d0] l IH]; cbn [map fst In]; [easy|]. intros N H1 H2. inversion_clear N as [|? ? N1 N2].
  destruct H1 as [H1|H1], H2 as [H2|H2]; auto; try congruence.
  - injection H1 as -> ->. destruct N1. apply in_map_iff. now exists (c, d').
  - injection H2 as -> ->. destruct N1. apply in_map_iff. now exists (c, d).
Qed.
Lemma plain_init s d : plain (nvars s) [d] -> current O s (set_todo true (cs_init s d)).
Proof.
  intros F. inversion_clear F as [|? ? H _]. destruct d as [l rhs es| | | |]; try easy. cbn. destruct H as [_ H]. split; [|right; right; now split].
  eapply Forall_impl; [|exact H]. now intros e [A _].
Qed.
Lemma winv_add b kp rm c d rest id s : winv b (mkw kp rm ((c, d) :: rest) id s) -> let s1 := add_constraint c d s in
  winv b (mkw kp rm ((c, d) :: rest) id s1) /\ exists k, css s1 c = Some k /\ c_def k = d /\ current O s1 k.
Proof.
  intros W s1. destruct (css s c) as [k|] eqn:K.
  { assert (E : s1 = s) by (unfold s1, add_constraint; now rewrite K). rewrite E. split; [exact W|].
    pose proof (wi_rest _ _ W) as R. cbn [w_rest w_s] in R. inversion_clear R as [|? ? R1 _]. destruct R1 as [R1|[R1 _]]; [exact R1|]. cbn [fst] in R1. congruence. }
  destruct W as [Ws R F0 St Sy Nd Lt Cs Dn Rs]. cbn [w_kept w_rm w_rest w_id w_s all] in *.
  assert (Pl : plain (nvars s) [d]). { inversion_clear Rs as [|? ? R1 _]. destruct R1 as [(k & R1 & _)|[_ R1]]; [cbn [fst] in R1; congruence|exact R1]. }
  destruct (add_con_state c d s K) as (E1 & E2 & E3 & E4 & E5 & E6 & E7 & E8 & _ & E10). pose proof (add_con_css c d s K) as E9. fold s1 in E1, E2, E3, E4, E5, E6, E7, E8, E9, E10.
  assert (W1 : wf s1). { destruct (tr_wf _ _ _ R) as [[W1 W2 W3 W4 W5 W6] [F1 F2 F3]]. split; constructor; unfold cur_level in *; rewrite ?E1, ?E2, ?E3, ?E4, ?E5, ?E6, ?E7; auto. }
  assert (SB : forall es, sum_lo s1 es = sum_lo s es /\ sum_hi s1 es = sum_hi s es). { intros es. unfold sum_lo, sum_hi, lo_of, hi_of. now rewrite E1. }
  assert (CU : forall k, current O s k -> current O s1 k).
  { intros k. unfold current, is_false, is_true, dist_init. rewrite E2. destruct (c_def k) as [l rhs es|ad es|l es|l es|l ca x y cb z rhs]; auto.
    - destruct (SB es) as [-> ->]. auto.
    - intros [A B]. split; auto. assert (X : map (fun e : delem => (fst e + sum_lo s1 (snd e), fst e + sum_hi s1 (snd e))) es = map (fun e : delem => (fst e + sum_lo s (snd e), fst e + sum_hi s (snd e))) es).
      { apply map_ext. intros e. now destruct (SB (snd e)) as [-> ->]. }
      destruct B as [B|[B1 B2]]; [left; now rewrite X|]. right. split; auto. eapply Forall2_impl; [|exact B2]. intros a e. cbn [fst snd]. now destruct (SB (snd e)) as [-> ->]. }
  split.
  - destruct Ws as [V1 V2 V3 V4 V5 V6]. cbn [w_kept w_rm w_rest w_id w_s all] in *. constructor; cbn [w_kept w_rm w_rest w_id w_s all]; auto.
    + constructor; cbn [w_kept w_rm w_rest w_id w_s all]; rewrite ?E3, ?E4; auto.
      * intros I nu M. destruct (V5 I nu M) as (J & nu' & A & B & C & D & E). exists J, nu'. destruct (same_good s s1 J nu' E1 E2 E4) as [-> ->]. auto.
      * intros I nu. destruct (same_good s s1 I nu E1 E2 E4) as [-> ->]. apply V6.
    + destruct R as [A1 A2 A3 A4 A5]. constructor; auto; unfold cur_level, dlevel in *; rewrite ?E1, ?E2, ?E3, ?E4, ?E7; auto.
    + now rewrite E6.
    + unfold stays_top in *. now rewrite E2.
    + intros c' k'. destruct (Nat.eq_dec c' c) as [->|Ne].
      * rewrite E9. intros Q. injection Q as <-. replace (c_def (set_todo true (cs_init s d))) with d by now destruct d. unfold all; cbn [w_kept w_rm w_rest].
        rewrite !in_app_iff. right. right. now left.
      * rewrite E10 by auto. apply Cs.
    + eapply Forall_impl; [|exact Dn]. intros [c' d'] Hc. cbn [fst] in *. rewrite E10; [exact Hc|]. intros ->. congruence.
    + assert (Nc : forall d', ~ In (c, d') rest).
      { intros d' Hi. unfold all in Nd. cbn [w_kept w_rm w_rest] in Nd. rewrite app_assoc, map_app in Nd. apply NoDup_remove_2 in Nd. apply Nd. apply in_or_app. right. apply in_map_iff. now exists (c, d'). }
      inversion_clear Rs as [|? ? R1 R2]. constructor.
      * left. exists (set_todo true (cs_init s d)). cbn [fst snd]. split; [exact E9|]. split; [now destruct d|]. apply CU. now apply plain_init.
      * rewrite Forall_forall in *. intros [c' d'] Hi. specialize (R2 _ Hi). cbn [fst snd] in *. assert (c' <> c) by (intros ->; now apply (Nc d')).
        destruct R2 as [(k & A & B & C)|[A B]]; [left; exists k; rewrite E10 by auto; auto|right; rewrite E10, E4 by auto; auto].
  - exists (set_todo true (cs_init s d)). split; [exact E9|]. split; [now destruct d|]. apply CU. now apply plain_init.
Qed.
(** One iteration. *)
Lemma translate1_ok c d k s : top_ready s -> fmap s = [] -> con_ok (nxt s) (nvars s) d -> css s c = Some k -> c_def k = d -> current O s k ->
  forall r s', translate1 O cfg dlimit mlimit ch c s = (r, s') ->
  match r with Ok (ok, rm, cs) => tres O Base n0 d s s' ok rm cs | Throw _ => s' = s | UB => exists adj es, d = CMin adj es /\ translate_minimize cfg mlimit (adj, es) s = UB end.
Proof.
  intros R F0 Co K KD Cu r s' E. unfold translate1 in E. rewrite K, KD in E. destruct d as [l rhs es|adj es|l es|l es|l ca x y cb z rhs].
  - destruct (translate_sum _ _ _ _ _ k s) as [q s1] eqn:E1. destruct (sum_tres O cfg Base n0 BO CO _ _ _ l rhs es k s q s1 R KD Co Cu E1) as (ok & rm & -> & T). now injection E as <- <-.
  - destruct (translate_minimize cfg mlimit (adj, es) s) as [[b s1]|e|] eqn:E1; injection E as <- <-; [now apply (min_tres O cfg Base n0 BO CO mlimit)|easy|now exists adj, es].
  - destruct (distinct_tres O cfg Base n0 BO CO dlimit l es k s r s' R F0 KD Co Cu E) as (ok & rm & cs & -> & T). exact T.
  - injection E as <- <-. now apply tres_same.
  - injection E as <- <-. now apply tres_same.
Qed.
Lemma sat_app l m I nu : sat (l ++ m) I nu <-> sat l I nu /\ sat m I nu.
Proof. apply Forall_app. Qed.
Lemma plain_con n (m : nat) cs : 1 < n -> plain m cs -> Forall (con_ok n m) cs.
Proof.
  intros Hn. apply Forall_impl. intros [l rhs es| | | |]; try easy. intros [-> F]. split; [split; cbn; unfold TRUE_LIT; lia|]. cbn [cvars]. rewrite Forall_map.
  eapply Forall_impl; [|exact F]. now intros e [_ H].
Qed.
Lemma winv_step b kp rm c d rest id s s' ok r cs : winv b (mkw kp rm ((c, d) :: rest) id s) -> css s c <> None -> tres O Base n0 d s s' ok r cs ->
  let new := number id cs in let id' := (id + length cs)%nat in
  wsem b (mkw kp rm ((c, d) :: rest ++ new) id' s') /\
  (ok = true -> winv b (if r then mkw kp (rm ++ [(c, d)]) (rest ++ new) id' s' else mkw (kp ++ [(c, d)]) rm (rest ++ new) id' s')).
Proof.
  intros W Kc T new id'.
  destruct W as [[V1 V2 V3 V4 V5 V6] R F0 St Sy Nd Lt Cs Dn Rs]. unfold all in *. cbn [w_kept w_rm w_rest w_id w_s] in *.
  pose proof T as [Tw Tn Tp Tt Tpl Tl Tk Tf Tb]. pose proof (pp_nv _ _ Tp) as Tnv.
  assert (N1 : 1 < nxt s') by (pose proof (wf_nxt _ (proj1 V1)); lia).
  assert (Co : con_ok (nxt s) (nvars s) d). { rewrite !Forall_app in V4. destruct V4 as (_ & _ & V4). now inversion_clear V4. }
  assert (Cn : Forall (fun p => con_ok (nxt s') (nvars s') (snd p)) (kp ++ rm ++ (c, d) :: rest ++ new)).
  { rewrite app_comm_cons, !app_assoc. apply Forall_app. split.
    - rewrite <- app_assoc. eapply Forall_impl; [|exact V4]. intros p. apply con_ok_mono; lia.
    - unfold new. apply (number_all (con_ok (nxt s') (nvars s'))). now apply plain_con. }
  assert (Fw : forall I nu, models b I nu -> exists J nu', agree_below (nxt (b_s b)) I J /\ ext_nu (nvars (b_s b)) nu nu' /\
    good s' J /\ order_ok s' J nu' /\ sat (kp ++ rm ++ (c, d) :: rest ++ new) J nu').
  { intros I nu M. destruct (V5 I nu M) as (J & nu1 & A1 & A2 & A3 & A4 & A5).
    assert (Cd : csem None d J nu1). { unfold sat in A5. rewrite !Forall_app in A5. destruct A5 as (_ & _ & A5). now inversion_clear A5. }
    destruct (Tf J nu1 A3 A4 Cd) as (K & nu2 & B1 & B2 & B3 & B4 & B5). exists K, nu2.
    split; [intros i Hi; rewrite A1 by lia; apply B1; lia|]. split; [intros y Hy; rewrite (B2 y) by lia; now apply A2|]. split; [easy|]. split; [easy|].
    rewrite app_comm_cons, !app_assoc. apply sat_app. split.
    - rewrite <- app_assoc. unfold sat in *. rewrite Forall_forall in *. intros p Hp. apply (csem_dep (nxt s) (nvars s) (snd p) (V4 p Hp) J K nu1 nu2); auto.
    - now apply (number_all (fun d => csem None d K nu2)). }
  assert (Bw : forall I nu, good s' I -> order_ok s' I nu -> good (b_s b) I /\ order_ok (b_s b) I nu /\ (sat kp I nu -> csem None d I nu -> sat rest I nu -> sat (b_cs b) I nu)).
  { intros I nu G Od. destruct (Tb I nu G Od) as (G1 & O1 & _). destruct (V6 I nu G1 O1) as (G2 & O2 & H). split; [easy|]. split; [easy|].
    intros A B C. apply H. apply sat_app. split; [easy|]. now constructor. }
  split.
  { constructor; unfold all; cbn [w_kept w_rm w_rest w_id w_s]; auto; try lia.
    intros I nu G Od. destruct (Bw I nu G Od) as (G2 & O2 & H). split; [easy|]. split; [easy|]. intros A. apply sat_app in A as [A1 A2]. inversion_clear A2 as [|? ? A3 A4]. apply sat_app in A4 as [A4 _]. auto. }
  intros ->. destruct (Tt eq_refl) as [Tr Tla].
  assert (CS : css s' = css s) by (pose proof (pp_keep _ _ Tp) as Q; unfold keep in Q; congruence).
  assert (FM : fmap s' = fmap s) by (pose proof (pp_keep _ _ Tp) as Q; unfold keep in Q; congruence).
  set (w' := if r then _ else _).
  assert (Pm : Permutation (all w') (kp ++ rm ++ (c, d) :: rest ++ new)).
  { unfold w', all. destruct r; cbn [w_kept w_rm w_rest]; rewrite <- ?app_assoc; cbn [app]; [reflexivity|]. apply Permutation_app_head. apply Permutation_middle. }
  assert (Es : w_s w' = s') by (unfold w'; now destruct r). assert (Ei : w_id w' = id') by (unfold w'; now destruct r).
  assert (Er : w_rest w' = rest ++ new) by (unfold w'; now destruct r).
  assert (Ed : forall p, In p (w_kept w' ++ w_rm w') -> In p (kp ++ rm) \/ p = (c, d)).
  { intros p. unfold w'. destruct r; cbn [w_kept w_rm]; rewrite !in_app_iff; cbn [In]; intuition. }
  assert (Nn : NoDup (map fst (kp ++ rm ++ (c, d) :: rest ++ new))).
  { rewrite app_comm_cons, !app_assoc, map_app. rewrite app_assoc in Nd, Lt.
    assert (Dj : forall x, In x (map fst ((kp ++ rm) ++ (c, d) :: rest)) -> In x (map fst new) -> False).
    { intros x Hx Hn. specialize (Lt x Hx). apply number_ids in Hn. lia. }
    revert Nd Dj. generalize (map fst ((kp ++ rm) ++ (c, d) :: rest)). intros l0 N D. induction N as [|x l0 M1 M2 IH]; cbn [app]; [apply number_nodup|].
    constructor; [|apply IH; intros y Hy; apply D; now right]. rewrite in_app_iff. intros [H|H]; [easy|]. apply (D x); [now left|easy]. }
  constructor; rewrite ?Es, ?Ei, ?Er.
  - constructor; rewrite ?Es; auto; try lia.
    + eapply Permutation_Forall; [symmetry; exact Pm|exact Cn].
    + intros I nu M. destruct (Fw I nu M) as (J & nu' & A1 & A2 & A3 & A4 & A5). exists J, nu'. csplit; auto. unfold sat. eapply Permutation_Forall; [symmetry; exact Pm|exact A5].
    + intros I nu G Od. destruct (Bw I nu G Od) as (G2 & O2 & H). destruct (Tb I nu G Od) as (_ & _ & TB). split; [easy|]. split; [easy|]. unfold w'. destruct r; cbn [w_kept w_rest]; rewrite !sat_app.
      * intros (A & B & C). apply H; auto. apply TB; auto. now apply (number_back (fun d => csem None d I nu)) with id.
      * intros ((A & B) & C & D). apply H; auto. now inversion_clear B.
  - exact Tr.
  - now rewrite FM.
  - now apply (pp_settled _ _ Tp).
  - apply (stays_grow O s s'); auto. apply Tp.
  - eapply Permutation_NoDup; [symmetry; apply Permutation_map; exact Pm|exact Nn].
  - intros x Hx. assert (Hx' : In x (map fst (kp ++ rm ++ (c, d) :: rest ++ new))) by (eapply Permutation_in; [apply Permutation_map; exact Pm|exact Hx]).
    rewrite app_comm_cons, !app_assoc, map_app, in_app_iff in Hx'. rewrite app_assoc in Lt. destruct Hx' as [Hx'|Hx']; [apply Lt in Hx'; unfold id'; lia|]. apply number_ids in Hx'. unfold id'. lia.
  - intros x k. rewrite CS. intros Hk. apply Cs in Hk. eapply Permutation_in; [symmetry; exact Pm|]. rewrite app_comm_cons, !app_assoc. rewrite app_assoc in Hk. apply in_or_app. now left.
  - apply Forall_forall. intros p Hp. rewrite CS. apply Ed in Hp as [Hp| ->]; [|exact Kc]. rewrite Forall_forall in Dn. now apply Dn.
  - apply Forall_app. inversion_clear Rs as [|? ? R1 R2]. rewrite app_assoc in V4. apply Forall_app in V4 as [_ V4]. inversion_clear V4 as [|? ? V7 V8]. split.
    + rewrite Forall_forall in *. intros [x e] Hx. specialize (R2 _ Hx). specialize (V8 _ Hx). cbn [fst snd] in *. unfold fine in *. rewrite CS. destruct R2 as [(k & A & B & C)|[A B]].
      * left. exists k. csplit; auto. apply (current_prep s s' k); auto. now rewrite B.
      * right. split; [easy|]. now apply plain_mono with (nvars s).
    + apply Forall_forall. intros [x e] Hx. right. cbn [fst snd]. split.
      * rewrite CS. destruct (css s x) as [k|] eqn:K; [|easy]. apply Cs in K. apply (in_map fst) in K. cbn [fst] in K. apply Lt in K. apply (in_map fst) in Hx. apply number_ids in Hx. cbn [fst] in Hx. lia.
      * assert (Q : Forall (fun p => plain (nvars s') [snd p]) new).
        { unfold new. apply (number_all (fun d => plain (nvars s') [d])). apply Forall_forall. intros y Hy. constructor; [|constructor]. unfold plain in Tpl. rewrite Forall_forall in Tpl. now apply Tpl. }
        rewrite Forall_forall in Q. exact (Q _ Hx).
Qed.
Lemma tloop_ok b n : forall w r w', winv b w -> tloop O cfg dlimit mlimit ch n w = Some (r, w') ->
  match r with
  | Ok true => winv b w' /\ w_rest w' = []
  | Ok false => wsem b w'
  | _ => True
  end.
Proof.
  induction n as [|n IH]; intros [kp rm rest id s] r w' W E; cbn [tloop w_rest w_kept w_rm w_id w_s] in E.
  { destruct rest as [|[c d] rest]; [|discriminate]. injection E as <- <-. now split. }
  destruct rest as [|[c d] rest]; [injection E as <- <-; now split|].
  destruct (winv_add b kp rm c d rest id s W) as (W1 & k & K1 & K2 & K3). set (s1 := add_constraint c d s) in *.
  destruct (translate1 O cfg dlimit mlimit ch c s1) as [q s2] eqn:E1.
  assert (Co : con_ok (nxt s1) (nvars s1) d). { pose proof (ws_con _ _ (wi_sem _ _ W1)) as Q. unfold all in Q. cbn [w_kept w_rm w_rest w_s] in Q. rewrite !Forall_app in Q. destruct Q as (_ & _ & Q). now inversion_clear Q. }
  pose proof (translate1_ok c d k s1 (wi_top _ _ W1) (wi_f _ _ W1) Co K1 K2 K3 q s2 E1) as T.
  destruct q as [[[ok r1] cs]|e|]; [|injection E as <- _; easy|injection E as <- _; easy].
  assert (Kc : css s1 c <> None) by congruence.
  destruct (winv_step b kp rm c d rest id s1 s2 ok r1 cs W1 Kc T) as [S1 S2]. destruct ok; cbn [negb] in E.
  - specialize (S2 eq_refl). destruct r1; apply (IH _ _ _ S2 E).
  - injection E as <- <-. exact S1.
Qed.
Lemma tloop_ends b n : forall w, winv b w -> (rounds (w_rest w) <= n)%nat -> tloop O cfg dlimit mlimit ch n w <> None.
Proof.
  induction n as [|n IH]; intros [kp rm rest id s] W Hr; cbn [tloop w_rest w_kept w_rm w_id w_s] in *; destruct rest as [|[c d] rest]; try discriminate.
  { exfalso. unfold rounds in Hr. cbn [map list_sum fold_right snd] in Hr. destruct d; cbn [rounds1] in Hr; lia. }
  destruct (winv_add b kp rm c d rest id s W) as (W1 & k & K1 & K2 & K3). set (s1 := add_constraint c d s) in *.
  destruct (translate1 O cfg dlimit mlimit ch c s1) as [q s2] eqn:E1.
  assert (Co : con_ok (nxt s1) (nvars s1) d). { pose proof (ws_con _ _ (wi_sem _ _ W1)) as Q. unfold all in Q. cbn [w_kept w_rm w_rest w_s] in Q. rewrite !Forall_app in Q. destruct Q as (_ & _ & Q). now inversion_clear Q. }
  pose proof (translate1_ok c d k s1 (wi_top _ _ W1) (wi_f _ _ W1) Co K1 K2 K3 q s2 E1) as T.
  destruct q as [[[ok r1] cs]|e|]; try discriminate.
  assert (Kc : css s1 c <> None) by congruence.
  destruct (winv_step b kp rm c d rest id s1 s2 ok r1 cs W1 Kc T) as [S1 S2]. destruct ok; cbn [negb]; [|discriminate].
  assert (M : (rounds (rest ++ number id cs) <= n)%nat).
  { pose proof (tx_len _ _ _ _ _ _ _ _ _ T) as L. pose proof (number_rounds _ cs (tx_plain _ _ _ _ _ _ _ _ _ T) id) as Q. unfold rounds in *. rewrite map_app, list_sum_app.
    cbn [map list_sum fold_right snd] in Hr. unfold list_sum in *. lia. }
  specialize (S2 eq_refl). destruct r1; apply IH; auto.
Qed.

(** ** Removal *)
Definition restyle (s s' : state) : Prop :=
  (vst s', log s', nxt s', nvars s', lmap s', fmap s', lvls s') = (vst s, log s, nxt s, nvars s, lmap s, fmap s, lvls s) /\
  (settled s -> settled s') /\ forall c, option_map c_def (css s' c) = option_map c_def (css s c).
Lemma restyle_refl s : restyle s s.
Proof. now split. Qed.
Lemma restyle_trans s s1 s2 : restyle s s1 -> restyle s1 s2 -> restyle s s2.
Proof. intros (A1 & A2 & A3) (B1 & B2 & B3). split; [congruence|]. split; [auto|]. intros c. now rewrite B3. Qed.
Lemma restyle_fold (f : state -> cid -> state) l : (forall s c, restyle s (f s c)) -> forall s, restyle s (fold_left f l s).
Proof. intros H. induction l as [|c l IH]; intros s; [apply restyle_refl|]. cbn [fold_left]. eapply restyle_trans; [apply H|apply IH]. Qed.
Lemma restyle_set c k k' s : css s c = Some k -> c_def k' = c_def k -> restyle s (set_cs c k' s).
Proof.
  intros K D. split; [easy|]. split; [easy|]. intros c'. cbn. unfold upd. destruct (Nat.eqb_spec c' c) as [->|]; [|easy]. rewrite K. cbn. now rewrite D.
Qed.
Lemma removal_ok rm s : let s' := remove_constraints rm s in
  (vst s', log s', nxt s', nvars s', lmap s', fmap s', lvls s') = (vst s, log s, nxt s, nvars s, lmap s, fmap s, lvls s) /\
  (settled s -> settled s') /\ forall c, option_map c_def (css s' c) = if removed rm c then None else option_map c_def (css s c).
Proof.
  unfold remove_constraints. set (s1 := set_wat _ s). cbv zeta. set (s2 := fold_left activate (ina s1) s1). set (s3 := set_ina _ s2). set (s4 := fold_left clear_todo (tod s3) s3).
  assert (R : restyle s s4).
  { apply restyle_trans with s1; [now split|]. apply restyle_trans with s2.
    { apply restyle_fold. intros u c. unfold activate. destruct (css u c) as [k|] eqn:K; [|apply restyle_refl]. now apply restyle_set with k. }
    apply restyle_trans with s3; [now split|]. apply restyle_fold. intros u c. unfold clear_todo. destruct (css u c) as [k|] eqn:K; [|apply restyle_refl]. now apply restyle_set with k. }
  destruct R as (A & B & C). split; [exact A|]. split; [exact B|]. intros c. cbn. destruct (removed rm c); [easy|apply C].
Qed.

(** ** Order clauses *)
Notation pstep := (pstep O Base).
Notation holds := (holds Base).
Lemma order_clauses1_ok x m : forall prev pv s ok s', top_ready s -> (x < nvars s)%nat -> sorted m -> Forall (fun p => pv < fst p) m ->
  Forall (fun p => below (nxt s) (snd p)) m -> (prev = - TRUE_LIT \/ below (nxt s) prev /\ holds s (fun I nu => lit_true I prev <-> nu x <= pv)) ->
  holds s (fun I nu => forall w l, In (w, l) m -> (lit_true I l <-> nu x <= w)) ->
  order_clauses1 O prev m s = (ok, s') -> pstep T2 s s' ok /\ prep s s' /\ vst s' = vst s.
Proof.
  induction m as [|[w l] m IH]; intros prev pv s ok s' R Hx Sm Lt Bm Hp Hm E; cbn [order_clauses1] in E.
  { injection E as <- <-. split; [apply pstep_refl, R|]. split; [apply prep_refl|easy]. }
  inversion Sm as [|? ? Sm' Lw]; subst. inversion Bm as [|? ? Bl Bm']; subst. inversion Lt as [|? ? Lp _]; subst. cbn [fst snd] in *.
  assert (Lw' : Forall (fun p => w < fst p) m) by (eapply Forall_impl; [|exact Lw]; intros [w' l'] H; exact H).
  assert (Hl : holds s (fun I nu => lit_true I l <-> nu x <= w)) by (intros I nu G Od; apply (Hm I nu G Od); now left).
  assert (Hm' : holds s (fun I nu => forall w0 l0, In (w0, l0) m -> (lit_true I l0 <-> nu x <= w0))) by (intros I nu G Od w0 l0 Hi; apply (Hm I nu G Od); now right).
  destruct (Z.eqb_spec prev (- TRUE_LIT)) as [Ep|Ep].
  { apply (IH l w s ok s'); auto. }
  destruct Hp as [Hp|[Bp Hp]]; [easy|]. destruct (add_clause O Learnt [- prev; l] s) as [ok1 s1] eqn:E1.
  assert (Pp : prep s s1) by (pose proof (prep_clause O Learnt [- prev; l] s) as Q; now rewrite E1 in Q).
  assert (Ev : vst s1 = vst s) by now injection E1 as _ <-.
  destruct (pstep_clause O Base T2 Learnt [- prev; l] s ok1 s1 (tr_wf _ _ _ R)) as (P1 & _ & Nx); auto.
  { constructor; [|constructor; [exact Bl|constructor]]. unfold below in *. rewrite Z.abs_opp. split; [lia|]. apply Bp. }
  { intros I nu G Od _. specialize (Hp I nu G Od). specialize (Hl I nu G Od). cbv beta in Hp, Hl.
    assert (NP : lit_true I (- prev) <-> ~ lit_true I prev) by (apply lit_true_neg; apply Bp).
    unfold clause_true. destruct (Z_le_gt_dec (nu x) pv) as [Q|Q].
    - exists l. split; [cbn; auto|]. apply Hl. lia.
    - exists (- prev). split; [now left|]. apply NP. rewrite Hp. lia. }
  destruct ok1; [|injection E as <- <-; easy].
  destruct (IH l w s1 ok s') as (P2 & Pp2 & Ev2); auto.
  { now apply (top_pstep O Base n0 CO T2) with (1 := P1). } { now apply (nvars_pstep O Base) with (1 := P1). } { now rewrite Nx. }
  { right. rewrite Nx. split; [exact Bl|]. now apply (holds_pstep O Base) with (1 := P1). } { now apply (holds_pstep O Base) with (1 := P1). }
  split; [apply (pstep_trans O Base) with s1; easy|]. split; [now apply prep_trans with s1|congruence].
Qed.
Lemma order_clauses_ok xs : forall s ok s', top_ready s -> Forall (fun x => (x < nvars s)%nat) xs -> order_clauses O xs s = (ok, s') -> pstep T2 s s' ok /\ prep s s'.
Proof.
  induction xs as [|x xs IH]; intros s ok s' R F E; cbn [order_clauses] in E.
  { injection E as <- <-. split; [apply pstep_refl, R|apply prep_refl]. }
  inversion_clear F as [|? ? Hx F']. destruct (order_clauses1 O (- TRUE_LIT) (lits (vst s x)) s) as [ok1 s1] eqn:E1.
  pose proof (tr_wf _ _ _ R) as W.
  assert (LB : exists pv, Forall (fun p => pv < fst p) (lits (vst s x))).
  { pose proof (wf_sorted _ (proj1 W) x Hx) as Sr. destruct (lits (vst s x)) as [|[w l] m]; [exists 0; constructor|]. exists (w - 1). inversion_clear Sr as [|? ? _ Q]. constructor; [cbn; lia|].
    eapply Forall_impl; [|exact Q]. intros [w' l'] H. unfold klt in H. cbn [fst] in *. lia. }
  destruct LB as [pv LB].
  destruct (order_clauses1_ok x (lits (vst s x)) (- TRUE_LIT) pv s ok1 s1) as (P1 & Q1 & V1); auto.
  { apply (wf_sorted _ (proj1 W) x Hx). } { apply Forall_forall. intros [w l] Hi. now apply (wf_lits _ (proj1 W) x w l Hx). }
  { intros I nu _ Od. apply (Od x Hx). }
  destruct ok1; [|injection E as <- <-; now split]. destruct (IH s1 ok s') as (P2 & Q2); auto.
  { now apply (top_pstep O Base n0 CO T2) with (1 := P1). } { eapply Forall_impl; [|exact F']. intros y Hy. now apply (nvars_pstep O Base) with (1 := P1). }
  split; [apply (pstep_trans O Base) with s1; easy|now apply prep_trans with s1].
Qed.

(** ** The whole *)
Lemma start_inv b : translatable O n0 b -> winv b (mkw [] [] (b_cs b) (b_id b) (b_s b)).
Proof.
  intros [[[W C Ids Rg Nd] N L St Sy] Bd F0 Cu]. constructor; unfold all; cbn [w_kept w_rm w_rest w_id w_s app]; auto.
  - constructor; unfold all; cbn [w_kept w_rm w_rest w_id w_s app]; auto; try lia.
    + intros I nu (G & Od & F). exists I, nu. split; [apply agree_refl|]. split; easy.
  - constructor; auto. apply (Sy []). constructor.
  - intros c Hc. apply in_map_iff in Hc as ((c' & d) & <- & Hc). apply Rg in Hc as (k & K & _). cbn [fst]. apply Ids. congruence.
  - intros c k K. apply Rg. now exists k.
  - apply Forall_forall. intros [c d] Hi. apply Rg in Hi as (k & K & D). left. exists k. cbn [fst snd]. csplit; auto. now apply Cu with c.
Qed.
Lemma final_ok b w s ok s' : winv b w -> w_rest w = [] ->
  s = match w_rm w with [] => w_s w | rm => remove_constraints (map fst rm) (w_s w) end ->
  (if order then order_clauses O (seq 0 (nvars s)) s else (true, s)) = (ok, s') ->
  (forall I nu, models b I nu -> exists J nu', agree_below (nxt (b_s b)) I J /\ ext_nu (nvars (b_s b)) nu nu' /\ models (mkb s' (w_kept w) (w_id w)) J nu') /\
  (forall I nu, models (mkb s' (w_kept w) (w_id w)) I nu -> models b I nu) /\
  (ok = true -> top O n0 (mkb s' (w_kept w) (w_id w))).
Proof.
  intros [[V1 V2 V3 V4 V5 V6] R F0 St Sy Nd Lt Cs Dn _] E0 Es E. unfold all in *. rewrite E0, app_nil_r in *.
  assert (Q : (vst s, log s, nxt s, nvars s, lmap s, fmap s, lvls s) = (vst (w_s w), log (w_s w), nxt (w_s w), nvars (w_s w), lmap (w_s w), fmap (w_s w), lvls (w_s w)) /\
    (settled (w_s w) -> settled s) /\ forall c, option_map c_def (css s c) = if removed (map fst (w_rm w)) c then None else option_map c_def (css (w_s w) c)).
  { rewrite Es. destruct (w_rm w) as [|p rm] eqn:Er; [now split|]. apply removal_ok. }
  destruct Q as (Q1 & Q2 & Q3). injection Q1 as E1 E2 E3 E4 E5 E6 E7.
  assert (W1 : wf s). { destruct V1 as [[W1 W2 W3 W4 W5 W6] [F1 F2 F3]]. split; constructor; unfold cur_level in *; rewrite ?E1, ?E2, ?E3, ?E4, ?E5, ?E6, ?E7; auto. }
  assert (R1 : top_ready s). { destruct R as [A1 A2 A3 A4 A5]. constructor; auto; unfold cur_level, dlevel in *; rewrite ?E1, ?E2, ?E3, ?E4, ?E7; auto. }
  assert (P : pstep T2 s s' ok /\ prep s s').
  { destruct order; [|injection E as <- <-; split; [apply pstep_refl, R1|apply prep_refl]]. apply order_clauses_ok with (3 := E); auto. apply Forall_forall. intros x Hx. apply in_seq in Hx. lia. }
  destruct P as [P Pp]. pose proof (ps_step _ _ _ _ _ _ P) as SP. pose proof (st_nxt _ _ _ _ _ SP) as Hn. pose proof (st_nv _ _ _ _ _ SP) as Hv.
  assert (Ck : Forall (fun p => con_ok (nxt (w_s w)) (nvars (w_s w)) (snd p)) (w_kept w)) by (apply Forall_app in V4; tauto).
  csplit.
  - intros I nu M. destruct (V5 I nu M) as (J & nu1 & A1 & A2 & A3 & A4 & A5). apply (same_good (w_s w) s J nu1 E1 E2 E4) in A3. apply (same_good (w_s w) s J nu1 E1 E2 E4) in A4.
    destruct (st_fwd _ _ _ _ _ SP J nu1 A3 A4 Logic.I) as (K & nu2 & B1 & B2 & B3 & B4). exists K, nu2. rewrite E3 in B1. rewrite E4 in B2.
    split; [intros i Hi; rewrite A1 by lia; apply B1; lia|]. split; [intros y Hy; rewrite (B2 y) by lia; now apply A2|]. split; [easy|]. split; [easy|]. cbn [b_cs].
    unfold sat in A5. apply Forall_app in A5 as [A5 _]. rewrite Forall_forall in *. intros p Hp. apply (csem_dep (nxt (w_s w)) (nvars (w_s w)) (snd p) (Ck p Hp) J K nu1 nu2); auto.
  - intros I nu (G & Od & F). cbn [b_s b_cs] in *. destruct (st_bwd _ _ _ _ _ SP I nu G Od) as (G1 & O1 & _).
    apply (same_good (w_s w) s I nu E1 E2 E4) in G1. apply (same_good (w_s w) s I nu E1 E2 E4) in O1. destruct (V6 I nu G1 O1) as (A & B & C). split; [easy|]. split; [easy|]. now apply C.
  - intros ->. assert (R2 : top_ready s') by now apply (top_pstep O Base n0 CO T2) with (1 := P).
    assert (CS : css s' = css s) by (pose proof (pp_keep _ _ Pp) as Q; unfold keep in Q; congruence).
    assert (Rm : forall c, removed (map fst (w_rm w)) c = true <-> In c (map fst (w_rm w))).
    { intros c. unfold removed. rewrite existsb_exists. split; [intros (y & H1 & H2); apply Nat.eqb_eq in H2; now subst|intros H; exists c; split; [easy|apply Nat.eqb_refl]]. }
    constructor; cbn [b_s b_cs b_id].
    + constructor; cbn [b_s b_cs b_id].
      * apply P.
      * eapply Forall_impl; [|exact Ck]. intros p. apply con_ok_mono; lia.
      * intros c Hc. rewrite CS in Hc. specialize (Q3 c). destruct (css s c) as [k|]; [|easy]. cbn [option_map] in Q3. destruct (removed _ c); [discriminate|].
        destruct (css (w_s w) c) as [k'|] eqn:K; [|discriminate]. apply Cs in K. apply (in_map fst) in K. now apply Lt.
      * intros c d. rewrite CS. specialize (Q3 c). split.
        -- intros Hi. assert (Nr : removed (map fst (w_rm w)) c = false).
           { destruct (removed (map fst (w_rm w)) c) eqn:X; [|easy]. apply Rm in X. exfalso. rewrite map_app in Nd. apply (in_map fst) in Hi. cbn [fst] in Hi.
             clear - Nd Hi X. induction (map fst (w_kept w)) as [|y l IH]; [easy|]. cbn [app] in Nd. inversion_clear Nd as [|? ? N1 N2]. destruct Hi as [->|Hi]; [|now apply IH]. apply N1, in_or_app. now right. }
           rewrite Nr in Q3. rewrite Forall_forall in Dn. assert (Hin : In (c, d) (w_kept w ++ w_rm w)) by (apply in_or_app; now left). pose proof (Dn _ Hin) as D1. cbn [fst] in D1.
           destruct (css (w_s w) c) as [k'|] eqn:K; [|easy]. apply Cs in K. rewrite (fst_unique _ c d (c_def k') Nd Hin K). destruct (css s c) as [k|]; [|discriminate]. cbn [option_map] in Q3. injection Q3 as Q3. now exists k.
        -- intros (k & K & D). rewrite K in Q3. cbn [option_map] in Q3. destruct (removed (map fst (w_rm w)) c) eqn:X; [discriminate|].
           destruct (css (w_s w) c) as [k'|] eqn:K'; [|discriminate]. cbn [option_map] in Q3. injection Q3 as Q3. apply Cs in K'. rewrite <- Q3, D in K'. apply in_app_or in K' as [K'|K']; [easy|].
           apply (in_map fst) in K'. apply Rm in K'. cbn [fst] in K'. congruence.
      * rewrite map_app in Nd. clear - Nd. induction (map fst (w_kept w)) as [|y l IH]; [constructor|]. cbn [app] in Nd. inversion_clear Nd as [|? ? N1 N2]. constructor; auto. intros H. apply N1, in_or_app. now left.
    + apply R2.
    + apply R2.
    + now apply (pp_settled _ _ Pp), Q2.
    + apply (stays_grow O s s'); [apply Pp|]. unfold stays_top in *. now rewrite E2.
Qed.
Lemma translate_ok n b ok b' : translatable O n0 b -> solver_translate O cfg dlimit mlimit order ch n b = Some (Ok ok, b') ->
  (forall I nu, models b I nu -> exists J nu', agree_below (nxt (b_s b)) I J /\ ext_nu (nvars (b_s b)) nu nu' /\ models b' J nu') /\
  (forall I nu, models b' I nu -> models b I nu) /\ (ok = true -> top O n0 b').
Proof.
  intros T E. pose proof (start_inv b T) as W. unfold solver_translate in E.
  destruct (tloop O cfg dlimit mlimit ch n (mkw [] [] (b_cs b) (b_id b) (b_s b))) as [[r w]|] eqn:E1; [|discriminate].
  pose proof (tloop_ok b n _ r w W E1) as H. destruct r as [[|]|e|]; try discriminate.
  - destruct H as [H E0]. match type of E with context [if order then order_clauses O (seq 0 (nvars ?q)) _ else _] => set (s := q) in E end.
    destruct (if order then order_clauses O (seq 0 (nvars s)) s else (true, s)) as [ok' s'] eqn:E2.
    assert (E' : (ok', mkb s' (w_kept w) (w_id w)) = (ok, b')) by congruence. injection E' as <- <-. now apply (final_ok b w s).
  - assert (E' : (false, mkb (w_s w) (w_kept w ++ w_rm w ++ w_rest w) (w_id w)) = (ok, b')) by congruence. injection E' as <- <-. destruct H as [V1 V2 V3 V4 V5 V6]. csplit; [| |discriminate].
    + intros I nu M. destruct (V5 I nu M) as (J & nu1 & A1 & A2 & A3 & A4 & A5). exists J, nu1. csplit; auto. now split.
    + intros I nu (G & Od & F). cbn [b_s b_cs] in *. destruct (V6 I nu G Od) as (A & B & C). split; [easy|]. split; [easy|]. apply C. rewrite !Forall_app in F. apply sat_app. now split.
Qed.
Lemma translate_ends n b : translatable O n0 b -> (rounds (b_cs b) <= n)%nat -> solver_translate O cfg dlimit mlimit order ch n b <> None.
Proof.
  intros T L. pose proof (tloop_ends b n _ (start_inv b T) L) as H. unfold solver_translate.
  destruct (tloop O cfg dlimit mlimit ch n (mkw [] [] (b_cs b) (b_id b) (b_s b))) as [[r w]|]; [|easy].
  destruct r as [[|]|e|]; try discriminate. destruct (if order then _ else _). discriminate.
Qed.

(** ** Undefined behaviour *)
Lemma small_bnds s s' d : (forall x, In x (cvars d) -> vbounds (vst s' x) = vbounds (vst s x)) -> small s d -> small s' d.
Proof.
  destruct d as [l rhs es|ad es|l es|l es|l ca x y cb z rhs]; auto. cbn [small cvars]. intros B F. rewrite Forall_forall in *. intros e He. destruct (F e He) as [A C]. split; auto.
  assert (Q : minb (vst s' (snd e)) = minb (vst s (snd e))); [|now rewrite Q]. assert (E : vbounds (vst s' (snd e)) = vbounds (vst s (snd e))) by (apply B; now apply in_map).
  unfold vbounds in E. injection E as E1 E2 E3 E4. unfold minb. now rewrite E1, E3.
Qed.
Lemma min_elems_defined es : forall s, Forall (fun e => (snd e < nvars s)%nat) es -> Forall (fun e => fits int32 (fst e) /\ fits int32 (minb (vst s (snd e)))) es -> min_elems cfg es s <> UB.
Proof.
  induction es as [|[co x] es IH]; intros s V F; cbn [min_elems]; [discriminate|]. inversion_clear V as [|? ? V1 V2]. inversion_clear F as [|? ? F1 F2]. cbn [fst snd] in *.
  pose proof (safe_z_mul co (minb (vst s x)) (proj1 F1) (proj2 F1)) as S. destruct (safe_mul int32 co (minb (vst s x))) as [p| |]; cbn [bind safe_z] in *; try easy.
  match goal with |- min_elems _ _ ?q <> _ => set (s1 := q) end.
  assert (P : prep s s1). { unfold s1. eapply prep_trans; [now apply (prep_emit (EMin TRUE_LIT p 0))|]. apply prep_min_values. }
  pose proof (pp_nv _ _ P) as Nv. apply IH.
  - eapply Forall_impl; [|exact V2]. cbn. intros e. lia.
  - apply (small_bnds s s1 (CMin 0 es)); [|exact F2]. intros y Hy. apply (pp_bnds _ _ P). cbn [cvars] in Hy. apply in_map_iff in Hy as (e & <- & He). rewrite Forall_forall in V2. now apply V2.
Qed.
Lemma minimize_defined adj es s : con_ok (nxt s) (nvars s) (CMin adj es) -> small s (CMin adj es) -> translate_minimize cfg mlimit (adj, es) s <> UB.
Proof.
  intros [_ V] F. unfold translate_minimize. destruct (_ || _); [|discriminate]. cbn [fst snd]. cbn [cvars] in V. rewrite Forall_map in V.
  pose proof (min_elems_defined es (emit (EMin TRUE_LIT (- adj) 0) (set_tmin true s)) V F) as H. destruct (min_elems _ _ _); easy.
Qed.
Lemma tloop_defined b n : forall w r w', winv b w -> Forall (fun p => small (w_s w) (snd p)) (w_rest w) -> tloop O cfg dlimit mlimit ch n w = Some (r, w') -> r <> UB.
Proof.
  induction n as [|n IH]; intros [kp rm rest id s] r w' W F E; cbn [tloop w_rest w_kept w_rm w_id w_s] in *.
  { destruct rest as [|[c d] rest]; [|discriminate]. now injection E as <- <-. }
  destruct rest as [|[c d] rest]; [now injection E as <- <-|].
  destruct (winv_add b kp rm c d rest id s W) as (W1 & k & K1 & K2 & K3). set (s1 := add_constraint c d s) in *.
  assert (Ev : vst s1 = vst s). { unfold s1. destruct (css s c) eqn:K; [unfold add_constraint; now rewrite K|]. now destruct (add_con_state c d s K) as (Q & _). }
  destruct (translate1 O cfg dlimit mlimit ch c s1) as [q s2] eqn:E1.
  assert (Ca := ws_con _ _ (wi_sem _ _ W1)). unfold all in Ca. cbn [w_kept w_rm w_rest w_s] in Ca. rewrite !Forall_app in Ca. destruct Ca as (_ & _ & Ca). inversion_clear Ca as [|? ? Co Cr]. cbn [snd] in Co.
  inversion_clear F as [|? ? Fd Fr]. cbn [snd] in Fd.
  assert (Fd1 : small s1 d) by (apply (small_bnds s s1); [now intros x _; rewrite Ev|exact Fd]).
  pose proof (translate1_ok c d k s1 (wi_top _ _ W1) (wi_f _ _ W1) Co K1 K2 K3 q s2 E1) as T.
  destruct q as [[[ok r1] cs]|e|].
  - assert (Kc : css s1 c <> None) by congruence.
    destruct (winv_step b kp rm c d rest id s1 s2 ok r1 cs W1 Kc T) as [S1 S2]. destruct ok; cbn [negb] in E; [|now injection E as <- <-]. specialize (S2 eq_refl).
    assert (Fn : Forall (fun p => small s2 (snd p)) (rest ++ number id cs)).
    { apply Forall_app. split.
      - rewrite Forall_forall in *. intros p Hp. destruct (Cr p Hp) as [_ V]. apply (small_bnds s s2); [|now apply Fr]. intros x Hx. rewrite Forall_forall in V. rewrite (pp_bnds _ _ (tx_prep _ _ _ _ _ _ _ _ _ T) x (V x Hx)). now rewrite Ev.
      - apply (number_all (small s2)). pose proof (tx_plain _ _ _ _ _ _ _ _ _ T) as Pl. eapply Forall_impl; [|exact Pl]. now intros []. }
    destruct r1; apply (IH _ _ _ S2) in E; auto.
  - now injection E as <- _.
  - destruct T as (adj & es & -> & T). now elim (minimize_defined adj es s1).
Qed.
Lemma translate_defined n b r b' : translatable O n0 b -> Forall (fun p => small (b_s b) (snd p)) (b_cs b) -> solver_translate O cfg dlimit mlimit order ch n b = Some (r, b') -> r <> UB.
Proof.
  intros T F E. unfold solver_translate in E. destruct (tloop O cfg dlimit mlimit ch n (mkw [] [] (b_cs b) (b_id b) (b_s b))) as [[q w]|] eqn:E1; [|discriminate].
  pose proof (tloop_defined b n _ q w (start_inv b T) F E1) as H. destruct q as [[|]|e|]; try easy.
  - destruct (if order then _ else _). injection E as <- _. discriminate.
  - injection E as <- _. discriminate.
  - injection E as <- _. discriminate.
Qed.
End Loop.
