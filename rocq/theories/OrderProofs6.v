(** Steps and well-formedness for constraints over a single variable. *)
From Verif Require Import Base Util VarState VarStateProofs Terms TermsSpec Solver OrderSpec OrderProofs1 OrderProofs2 OrderProofs3 OrderProofs4 OrderProofs5.
From Coq Require Import Sorting.Sorted.
Open Scope Z_scope.

Lemma simple_value_pos co rhs n : 0 < co -> (co * n <= rhs <-> n <= simple_value co rhs).
Proof.
  intros H. unfold simple_value. replace (0 <? co) with true by lia. split; intros A.
  - apply Z.div_le_lower_bound; lia.
  - pose proof (Z.mul_div_le rhs co H). nia.
Qed.
Lemma simple_value_neg co rhs n : co < 0 -> (co * n <= rhs <-> simple_value co rhs < n).
Proof.
  intros H. unfold simple_value. replace (0 <? co) with false by lia. split; intros A.
  - assert (- n <= rhs / - co) by (apply Z.div_le_lower_bound; lia). lia.
  - pose proof (Z.mul_div_le rhs (- co) ltac:(lia)). nia.
Qed.

(** What a constraint co * x <= rhs with a literal means: an implication, or an equivalence if it is strict. *)
Definition simple_sem (clit : lit) (co : Z) (x : var) (rhs : Z) (strict : bool) : interp -> (var -> Z) -> Prop := fun I nu =>
  (lit_true I clit -> co * nu x <= rhs) /\ (strict = true -> co * nu x <= rhs -> lit_true I clit).

(** Storing a literal that has no entry yet, in the order of add_simple. *)
Lemma link_new_wf s x v l : wf_core s -> (x < nvars s)%nat -> vfind (vst s x) v = None -> below (nxt s) l -> Z.abs l <> 1 ->
  lmap s (Z.abs l) = None ->
  let s' := store_lit x v l (litmap_add x v l s) in
  wf_core s' /\ (forall fs, wf_facts fs s -> wf_facts fs s') /\ same s s' /\ log s' = log s /\ nxt s' = nxt s /\
  (forall y, lits (vst s' y) = if Nat.eqb y x then m_set (lits (vst s x)) v l else lits (vst s y)).
Proof.
  intros W Hx Hf Bl N1 Nl s'. unfold litmap_add in s'.
  destruct (update_litmap x l v s) as [[p n] s1] eqn:U.
  destruct (update_litmap_spec x l v _ _ _ (wf_link s x v W Hx) U) as (HP & HN & L & -> & L1 & L2).
  cbn [fst snd] in *. replace (l =? 0) with false in L2 by (destruct Bl; lia).
  assert (VS : forall y, lits (vst s' y) = if Nat.eqb y x then m_set (lits (vst s x)) v l else lits (vst s y)).
  { intros y. cbn. unfold upd. destruct (Nat.eqb_spec y x) as [->|]; reflexivity. }
  assert (SM : same s s').
  { split; [reflexivity|]. intros y. cbn. unfold upd, vbounds. destruct (Nat.eqb_spec y x) as [->|]; reflexivity. }
  assert (NF : forall k e, lmap s k = Some e -> ~ (e_var e = x /\ e_val e = v)).
  { intros k e He [Ex Ev]. rewrite (entry_at s x v k e W Hx He Ex Ev) in Hf. discriminate. }
  assert (NV : ~ exists z, In (v, z) (lits (vst s x))).
  { intros (z & Hz). apply m_find_in in Hz; [|now apply W]. unfold vfind in Hf. congruence. }
  assert (LM : lmap s' = updz L (Z.abs l) (Some (mke x (0 <? l) v p n))) by reflexivity.
  assert (NX : nxt s' = nxt s) by reflexivity. assert (LG : log s' = log s) by reflexivity.
  assert (NVs : nvars s' = nvars s) by reflexivity. clearbody s'.
  csplit; auto.
  - apply wf_link_set with s x v l (lits (vst s x)) p n; auto.
    + lia.
    + now rewrite NX.
    + rewrite NX, LG. apply W.
    + intros Hc y Hy. destruct (same_bnds s s' y SM) as (_ & _ & -> & ->). rewrite (same_cur _ _ SM) in Hc. now apply W.
    + apply off_refl.
    + intros k e' H. rewrite LM in H. unfold updz in H. destruct (k =? Z.abs l) eqn:Qk.
      * left. injection H as <-. apply Z.eqb_eq in Qk. csplit; auto. lia.
      * right. destruct (lmap s k) as [e|] eqn:Qe; [|rewrite (L1 k Qe) in H; discriminate].
        destruct (L2 k e Qe) as (e2 & A & B). rewrite A in H. injection H as <-. exists e.
        split; [easy|]. split; [now apply NF with k|easy].
    + intros k e H N. destruct (L2 k e H) as (e2 & A & B). exists e2. split; [|easy]. rewrite LM. unfold updz.
      destruct (k =? Z.abs l) eqn:Qk; [|easy]. apply Z.eqb_eq in Qk as ->. congruence.
    + intros _. rewrite LM. unfold updz. now rewrite Z.eqb_refl.
  - intros fs [F1 F2 F3]. constructor; auto.
    + intros f Hf'. destruct (F1 f Hf') as (A & B & C). rewrite NVs. csplit; auto. rewrite VS.
      destruct (Nat.eqb_spec (f_var f) x) as [Q|Q]; [|easy]. rewrite Q in C. rewrite in_m_set by now apply W. right.
      split; [|easy]. intros Ev. rewrite Ev in C. apply NV. eauto.
    + intros y w z Hy Hz A. rewrite NVs in Hy. rewrite VS in Hz. destruct (Nat.eqb_spec y x) as [->|]; [|now apply F3].
      apply in_m_set in Hz as [(-> & ->)|(_ & H)]; [lia| |now apply W]. now apply F3.
Qed.

Section Steps.
Context (O : oracle) (cfg : config) (Base : interp -> Prop) (n0 : Z).
Notation good := (good Base).
Notation step := (step Base).
Context (BO : base_ok Base n0) (CO : clasp_ok O Base).

(** Storing a known literal for a value imposes the equivalence. *)
Lemma link_step s s' x v l : wf_core s -> (x < nvars s)%nat -> vfind (vst s x) v = None ->
  log s' = log s -> nxt s' = nxt s -> nvars s' = nvars s ->
  (forall y, minb (vst s' y) = minb (vst s y) /\ maxb (vst s' y) = maxb (vst s y)) ->
  (forall y, lits (vst s' y) = if Nat.eqb y x then m_set (lits (vst s x)) v l else lits (vst s y)) ->
  let P := fun (I : interp) (nu : var -> Z) => lit_true I l <-> nu x <= v in
  step P P s s'.
Proof.
  intros W Hx Hf L N V HB VS P.
  assert (G : forall I, good s' I <-> good s I) by (intros I; unfold OrderSpec.good; now rewrite L).
  assert (OO : forall I nu, order_ok s' I nu <-> order_ok s I nu /\ P I nu).
  { intros I nu. unfold order_ok. rewrite V. split.
    - intros H. split.
      + intros y Hy. destruct (H y Hy) as [A B]. destruct (HB y) as [B1 B2]. split; [lia|]. intros w z Hz. apply B.
        rewrite VS. destruct (Nat.eqb_spec y x) as [->|]; [|easy]. rewrite in_m_set by now apply W. right. split; [|easy].
        intros ->. apply m_find_in in Hz; [|now apply W]. unfold vfind in Hf. congruence.
      + destruct (H x Hx) as [A B]. apply B. rewrite VS, Nat.eqb_refl, in_m_set by now apply W. now left.
    - intros [H Hp] y Hy. destruct (H y Hy) as [A B]. destruct (HB y) as [B1 B2]. split; [lia|]. intros w z. rewrite VS.
      destruct (Nat.eqb_spec y x) as [->|]; [|apply B]. rewrite in_m_set by now apply W. intros [(-> & ->)|(_ & Hz)]; [easy|now apply B]. }
  constructor; try lia.
  - now exists [].
  - intros I nu HG HO Hp. exists I, nu. split; [easy|]. split; [easy|]. split; [now apply G|]. now apply OO.
  - intros I nu HG HO. split; [now apply G|]. now apply OO in HO.
Qed.

Lemma top_true s l I : dlevel O s = 0%nat -> is_true O s l = true -> good s I -> lit_true I l.
Proof. intros D T (A & B & C). apply (cl_top _ _ CO (log s)); auto. Qed.
Lemma top_false s l I : l <> 0 -> dlevel O s = 0%nat -> is_false O s l = true -> good s I -> ~ lit_true I l.
Proof. intros N D T HG. apply lit_true_neg; [easy|]. now apply top_true with s. Qed.
Lemma one_true s : is_true O s 1 = true.
Proof. apply CO. Qed.

Lemma simple_dep n m clit co x rhs strict : below n clit -> (x < m)%nat -> dep n m (simple_sem clit co x rhs strict).
Proof.
  intros B Hx I J nu nu' A E. unfold simple_sem. rewrite (E x Hx), (lit_true_agree n I J clit A B). auto.
Qed.

Record as_post (P : interp -> (var -> Z) -> Prop) (s s' : state) (ok : bool) : Prop := {
  as_wf : wf s';
  as_step : step P T2 s s';
  as_ok : ok = true -> step P P s s';
  as_same : same2 s s';
  as_bnds : forall y, vbounds (vst s' y) = vbounds (vst s y) }.

Lemma wf_add_watch l s : wf s -> wf (add_watch l s).
Proof. intros W. now apply wf_emit. Qed.
Lemma step_watch l s : step T2 T2 s (add_watch l s).
Proof. apply step_weaken with T2 (fun I _ => ev_true I (EWatch l)); auto. now apply emit_step. Qed.

Lemma same_add_clause t c s ok s' : add_clause O t c s = (ok, s') -> same s s' /\ nxt s' = nxt s /\ vst s' = vst s /\ lmap s' = lmap s.
Proof. intros E. injection E as _ <-. csplit; try reflexivity. apply same_emit. Qed.

(** A literal that is made equivalent to another one. *)
Lemma add_literal_ok s : wf s -> n0 <= nxt s -> wf (snd (add_literal s)) /\ step T2 T2 s (snd (add_literal s)).
Proof.
  intros [[W1 W2 W3 W4 W5 W6] [F1 F2 F3]] Hn. cbn. split.
  - split; constructor; cbn; auto; try lia.
    + intros y w z Hy Hz. destruct (W3 y w z Hy Hz) as (A & B). split; [|easy]. apply below_mono with (nxt s); [lia|easy].
    + intros k e H. destruct (W4 k e H) as (A & B). split; [lia|easy].
    + constructor; [easy|]. eapply Forall_impl; [|exact W5]. intros e. apply ev_below_mono. lia.
  - constructor; cbn; try lia.
    + now exists [ELit (nxt s)].
    + intros I nu (A & B & C) HO _. exists I, nu. split; [easy|]. split; [easy|]. split; [|exact HO]. split; [easy|]. split; [easy|]. cbn. now constructor.
    + intros I nu (A & B & C) HO. split; [|easy]. split; [easy|]. split; [easy|]. cbn in C. now inversion C.
Qed.

(** Adding a literal equivalent to [l]. *)
Lemma add_equiv_step s l : wf s -> n0 <= nxt s -> below (nxt s) l ->
  forall s1, s1 = snd (add_literal s) ->
  forall ok s2, add_clause O Learnt [- l; nxt s] s1 = (ok, s2) ->
  wf s2 /\ same s s2 /\ nxt s2 = nxt s + 1 /\ vst s2 = vst s /\ lmap s2 = lmap s /\ step T2 T2 s s2 /\
  forall ok' s3, add_clause O Learnt [- nxt s; l] s2 = (ok', s3) ->
  wf s3 /\ same s s3 /\ nxt s3 = nxt s + 1 /\ vst s3 = vst s /\ lmap s3 = lmap s /\ step T2 (fun I _ => lit_true I (nxt s) <-> lit_true I l) s s3.
Proof.
  intros W Hn Bl s1 Es1 ok s2 A. pose proof (add_literal_ok s W Hn) as [W1 S1]. rewrite <- Es1 in W1, S1.
  pose proof (wf_nxt s (proj1 W)) as Nx.
  assert (N1 : nxt s1 = nxt s + 1) by now rewrite Es1.
  assert (Fc : Forall (below (nxt s1)) [- l; nxt s]).
  { destruct Bl. repeat constructor; rewrite ?N1; lia. }
  destruct (add_clause_wf O _ _ _ _ _ A W1 Fc) as (W2 & SM2 & NX2).
  assert (SM1 : same s s1) by now rewrite Es1.
  destruct (same_add_clause _ _ _ _ _ A) as (_ & _ & V2 & L2).
  assert (V1 : vst s1 = vst s) by now rewrite Es1. assert (L1 : lmap s1 = lmap s) by now rewrite Es1.
  (* the new literal takes the value of l *)
  assert (FW : forall I nu, good s I -> order_ok s I nu -> exists J, agree_below (nxt s) I J /\ good s1 J /\ order_ok s1 J nu /\ (lit_true J (nxt s) <-> lit_true J l)).
  { intros I nu HG HO. set (b := if 0 <? l then I l else negb (I (- l))). set (J := fun i => if i =? nxt s then b else I i).
    assert (AJ : agree_below (nxt s) I J). { intros i Hi. unfold J. destruct (i =? nxt s) eqn:E; [lia|easy]. }
    exists J. split; [easy|]. destruct HG as (A1 & B & C). split; [|split].
    - split; [|split].
      + apply (BO I J); [|easy]. now apply agree_mono with (nxt s).
      + rewrite <- B. symmetry. apply AJ. lia.
      + rewrite Es1. cbn. constructor; [easy|]. rewrite Forall_forall in *. intros e He. apply ev_true_agree with (nxt s) I; auto.
        pose proof (wf_log s (proj1 W)) as WL. rewrite Forall_forall in WL. now apply WL.
    - intros y Hy. rewrite (same_nvars _ _ SM1) in Hy. rewrite V1. destruct (HO y Hy) as [B1 B2]. split; [easy|].
      intros w z Hz. rewrite <- (lit_true_agree (nxt s) I J z AJ); [now apply B2|]. now apply (wf_lits s (proj1 W)) in Hz.
    - rewrite <- (lit_true_agree (nxt s) I J l AJ Bl). unfold lit_true, J, b. replace (0 <? nxt s) with true by lia. rewrite Z.eqb_refl.
      destruct (0 <? l); [easy|]. now destruct (I (- l)). }
  assert (S2 : step T2 (fun I _ => clause_true I [- l; nxt s]) s s2).
  { constructor; try lia.
    - rewrite (same_nvars _ _ SM2), (same_nvars _ _ SM1). lia.
    - injection A as _ <-. rewrite Es1. now exists [EClause Learnt [- l; nxt s]; ELit (nxt s)].
    - intros I nu HG HO _. destruct (FW I nu HG HO) as (J & A1 & A2 & A3 & A4). exists J, nu. split; [easy|]. split; [easy|].
      injection A as _ <-. split; [|exact A3]. apply good_emit. split; [easy|]. cbn. apply clause2_true.
      destruct (lit_true_dec J l) as [R|R]; [right; now apply A4|left; apply lit_true_neg; [apply Bl|easy]].
    - intros I nu HG HO. destruct (st_bwd _ _ _ _ _ S1 I nu) as (G0 & O0 & _).
      + injection A as _ <-. now apply good_emit in HG.
      + injection A as _ <-. exact HO.
      + split; [easy|]. split; [easy|]. injection A as _ <-. now apply good_emit in HG. }
  split; [easy|]. split; [now apply same_trans with s1|]. split; [lia|]. split; [congruence|]. split; [congruence|]. split; [now apply step_weaken with (1 := S2)|].
  intros ok' s3 A'.
  assert (Fc' : Forall (below (nxt s2)) [- nxt s; l]).
  { destruct Bl. repeat constructor; rewrite ?NX2, ?N1; lia. }
  destruct (add_clause_wf O _ _ _ _ _ A' W2 Fc') as (W3 & SM3 & NX3).
  destruct (same_add_clause _ _ _ _ _ A') as (_ & _ & V3 & L3).
  split; [easy|]. split; [apply same_trans with s1; [easy|now apply same_trans with s2]|]. split; [lia|]. split; [congruence|]. split; [congruence|].
  constructor; try lia.
  - rewrite (same_nvars _ _ SM3), (same_nvars _ _ SM2), (same_nvars _ _ SM1). lia.
  - injection A' as _ <-. injection A as _ <-. rewrite Es1. now exists [EClause Learnt [- nxt s; l]; EClause Learnt [- l; nxt s]; ELit (nxt s)].
  - intros I nu HG HO _. destruct (FW I nu HG HO) as (J & A1 & A2 & A3 & A4). exists J, nu. split; [easy|]. split; [easy|].
    injection A' as _ <-. injection A as _ <-. split; [|exact A3]. apply good_emit. split; [apply good_emit; split; [easy|]|]; cbn; apply clause2_true.
    + destruct (lit_true_dec J l) as [R|R]; [right; now apply A4|left; apply lit_true_neg; [apply Bl|easy]].
    + destruct (lit_true_dec J l) as [R|R]; [now right|]. left. apply lit_true_neg; [lia|]. now rewrite A4.
  - intros I nu HG HO. destruct (st_bwd _ _ _ _ _ S2 I nu) as (G0 & O0 & C).
    + injection A' as _ <-. now apply good_emit in HG.
    + injection A' as _ <-. exact HO.
    + split; [easy|]. split; [easy|]. injection A' as _ <-. apply good_emit in HG as (_ & C'). cbn in C'.
      apply clause2_true in C, C'. rewrite lit_true_neg in C by apply Bl. rewrite lit_true_neg in C' by lia. tauto.
Qed.

Lemma add_simple_ok clit co x rhs strict s ok s' : wf s -> (x < nvars s)%nat -> n0 <= nxt s -> below (nxt s) clit -> co <> 0 ->
  dlevel O s = 0%nat ->
  add_simple O cfg clit co x rhs strict s = (ok, s') ->
  as_post (simple_sem clit co x rhs strict) s s' ok.
Proof.
  intros W Hx Hn Bc Nco D0 E. pose proof (simple_dep (nxt s) (nvars s) clit co x rhs strict Bc Hx) as Dep.
  set (P := simple_sem clit co x rhs strict) in *. unfold add_simple in E.
  destruct (negb strict && is_false O s clit) eqn:C1.
  { injection E as <- <-.
    assert (R : step P P s s).
    { apply step_refl. left. intros I nu HG _. assert (~ lit_true I clit) by (apply top_false with s; auto; [apply Bc|lia]).
      split; [tauto|]. intros ->. cbn in C1. discriminate. }
    constructor; auto; try easy. now apply step_weaken with (1 := R). }
  set (value := simple_value co rhs) in *.
  set (sat := fun nu : var -> Z => co * nu x <= rhs).
  assert (SV : forall nu, (sat nu <-> if co <? 0 then ~ nu x <= value else nu x <= value)).
  { intros nu. unfold sat, value. destruct (co <? 0) eqn:Q.
    - rewrite simple_value_neg by lia. lia.
    - apply simple_value_pos. lia. }
  set (l := if co <? 0 then - clit else clit).
  assert (Bl : below (nxt s) l) by (unfold l; destruct (co <? 0); [now apply below_neg|easy]).
  set (t := if 0 <? co then truth_value O s clit else truth_value O s (- clit)) in *.
  assert (Et : t = truth_value O s l).
  { unfold t, l. destruct (0 <? co) eqn:Q1, (co <? 0) eqn:Q2; try lia; easy. }
  (* in terms of the literal oriented towards x <= value *)
  assert (PL : forall I nu, P I nu <-> (if co <? 0 then (nu x <= value -> lit_true I l) /\ (strict = true -> lit_true I l -> nu x <= value)
                                        else (lit_true I l -> nu x <= value) /\ (strict = true -> nu x <= value -> lit_true I l))).
  { intros I nu. unfold P, simple_sem. fold (sat nu). specialize (SV nu). unfold l. destruct (co <? 0) eqn:Q.
    - rewrite lit_true_neg by apply Bc. destruct (lit_true_dec I clit); destruct (Z_le_gt_dec (nu x) value); destruct strict; intuition (try lia; try congruence).
    - tauto. }
  assert (TR : forall I, good s I -> match t with TTrue => lit_true I l | TFalse => ~ lit_true I l | TFree => True end).
  { intros I HG. rewrite Et. unfold truth_value. destruct (is_true O s l) eqn:Q1; [now apply top_true with s|].
    destruct (is_false O s l) eqn:Q2; [|easy]. apply top_false with s; auto. apply Bl. }
  destruct (strict && (minb (vst s x) <=? value) && (value <? maxb (vst s x)) && (match vfind (vst s x) value with Some _ => false | None => true end)) eqn:C2.
  - (* the literal of the constraint becomes an order literal *)
    assert (strict = true) as Hs by (destruct strict; [easy|discriminate]).
    destruct (vfind (vst s x) value) eqn:Hf; [rewrite Bool.andb_false_r in C2; discriminate|]. clear C2.
    assert (PE : forall I nu, P I nu <-> (lit_true I l <-> nu x <= value)).
    { intros I nu. rewrite PL, Hs. destruct (co <? 0); tauto. }
    fold l in E.
    assert (FREE : forall l' s0, wf s0 -> same s s0 -> vst s0 = vst s -> below (nxt s0) l' -> Z.abs l' <> 1 -> lmap s0 (Z.abs l') = None ->
       step T2 (fun I _ => lit_true I l' <-> lit_true I l) s s0 ->
       (true, store_lit x value l' (litmap_add x value l' (add_watch (- l') (add_watch l' s0)))) = (ok, s') -> as_post P s s' ok).
    { intros l' s0 W0 SM0 V0 B0 N0 L0 S0 E0. injection E0 as <- <-.
      set (s1 := add_watch (- l') (add_watch l' s0)).
      assert (W1 : wf s1) by now apply wf_add_watch, wf_add_watch.
      assert (Hx1 : (x < nvars s1)%nat) by (change (nvars s1) with (nvars s0); now rewrite (same_nvars _ _ SM0)).
      assert (Hf1 : vfind (vst s1 x) value = None) by (change (vst s1) with (vst s0); now rewrite V0).
      destruct (link_new_wf s1 x value l' (proj1 W1) Hx1 Hf1 B0 N0 L0) as (W2 & F2 & SM2 & LG & NX & VS).
      set (s2 := store_lit x value l' (litmap_add x value l' s1)) in *.
      assert (S12 : step (fun I nu => lit_true I l' <-> nu x <= value) (fun I nu => lit_true I l' <-> nu x <= value) s1 s2).
      { apply link_step; auto; [apply W1|now apply same_nvars|]. intros y. split; [now apply same_minb|now apply same_maxb]. }
      assert (S01 : step T2 (fun I _ => lit_true I l' <-> lit_true I l) s s1).
      { apply step_trans with (5 := S0) (6 := step_trans_T Base _ _ _ (step_watch l' s0) (step_watch (- l') _)); auto. apply T2_dep. }
      assert (FIN : step P P s s2).
      { apply step_trans with (5 := S01) (6 := S12); auto.
        - easy.
        - intros I nu HG HO Hp. destruct (st_bwd _ _ _ _ _ S01 I nu HG HO) as (_ & _ & q). rewrite q. now apply PE.
        - intros I nu HG HO q1 q2. apply PE. rewrite <- q1. easy. }
      assert (SMs : same s s2). { apply same_trans with s0; [easy|]. apply same_trans with s1; [|easy]. apply same_trans with (add_watch l' s0); apply same_emit. }
      constructor.
      - split; [easy|]. rewrite (same_fmap _ _ SM2). apply F2, W1.
      - now apply step_weaken with (1 := FIN).
      - auto.
      - now apply same_same2.
      - apply SMs. }
    assert (FACT : forall p n s1 tt f, t <> TFree -> update_litmap x tt value s = ((p, n), s1) -> tt = (match t with TTrue => TRUE_LIT | _ => - TRUE_LIT end) ->
       f_lit f = tt -> f_var f = x -> f_val f = value ->
       (true, store_lit x value tt (push_fact f s1)) = (ok, s') -> as_post P s s' ok).
    { intros p n s1 tt f Nt U Ett F1 F2 F3 E0. injection E0 as <- <-.
      change (store_lit x value tt (push_fact f s1)) with (push_fact f (store_lit x value tt s1)).
      assert (Htt : tt = TRUE_LIT \/ tt = - TRUE_LIT) by (destruct t; auto).
      destruct (store_fact_wf s x value tt false p n (store_lit x value tt s1) f W Hx Hf Htt) as (_ & _ & W2 & SS & SM & LG & NX & VS); auto.
      { now exists s1. }
      set (s2 := push_fact f (store_lit x value tt s1)) in *.
      pose proof (store_fact_step Base s s2 x value tt (proj1 W) Hx Hf Htt LG NX (same2_nvars _ _ SS)) as S2.
      specialize (S2 ltac:(intros y; split; [exact (same_minb _ _ y SM)|exact (same_maxb _ _ y SM)]) VS). cbv zeta in S2.
      assert (FIN : step P P s s2).
      { apply step_weaken with (1 := S2).
        - intros I nu HG HO Hp. apply PE in Hp. specialize (TR I HG). rewrite Ett. destruct t; cbn [Z.eqb TRUE_LIT Z.opp Pos.eqb]; [tauto| |congruence]. assert (~ nu x <= value) by tauto. lia.
        - intros I nu _ _ HG HO Hq. apply PE. specialize (TR I HG). rewrite Ett in Hq. destruct t; cbn in Hq; [tauto| |congruence].
          split; [tauto|lia]. }
      constructor; auto.
      - now apply step_weaken with (1 := FIN).
      - apply SM. }
    destruct t eqn:Qt.
    + destruct (update_litmap x TRUE_LIT value s) as [[p n] s1] eqn:U. exact (FACT _ _ _ _ (mkf TRUE_LIT x value n) ltac:(easy) U eq_refl eq_refl eq_refl eq_refl E).
    + destruct (update_litmap x (- TRUE_LIT) value s) as [[p n] s1] eqn:U. exact (FACT _ _ _ _ (mkf (- TRUE_LIT) x value p) ltac:(easy) U eq_refl eq_refl eq_refl eq_refl E).
    + assert (N1 : Z.abs l <> 1).
      { intros A1. unfold truth_value in Et. destruct (Z.abs_eq_or_opp l) as [Q|Q].
        - assert (l = 1) as El by lia. rewrite El, one_true in Et. discriminate.
        - assert (l = - (1)) as El by lia. unfold is_false in Et. rewrite El in Et. change (- - (1)) with 1 in Et.
          change (o_true O (log s) 1) with (is_true O s 1) in Et. rewrite one_true in Et. destruct (is_true O s (- (1))); discriminate. }
      unfold lookup in E. destruct (lmap s (Z.abs l)) as [e|] eqn:Lk.
      * destruct (add_clause O Learnt [- l; nxt s] (snd (add_literal s))) as [ok1 s1] eqn:A1.
        destruct (add_equiv_step s l W Hn Bl _ eq_refl ok1 s1 A1) as (W1 & SM1 & NX1 & V1 & L1 & S1 & K).
        unfold add_literal in E. cbn [fst snd] in E. unfold add_literal in A1. cbn [snd] in A1. rewrite A1 in E.
        destruct ok1.
        -- destruct (add_clause O Learnt [- nxt s; l] s1) as [ok2 s2] eqn:A2.
           destruct (K _ _ A2) as (W2 & SM2 & NX2 & V2 & L2 & S2).
           destruct ok2.
           ++ apply FREE with (nxt s) s2; auto.
              ** pose proof (wf_nxt s (proj1 W)). unfold below. lia.
              ** pose proof (wf_nxt s (proj1 W)). lia.
              ** rewrite L2. destruct (lmap s (Z.abs (nxt s))) as [e1|] eqn:Q; [|easy]. apply (wf_lmap s (proj1 W)) in Q as (Q & _). lia.
           ++ injection E as <- <-. constructor; auto; try easy.
              ** now apply step_weaken with (1 := S2).
              ** now apply same_same2.
              ** apply SM2.
        -- injection E as <- <-. constructor; auto; try easy.
           ++ now apply step_weaken with (1 := S1).
           ++ now apply same_same2.
           ++ apply SM1.
      * apply FREE with l s; auto.
        -- apply same_refl.
        -- constructor; try lia; try now exists []. 2:{ intros I nu HG HO. now csplit. }
           intros I nu HG HO _. exists I, nu. now csplit.
  - (* clauses *)
    clear C2. destruct (update_literal O cfg x value t s) as [l1 s1] eqn:U.
    destruct (update_literal_ok O cfg Base n0 BO x value t s l1 s1 W Hx Hn U) as [W1 S1 SS1 VB1 M1].
    set (l2 := if co <? 0 then - l1 else l1) in *.
    assert (Hx1 : (x < nvars s1)%nat) by now rewrite (same2_nvars _ _ SS1).
    pose proof (lit_means_below s1 l1 x value (proj1 W1) Hx1 M1) as B1.
    assert (B2 : below (nxt s1) l2) by (unfold l2; destruct (co <? 0); [now apply below_neg|easy]).
    pose proof (st_nxt _ _ _ _ _ S1) as Nx1.
    assert (Bc1 : below (nxt s1) clit) by now apply below_mono with (nxt s).
    assert (ML : forall I nu, good s1 I -> order_ok s1 I nu -> (lit_true I l2 <-> sat nu)).
    { intros I nu HG HO. rewrite SV. pose proof (lit_means_ok s1 l1 x value I nu Hx1 M1 (proj1 (proj2 HG)) HO) as M.
      unfold l2. destruct (co <? 0); [|easy]. rewrite lit_true_neg by apply B1. now rewrite M. }
    assert (TO : forall I nu, good s I -> order_ok s I nu -> P I nu -> truth_ok t x value I nu).
    { intros I nu HG HO Hp. apply PL in Hp. specialize (TR I HG). unfold truth_ok.
      destruct (strict) eqn:Qs.
      - assert (nu x <= value <-> lit_true I l) by (destruct (co <? 0); tauto).
        destruct t; [tauto| |easy]. assert (~ nu x <= value) by tauto. lia.
      - cbn in C1. unfold t, l in *. unfold truth_value in *.
        destruct (0 <? co) eqn:Q1, (co <? 0) eqn:Q2; try lia.
        + destruct (is_true O s clit) eqn:T1; [tauto|]. rewrite C1 in *. easy.
        + unfold is_false in *. rewrite Z.opp_involutive in *. unfold is_true in *. rewrite C1 in *. destruct (o_true O (log s) clit); [|easy]. assert (~ nu x <= value) by tauto. lia. }
    destruct (add_clause O Learnt [- clit; l2] s1) as [ok1 s2] eqn:A1.
    assert (Fc1 : Forall (below (nxt s1)) [- clit; l2]) by (constructor; [now apply below_neg|]; constructor; [easy|constructor]).
    destruct (add_clause_wf O _ _ _ _ _ A1 W1 Fc1) as (W2 & SM2 & NX2).
    destruct (same_add_clause _ _ _ _ _ A1) as (_ & _ & V2 & _).
    assert (S2 : step P (fun I _ => clause_true I [- clit; l2]) s1 s2).
    { apply (add_clause_step O Base _ _ _ _ _ P A1). intros I nu HG HO [Hp _]. rewrite clause2_true, lit_true_neg by apply Bc.
      rewrite (ML I nu HG HO). destruct (lit_true_dec I clit); [right; now apply Hp|now left]. }
    assert (S12 : step P (fun I nu => lit_true I clit -> sat nu) s s2).
    { apply step_trans with (5 := S1) (6 := S2); auto. intros I nu HG HO _ q.
      destruct (st_bwd _ _ _ _ _ S2 I nu HG HO) as (HG1 & HO1 & _). rewrite <- (ML I nu HG1 HO1). apply clause2_true in q.
      rewrite lit_true_neg in q by apply Bc. tauto. }
    assert (SS2 : same2 s s2) by (apply same2_trans with s1; [easy|now apply same_same2]).
    assert (VB2 : forall y, vbounds (vst s2 y) = vbounds (vst s y)) by (intros y; now rewrite V2).
    destruct ok1.
    2:{ injection E as <- <-. constructor; auto; try easy. now apply step_weaken with (1 := S12). }
    destruct strict eqn:Qs.
    2:{ injection E as <- <-. constructor; auto; try easy.
        - now apply step_weaken with (1 := S12).
        - intros _. apply step_weaken with (1 := S12); auto. intros I nu _ _ _ _ q. split; [exact q|easy]. }
    assert (Fc2 : Forall (below (nxt s2)) [- l2; clit]) by (rewrite NX2; constructor; [now apply below_neg|]; constructor; [easy|constructor]).
    destruct (add_clause_wf O _ _ _ _ _ E W2 Fc2) as (W3 & SM3 & NX3).
    destruct (same_add_clause _ _ _ _ _ E) as (_ & _ & V3 & _).
    assert (S3 : step P (fun I _ => clause_true I [- l2; clit]) s2 s').
    { apply (add_clause_step O Base _ _ _ _ _ P E). intros I nu HG HO [_ Hp].
      destruct (st_bwd _ _ _ _ _ S2 I nu HG HO) as (HG1 & HO1 & _). rewrite clause2_true, lit_true_neg by apply B2.
      rewrite (ML I nu HG1 HO1). destruct (lit_true_dec I clit); [now right|left]. intros q. apply H. now apply Hp. }
    assert (FIN : step P P s s').
    { apply step_trans with (5 := S12) (6 := S3); auto. intros I nu HG HO q1 q2. split; [exact q1|]. intros _ q.
      destruct (st_bwd _ _ _ _ _ S3 I nu HG HO) as (HG2 & HO2 & _).
      destruct (st_bwd _ _ _ _ _ S2 I nu HG2 HO2) as (HG1 & HO1 & _). apply clause2_true in q2.
      rewrite lit_true_neg, (ML I nu HG1 HO1) in q2 by apply B2. destruct q2 as [q2|q2]; [|easy]. now destruct q2. }
    constructor; auto.
    + now apply step_weaken with (1 := FIN).
    + apply same2_trans with s2; [easy|now apply same_same2].
    + intros y. now rewrite V3.
Qed.
End Steps.
