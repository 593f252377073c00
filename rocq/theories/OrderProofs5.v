(** Steps and well-formedness for update_domain_. *)
From Verif Require Import Base Util VarState VarStateProofs Terms TermsSpec Solver OrderSpec OrderProofs1 OrderProofs2 OrderProofs3 OrderProofs4.
From Coq Require Import Sorting.Sorted.
Open Scope Z_scope.

(** Bounds only get tighter. *)
Definition tighter (s s' : state) : Prop := forall y, lb (vst s y) <= lb (vst s' y) /\ ub (vst s' y) <= ub (vst s y).
Lemma tighter_refl s : tighter s s.
Proof. intros y. lia. Qed.
Lemma tighter_trans s s1 s2 : tighter s s1 -> tighter s1 s2 -> tighter s s2.
Proof. intros A B y. specialize (A y). specialize (B y). lia. Qed.
Lemma tighter_bnds s s' : (forall y, vbounds (vst s' y) = vbounds (vst s y)) -> tighter s s'.
Proof. intros H y. specialize (H y). unfold vbounds in H. injection H as -> -> _ _. lia. Qed.

Lemma up_state_bounds x v s : tighter s (up_state x v s) /\ ub (vst (up_state x v s) x) <= v /\ lb (vst (up_state x v s) x) = lb (vst s x).
Proof.
  unfold up_state. destruct (v <? ub (vst s x)) eqn:C.
  - csplit; [|rewrite luu_ub; lia|now destruct (luu_lb x v s x)].
    intros y. destruct (luu_lb x v s y) as [-> _]. destruct (Nat.eq_dec y x) as [->|N]; [rewrite luu_ub; lia|rewrite luu_other by easy; lia].
  - csplit; [apply tighter_refl|lia|easy].
Qed.
Lemma lo_state_bounds x v s : tighter s (lo_state x v s) /\ v + 1 <= lb (vst (lo_state x v s) x) /\ ub (vst (lo_state x v s) x) = ub (vst s x).
Proof.
  unfold lo_state. destruct (lb (vst s x) <? v + 1) eqn:C.
  - csplit; [|rewrite lul_lb; lia|now destruct (lul_ub x v s x)].
    intros y. destruct (lul_ub x v s y) as [-> _]. destruct (Nat.eq_dec y x) as [->|N]; [rewrite lul_lb; lia|rewrite lul_other by easy; lia].
  - csplit; [apply tighter_refl|lia|easy].
Qed.

Section Steps.
Context (O : oracle) (cfg : config) (Base : interp -> Prop) (n0 : Z).
Notation good := (good Base).
Notation step := (step Base).
Context (BO : base_ok Base n0) (CO : clasp_ok O Base).

(** ** Facts *)

Lemma erase_step s s' x v t : wf_core s -> (x < nvars s)%nat -> In (v, t) (lits (vst s x)) ->
  (t = TRUE_LIT /\ maxb (vst s x) <= v) \/ (t = - TRUE_LIT /\ v < minb (vst s x)) ->
  log s' = log s -> nxt s' = nxt s -> nvars s' = nvars s ->
  (forall y, minb (vst s' y) = minb (vst s y) /\ maxb (vst s' y) = maxb (vst s y)) ->
  (forall y, lits (vst s' y) = if Nat.eqb y x then m_erase (lits (vst s x)) v else lits (vst s y)) ->
  step T2 T2 s s'.
Proof.
  intros W Hx Hin Ht L N V HB VS.
  assert (G : forall I, good s' I <-> good s I) by (intros I; unfold OrderSpec.good; now rewrite L).
  constructor; try lia.
  - now exists [].
  - intros I nu HG HO _. exists I, nu. split; [easy|]. split; [easy|]. split; [now apply G|].
    intros y Hy. rewrite V in Hy. destruct (HO y Hy) as [A B]. destruct (HB y). split; [lia|]. intros w z. rewrite VS.
    destruct (Nat.eqb_spec y x) as [->|]; [|apply B]. rewrite in_m_erase by now apply W. intros [_ H']. now apply B.
  - intros I nu HG HO. split; [now apply G|]. split; [|easy]. intros y Hy. destruct (HO y ltac:(lia)) as [A B]. destruct (HB y) as [B1 B2].
    split; [lia|]. intros w z Hz. specialize (B w z). rewrite VS in B. destruct (Nat.eqb_spec y x) as [->|]; [|now apply B].
    destruct (Z.eq_dec w v) as [->|Nw].
    + assert (z = t) as -> by exact (in_unique _ _ _ _ (wf_sorted s W x Hx) Hz Hin).
      destruct HG as (_ & I1 & _). destruct Ht as [(-> & Hm)|(-> & Hm)].
      * change (I 1 = true <-> nu x <= v). split; [lia|easy].
      * change (I 1 = false <-> nu x <= v). split; [congruence|lia].
    + apply B. rewrite in_m_erase by now apply W. now split.
Qed.

Record af_post (fs : list fact) (s s' : state) : Prop := {
  af_wf : wf_core s';
  af_wff : wf_facts fs s';
  af_step : step T2 T2 s s';
  af_same : same2 s s';
  af_tight : tighter s s' }.

Lemma true_good s I : good s I -> lit_true I TRUE_LIT.
Proof. intros (_ & H & _). exact H. Qed.

Lemma apply_fact_ok f fs s ok s' : wf_core s -> wf_facts (f :: fs) s -> n0 <= nxt s -> cur_level s = 0%nat ->
  apply_fact O cfg f s = (ok, s') ->
  wf_core s' /\ step T2 T2 s s' /\ same2 s s' /\
  (ok = true -> af_post fs s s' /\ fmap s' = fmap s /\
     if f_lit f =? TRUE_LIT then ub (vst s' (f_var f)) <= f_val f else f_val f < lb (vst s' (f_var f))).
Proof.
  intros W F Hn C0 E. pose proof F as [F1 F2 F3]. destruct (F1 f ltac:(now left)) as (Hl & Hx & Hin).
  destruct f as [t x v pr]. cbn [f_lit f_var f_val f_prec] in *. unfold apply_fact in E. cbn [f_lit f_var f_val f_prec] in E.
  assert (B1 : below (nxt s) TRUE_LIT) by (apply tlit_below; [apply W|now left]).
  destruct (if t =? TRUE_LIT then update_upper O cfg x TRUE_LIT v pr s else update_lower O cfg x TRUE_LIT v pr s) as [ok1 s1] eqn:U.
  assert (P : ub_post Base s s1 /\ (ok1 = true -> tighter s s1 /\ if t =? TRUE_LIT then ub (vst s1 x) <= v else v < lb (vst s1 x))).
  { destruct Hl as [-> | ->]; cbn in U |- *.
    - destruct (update_upper_ok O cfg Base n0 BO x TRUE_LIT v pr s ok1 s1 W Hx Hn B1) as (P1 & P2 & P3); auto.
      + intros I nu HG HO T. destruct (HO x Hx) as [_ M]. now apply (M v _ Hin).
      + intros _ I. apply true_good.
      + split; [easy|]. intros ->. destruct (Z_lt_ge_dec v (lb (vst s x))) as [Q|Q]; [now destruct (P2 Q)|].
        destruct (P3 ltac:(lia)) as (lg & ->). destruct (up_state_bounds x v s) as (T1 & T3 & _). now split.
    - destruct (update_lower_ok O cfg Base n0 BO x TRUE_LIT v pr s ok1 s1 W Hx Hn B1) as (P1 & P2 & P3); auto.
      + intros I nu HG HO T. destruct (HO x Hx) as [_ M]. specialize (M v _ Hin).
        destruct (Z_le_gt_dec (nu x) v) as [Q|Q]; [|lia]. apply M in Q. apply lit_true_neg in Q; easy.
      + intros _ I. apply true_good.
      + split; [easy|]. intros ->. destruct (Z_lt_ge_dec (ub (vst s x)) (v + 1)) as [Q|Q]; [now destruct (P2 Q)|].
        destruct (P3 ltac:(lia)) as (lg & ->). destruct (lo_state_bounds x v s) as (T1 & T3 & _). split; [easy|]. cbn. lia. }
  clear U. destruct P as ([W1 WF1 S1 SM1 FM1] & P). destruct ok1.
  2:{ injection E as <- <-. now csplit. }
  destruct (P eq_refl) as (TI & HB). clear P. destruct (update_litmap x 0 v s1) as [[p n] s2] eqn:U.
  pose proof (WF1 _ F) as [G1 G2 G3].
  destruct (G1 _ ltac:(now left)) as (_ & Hx1 & Hin1). cbn in Hx1, Hin1.
  destruct (update_litmap_spec x 0 v s1 _ _ (wf_link s1 x v W1 Hx1) U) as (HP & HN & L & -> & L1 & L2).
  cbn [fst snd Z.eqb] in *. injection E as <- <-.
  set (s3 := erase_lit x v (set_lmap L s1)).
  assert (VS : forall y, lits (vst s3 y) = if Nat.eqb y x then m_erase (lits (vst s1 x)) v else lits (vst s1 y)).
  { intros y. cbn. unfold upd. destruct (Nat.eqb_spec y x) as [->|]; reflexivity. }
  assert (SM : same s1 s3).
  { split; [reflexivity|]. intros y. cbn. unfold upd, vbounds. destruct (Nat.eqb_spec y x) as [->|]; reflexivity. }
  assert (CL : cur_level s1 = 0%nat) by now rewrite (same2_cur _ _ SM1).
  assert (NF : forall k e, lmap s1 k = Some e -> ~ (e_var e = x /\ e_val e = v)).
  { intros k e He [Ex Ev]. destruct (wf_lmap s1 W1 k e He) as (K & _ & A & _). rewrite Ex, Ev in A.
    pose proof (in_unique _ _ _ _ (wf_sorted s1 W1 x Hx1) A Hin1) as Q. unfold elit in Q. destruct (e_pos e); unfold TRUE_LIT in Hl; lia. }
  assert (W3 : wf_core s3).
  { apply wf_link_erase with s1 x v (lits (vst s1 x)) p n; auto.
    - cbn. lia.
    - apply W1.
    - intros Hc y Hy. destruct (same_bnds s1 s3 y SM) as (_ & _ & -> & ->). now apply W1.
    - apply off_refl.
    - intros k e' H. destruct (lmap s1 k) as [e|] eqn:Qe; [|cbn in H; rewrite (L1 k Qe) in H; discriminate].
      destruct (L2 k e Qe) as (e2 & A & B). cbn in H. rewrite A in H. injection H as <-. exists e.
      split; [easy|]. split; [now apply NF with k|easy]. }
  assert (S3 : step T2 T2 s1 s3).
  { apply erase_step with x v t; auto.
    - destruct (wf_top s1 W1 CL x Hx1) as [T1 T3]. rewrite (minb_nil _ T1), (maxb_nil _ T3).
      destruct Hl as [-> | ->]; cbn in HB; [now left|now right].
    - intros y. split; [now apply same_minb|now apply same_maxb]. }
  assert (ST : step T2 T2 s s3) by now apply step_trans_T with s1.
  assert (S23 : same2 s s3) by (apply same2_trans with s1; [easy|now apply same_same2]).
  assert (TI3 : tighter s s3) by (apply tighter_trans with s1; [easy|apply tighter_bnds, SM]).
  csplit; auto. intros _. split; [|split; [exact FM1|]].
  - constructor; auto. constructor.
    + intros g Hg. destruct (G1 g ltac:(now right)) as (A & B & C). csplit; auto. rewrite VS.
      destruct (Nat.eqb_spec (f_var g) x) as [Q|Q]; [|easy]. rewrite Q in C. rewrite in_m_erase by now apply W1. split; [|easy].
      intros Ev. cbn in F2. inversion F2 as [|? ? NI _]; subst. apply NI. apply in_map_iff. exists g. split; [easy|easy].
    + now inversion F2.
    + intros y w z Hy Hz A. rewrite VS in Hz.
      assert (Old : In (w, z) (lits (vst s1 y)) /\ ~ (y = x /\ w = v)).
      { destruct (Nat.eqb_spec y x) as [->|Ny]; [|tauto]. apply in_m_erase in Hz; [|now apply W1]. tauto. }
      destruct Old as [Old N]. destruct (G3 y w z Hy Old A) as (g & [<-|Hg] & R1 & R2 & R3).
      * cbn in R2, R3. destruct N. now split.
      * now exists g.
  - destruct (same_bnds s1 s3 x SM) as (-> & -> & _). exact HB.
Qed.

Lemma apply_facts_ok fs : forall s ok s', wf_core s -> wf_facts fs s -> n0 <= nxt s -> cur_level s = 0%nat ->
  apply_facts O cfg fs s = (ok, s') ->
  wf_core s' /\ step T2 T2 s s' /\ same2 s s' /\
  (ok = true -> wf s' /\ fmap s' = [] /\ tighter s s' /\
     forall f, In f fs -> if f_lit f =? TRUE_LIT then ub (vst s' (f_var f)) <= f_val f else f_val f < lb (vst s' (f_var f))).
Proof.
  induction fs as [|f fs IH]; intros s ok s' W F Hn C0 E; cbn [apply_facts] in E.
  - injection E as <- <-. assert (W' : wf_core (set_fmap [] s)) by (destruct W; now constructor).
    csplit; auto.
    + apply step_silent; auto.
    + easy.
    + intros _. csplit; auto. * split; [easy|]. destruct F as [F1 F2 F3]. now constructor. * intros y; cbn; lia. * easy.
  - destruct (apply_fact O cfg f s) as [ok1 s1] eqn:A.
    destruct (apply_fact_ok f fs s ok1 s1 W F Hn C0 A) as (P1 & P2 & P3 & P4).
    destruct ok1; [|injection E as <- <-; now csplit].
    destruct (P4 eq_refl) as ([A1 A2 A3 A4 A5] & FM & HB).
    destruct (IH s1 ok s' A1 A2) as (Q1 & Q2 & Q3 & Q4); auto.
    + pose proof (st_nxt _ _ _ _ _ A3). lia.
    + now rewrite (same2_cur _ _ A4).
    + csplit; auto.
      * now apply step_trans_T with s1.
      * now apply same2_trans with s1.
      * intros Hok. destruct (Q4 Hok) as (R1 & R2 & R3 & R4). csplit; auto.
        -- now apply tighter_trans with s1.
        -- intros g [<-|Hg]; [|now apply R4]. specialize (R3 (f_var f)). destruct (f_lit f =? TRUE_LIT); lia.
Qed.

(** ** Fixing a literal on the top level *)

Lemma fix_literal_ok l t s s' : wf s -> t = TRUE_LIT \/ t = - TRUE_LIT ->
  (forall I, good s I -> (lit_true I l <-> lit_true I t)) ->
  fix_literal l t s = s' ->
  wf s' /\ step T2 T2 s s' /\ same2 s s' /\ log s' = log s /\ nxt s' = nxt s /\ (forall y, vbounds (vst s' y) = vbounds (vst s y)) /\
  (forall f, In f (fmap s) -> In f (fmap s')) /\
  (forall e, valid_entry s l = Some e -> exists f, In f (fmap s') /\ f_lit f = t /\ f_var f = e_var e /\ f_val f = e_val e).
Proof.
  intros [W F] Ht Hl E. unfold fix_literal in E. destruct (valid_entry s l) as [e|] eqn:V.
  2:{ subst s'. csplit; auto. - now split. - apply step_refl; now right. - easy. - easy. }
  unfold valid_entry, lookup in V. destruct (lmap s (Z.abs l)) as [e0|] eqn:LE; [|easy].
  destruct (Bool.eqb (e_pos e0) (0 <? l)) eqn:Q; [|easy]. injection V as ->. apply Bool.eqb_prop in Q.
  destruct (wf_lmap s W _ e LE) as (K1 & Hx & Hin & HP & HN).
  assert (EL : elit (Z.abs l) e = l) by (unfold elit; rewrite Q; destruct (0 <? l) eqn:Z0; lia). rewrite EL in Hin.
  set (x := e_var e) in *. set (v := e_val e) in *.
  assert (Nt : t <> 0) by (unfold TRUE_LIT in Ht; lia).
  destruct (update_litmap x t v (store_lit x v t s)) as [[p n] s2] eqn:U.
  destruct (update_litmap_spec x t v _ _ _ (wf_link_store s x v t W Hx Nt) U) as (_ & _ & L & -> & L1 & L2).
  cbn [fst snd] in *. replace (t =? 0) with false in L2 by lia.
  set (mm := lits (vst (store_lit x v t s) x)) in *.
  assert (OF : off v (lits (vst s x)) mm) by (unfold mm; cbn; rewrite upd_same; cbn; apply off_set; now apply W).
  cbn [lmap push_fact set_lmap set_fmap] in E.
  set (f := mkf t x v (if t =? TRUE_LIT then e_succ e else e_prev e)) in *.
  assert (VS : forall y, lits (vst s' y) = if Nat.eqb y x then m_set (lits (vst s x)) v t else lits (vst s y)).
  { intros y. rewrite <- E. cbn. unfold upd. destruct (Nat.eqb_spec y x) as [->|]; reflexivity. }
  assert (VB : forall y, vbounds (vst s' y) = vbounds (vst s y)).
  { intros y. rewrite <- E. cbn. unfold upd, vbounds. destruct (Nat.eqb_spec y x) as [->|]; reflexivity. }
  assert (NV : nvars s' = nvars s) by now rewrite <- E.
  assert (NX : nxt s' = nxt s) by now rewrite <- E.
  assert (LG : log s' = log s) by now rewrite <- E.
  assert (S2 : same2 s s') by now rewrite <- E.
  assert (FM : fmap s' = fmap s ++ [f]) by now rewrite <- E.
  assert (LM : lmap s' = updz L (Z.abs l) None) by now rewrite <- E. clear E.
  assert (U1 : forall k e1, lmap s k = Some e1 -> e_var e1 = x -> e_val e1 = v -> k = Z.abs l).
  { intros k e1 H1 Ex Ev. destruct (wf_lmap s W k e1 H1) as (K2 & _ & A & _). rewrite Ex, Ev in A.
    pose proof (in_unique _ _ _ _ (wf_sorted s W x Hx) A Hin) as R. unfold elit in R. destruct (e_pos e1); lia. }
  assert (W' : wf_core s').
  { apply wf_link_set with s x v t mm (e_prev e) (e_succ e); auto.
    - lia.
    - rewrite NX. apply tlit_below; [apply W|easy].
    - rewrite NX, LG. apply W.
    - intros Hc y Hy. specialize (VB y). unfold vbounds in VB. injection VB as _ _ -> ->. rewrite (same2_cur _ _ S2) in Hc. now apply W.
    - intros k e' H. right. rewrite LM in H. unfold updz in H. destruct (k =? Z.abs l) eqn:Qk; [discriminate|].
      destruct (lmap s k) as [e1|] eqn:Q1; [|rewrite (L1 k Q1) in H; discriminate].
      destruct (L2 k e1 Q1) as (e2 & A & B). rewrite A in H. injection H as <-. exists e1. split; [easy|]. split; [|easy].
      intros [Ex Ev]. pose proof (U1 k e1 Q1 Ex Ev). lia.
    - intros k e1 H N. destruct (L2 k e1 H) as (e2 & A & B). exists e2. split; [|easy]. rewrite LM. unfold updz.
      destruct (k =? Z.abs l) eqn:Qk; [|easy]. apply Z.eqb_eq in Qk as ->. rewrite LE in H. injection H as <-. destruct N. now split.
    - intros N. unfold TRUE_LIT in Ht. lia. }
  assert (NFf : forall g, In g (fmap s) -> ~ (f_var g = x /\ f_val g = v)).
  { intros g Hg [Gx Gv]. destruct F as [F1 F2 F3]. destruct (F1 g Hg) as (A & B & C). rewrite Gx, Gv in C.
    pose proof (in_unique _ _ _ _ (wf_sorted s W x Hx) C Hin). unfold TRUE_LIT in A. lia. }
  assert (WFF : wf_facts (fmap s') s').
  { destruct F as [F1 F2 F3]. rewrite FM. constructor.
    - intros g Hg. apply in_app_or in Hg as [Hg|[<-|[]]].
      + destruct (F1 g Hg) as (A & B & C). rewrite NV. csplit; auto. rewrite VS.
        destruct (Nat.eqb_spec (f_var g) x) as [R|R]; [|easy]. rewrite R in C. rewrite in_m_set by now apply W. right.
        split; [|easy]. intros Ev. now apply (NFf g Hg).
      + cbn. rewrite NV, VS, Nat.eqb_refl. split; [easy|]. split; [easy|]. rewrite in_m_set by now apply W. now left.
    - rewrite map_app. cbn. apply NoDup_Add with (x, v) (map (fun f0 => (f_var f0, f_val f0)) (fmap s)).
      { rewrite <- (app_nil_r (map _ (fmap s))) at 1. apply Add_app. }
      split; [easy|]. intros Hi. apply in_map_iff in Hi as (g & Eg & Hg). injection Eg as E1 E2. now apply (NFf g Hg).
    - intros y w z Hy Hz A. rewrite NV in Hy. rewrite VS in Hz.
      assert (Old : In (w, z) (lits (vst s y)) -> exists f0, In f0 (fmap s ++ [f]) /\ f_lit f0 = z /\ f_var f0 = y /\ f_val f0 = w).
      { intros Hi. destruct (F3 y w z Hy Hi A) as (g & Hg & R). exists g. split; [apply in_or_app; now left|easy]. }
      destruct (Nat.eqb_spec y x) as [->|]; [|now apply Old].
      apply in_m_set in Hz as [(-> & ->)|(_ & Hi)]; [|now apply Old|now apply W].
      exists f. split; [apply in_or_app; right; now left|easy]. }
  csplit; auto.
  - now split.
  - assert (G : forall I, good s' I <-> good s I) by (intros I; unfold OrderSpec.good; now rewrite LG).
    assert (MB : forall y, minb (vst s' y) = minb (vst s y) /\ maxb (vst s' y) = maxb (vst s y)).
    { intros y. specialize (VB y). unfold vbounds in VB. injection VB as A1 A2 A3 A4. unfold minb, maxb. now rewrite A1, A2, A3, A4. }
    constructor; try lia.
    + now exists [].
    + intros I nu HG HO _. exists I, nu. split; [easy|]. split; [easy|]. split; [now apply G|].
      intros y Hy. rewrite NV in Hy. destruct (HO y Hy) as [A B]. destruct (MB y). split; [lia|]. intros w z. rewrite VS.
      destruct (Nat.eqb_spec y x) as [->|]; [|apply B]. rewrite in_m_set by now apply W.
      intros [(-> & ->)|(_ & H')]; [|now apply B]. rewrite <- (Hl I HG). now apply B.
    + intros I nu HG HO. apply G in HG. split; [easy|]. split; [|easy]. intros y Hy. destruct (HO y ltac:(lia)) as [A B]. destruct (MB y) as [B1 B2].
      split; [lia|]. intros w z Hz. specialize (B w). rewrite VS in B. destruct (Nat.eqb_spec y x) as [->|]; [|now apply B].
      destruct (Z.eq_dec w v) as [->|Nw].
      * assert (z = l) as -> by exact (in_unique _ _ _ _ (wf_sorted s W x Hx) Hz Hin). rewrite (Hl I HG). apply B.
        rewrite in_m_set by now apply W. now left.
      * apply B. rewrite in_m_set by now apply W. right. now split.
  - intros g Hg. rewrite FM. apply in_or_app. now left.
  - intros e1 H1. injection H1 as <-. exists f. split; [rewrite FM; apply in_or_app; right; now left|easy].
Qed.

(** ** update_domain_ *)

Lemma valid_entry_spec s l e : wf_core s -> valid_entry s l = Some e ->
  (e_var e < nvars s)%nat /\ In (e_val e, l) (lits (vst s (e_var e))) /\ below (nxt s) l /\ 1 < Z.abs l.
Proof.
  intros W V. unfold valid_entry, lookup in V. destruct (lmap s (Z.abs l)) as [e0|] eqn:LE; [|easy].
  destruct (Bool.eqb (e_pos e0) (0 <? l)) eqn:Q; [|easy]. injection V as ->. apply Bool.eqb_prop in Q.
  destruct (wf_lmap s W _ e LE) as (K1 & Hx & Hin & _).
  assert (EL : elit (Z.abs l) e = l) by (unfold elit; rewrite Q; destruct (0 <? l) eqn:Z0; lia). rewrite EL in Hin.
  csplit; auto; [unfold below|]; lia.
Qed.

Record ud_post (l : lit) (s s' : state) (ok : bool) : Prop := {
  ud_core : wf_core s';
  ud_step : step T2 T2 s s';
  ud_same : same2 s s';
  ud_wf : ok = true -> wf s';
  ud_tight : ok = true -> tighter s s';
  ud_upper : forall e, ok = true -> valid_entry s l = Some e -> ub (vst s' (e_var e)) <= e_val e;
  ud_lower : forall e, ok = true -> valid_entry s (- l) = Some e -> e_val e < lb (vst s' (e_var e)) }.

Lemma update_domain_ok l s ok s' : wf s -> n0 <= nxt s -> l <> 0 -> is_true O s l = true ->
  (cur_level s = 0%nat <-> dlevel O s = 0%nat) -> (l = TRUE_LIT -> dlevel O s = 0%nat) ->
  update_domain O cfg l s = (ok, s') -> ud_post l s s' ok.
Proof.
  intros W Hn Nl Tl CL TL E. unfold update_domain in E.
  destruct (negb (l =? TRUE_LIT) && Nat.eqb (dlevel O s) 0 && is_fixed O s l) eqn:Q.
  - (* a literal fixed on the top level *)
    assert (D0 : dlevel O s = 0%nat) by lia. assert (N1 : l <> TRUE_LIT) by lia.
    assert (Gl : forall I, good s I -> lit_true I l).
    { intros I (A & B & C). apply (cl_top _ _ CO (log s)); auto. }
    set (s1 := fix_literal l TRUE_LIT s) in *. set (s2 := fix_literal (- l) (- TRUE_LIT) s1) in *.
    destruct (fix_literal_ok l TRUE_LIT s s1 W ltac:(now left)) as (A1 & A2 & A3 & A4 & A5 & A6 & A7 & A8); auto.
    { intros I HG. split; [intros _; exact (true_good _ _ HG)|intros _; now apply Gl]. }
    destruct (fix_literal_ok (- l) (- TRUE_LIT) s1 s2 A1 ltac:(now right)) as (B1 & B2 & B3 & B4 & B5 & B6 & B7 & B8); auto.
    { intros I HG. assert (HG0 : good s I) by (unfold OrderSpec.good in *; now rewrite A4 in HG).
      split; intros H; exfalso.
      - apply lit_true_neg in H; [|easy]. now apply H, Gl.
      - apply lit_true_neg in H; [|easy]. apply H. exact (true_good _ _ HG). }
    change (apply_facts O cfg (fmap s2) s2 = (ok, s')) in E.
    destruct (apply_facts_ok (fmap s2) s2 ok s' (proj1 B1) (proj2 B1)) as (C1 & C2 & C3 & C4); auto.
    { lia. } { rewrite (same2_cur _ _ B3), (same2_cur _ _ A3). now apply CL. }
    constructor; auto.
    + apply step_trans_T with s1; [easy|]. now apply step_trans_T with s2.
    + apply same2_trans with s1; [easy|]. now apply same2_trans with s2.
    + intros Hok. now apply C4.
    + intros Hok. destruct (C4 Hok) as (_ & _ & T & _). apply tighter_trans with s1; [now apply tighter_bnds|].
      apply tighter_trans with s2; [now apply tighter_bnds|easy].
    + intros e Hok V. destruct (C4 Hok) as (_ & _ & _ & T). destruct (A8 e V) as (f & F1 & F2 & F3 & F4).
      specialize (T f (B7 f F1)). rewrite F2, F3, F4 in T. exact T.
    + intros e Hok V. destruct (C4 Hok) as (_ & _ & _ & T). destruct (B8 e) as (f & F1 & F2 & F3 & F4).
      { destruct (valid_entry s l) as [e1|] eqn:V1.
        - unfold valid_entry, lookup in V, V1. rewrite Z.abs_opp in V. destruct (lmap s (Z.abs l)) as [e0|]; [|easy].
          destruct (Bool.eqb (e_pos e0) (0 <? l)) eqn:R1, (Bool.eqb (e_pos e0) (0 <? - l)) eqn:R2; try easy.
          apply Bool.eqb_prop in R1, R2. lia.
        - unfold s1, fix_literal. now rewrite V1. }
      specialize (T f F1). rewrite F2, F3, F4 in T. exact T.
  - destruct (l =? TRUE_LIT) eqn:Q1.
    + (* facts *)
      assert (El : l = TRUE_LIT) by lia. specialize (TL El). subst l.
      destruct (apply_facts_ok (fmap s) s ok s' (proj1 W) (proj2 W)) as (C1 & C2 & C3 & C4); auto; [now apply CL|].
      assert (NV : forall e l, l = TRUE_LIT \/ l = - TRUE_LIT -> valid_entry s l = Some e -> False).
      { intros e l Hl V. apply valid_entry_spec in V as (_ & _ & _ & V); [|apply W]. unfold TRUE_LIT in Hl. lia. }
      constructor; auto.
      * intros Hok. now apply C4.
      * intros Hok. now apply C4.
      * intros e _ V. destruct (NV e TRUE_LIT); auto.
      * intros e _ V. destruct (NV e (- TRUE_LIT)); auto.
    + (* an ordinary literal *)
      clear TL. assert (Top : cur_level s = 0%nat -> forall I, good s I -> lit_true I l).
      { intros C0 I (A & B & C). apply (cl_top _ _ CO (log s)); auto. left. now apply CL. }
      destruct (match valid_entry s l with Some e => _ | None => _ end) as [ok1 s1] eqn:U.
      assert (P : ub_post Base s s1 /\ (ok1 = true -> wf s1 /\ tighter s s1 /\ (forall y, lits (vst s1 y) = lits (vst s y)) /\ lmap s1 = lmap s /\ forall e, valid_entry s l = Some e -> ub (vst s1 (e_var e)) <= e_val e)).
      { destruct (valid_entry s l) as [e|] eqn:V.
        - destruct (valid_entry_spec s l e (proj1 W) V) as (Hx & Hin & Bl & _).
          destruct (update_upper_ok O cfg Base n0 BO (e_var e) l (e_val e) (e_succ e) s ok1 s1 (proj1 W) Hx Hn Bl) as (P1 & P2 & P3); auto.
          { intros I nu HG HO T. destruct (HO _ Hx) as [_ M]. now apply (M _ _ Hin). }
          split; [easy|]. intros ->. destruct (Z_lt_ge_dec (e_val e) (lb (vst s (e_var e)))) as [R|R]; [now destruct (P2 R)|].
          destruct (P3 ltac:(lia)) as (lg & Es). destruct (up_state_bounds (e_var e) (e_val e) s) as (T1 & T3 & _).
          split; [split; [apply P1|rewrite (ub_fmap _ _ _ P1); apply P1, W]|]. rewrite Es. split; [exact T1|]. split; [|split].
          + intros y. cbn. unfold up_state. destruct (_ <? _); [apply luu_lits|easy].
          + cbn. unfold up_state. destruct (_ <? _); [apply luu_rest|easy].
          + intros e1 H1. injection H1 as <-. exact T3.
        - injection U as <- <-. split; [|intros _; csplit; auto using tighter_refl; easy]. constructor; auto.
          + apply W. + apply step_refl; now right. + easy. }
      destruct P as ([W1 WF1 S1 SM1 FM1] & P). destruct ok1.
      2:{ injection E as <- <-. constructor; auto; easy. }
      destruct (P eq_refl) as (Ws & T & EL & EM & HU). clear P.
      assert (VE : valid_entry s1 (- l) = valid_entry s (- l)) by (unfold valid_entry, lookup; now rewrite EM).
      pose proof (st_nxt _ _ _ _ _ S1) as Nx.
      destruct (valid_entry s1 (- l)) as [e|] eqn:V.
      * destruct (valid_entry_spec s1 (- l) e W1 V) as (Hx & Hin & Bl & _).
        assert (Bl' : below (nxt s1) l) by (rewrite <- (Z.opp_involutive l); now apply below_neg).
        destruct (update_lower_ok O cfg Base n0 BO (e_var e) l (e_val e) (e_prev e) s1 ok s' W1 Hx ltac:(lia) Bl') as (P1 & P2 & P3); auto.
        { intros I nu HG HO Tr. destruct (HO _ Hx) as [_ M]. specialize (M _ _ Hin).
          destruct (Z_le_gt_dec (nu (e_var e)) (e_val e)) as [R|R]; [|lia]. apply M in R. now apply lit_true_neg in R. }
        { intros C0 I HG. rewrite (same2_cur _ _ SM1) in C0. apply (Top C0). destruct HG as (A & B & C). csplit; auto.
          destruct (st_log _ _ _ _ _ S1) as (es & Eg). rewrite Eg in C. apply Forall_app in C. split; [easy|]. split; [easy|apply C]. }
        pose proof P1 as [V1 V2 V3 V4 V5].
        assert (OK : ok = true -> exists lg, s' = set_log lg (lo_state (e_var e) (e_val e) s1)).
        { intros ->. destruct (Z_lt_ge_dec (ub (vst s1 (e_var e))) (e_val e + 1)) as [R|R]; [now destruct (P2 R)|]. apply P3. lia. }
        destruct (lo_state_bounds (e_var e) (e_val e) s1) as (T1 & T3 & _).
        constructor.
        -- easy.
        -- now apply step_trans_T with s1.
        -- now apply same2_trans with s1.
        -- intros _. split; [easy|]. rewrite V5. apply V2, Ws.
        -- intros Hok. destruct (OK Hok) as (lg & ->). now apply tighter_trans with s1.
        -- intros e1 Hok H1. specialize (HU e1 H1). destruct (OK Hok) as (lg & ->). specialize (T1 (e_var e1)). cbn. lia.
        -- intros e1 Hok H1. rewrite <- VE in H1. injection H1 as <-. destruct (OK Hok) as (lg & ->). cbn. lia.
      * injection E as <- <-. constructor; auto. intros e _ H1. rewrite <- VE in H1. discriminate.
Qed.
End Steps.
