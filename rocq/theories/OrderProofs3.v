(** Steps and well-formedness for facts, bounds and the propagation of order literals. *)
From Verif Require Import Base Util VarState VarStateProofs Terms TermsSpec Solver OrderSpec OrderProofs1 OrderProofs2.
From Coq Require Import Sorting.Sorted.
Open Scope Z_scope.

(** Frame including facts, bounds and their bookkeeping. *)
Definition strip2 (s : state) : state :=
  set_inu [] (set_inl [] (set_udiff (fun _ => 0) (set_ldiff (fun _ => 0) (set_uup [] (set_ulo [] (set_fmap [] (strip s))))))).
Definition same2 (s s' : state) : Prop := strip2 s' = strip2 s.
Lemma same2_refl s : same2 s s.
Proof. easy. Qed.
Lemma same2_trans s s1 s2 : same2 s s1 -> same2 s1 s2 -> same2 s s2.
Proof. unfold same2. congruence. Qed.
Lemma same_same2 s s' : same s s' -> same2 s s'.
Proof. intros [H _]. unfold same2, strip2. now rewrite H. Qed.
Lemma same2_get {A} (f : state -> A) : (forall s, f s = f (strip2 s)) -> forall s s', same2 s s' -> f s' = f s.
Proof. intros F s s' H. now rewrite (F s'), (F s), H. Qed.
Lemma same2_nvars s s' : same2 s s' -> nvars s' = nvars s.
Proof. now apply same2_get. Qed.
Lemma same2_cur s s' : same2 s s' -> cur_level s' = cur_level s.
Proof. now apply same2_get. Qed.

(** Removing the entry of a value. *)
Lemma wf_link_erase s s' x v mm p n : wf_core s -> (x < nvars s)%nat ->
  let m := lits (vst s x) in
  nvars s' = nvars s -> nxt s <= nxt s' ->
  Forall (ev_below (nxt s')) (log s') ->
  (cur_level s' = 0%nat -> forall x, (x < nvars s)%nat -> lbs (vst s' x) = [] /\ ubs (vst s' x) = []) ->
  (forall y, lits (vst s' y) = if Nat.eqb y x then m_erase m v else lits (vst s y)) ->
  off v m mm -> nearest_below m v (- TRUE_LIT) p -> nearest_above m v TRUE_LIT n ->
  (forall k e', lmap s' k = Some e' -> exists e, lmap s k = Some e /\ ~ (e_var e = x /\ e_val e = v) /\ relinked x v mm p n e e') ->
  (forall k e, lmap s k = Some e -> ~ (e_var e = x /\ e_val e = v) -> exists e', lmap s' k = Some e' /\ relinked x v mm p n e e') ->
  wf_core s'.
Proof.
  intros W Hx m En Hn Hlog Htop El Hoff HP HN H1 H2. destruct W as [W1 W2 W3 W4 W5 W6].
  pose proof (W2 x Hx) as Sm. fold m in Sm. constructor.
  - lia.
  - intros y Hy. rewrite En in Hy. rewrite El. destruct (Nat.eqb_spec y x); [now apply m_erase_sorted|now apply W2].
  - intros y w z Hy Hin. rewrite En in Hy. rewrite El in Hin.
    assert (Old : In (w, z) (lits (vst s y)) /\ ~ (y = x /\ w = v)).
    { destruct (Nat.eqb_spec y x) as [->|Ny]; [|tauto]. apply in_m_erase in Hin; [|easy]. tauto. }
    destruct Old as [Old N]. destruct (W3 y w z Hy Old) as (B & C). split; [now apply below_mono with (nxt s)|]. intros A.
    destruct (C A) as (e & E1 & E2 & E3 & E4). destruct (H2 _ _ E1) as (e' & F1 & F2 & F3 & F4 & _); [rewrite E2, E3; easy|].
    exists e'. repeat split; congruence.
  - intros k e' He. destruct (H1 k e' He) as (e & E1 & N & R).
    destruct (W4 k e E1) as (K1 & K2 & K3 & K4 & K5). pose proof R as (R1 & R2 & R3 & R4 & R5 & R6 & R7).
    split; [lia|]. rewrite En, R1. split; [easy|]. rewrite El.
    assert (EL : elit k e' = elit k e) by (unfold elit; now rewrite R2).
    destruct (Nat.eqb_spec (e_var e) x) as [Ex|Nx].
    * assert (Nv : e_val e <> v) by tauto.
      rewrite Ex in *. fold m in K3, K4, K5. split.
      { rewrite in_m_erase by easy. rewrite EL, R3. now split. }
      apply relinked_erase with x mm p n e; auto.
    * split; [now rewrite EL, R3|]. rewrite R3. split.
      { rewrite R7 by tauto. easy. } { rewrite R5 by tauto. easy. }
  - easy.
  - rewrite En. exact Htop.
Qed.

(** Replacing the literal of a value by true or false (or storing it there). *)
Lemma entry_at s x v k e : wf_core s -> (x < nvars s)%nat -> lmap s k = Some e -> e_var e = x -> e_val e = v ->
  vfind (vst s x) v = Some (elit k e).
Proof.
  intros W Hx He Ex Ev. destruct (wf_lmap s W k e He) as (_ & _ & A & _). rewrite Ex, Ev in A.
  apply m_find_in; [|easy]. now apply W.
Qed.

Section Steps.
Context (O : oracle) (cfg : config) (Base : interp -> Prop) (n0 : Z).
Notation good := (good Base).
Notation step := (step Base).
Context (BO : base_ok Base n0).

Lemma tlit_below n t : 1 < n -> t = TRUE_LIT \/ t = - TRUE_LIT -> below n t.
Proof. unfold TRUE_LIT, below. lia. Qed.

(** Shared part of update_literal and add_simple when a fact is recorded: [first] tells
    whether the literal is stored before or after the table is updated. *)
Lemma store_fact_wf s x v t (first : bool) p n s2 f : wf s -> (x < nvars s)%nat -> vfind (vst s x) v = None ->
  t = TRUE_LIT \/ t = - TRUE_LIT ->
  (if first then update_litmap x t v (store_lit x v t s) = ((p, n), s2)
   else exists s1, update_litmap x t v s = ((p, n), s1) /\ s2 = store_lit x v t s1) ->
  f_lit f = t -> f_var f = x -> f_val f = v ->
  nearest_below (lits (vst s x)) v (- TRUE_LIT) p /\ nearest_above (lits (vst s x)) v TRUE_LIT n /\
  wf (push_fact f s2) /\ same2 s (push_fact f s2) /\ same s s2 /\ log s2 = log s /\ nxt s2 = nxt s /\
  (forall y, lits (vst s2 y) = if Nat.eqb y x then m_set (lits (vst s x)) v t else lits (vst s y)).
Proof.
  intros [W F] Hx Hf Ht H Fl Fx Fv.
  assert (Nt : t <> 0) by (unfold TRUE_LIT in Ht; lia).
  assert (K : exists mm L, off v (lits (vst s x)) mm /\ nearest_below mm v (- TRUE_LIT) p /\ nearest_above mm v TRUE_LIT n /\
    s2 = set_lmap L (store_lit x v t s) /\
    (forall k, lmap s k = None -> L k = None) /\
    (forall k e, lmap s k = Some e -> exists e', L k = Some e' /\ relinked x v mm t t e e')).
  { destruct first.
    - destruct (update_litmap_spec x t v _ _ _ (wf_link_store s x v t W Hx Nt) H) as (HP & HN & L & -> & L1 & L2).
      cbn [fst snd] in *. replace (t =? 0) with false in L2 by lia.
      exists (lits (vst (store_lit x v t s) x)), L. split; [|now repeat split].
      cbn. rewrite upd_same. cbn. apply off_set. now apply W.
    - destruct H as (s1 & H & ->).
      destruct (update_litmap_spec x t v _ _ _ (wf_link s x v W Hx) H) as (HP & HN & L & -> & L1 & L2).
      cbn [fst snd] in *. replace (t =? 0) with false in L2 by lia.
      exists (lits (vst s x)), L. split; [apply off_refl|]. repeat split; auto. }
  clear H. destruct K as (mm & L & OF & HP & HN & -> & L1 & L2).
  rewrite off_nbelow in HP by eassumption. rewrite off_nabove in HN by eassumption.
  split; [easy|]. split; [easy|].
  set (s2 := set_lmap L (store_lit x v t s)).
  assert (VS : forall y, lits (vst s2 y) = if Nat.eqb y x then m_set (lits (vst s x)) v t else lits (vst s y)).
  { intros y. cbn. unfold upd. destruct (Nat.eqb_spec y x) as [->|]; reflexivity. }
  assert (SM : same s s2).
  { split; [reflexivity|]. intros y. cbn. unfold upd, vbounds. destruct (Nat.eqb_spec y x) as [->|]; reflexivity. }
  assert (NF : forall k e, lmap s k = Some e -> ~ (e_var e = x /\ e_val e = v)).
  { intros k e He [Ex Ev]. rewrite (entry_at s x v k e W Hx He Ex Ev) in Hf. discriminate. }
  assert (NV : ~ exists z, In (v, z) (lits (vst s x))).
  { intros (z & Hz). apply m_find_in in Hz; [|now apply W]. unfold vfind in Hf. congruence. }
  split; [|repeat split; auto; apply SM].
  split.
  - apply wf_link_set with s x v t mm p n; auto.
    + cbn. lia.
    + apply tlit_below; [apply W|easy].
    + apply W.
    + intros Hc y Hy. destruct (same_bnds s s2 y SM) as (_ & _ & H1 & H2).
      change (lbs (vst s2 y) = [] /\ ubs (vst s2 y) = []). rewrite H1, H2. change (cur_level s2 = 0%nat) in Hc.
      rewrite (same_cur s s2 SM) in Hc. now apply W.
    + intros k e' H. right. destruct (lmap s k) as [e|] eqn:Qe; [|cbn in H; rewrite (L1 k Qe) in H; discriminate].
      destruct (L2 k e Qe) as (e2 & A & B). cbn in H. rewrite A in H. injection H as <-. exists e.
      split; [easy|]. split; [now apply NF with k|easy].
    + intros N. unfold TRUE_LIT in Ht. lia.
  - destruct F as [F1 F2 F3]. constructor.
    + intros g Hg. cbn in Hg. apply in_app_or in Hg as [Hg|[<-|[]]].
      * destruct (F1 g Hg) as (A & B & C). repeat split; auto. change (In (f_val g, f_lit g) (lits (vst s2 (f_var g)))). rewrite VS.
        destruct (Nat.eqb_spec (f_var g) x) as [Q|Q]; [|easy]. rewrite Q in C. rewrite in_m_set by now apply W. right.
        split; [|easy]. intros Ev. rewrite Ev in C. apply NV. eauto.
      * rewrite Fl, Fx, Fv. split; [easy|]. split; [easy|]. change (In (v, t) (lits (vst s2 x))). rewrite VS, Nat.eqb_refl.
        rewrite in_m_set by now apply W. now left.
    + cbn. rewrite map_app. cbn. rewrite Fx, Fv. apply NoDup_Add with (x, v) (map (fun f0 => (f_var f0, f_val f0)) (fmap s)).
      { rewrite <- (app_nil_r (map _ (fmap s))) at 1. apply Add_app. }
      split; [easy|]. intros Hin. apply in_map_iff in Hin as (g & Eg & Hg). injection Eg as E1 E2.
      destruct (F1 g Hg) as (A & B & C). rewrite E1, E2 in C. apply NV. eauto.
    + intros y w z Hy Hz A. change (In (w, z) (lits (vst s2 y))) in Hz. rewrite VS in Hz. cbn [fmap push_fact set_fmap].
      assert (Old : In (w, z) (lits (vst s y)) -> exists f0, In f0 (fmap s2 ++ [f]) /\ f_lit f0 = z /\ f_var f0 = y /\ f_val f0 = w).
      { intros Hi. destruct (F3 y w z Hy Hi A) as (g & Hg & R). exists g. split; [apply in_or_app; now left|easy]. }
      destruct (Nat.eqb_spec y x) as [->|]; [|now apply Old].
      apply in_m_set in Hz as [(-> & ->)|(_ & Hi)]; [|now apply Old|now apply W].
      exists f. split; [apply in_or_app; right; now left|easy].
Qed.

(** Storing true or false for a value imposes the bound. *)
Lemma store_fact_step s s' x v t : wf_core s -> (x < nvars s)%nat -> vfind (vst s x) v = None ->
  t = TRUE_LIT \/ t = - TRUE_LIT ->
  log s' = log s -> nxt s' = nxt s -> nvars s' = nvars s ->
  (forall y, minb (vst s' y) = minb (vst s y) /\ maxb (vst s' y) = maxb (vst s y)) ->
  (forall y, lits (vst s' y) = if Nat.eqb y x then m_set (lits (vst s x)) v t else lits (vst s y)) ->
  let P := fun (_ : interp) (nu : var -> Z) => if t =? TRUE_LIT then nu x <= v else v < nu x in
  step P P s s'.
Proof.
  intros W Hx Hf Ht L N V HB VS P.
  assert (G : forall I, good s' I <-> good s I) by (intros I; unfold OrderSpec.good; now rewrite L).
  assert (M : forall I nu, I 1 = true -> (P I nu <-> (lit_true I t <-> nu x <= v))).
  { intros I nu I1. unfold P. destruct Ht as [-> | ->]; cbn [Z.eqb].
    - change (nu x <= v <-> (I 1 = true <-> nu x <= v)). rewrite I1. tauto.
    - change (v < nu x <-> (I 1 = false <-> nu x <= v)). rewrite I1. split; [intros H; split; [easy|lia]|]. intros H. destruct (Z_le_gt_dec (nu x) v); [|lia].
      apply H in l. discriminate. }
  assert (OO : forall I nu, I 1 = true -> (order_ok s' I nu <-> order_ok s I nu /\ P I nu)).
  { intros I nu I1. rewrite M by easy. unfold order_ok. rewrite V. split.
    - intros H. split.
      + intros y Hy. destruct (H y Hy) as [A B]. destruct (HB y) as [B1 B2]. split; [lia|]. intros w z Hz. apply B.
        rewrite VS. destruct (Nat.eqb_spec y x) as [->|]; [|easy]. rewrite in_m_set by now apply W. right. split; [|easy].
        intros ->. apply m_find_in in Hz; [|now apply W]. unfold vfind in Hf. congruence.
      + destruct (H x Hx) as [A B]. apply B. rewrite VS, Nat.eqb_refl, in_m_set by now apply W. now left.
    - intros [H Hp] y Hy. destruct (H y Hy) as [A B]. destruct (HB y) as [B1 B2]. split; [lia|]. intros w z. rewrite VS.
      destruct (Nat.eqb_spec y x) as [->|]; [|apply B]. rewrite in_m_set by now apply W. intros [(-> & ->)|(_ & Hz)]; [easy|now apply B]. }
  constructor; try lia.
  - now exists [].
  - intros I nu HG HO Hp. exists I, nu. split; [easy|]. split; [easy|]. split; [now apply G|]. apply OO; [apply HG|easy].
  - intros I nu HG HO. split; [now apply G|]. apply OO in HO; [easy|apply HG].
Qed.

(** ** update_literal *)

Definition truth_ok (t : truth) (x : var) (v : Z) : interp -> (var -> Z) -> Prop := fun _ nu =>
  match t with TTrue => nu x <= v | TFalse => v < nu x | TFree => True end.

Record ul_post (x : var) (v : Z) (t : truth) (s s' : state) (l : lit) : Prop := {
  ul_wf : wf s';
  ul_step : step (truth_ok t x v) T2 s s';
  ul_same2 : same2 s s';
  ul_bounds : forall y, vbounds (vst s' y) = vbounds (vst s y);
  ul_lit : lit_means s' l x v }.

Lemma update_literal_ok x v t s l s' : wf s -> (x < nvars s)%nat -> n0 <= nxt s ->
  update_literal O cfg x v t s = (l, s') -> ul_post x v t s s' l.
Proof.
  intros W Hx Hn E.
  assert (GL : get_literal cfg x v s = (l, s') -> ul_post x v t s s' l).
  { intros G. destruct (get_literal_ok cfg Base n0 BO x v s l s' (proj1 W) Hx Hn G) as [A B C D F]. constructor.
    - split; [easy|]. rewrite (same_fmap s s' D). apply B, W.
    - apply step_weaken with T2 T2; easy.
    - now apply same_same2.
    - apply D.
    - easy. }
  unfold update_literal in E.
  assert (FB : forall tt p n s2 (W2 : update_litmap x tt v (store_lit x v tt s) = ((p, n), s2)), t <> TFree ->
     tt = (match t with TTrue => TRUE_LIT | _ => - TRUE_LIT end) -> vfind (vst s x) v = None ->
     forall pp, ul_post x v t s (push_fact (mkf tt x v pp) s2) tt).
  { intros tt p n s2 U Nt Et Hf pp.
    assert (Ht : tt = TRUE_LIT \/ tt = - TRUE_LIT) by (destruct t; auto).
    destruct (store_fact_wf s x v tt true p n s2 (mkf tt x v pp) W Hx Hf Ht U eq_refl eq_refl eq_refl) as (HP & HN & A & B & SM & C1 & C2 & VS).
    constructor.
    - exact A.
    - assert (MM : forall y, minb (vst s2 y) = minb (vst s y) /\ maxb (vst s2 y) = maxb (vst s y)) by (intros y; split; [now apply same_minb|now apply same_maxb]).
      eapply step_weaken.
      + apply (store_fact_step s (push_fact (mkf tt x v pp) s2) x v tt (proj1 W) Hx Hf Ht);
          [exact C1|exact C2|exact (same_nvars s s2 SM)|exact MM|exact VS].
      + intros I nu _ _. unfold truth_ok. rewrite Et. destruct t; [easy|easy|congruence].
      + easy.
    - exact B.
    - intros y. exact (proj2 SM y).
    - right; right. change (In (v, tt) (lits (vst s2 x))). rewrite VS, Nat.eqb_refl, in_m_set by now apply W. now left. }
  destruct t; [| |exact (GL E)]; (destruct (0 <? dlevel O s)%nat eqn:D0; [exact (GL E)|]);
  (destruct (v <? minb (vst s x)) eqn:C1; [apply GL; unfold get_literal; now rewrite C1|]);
  (destruct (maxb (vst s x) <=? v) eqn:C2; [apply GL; unfold get_literal; now rewrite C1, C2|]);
  (destruct (vfind (vst s x) v) as [l0|] eqn:C3; [apply GL; unfold get_literal; now rewrite C1, C2, C3|]).
  - destruct (update_litmap x TRUE_LIT v (store_lit x v TRUE_LIT s)) as [[p n] s2] eqn:U. injection E as <- <-.
    now apply FB with p n.
  - destruct (update_litmap x (- TRUE_LIT) v (store_lit x v (- TRUE_LIT) s)) as [[p n] s2] eqn:U. injection E as <- <-.
    now apply FB with p n.
Qed.

(** ** Propagation over the order literals of a variable *)

Lemma clause2_true I a b : clause_true I [a; b] <-> lit_true I a \/ lit_true I b.
Proof.
  unfold clause_true. split.
  - intros (l & [<-|[<-|[]]] & H); auto.
  - intros [H|H]; [exists a|exists b]; cbn; auto.
Qed.

Lemma propagate_variables_ok x sgn es : forall w0 r s ok s', wf_core s -> (x < nvars s)%nat ->
  sgn = 1 \/ sgn = - 1 -> below (nxt s) r ->
  (forall w z, In (w, z) es -> In (w, z) (lits (vst s x))) ->
  StronglySorted (fun a b => sgn * fst a < sgn * fst b) es -> Forall (fun e => sgn * w0 < sgn * fst e) es ->
  (forall I nu, good s I -> order_ok s I nu -> lit_true I r -> if sgn =? 1 then nu x <= w0 else w0 < nu x) ->
  propagate_variables O cfg sgn r (map snd es) s = (ok, s') ->
  wf_core s' /\ (forall fs, wf_facts fs s -> wf_facts fs s') /\ step T2 T2 s s' /\ same s s' /\ nxt s' = nxt s /\
  vst s' = vst s /\ lmap s' = lmap s.
Proof.
  induction es as [|[w z] es IH]; intros w0 r s ok s' W Hx Hs Br Hin Hsort Hgt Hr E; cbn [map snd propagate_variables] in E.
  { injection E as <- <-. csplit; auto using same_refl. apply step_refl; now right. }
  destruct (is_true O s (sgn * z)).
  { injection E as <- <-. csplit; auto using same_refl. apply step_refl; now right. }
  destruct (add_clause O (if r =? TRUE_LIT then Static else Learnt) [- r; sgn * z] s) as [ok1 s1] eqn:A.
  pose proof (Hin w z ltac:(now left)) as Hz.
  assert (Bz : below (nxt s) (sgn * z)).
  { destruct (wf_lits s W x w z Hx Hz) as [B _]. unfold below in *. destruct Hs as [-> | ->]; lia. }
  assert (Fc : Forall (below (nxt s)) [- r; sgn * z]) by (repeat constructor; try apply below_neg; auto; try apply Br; try apply Bz; destruct Bz, Br; lia).
  pose proof (add_clause_core O _ _ _ _ _ A W Fc) as W1.
  assert (ST : step T2 (fun I _ => clause_true I [- r; sgn * z]) s s1).
  { apply (add_clause_step O Base _ _ _ _ _ T2 A). intros I nu G Od _. rewrite clause2_true. destruct Br as [Nr _]. destruct Bz as [Nz _].
    destruct (lit_true_dec I r) as [R|R]; [|left; now apply lit_true_neg]. right. pose proof (Hr I nu G Od R) as Hw.
    inversion Hgt as [|? ? Hw0 _]. cbn in Hw0. destruct (Od x Hx) as [_ M]. specialize (M w z Hz).
    destruct Hs as [-> | ->]; cbn in Hw.
    - replace (1 * z) with z by lia. apply M. lia.
    - replace (- 1 * z) with (- z) by lia. apply lit_true_neg; [lia|]. rewrite M. lia. }
  assert (ST' : step T2 T2 s s1) by (apply step_weaken with (1 := ST); easy).
  injection A as Aok As. assert (SM : same s s1) by (rewrite <- As; apply same_emit).
  assert (WF1 : forall fs, wf_facts fs s -> wf_facts fs s1) by (rewrite <- As; intros fs [F1 F2 F3]; now constructor).
  assert (NX : nxt s1 = nxt s) by now rewrite <- As.
  assert (VE : vst s1 = vst s) by now rewrite <- As.
  assert (LE : lmap s1 = lmap s) by now rewrite <- As.
  destruct ok1; [|injection E as <- <-; csplit; auto].
  apply StronglySorted_inv in Hsort as (Hso & Hfa). rewrite Forall_forall in Hfa, Hgt. clear As Aok.
  specialize (IH (if propagate_chain cfg && (0 <? dlevel O s1)%nat then w else w0)
     (if propagate_chain cfg && (0 <? dlevel O s1)%nat then sgn * z else r) _ ok s' W1).
  destruct IH as (I1 & I2 & I3 & I4 & I5 & I6 & I7).
  - now rewrite (same_nvars _ _ SM).
  - easy.
  - rewrite NX. destruct (_ && _); easy.
  - intros w' z' H'. rewrite VE. apply Hin. now right.
  - easy.
  - apply Forall_forall. intros [w' z'] H'. destruct (_ && _).
    + exact (Hfa _ H').
    + apply Hgt. now right.
  - intros I nu G Od. destruct (st_bwd _ _ _ _ _ ST I nu G Od) as (G0 & O0 & C).
    destruct (_ && _).
    + intros Lz. destruct (O0 x Hx) as [_ M]. specialize (M w z Hz).
      destruct Bz as [Nz _]. destruct Hs as [-> | ->]; cbn.
      * replace (1 * z) with z in Lz by lia. now apply M.
      * replace (- 1 * z) with (- z) in Lz by lia. apply lit_true_neg in Lz; [|lia]. rewrite M in Lz. lia.
    + now apply Hr.
  - exact E.
  - csplit; auto.
    + apply step_trans_T with (2 := I3). exact ST'.
    + apply same_trans with (2 := I4). exact SM.
    + now rewrite I5.
    + now rewrite I6.
    + now rewrite I7.
Qed.
End Steps.
