(** Propagation of linear constraints: reasons. *)
From Verif Require Import Base Util VarState VarStateProofs Terms TermsSpec Solver OrderSpec
  OrderProofs1 OrderProofs2 OrderProofs3 OrderProofs6 OrderProofs7 OrderProofs8 Sum PropProofs.
Open Scope Z_scope.
Notation lit := Z (only parsing).

Lemma order_ge_in v x w l : order_ge v x = Some (w, l) -> In (w, l) (lits v) /\ x <= w.
Proof.
  unfold order_ge, vwith_ge. intros H. assert (K : In (w, l) (filter (fun e => x <=? fst e) (lits v))).
  { destruct (filter _ _); [discriminate|]. injection H as ->. now left. }
  apply filter_In in K. cbn in K. lia || (destruct K; split; [easy|lia]).
Qed.
Lemma order_le_in v x w l : order_le v x = Some (w, l) -> In (w, l) (lits v) /\ w <= x.
Proof.
  unfold order_le, vwith_le. intros H. assert (K : In (w, l) (rev (filter (fun e => fst e <=? x) (lits v)))).
  { destruct (rev _); [discriminate|]. injection H as ->. now left. }
  apply in_rev, filter_In in K. destruct K as (K1 & K2). cbn in K2. split; [easy|lia].
Qed.

Section Sum.
Context (O : oracle) (cfg : config) (Base : interp -> Prop) (n0 : Z).
Context (BO : base_ok Base n0) (CO : clasp_ok O Base) (U : units_pos O).
Notation good := (good Base).
Notation step := (step Base).
Notation holds := (holds Base).
Notation pstep := (pstep O Base).
Notation justified := (justified O).

(** A clause saying that [g] is false because [a] is. *)
Lemma imply_step P a g s ret s' : (0 < dlevel O s)%nat -> wf s -> below (nxt s) a -> below (nxt s) g -> is_false O s a = true ->
  holds s (fun I nu => lit_true I g -> lit_true I a) ->
  (if is_false O s g then (true, s) else add_clause O Learnt [a; - g] s) = (ret, s') ->
  pstep P s s' ret /\ css s' = css s /\ ina s' = ina s /\ nxt s' = nxt s /\ (ret = true -> is_false O s' g = true).
Proof.
  intros L W Ba Bg F H E. destruct (is_false O s g) eqn:Fg.
  { injection E as <- <-. csplit; auto. now apply pstep_refl. }
  destruct (pstep_clause O Base P Learnt [a; - g] s ret s' W) as (A & B & C); auto.
  - constructor; [exact Ba|constructor; [now apply below_neg|constructor]].
  - intros I nu G Od _. destruct (lit_true_dec I g) as [T|T].
    + exists a. split; [now left|]. now apply (H I nu G Od).
    + exists (- g). split; [right; now left|]. apply lit_true_neg; [apply Bg|easy].
  - split; [easy|]. csplit; [now apply (same_get css)|now apply (same_get ina)|easy|].
    intros ->. now apply (unit2 O U Learnt a (- g) s s').
Qed.

Definition bnd (s : state) (co : Z) (x : var) : Z := if 0 <? co then lb (vst s x) else ub (vst s x).

Record cr_post (P : interp -> (var -> Z) -> Prop) (x : var) (co slack : Z) (s s' : state) (ret : bool) (l : lit) (slack' : Z) : Prop := {
  cr_step : pstep P s s' ret;
  cr_css : css s' = css s;
  cr_ina : ina s' = ina s;
  cr_below : below (nxt s') l;
  cr_slack : slack' < 0;
  cr_false : ret = true -> is_false O s' l = true;
  cr_sem : holds s' (fun I nu => ~ lit_true I l -> slack - slack' + co * bnd s co x <= co * nu x) }.

Lemma div_neg a b : b <> 0 -> a / - b = (- a) / b.
Proof. intros. rewrite <- (Z.opp_involutive a) at 1. now apply Z.div_opp_opp. Qed.
Lemma floor_delta slack co : 0 < co -> - slack - 1 >= co * ((slack + 1) / - co) /\ co * ((slack + 1) / - co) > - slack - 1 - co.
Proof.
  intros H. rewrite div_neg by lia. pose proof (Z.div_mod (- (slack + 1)) co ltac:(lia)).
  pose proof (Z.mod_pos_bound (- (slack + 1)) co H). lia.
Qed.
Lemma floor_delta_neg slack co : co < 0 -> co * ((slack + 1) / co) >= slack + 1 /\ co * ((slack + 1) / co) < slack + 1 - co.
Proof.
  intros H. pose proof (Z.div_mod (slack + 1) co ltac:(lia)). pose proof (Z.mod_neg_bound (slack + 1) co H). lia.
Qed.

Lemma in_below s x w l : wf s -> (x < nvars s)%nat -> In (w, l) (lits (vst s x)) -> below (nxt s) l.
Proof. intros W Hx H. now destruct (wf_lits _ (proj1 W) x w l Hx H). Qed.
Lemma in_holds s x w l : (x < nvars s)%nat -> In (w, l) (lits (vst s x)) -> holds s (fun I nu => lit_true I l <-> nu x <= w).
Proof. intros Hx H. apply means_holds; auto. right; now right. Qed.

Lemma calc_reason_ok P x co slack s ret l slack' s' : wf s -> justified s -> bounds_ok s -> (x < nvars s)%nat -> n0 <= nxt s ->
  dep (nxt s) (nvars s) P -> co <> 0 -> slack < 0 ->
  calc_reason O cfg x co slack s = ((ret, l, slack'), s') -> cr_post P x co slack s s' ret l slack'.
Proof.
  intros W J B Hx Hn D Nz Sl E. unfold calc_reason in E. destruct (0 <? co) eqn:Cp.
  - assert (C0 : 0 < co) by lia. clear Nz.
    destruct (get_literal cfg x (lb (vst s x) - 1) s) as [lr s1] eqn:G.
    destruct (lower_false O cfg Base CO x s lr s1 W J B Hx G) as (-> & Fr).
    destruct (pstep_get O cfg Base n0 BO P x _ s lr s W Hx Hn G) as (_ & Mr & _).
    assert (Hr := means_holds Base s lr x _ Hx Mr). assert (Br := lit_means_below s lr x _ (proj1 W) Hx Mr).
    assert (BASE : cr_post P x co slack s s true lr slack).
    { constructor; auto; [now apply pstep_refl|]. intros I nu Gd Od N. rewrite (Hr I nu Gd Od) in N. unfold bnd. rewrite Cp. nia. }
    destruct (refine_reasons cfg && _ && _) eqn:Rf; [|injection E as <- <- <- <-; exact BASE].
    assert (DL : (0 < dlevel O s)%nat) by lia.
    set (cur := lb (vst s x)) in *.
    destruct (floor_delta slack co C0) as (FD1 & FD2). set (q := (slack + 1) / - co) in *.
    set (value := Z.max (cur - q) (minb (vst s x))) in *.
    destruct (value <? cur) eqn:Vc; [|injection E as <- <- <- <-; exact BASE].
    (* using an existing literal *)
    destruct (match order_ge (vst s x) (value - 1) with Some _ => _ | None => _ end) as [[[[ret1 l1] slack1] cur1] s2] eqn:E1.
    assert (R : exists (k : state), cr_post P x co slack s s2 ret1 l1 slack1 /\ value <= cur1 <= cur /\
      slack1 = slack - co * (cur1 - cur) /\ nxt s2 = nxt s /\ holds s (fun I nu => lit_true I l1 <-> nu x <= cur1 - 1)).
    { exists s.
      assert (BASE' : (true, lr, slack, cur, s) = (ret1, l1, slack1, cur1, s2) ->
         cr_post P x co slack s s2 ret1 l1 slack1 /\ value <= cur1 <= cur /\ slack1 = slack - co * (cur1 - cur) /\ nxt s2 = nxt s /\ holds s (fun I nu => lit_true I l1 <-> nu x <= cur1 - 1)).
      { intros H. injection H as <- <- <- <- <-. split; [exact BASE|]. csplit; try lia. exact Hr. }
      destruct (order_ge (vst s x) (value - 1)) as [[w k]|] eqn:OG; [|now apply BASE'].
      apply order_ge_in in OG as (O1 & O2). destruct (w + 1 <? cur) eqn:Cw; [|now apply BASE'].
      destruct (if is_false O s k then _ else _) as [ret2 s3] eqn:E2. injection E1 as <- <- <- <- <-.
      assert (Bk := in_below s x w k W Hx O1). assert (Hk := in_holds s x w k Hx O1).
      destruct (imply_step P lr k s ret2 s3 DL W Br Bk Fr) as (A1 & A2 & A3 & A4 & A5); auto.
      { intros I nu Gd Od. rewrite (Hr I nu Gd Od), (Hk I nu Gd Od). lia. }
      split; [|csplit; try lia; intros I nu Gd Od; rewrite (Hk I nu Gd Od); lia].
      constructor; auto.
      - now rewrite A4.
      - nia.
      - apply holds_step with (1 := ps_step _ _ _ _ _ _ A1). intros I nu Gd Od N. rewrite (Hk I nu Gd Od) in N.
        unfold bnd. rewrite Cp. fold cur. nia. }
    destruct R as (_ & R & V1 & S1 & N1 & H1).
    destruct (ret1 && _ && _ && _) eqn:Ci; [|injection E as <- <- <- <-; exact R].
    (* introducing a literal *)
    assert (ret1 = true) as -> by (destruct ret1; [easy|discriminate]).
    assert (Vc1 : value < cur1) by lia.
    destruct (get_literal cfg x (value - 1) s2) as [g s3] eqn:G3.
    destruct (if is_false O s3 g then _ else _) as [ret2 s4] eqn:E2. injection E as <- <- <- <-.
    destruct R as [R1 R2 R3 R4 R5 R6 R7].
    assert (Hx2 : (x < nvars s2)%nat) by (now rewrite (same3_nvars _ _ (ps_same _ _ _ _ _ _ R1))).
    destruct (pstep_get O cfg Base n0 BO P x _ s2 g s3 (ps_wf _ _ _ _ _ _ R1) Hx2 ltac:(lia) G3) as (Q1 & Q2 & Q3).
    assert (DL3 : (0 < dlevel O s3)%nat).
    { unfold dlevel in *. rewrite (later_level O Base CO _ _ (ps_later _ _ _ _ _ _ Q1 eq_refl)). now rewrite (later_level O Base CO _ _ (ps_later _ _ _ _ _ _ R1 eq_refl)). }
    assert (Hx3 : (x < nvars s3)%nat) by (now rewrite (same_nvars _ _ Q3)).
    assert (Hg := means_holds Base s3 g x _ Hx3 Q2). assert (Bg := lit_means_below s3 g x _ (proj1 (ps_wf _ _ _ _ _ _ Q1)) Hx3 Q2).
    assert (H3 : holds s3 (fun I nu => lit_true I l1 <-> nu x <= cur1 - 1)).
    { apply holds_step with (1 := ps_step _ _ _ _ _ _ Q1). now apply holds_step with (1 := ps_step _ _ _ _ _ _ R1). }
    destruct (imply_step P l1 g s3 ret2 s4 DL3 (ps_wf _ _ _ _ _ _ Q1)) as (A1 & A2 & A3 & A4 & A5); auto.
    { apply below_mono with (nxt s2); [apply (st_nxt _ _ _ _ _ (ps_step _ _ _ _ _ _ Q1))|easy]. }
    { apply (later_false O Base CO s2); [now apply (ps_later _ _ _ _ _ _ Q1)|now apply R6]. }
    { intros I nu Gd Od. rewrite (H3 I nu Gd Od), (Hg I nu Gd Od). lia. }
    assert (D2 : dep (nxt s2) (nvars s2) P).
    { apply dep_mono with (3 := D); [lia|]. now rewrite (same3_nvars _ _ (ps_same _ _ _ _ _ _ R1)). }
    constructor.
    + apply pstep_trans with s2; auto. apply pstep_trans with s3; auto.
    + rewrite A2, (same_get css (fun _ => eq_refl) _ _ Q3). exact R2.
    + rewrite A3, (same_get ina (fun _ => eq_refl) _ _ Q3). exact R3.
    + now rewrite A4.
    + nia.
    + exact A5.
    + apply holds_step with (1 := ps_step _ _ _ _ _ _ A1). intros I nu Gd Od N. rewrite (Hg I nu Gd Od) in N.
      unfold bnd. rewrite Cp. fold cur. nia.
  - assert (C0 : co < 0) by lia. clear Nz.
    destruct (get_literal cfg x (ub (vst s x)) s) as [lr0 s1] eqn:G.
    destruct (upper_true O cfg Base CO x s lr0 s1 W J B Hx G) as (-> & Fr).
    destruct (pstep_get O cfg Base n0 BO P x _ s lr0 s W Hx Hn G) as (_ & Mr & _).
    assert (Hr0 := means_holds Base s lr0 x _ Hx Mr). assert (Br0 := lit_means_below s lr0 x _ (proj1 W) Hx Mr).
    set (lr := - lr0) in *.
    assert (Br : below (nxt s) lr) by now apply below_neg.
    assert (Hr : holds s (fun I nu => lit_true I lr <-> ~ nu x <= ub (vst s x))).
    { intros I nu Gd Od. unfold lr. rewrite lit_true_neg by apply Br0. now rewrite (Hr0 I nu Gd Od). }
    assert (Fr' : is_false O s lr = true) by (unfold is_false, lr; now rewrite Z.opp_involutive). clearbody lr. clear Fr.
    assert (BASE : cr_post P x co slack s s true lr slack).
    { constructor; auto; [now apply pstep_refl|]. intros I nu Gd Od N. rewrite (Hr I nu Gd Od) in N. unfold bnd. rewrite Cp. nia. }
    destruct (refine_reasons cfg && _ && _) eqn:Rf; [|injection E as <- <- <- <-; exact BASE].
    assert (DL : (0 < dlevel O s)%nat) by lia.
    set (cur := ub (vst s x)) in *.
    destruct (floor_delta_neg slack co C0) as (FD1 & FD2). set (q := (slack + 1) / co) in *.
    set (value := Z.min (cur + q) (maxb (vst s x))) in *.
    destruct (cur <? value) eqn:Vc; [|injection E as <- <- <- <-; exact BASE].
    destruct (match order_le (vst s x) value with Some _ => _ | None => _ end) as [[[[ret1 l1] slack1] cur1] s2] eqn:E1.
    assert (R : exists (k : state), cr_post P x co slack s s2 ret1 l1 slack1 /\ cur <= cur1 <= value /\
      slack1 = slack - co * (cur1 - cur) /\ nxt s2 = nxt s /\ holds s (fun I nu => lit_true I l1 <-> ~ nu x <= cur1)).
    { exists s.
      assert (BASE' : (true, lr, slack, cur, s) = (ret1, l1, slack1, cur1, s2) ->
         cr_post P x co slack s s2 ret1 l1 slack1 /\ cur <= cur1 <= value /\ slack1 = slack - co * (cur1 - cur) /\ nxt s2 = nxt s /\ holds s (fun I nu => lit_true I l1 <-> ~ nu x <= cur1)).
      { intros H. injection H as <- <- <- <- <-. split; [exact BASE|]. csplit; try lia. exact Hr. }
      destruct (order_le (vst s x) value) as [[w k]|] eqn:OG; [|now apply BASE'].
      apply order_le_in in OG as (O1 & O2). destruct (cur <? w) eqn:Cw; [|now apply BASE'].
      destruct (if is_false O s (- k) then _ else _) as [ret2 s3] eqn:E2. injection E1 as <- <- <- <- <-.
      assert (Bk := in_below s x w k W Hx O1). assert (Hk := in_holds s x w k Hx O1).
      assert (Hk' : holds s (fun I nu => lit_true I (- k) <-> ~ nu x <= w)).
      { intros I nu Gd Od. rewrite lit_true_neg by apply Bk. now rewrite (Hk I nu Gd Od). }
      destruct (imply_step P lr (- k) s ret2 s3 DL W Br ltac:(now apply below_neg) Fr') as (A1 & A2 & A3 & A4 & A5); auto.
      { intros I nu Gd Od. rewrite (Hr I nu Gd Od), (Hk' I nu Gd Od). lia. }
      { now rewrite Z.opp_involutive. }
      split; [|csplit; try lia; exact Hk'].
      constructor; auto.
      - rewrite A4. now apply below_neg.
      - nia.
      - apply holds_step with (1 := ps_step _ _ _ _ _ _ A1). intros I nu Gd Od N. rewrite (Hk' I nu Gd Od) in N.
        unfold bnd. rewrite Cp. fold cur. nia. }
    destruct R as (_ & R & V1 & S1 & N1 & H1).
    destruct (ret1 && _ && _ && _) eqn:Ci; [|injection E as <- <- <- <-; exact R].
    assert (ret1 = true) as -> by (destruct ret1; [easy|discriminate]).
    assert (Vc1 : cur1 < value) by lia.
    destruct (get_literal cfg x value s2) as [g0 s3] eqn:G3.
    destruct (if is_false O s3 (- g0) then _ else _) as [ret2 s4] eqn:E2. injection E as <- <- <- <-.
    destruct R as [R1 R2 R3 R4 R5 R6 R7].
    assert (Hx2 : (x < nvars s2)%nat) by (now rewrite (same3_nvars _ _ (ps_same _ _ _ _ _ _ R1))).
    destruct (pstep_get O cfg Base n0 BO P x _ s2 g0 s3 (ps_wf _ _ _ _ _ _ R1) Hx2 ltac:(lia) G3) as (Q1 & Q2 & Q3).
    assert (DL3 : (0 < dlevel O s3)%nat).
    { unfold dlevel in *. rewrite (later_level O Base CO _ _ (ps_later _ _ _ _ _ _ Q1 eq_refl)). now rewrite (later_level O Base CO _ _ (ps_later _ _ _ _ _ _ R1 eq_refl)). }
    assert (Hx3 : (x < nvars s3)%nat) by (now rewrite (same_nvars _ _ Q3)).
    assert (Hg0 := means_holds Base s3 g0 x _ Hx3 Q2). assert (Bg0 := lit_means_below s3 g0 x _ (proj1 (ps_wf _ _ _ _ _ _ Q1)) Hx3 Q2).
    assert (Bg : below (nxt s3) (- g0)) by now apply below_neg.
    assert (Hg : holds s3 (fun I nu => lit_true I (- g0) <-> ~ nu x <= value)).
    { intros I nu Gd Od. rewrite lit_true_neg by apply Bg0. now rewrite (Hg0 I nu Gd Od). }
    assert (H3 : holds s3 (fun I nu => lit_true I l1 <-> ~ nu x <= cur1)).
    { apply holds_step with (1 := ps_step _ _ _ _ _ _ Q1). now apply holds_step with (1 := ps_step _ _ _ _ _ _ R1). }
    destruct (imply_step P l1 (- g0) s3 ret2 s4 DL3 (ps_wf _ _ _ _ _ _ Q1)) as (A1 & A2 & A3 & A4 & A5); auto.
    { apply below_mono with (nxt s2); [apply (st_nxt _ _ _ _ _ (ps_step _ _ _ _ _ _ Q1))|easy]. }
    { apply (later_false O Base CO s2); [now apply (ps_later _ _ _ _ _ _ Q1)|now apply R6]. }
    { intros I nu Gd Od. rewrite (H3 I nu Gd Od), (Hg I nu Gd Od). lia. }
    assert (D2 : dep (nxt s2) (nvars s2) P).
    { apply dep_mono with (3 := D); [lia|]. now rewrite (same3_nvars _ _ (ps_same _ _ _ _ _ _ R1)). }
    constructor.
    + apply pstep_trans with s2; auto. apply pstep_trans with s3; auto.
    + rewrite A2, (same_get css (fun _ => eq_refl) _ _ Q3). exact R2.
    + rewrite A3, (same_get ina (fun _ => eq_refl) _ _ Q3). exact R3.
    + now rewrite A4.
    + nia.
    + exact A5.
    + apply holds_step with (1 := ps_step _ _ _ _ _ _ A1). intros I nu Gd Od N. rewrite (Hg I nu Gd Od) in N.
      unfold bnd. rewrite Cp. fold cur. nia.
Qed.

End Sum.
