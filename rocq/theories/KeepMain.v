(** Searches keep solutions. *)
From Verif Require Import Base Util VarState VarStateProofs Terms TermsSpec Solver OrderSpec OrderProofs1 OrderProofs2 OrderProofs3 OrderProofs4 OrderProofs5 OrderProofs7 Orders Sum SumProofs2 PropProofs ConSpec
  Distinct DistinctProofs Disjoint DisjointProofs Objective Search SearchSpec SearchFrame SearchInv SearchInv3 SearchInv4 SearchInv5 SearchUndo SearchMain
  CheckSpec CheckFrame CheckGrow CheckSays CheckProofs FreshInv FreshCalls FreshSearch KeepCons KeepSpec KeepProofs KeepLoop KeepSearch.
From Coq Require Import Permutation Sorting.Sorted.
Open Scope Z_scope.

Section Keep.
Context (srt : (ival -> Z) -> list ival -> list ival) (SP : forall f l, Permutation (srt f l) l) (SS : forall f l, StronglySorted Z.le (map f (srt f l))).
Context (O : oracle) (cfg : config) (chk sol : bool) (Base : interp -> Prop) (n0 : Z).
Context (BO : base_ok Base n0) (CO : clasp_ok O Base) (U : units_pos O) (CA : calm O).
Context (guard : bool) (SO : guard = true -> steady O).
Notation step := (step Base).

(** ** propagate *)
Lemma domain_keep K G l s ok s' : sinv G s -> wf s -> n0 <= nxt s -> cur_level s = dlevel O s -> ((0 < dlevel O s)%nat -> fmap s = []) -> l <> 0 -> is_true O s l = true ->
  In (cur_level s, l) K -> just K G s -> update_domain O cfg l s = (ok, s') ->
  wf_core s' /\ step T2 T2 s s' /\ (ok = true -> wf s' /\ later O (log s) (log s')) /\ just K G s' /\ mbound s' = mbound s.
Proof.
  intros SI W N CD F NZ TR IN J E. destruct (Nat.eq_dec (dlevel O s) 0) as [D0|D0].
  - destruct (update_domain_ok O cfg Base n0 BO CO l s ok s') as [A1 A2 A3 A4 A5 _ _]; auto; [lia|].
    assert (S1 : sinv G s'). { pose proof (update_domain_sinv O cfg G l s SI) as Q. now rewrite E in Q. }
    assert (G0 : G = []) by (apply (core_cur G s (proj1 SI)); lia). subst G.
    split; auto. split; auto. split; [|split; [apply just_zero, S1|now apply (same2_get mbound)]]. intros ->. split; auto.
    unfold update_domain in E. destruct (negb (l =? TRUE_LIT) && Nat.eqb (dlevel O s) 0 && is_fixed O s l).
    + cbn [fst snd] in E. apply facts_later in E. now rewrite !fix_log in E.
    + destruct (l =? TRUE_LIT); [now apply facts_later in E|]. change (domain_above O cfg l s = (true, s')) in E. apply (above_moves O cfg l s true s' (proj1 W)) in E as (_ & Q & _). auto.
  - destruct (Z.eq_dec l TRUE_LIT) as [LT|LT].
    + subst l. unfold update_domain in E. cbn [negb Z.eqb TRUE_LIT Pos.eqb andb] in E. rewrite F in E by lia. cbn [apply_facts] in E. injection E as <- <-.
      assert (F6 : fixed6 s (set_fmap [] s)). { unfold fixed6. cbn. rewrite (F ltac:(lia)). now repeat split. }
      split; [now apply fixed6_core with s; [|apply W]|]. split; [now apply fixed6_step|]. split; [intros _; split; [now apply fixed6_wf with s|apply later_refl]|]. split; [|reflexivity]. apply just_same with s; auto. intros x w k Q. exact Q.
    + destruct (update_domain_ok O cfg Base n0 BO CO l s ok s') as [A1 A2 A3 A4 A5 _ _]; auto; [lia|tauto|].
      assert (S1 : sinv G s'). { pose proof (update_domain_sinv O cfg G l s SI) as Q. now rewrite E in Q. }
      assert (C1 : cur_level s' = cur_level s) by (apply update_domain_tg in E as (T & _); now apply cur_lvls, (tg_lvls _ _ _ T)).
      unfold update_domain in E. apply Nat.eqb_neq in D0 as D1. rewrite D1, andb_false_r in E. cbn [andb] in E. apply Z.eqb_neq in LT as L1. rewrite L1 in E.
      change (domain_above O cfg l s = (ok, s')) in E. apply (above_moves O cfg l s ok s' (proj1 W)) in E as (M1 & M2 & M3 & M4).
      split; auto. split; auto. split; auto. split; [|now apply (same2_get mbound)]. destruct G as [|s1 G]; [|apply (just_domain K s1 G s s' l); auto; [apply SI|apply S1]].
      exfalso. apply D0. rewrite <- CD. apply (core_cur [] s (proj1 SI)). reflexivity.
Qed.
Lemma marks_mb l ps : forall s, mbound (fold_left (fun s (p : lit * cid) => if fst p =? l then mark_todo (snd p) s else s) ps s) = mbound s.
Proof.
  assert (M : forall c s, mbound (mark_todo c s) = mbound s).
  { intros c s. unfold mark_todo. destruct (css s c) as [k|]; auto. destruct (negb _); auto. cbv zeta. now destruct (c_todo k). }
  induction ps as [|p ps IH]; intros s; cbn [fold_left]; auto. rewrite IH. destruct (_ =? _); auto.
Qed.
Lemma lits_keep K G ls : forall s ok s', sinv G s -> wf s -> n0 <= nxt s -> cur_level s = dlevel O s -> ((0 < dlevel O s)%nat -> fmap s = []) ->
  Forall (fun l => l <> 0) ls -> (forall l, In l ls -> is_true O s l = true) -> (forall l, In l ls -> In (cur_level s, l) K) -> just K G s -> propagate_lits O cfg ls s = (ok, s') ->
  wf_core s' /\ step T2 T2 s s' /\ (ok = true -> wf s' /\ later O (log s) (log s')) /\ just K G s' /\ mbound s' = mbound s.
Proof.
  induction ls as [|l ls IH]; intros s ok s' SI W N CD F NZ TR IN J E; cbn [propagate_lits] in E.
  - injection E as <- <-. split; [apply W|]. split; [apply step_refl; now right|]. split; auto. intros _. split; auto. apply later_refl.
  - destruct (propagate_lit O cfg l s) as [ok1 s2] eqn:E1. unfold propagate_lit in E1.
    assert (F6 := fixed6_marks l (l2c s) s). assert (M1 := marks_mb l (l2c s) s).
    assert (S1 : sinv G (fold_left (fun s (p : lit * cid) => if fst p =? l then mark_todo (snd p) s else s) (l2c s) s)).
    { revert SI. clear. generalize (l2c s). intros ps. revert s. induction ps as [|p ps IH]; intros s H; cbn [fold_left]; auto. apply IH. destruct (_ =? _); auto. now apply mark_todo_sinv. }
    set (s1 := fold_left _ (l2c s) s) in *. clearbody s1. pose proof F6 as (V & _ & NX & LG & FM & _). inversion NZ as [|? ? NZ1 NZ2]; subst.
    assert (CU := fixed6_cur _ _ F6). assert (DL : dlevel O s1 = dlevel O s) by (unfold dlevel; now rewrite LG).
    assert (T1 : forall l0, is_true O s1 l0 = is_true O s l0) by (intros l0; unfold is_true; now rewrite LG).
    assert (J1 : just K G s1). { apply just_same with s; auto; [now rewrite V|]. intros x w k. now rewrite V. }
    destruct (domain_keep K G l s1 ok1 s2) as (A1 & A2 & A3 & A4 & A5); auto; try congruence.
    { now apply fixed6_wf with s. } { rewrite DL, FM. exact F. } { rewrite T1. apply TR. now left. } { rewrite CU. apply IN. now left. }
    assert (ST : step T2 T2 s s2) by (apply step_trans_T with s1; [now apply fixed6_step|exact A2]).
    destruct ok1.
    2:{ injection E as <- <-. split; auto. split; auto. split; [discriminate|]. split; auto. congruence. }
    destruct (A3 eq_refl) as [W2 L2]. pose proof (update_domain_tg O cfg l s1 true s2 E1) as (TG & _).
    assert (C2 : cur_level s2 = cur_level s) by (rewrite <- CU; now apply cur_lvls, (tg_lvls _ _ _ TG)).
    assert (D2 : dlevel O s2 = dlevel O s) by (rewrite <- DL; now apply tg_level).
    destruct (IH s2 ok s') as (B1 & B2 & B3 & B4 & B5); auto; try congruence.
    { pose proof (update_domain_sinv O cfg G l s1 S1) as Q. now rewrite E1 in Q. }
    { pose proof (st_nxt _ _ _ _ _ ST). lia. }
    { rewrite D2. intros L. apply (tg_fmap _ _ _ TG CA); [now rewrite DL|]. rewrite FM. auto. }
    { intros l0 H. apply (later_is_true O Base CO s1); auto. rewrite T1. apply TR. now right. }
    { intros l0 H. rewrite C2. apply IN. now right. }
    split; auto. split; [now apply step_trans_T with s2|]. split; [|split; auto; congruence]. intros Q. destruct (B3 Q) as [X Y]. split; auto. rewrite <- LG. now apply later_trans with (log s2).
Qed.

(** ** The invariant *)
Context (s0 : state) (PD : forall c k, css s0 c = Some k -> posted s0 (c_def k)) (W : lit -> Prop) (SD : started srt O cfg chk sol W s0) (N0 : n0 <= nxt s0).
Notation D := (demands guard s0).
Notation hist := (hist W).

Record kinv (K : list (nat * lit)) (going : bool) (G : list state) (s : state) : Prop := {
  ki_hist : hist [] G s;
  ki_dinv : dinv G s;
  ki_core : wf_core s;
  ki_wf : going = true -> wf s;
  ki_cons : cons s0 s;
  ki_nv : nvars s = nvars s0;
  ki_just : just K G s;
  ki_step : step (D (mbound s)) T2 s0 s }.

Lemma DV : forall c k, css s0 c = Some k -> Forall (fun x => x < nvars s0)%nat (cvars (c_def k)).
Proof. pose proof (hist_start srt O cfg chk sol W s0 SD) as H. intros c k. apply (b_vars _ (core_b _ _ (proj1 (h_inv _ _ _ _ H)))). Qed.
Lemma ki_nxt K g G s : kinv K g G s -> nxt s0 <= nxt s.
Proof. intros I. apply (ki_step _ _ _ _ I). Qed.
Lemma ki_dep K g G s mb : kinv K g G s -> dep (nxt s0) (nvars s0) (D mb).
Proof. intros I. apply (D_dep O guard SO s0 PD DV); lia. Qed.
Lemma ki_later K g G s s' : kinv K g G s -> mb_le (mbound s) (mbound s') -> step (D (mbound s')) T2 s s' -> step (D (mbound s')) T2 s0 s'.
Proof.
  intros I M S. apply step_seq with s; auto; [now apply ki_dep with K g G s|]. apply step_weaken with (D (mbound s)) T2; [apply I| |easy].
  intros J nu _ _ H. now apply demands_le with (mbound s').
Qed.
Lemma hist_wf K G s : hist K G s -> wf_core s -> (0 < cur_level s)%nat \/ fmap s = [] -> wf s.
Proof.
  intros H WC F. assert (FM : fmap s = []) by (destruct F as [F|F]; auto; destruct (h_facts _ _ _ _ H); auto; lia).
  apply wf_nofacts; auto. rewrite <- FM. apply H.
Qed.

Lemma kinv_start : kinv [] true [] s0.
Proof.
  pose proof (hist_start srt O cfg chk sol W s0 SD) as H. constructor; auto.
  - destruct (reachable_dinv srt chk sol O cfg s0 (sd_reach _ _ _ _ _ _ _ SD)) as (G & A & B). now rewrite (proj1 (core_cur G s0 (proj1 A)) (sd_level _ _ _ _ _ _ _ SD)) in B.
  - apply SD.
  - intros _. apply SD.
  - apply cons_refl.
  - apply just_zero, H.
  - apply fixed6_step, fixed6_refl.
Qed.
Lemma kinv_call K G s n : kinv K true G s -> kinv K true G (emit (ECall n) s).
Proof.
  intros [A1 A2 A3 A4 A5 A6 A7 A8]. constructor; auto.
  - now apply hist_call.
  - now apply dinv_fields with s.
  - destruct A3 as [W1 W2 W3 W4 W5 W6]. constructor; auto. cbn. constructor; auto. exact Logic.I.
  - intros _. destruct (A4 eq_refl) as [[W1 W2 W3 W4 W5 W6] [F1 F2 F3]]. split; constructor; auto. cbn. constructor; auto. exact Logic.I.
  - apply just_same with s; auto. intros x w k Q. exact Q.
  - change (mbound (emit (ECall n) s)) with (mbound s). apply step_seq with s; auto; [|now apply step_emit]. apply (D_dep O guard SO s0 PD DV); lia.
Qed.
Lemma kinv_propagate K G s ls ok s' : kinv K true G s -> in_order O s -> Forall (below (nxt s)) ls -> (forall l, In l ls -> o_true O (log s) l = true) ->
  solver_propagate O cfg ls s = (ok, s') -> exists G', kinv (map (pair (cur_level s')) ls ++ K) (ok || (0 <? cur_level s')%nat) G' s'.
Proof.
  intros I IO FB TR E. unfold solver_propagate in E. set (s1 := push_level (dlevel O s) s) in *.
  assert (A : exists G1, hist [] G1 s1 /\ dinv G1 s1 /\ just K G1 s1 /\ cur_level s1 = dlevel O s1 /\ wf s1 /\ cons s s1 /\ nvars s1 = nvars s /\ mbound s1 = mbound s /\ log s1 = log s /\ nxt s1 = nxt s /\ step T2 T2 s s1).
  { assert (WF : wf s1) by (apply wf_push, (ki_wf _ _ _ _ I eq_refl)). destruct (Nat.ltb_spec (cur_level s) (dlevel O s)) as [L|L].
    - exists (s :: G). destruct (proj2 IO L) as [ST FM]. split; [now apply hist_push; [apply I| | |]|]. split; [now apply dinv_push; [apply I|]|].
      split; [destruct (just_push K G (dlevel O s) s (ki_just _ _ _ _ I)) as [Q|Q]; [exact Q|lia]|].
      apply Nat.ltb_lt in L. unfold s1, push_level in *. rewrite L in *. split; [reflexivity|]. split; auto. split; [now apply cons_css|]. split; auto. split; auto. split; auto. split; auto. apply step_silent; auto.
    - exists G. unfold s1, push_level. apply Nat.ltb_ge in L as L1. rewrite L1. destruct I. split; auto. split; auto. split; auto. split; [destruct IO; lia|]. split; auto. split; [apply cons_refl|].
      split; auto. split; auto. split; auto. split; auto. apply step_refl. now right. }
  clearbody s1. destruct A as (G1 & A1 & A2 & A3 & A4 & A5 & A6 & A7 & A8 & A9 & A10 & A11).
  destruct (tg_propagate_lits O cfg ls s1 ok s' E) as (T & _). assert (C2 : cur_level s' = cur_level s1) by (now apply cur_lvls, (tg_lvls _ _ _ T)).
  destruct (lits_keep (map (pair (cur_level s')) ls ++ K) G1 ls s1 ok s') as (B1 & B2 & B3 & B4 & B5); auto.
  { apply A1. } { pose proof (ki_nxt _ _ _ _ I). lia. }
  { intros L. destruct (h_facts _ _ _ _ A1); auto. lia. }
  { apply Forall_impl with (2 := FB). intros l [H _]. exact H. }
  { intros l H. unfold is_true. rewrite A9. auto. }
  { intros l H. rewrite C2. apply in_or_app. left. apply in_map_iff. now exists l. }
  { apply just_more with K; auto. intros p H. apply in_or_app. now right. }
  assert (S' : sinv G1 s'). { pose proof (propagate_lits_sinv O cfg G1 ls s1 (h_inv _ _ _ _ A1)) as Q. now rewrite E in Q. }
  assert (H' : hist [] G1 s') by (apply (hist_tg O CA W [] G1 s1); auto; lia).
  exists G1. constructor; auto.
  - pose proof (dinv_propagate_lits O cfg G1 ls s1 A2) as Q. now rewrite E in Q.
  - intros Q. apply orb_true_iff in Q as [Q|Q]; [now apply B3|]. apply Nat.ltb_lt in Q. apply hist_wf with [] G1; auto.
  - apply cons_trans with s; [apply I|]. apply cons_trans with s1; auto. pose proof (cons_propagate_lits O cfg ls s1) as Q. now rewrite E in Q.
  - rewrite (tg_nv _ _ _ T), A7. apply I.
  - apply ki_later with K true G s; auto.
    + rewrite B5, A8. apply mb_le_refl.
    + apply step_any. now apply step_trans_T with s1.
Qed.
Lemma kinv_check K G s fuel m bound s' : kinv K true G s -> in_order O s -> (forall l, In l (map snd K) -> o_true O (log s) l = true) -> (guard = true -> (0 < dlevel O s)%nat) ->
  prop_check srt O cfg chk sol fuel m bound s = Some (Ok tt, s') -> kinv K ((0 <? cur_level s')%nat || is_nil (fmap s')) G s'.
Proof.
  intros I IO TR GU E. assert (H := ki_hist _ _ _ _ I). assert (SI := h_inv _ _ _ _ H). assert (NX := ki_nxt _ _ _ _ I).
  assert (IN : inner O n0 guard s0 G s).
  { constructor; [apply SI|apply I|constructor| |apply I| |exact GU|exact NX|apply I].
    - now apply (ki_wf _ _ _ _ I).
    - apply just_justified with K G; auto. apply I.
    - apply core_bounds_ok with G. apply SI.
    - lia.
    - intros x. apply (h_small _ _ _ _ H s). now left.
    - apply ivs_cons with s0; [apply I|]. apply (reachable_ivs srt SP chk sol O cfg s0). apply SD. }
  assert (FC : fc O s).
  { destruct IO as [L Q]. split; auto. intros L0. destruct (Nat.eq_dec (cur_level s) (dlevel O s)) as [Q0|Q0]; [|apply Q; lia]. destruct (h_facts _ _ _ _ H); auto. lia. }
  destruct (check_keep srt SP SS O cfg chk sol Base n0 BO CO U CA guard SO s0 PD DV G fuel m bound s s' SI IN FC (h_last _ _ _ _ H) E) as [K1 K2 K3 K4].
  pose proof (tg_prop_check srt O cfg chk sol _ _ _ _ _ _ E) as T.
  assert (S' : sinv G s') by (apply (prop_check_sinv srt O cfg chk sol G _ _ _ _ _ _ SI E); reflexivity).
  assert (H' : hist [] G s') by (apply (hist_tg O CA W [] G s); auto; apply IO).
  assert (CU : cur_level s' = cur_level s) by (now apply cur_lvls, (tg_lvls _ _ _ T)).
  constructor; auto.
  - apply (dinv_prop_check srt O cfg chk sol G _ _ _ _ _ _ SI (ki_dinv _ _ _ _ I) E).
  - intros Q. apply hist_wf with [] G; auto. apply orb_true_iff in Q as [Q|Q]; [left; now apply Nat.ltb_lt in Q|right]. now destruct (fmap s').
  - apply cons_trans with s; [apply I|]. apply (cons_prop_check srt SP O cfg chk sol _ _ _ _ _ _ E).
  - rewrite (tg_nv _ _ _ T). apply I.
  - destruct (Nat.eq_dec (cur_level s) 0) as [Z0|Z0].
    + assert (G0 : G = []) by now apply (core_cur G s (proj1 SI)). subst G. apply just_zero, S'.
    + destruct K3 as [V GR]; [lia|]. apply just_same with s; auto. apply I.
  - now apply ki_later with K true G s.
Qed.
Lemma kinv_undo K G s s' : kinv K true G s -> solver_undo s = Ok s' -> exists G', kinv (filter (fun p => (fst p <=? cur_level s')%nat) K) true G' s'.
Proof.
  intros I E. assert (H := ki_hist _ _ _ _ I). destruct (undo_levels G s s' (proj1 (h_inv _ _ _ _ H)) E) as (s1 & G' & ->). exists G'.
  assert (SI := h_inv _ _ _ _ H). destruct (undo_sinv s1 G' s s' SI E) as (V & T & S' & ST & (U1 & U2 & U3 & U4 & U5 & U6 & _)).
  assert (H' := hist_undo1 W [] s1 G' s s' H E). cbn [filter] in H'.
  assert (NV : nvars s' = nvars s). { rewrite (v_nv _ _ V). destruct SI as [[_ (_ & OP & _)] _]. symmetry. apply (o_nv _ _ OP). }
  assert (WC : wf_core s').
  { destruct (ki_core _ _ _ _ I) as [W1 W2 W3 W4 W5 W6]. constructor; rewrite ?U1, ?U2, ?U3, ?NV; auto.
    - intros x X. rewrite U5. auto.
    - intros x w l X. rewrite U5. auto.
    - intros k e X. rewrite U5. auto.
    - intros C x _. apply (core_cur G' s' (proj1 S')) in C. subst G'. apply core_stk, S'. }
  constructor; auto.
  - apply (dinv_undo s1 G' s s' SI (ki_dinv _ _ _ _ I) E).
  - intros _. apply hist_wf with [] G'; auto. right. rewrite U4. destruct (h_facts _ _ _ _ H) as [F|F]; auto. apply (core_cur _ s (proj1 SI)) in F. discriminate.
  - apply cons_trans with s; [apply I|now apply cons_undo].
  - rewrite NV. apply I.
  - apply just_undo with s1 s; auto; [apply SI|apply I].
  - apply ki_later with K true (s1 :: G') s; auto; [rewrite U6; apply mb_le_refl|]. apply step_silent; auto. intros x _. split; [|split; [|apply U5]].
    + destruct (core_min _ _ _ (proj1 SI) x) as [-> _]. destruct (veq_vb _ _ x V) as (A & _ & B & _). unfold minb. now rewrite A, B.
    + destruct (core_min _ _ _ (proj1 SI) x) as [_ ->]. destruct (veq_vb _ _ x V) as (_ & A & _ & B). unfold maxb. now rewrite A, B.
Qed.
Lemma course_kinv K g s : course srt O cfg chk sol guard s0 K g s -> exists G, kinv K g G s.
Proof.
  induction 1 as [|n K s _ (G & I)|ls ok K s s' _ (G & I) IO FB TR E|fuel m bound K s s' _ (G & I) IO TR GU E|K s s' _ (G & I) E].
  - exists []. apply kinv_start.
  - exists G. now apply kinv_call.
  - apply (kinv_propagate K G s ls ok s' I IO FB); auto.
  - exists G. now apply (kinv_check K G s fuel m bound).
  - now apply (kinv_undo K G s).
Qed.
Lemma course_keeps K g s : course srt O cfg chk sol guard s0 K g s -> step (D (mbound s)) T2 s0 s.
Proof. intros C. destruct (course_kinv K g s C) as (G & I). apply I. Qed.
End Keep.
