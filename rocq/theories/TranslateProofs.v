(** The translation of linear constraints into weight constraints and clauses. *)
From Verif Require Import Base Util IntervalSet VarState VarStateProofs Terms TermsSpec Solver OrderSpec
  OrderProofs1 OrderProofs2 OrderProofs3 OrderProofs6 OrderProofs7 OrderProofs8 Sum PropProofs ConSpec SumProofs SumProofs2 Translate.
Open Scope Z_scope.
Notation lit := Z (only parsing).

Lemma wsum_cons I l w r : wsum I ((l, w) :: r) = (if 0 <? l then if I l then w else 0 else if I (- l) then 0 else w) + wsum I r.
Proof. reflexivity. Qed.
Lemma wsum_true I l w r : lit_true I l -> wsum I ((l, w) :: r) = w + wsum I r.
Proof. rewrite wsum_cons. unfold lit_true. destruct (0 <? l); intros ->; reflexivity. Qed.
Lemma wsum_false I l w r : ~ lit_true I l -> wsum I ((l, w) :: r) = wsum I r.
Proof. rewrite wsum_cons. unfold lit_true. destruct (0 <? l); destruct (I _); intros; try tauto; try lia; now destruct H. Qed.
Lemma wsum_app I a b : wsum I (a ++ b) = wsum I a + wsum I b.
Proof. induction a as [|[l w] r IH]; [easy|]. cbn [app]. rewrite !wsum_cons, IH. lia. Qed.
Lemma clause_push I l c : I 1 = true -> (clause_true I (push_lit l c) <-> clause_true I c \/ lit_true I l).
Proof.
  intros I1. unfold push_lit. destruct (l =? - TRUE_LIT) eqn:E.
  - apply Z.eqb_eq in E. subst. assert (~ lit_true I (- TRUE_LIT)) by (unfold TRUE_LIT; rewrite lit_true_m1; congruence). tauto.
  - unfold clause_true. split.
    + intros (k & H & T). apply in_app_or in H as [H|[<-|[]]]; [left; now exists k|now right].
    + intros [(k & H & T)|T]; [exists k|exists l]; (split; [apply in_or_app|easy]); [now left|right; now left].
Qed.
Lemma below_push n l c : below n l -> Forall (below n) c -> Forall (below n) (push_lit l c).
Proof. unfold push_lit. intros B F. destruct (_ =? _); [easy|]. apply Forall_app. split; [easy|]. now constructor. Qed.

Definition capped (vs : list Z) (x : Z) : Z := Z.of_nat (length (filter (fun i => i <? x) vs)).
Lemma capped_zseq x n : forall a, a <= x -> capped (zseq a n) x = Z.min x (a + Z.of_nat n) - a.
Proof.
  induction n as [|n IH]; intros a H; unfold capped; cbn [zseq filter length]; [lia|].
  destruct (a <? x) eqn:E.
  - specialize (IH (a + 1)). unfold capped in IH. cbn [length]. rewrite Nat2Z.inj_succ. lia.
  - assert (x = a) by lia. subst. replace (filter _ (zseq (a + 1) n)) with (@nil Z); [cbn; lia|].
    assert (forall b, a <= b -> filter (fun i => i <? a) (zseq b n) = []) as ->; auto; [|lia]. clear. induction n as [|n IH]; [easy|]. intros b Hb. cbn.
    replace (b <? a) with false by lia. apply IH. lia.
Qed.

Section Translate.
Context (O : oracle) (cfg : config) (Base : interp -> Prop) (n0 : Z).
Context (BO : base_ok Base n0) (CO : clasp_ok O Base).
Notation good := (good Base).
Notation step := (step Base).
Notation holds := (holds Base).
Notation pstep := (pstep O Base).

(** Translation takes place on the top level. *)
Record top_ready (s : state) : Prop := {
  tr_wf : wf s; tr_nxt : n0 <= nxt s; tr_level : cur_level s = 0%nat; tr_dlevel : dlevel O s = 0%nat;
  tr_bnds : forall x, (x < nvars s)%nat -> lb (vst s x) <= ub (vst s x) }.
Lemma top_pstep P s s' : pstep P s s' true -> top_ready s -> top_ready s'.
Proof.
  intros R [A1 A2 A3 A5 A4]. constructor.
  - apply R.
  - pose proof (st_nxt _ _ _ _ _ (ps_step _ _ _ _ _ _ R)). lia.
  - now rewrite (same3_cur _ _ (ps_same _ _ _ _ _ _ R)).
  - unfold dlevel in *. now rewrite (later_level O Base CO _ _ (ps_later _ _ _ _ _ _ R eq_refl)).
  - intros x Hx. rewrite (same3_nvars _ _ (ps_same _ _ _ _ _ _ R)) in Hx.
    destruct (same3_bnds _ _ x (ps_same _ _ _ _ _ _ R)) as (-> & -> & _). now apply A4.
Qed.
Lemma top_range s x I nu : top_ready s -> (x < nvars s)%nat -> order_ok s I nu -> lb (vst s x) <= nu x <= ub (vst s x).
Proof.
  intros [A1 A2 A3 A5 A4] Hx Od. destruct (Od x Hx) as (H & _). destruct (wf_top s (proj1 A1) A3 x Hx) as (L & U).
  unfold minb, maxb in H. now rewrite L, U in H.
Qed.

(** ** Weight constraints *)
Lemma weight_vals_ok P co x vs : forall s wl s', dep (nxt s) (nvars s) P -> top_ready s -> (x < nvars s)%nat ->
  weight_vals cfg co x vs s = (wl, s') ->
  pstep P s s' true /\ Forall (fun p => below (nxt s') (fst p)) wl /\
  holds s' (fun I nu => wsum I wl = if 0 <? co then co * capped vs (nu x) else - co * (Z.of_nat (length vs) - capped vs (nu x))).
Proof.
  induction vs as [|i r IH]; intros s wl s' D R Hx E; cbn [weight_vals] in E.
  { injection E as <- <-. csplit; [now apply pstep_refl, R|constructor|]. intros I nu _ _. unfold capped. cbn. destruct (0 <? co); lia. }
  destruct (get_literal cfg x i s) as [g s1] eqn:G. destruct (pstep_get O cfg Base n0 BO P x i s g s1 (tr_wf _ R) Hx (tr_nxt _ R) G) as (R1 & M & _).
  destruct (weight_vals cfg co x r s1) as [w2 s2] eqn:E2. injection E as <- <-.
  assert (Hx1 : (x < nvars s1)%nat) by now apply nvars_pstep with (1 := R1).
  destruct (IH s1 w2 s2) as (R2 & B2 & H2); auto; [now apply (dep_pstep O Base P) with (1 := R1)|now apply (top_pstep P) with (1 := R1)|].
  assert (Bg : below (nxt s1) g). { apply lit_means_below with x i; auto. apply (ps_wf _ _ _ _ _ _ R1). }
  csplit.
  - now apply pstep_trans with s1.
  - constructor; [|easy]. apply (below_pstep O Base) with (1 := R2). destruct (0 <? co); [now apply below_neg|easy].
  - intros I nu Gd Od. specialize (H2 I nu Gd Od). cbv beta in H2.
    assert (MH := holds_pstep O Base _ _ _ _ _ R2 (means_holds Base s1 g x i Hx1 M) I nu Gd Od). cbv beta in MH.
    assert (Ng : g <> 0) by apply Bg. pose proof (lit_true_neg I g Ng) as NG.
    unfold capped in *. cbn [filter length]. rewrite Nat2Z.inj_succ.
    destruct (0 <? co), (i <? nu x) eqn:C; cbn [length]; rewrite ?Nat2Z.inj_succ.
    + rewrite wsum_true; [lia|]. apply NG. rewrite MH. lia.
    + rewrite wsum_false; [lia|]. rewrite NG, MH. lia.
    + rewrite wsum_false; [lia|]. rewrite MH. lia.
    + rewrite wsum_true; [lia|]. rewrite MH. lia.
Qed.

Lemma weight_lits_ok P slack es : forall s wl s', dep (nxt s) (nvars s) P -> top_ready s -> elems_ok s es ->
  weight_lits cfg slack es s = (wl, s') ->
  pstep P s s' true /\ Forall (fun p => below (nxt s') (fst p)) wl /\
  holds s' (fun I nu => 0 <= wsum I wl <= lval nu es - sum_lo s es /\ (wsum I wl = lval nu es - sum_lo s es \/ slack < wsum I wl)).
Proof.
  induction es as [|[co x] r IH]; intros s wl s' D R F E; cbn [weight_lits] in E.
  { injection E as <- <-. csplit; [now apply pstep_refl, R|constructor|]. intros I nu _ _. unfold sum_lo. cbn. lia. }
  inversion F as [|? ? [Nz Hx] F']; subst. cbn [fst snd] in Nz, Hx.
  match type of E with (let '(_, _) := weight_vals _ _ _ ?vs _ in _) = _ => set (vals := vs) in E end.
  destruct (weight_vals cfg co x vals s) as [w1 s1] eqn:E1. destruct (weight_lits cfg slack r s1) as [w2 s2] eqn:E2. injection E as <- <-.
  destruct (weight_vals_ok P co x vals s w1 s1 D R Hx E1) as (R1 & B1 & H1).
  destruct (IH s1 w2 s2) as (R2 & B2 & H2); auto; [now apply (dep_pstep O Base P) with (1 := R1)|now apply (top_pstep P) with (1 := R1)|
    now apply (elems_pstep O Base P) with (1 := R1)|].
  csplit.
  - now apply pstep_trans with s1.
  - apply Forall_app. split; [|easy]. eapply Forall_impl; [|exact B1]. intros p. apply (below_pstep O Base) with (1 := R2).
  - intros I nu Gd Od. specialize (H2 I nu Gd Od). cbv beta in H2.
    assert (W1 := holds_pstep O Base _ _ _ _ _ R2 H1 I nu Gd Od). cbv beta in W1. rewrite wsum_app.
    replace (sum_lo s1 r) with (sum_lo s r) in H2 by (symmetry; apply (bsum_same3 s s1 r); apply R1).
    unfold sum_lo in *. cbn [map zsum fold_right lval]. fold (zsum (map (lo_of s) r)). set (lo := zsum (map (lo_of s) r)) in *. set (lr := lval nu r) in *.
    assert (RG : lb (vst s x) <= nu x <= ub (vst s x)).
    { apply (top_range s x I nu R Hx). destruct (st_bwd _ _ _ _ _ (ps_step _ _ _ _ _ _ R2) I nu Gd Od) as (G1 & O1 & _).
      now destruct (st_bwd _ _ _ _ _ (ps_step _ _ _ _ _ _ R1) I nu G1 O1) as (G2 & O2 & _). }
    assert (T : 0 <= wsum I w1 <= co * nu x - lo_of s (co, x) /\ (wsum I w1 = co * nu x - lo_of s (co, x) \/ slack < wsum I w1)); [|lia].
    rewrite W1. unfold lo_of, vals. cbn [fst snd]. destruct (Z_lt_ge_dec slack 0) as [SL|SL].
    { destruct (0 <? co) eqn:C.
      - assert ((slack + co * lb (vst s x)) / co < lb (vst s x)) by (apply Z.div_lt_upper_bound; lia).
        rewrite capped_zseq by lia. replace (Z.to_nat _) with 0%nat by lia. cbn [Z.of_nat]. nia.
      - assert ((slack + co * ub (vst s x)) / - co < - ub (vst s x)) by (apply Z.div_lt_upper_bound; lia).
        match goal with |- context [zseq ?a ?n] => replace n with 0%nat by lia end. cbn. nia. }
    destruct (0 <? co) eqn:C.
    + rewrite capped_zseq by lia. rewrite (Z.mul_comm co (lb _)), Z.div_add by lia.
      assert (0 <= slack / co) by (apply Z.div_pos; lia).
      pose proof (Z.mul_succ_div_gt slack co). set (q := slack / co) in *.
      rewrite Z2Nat.id by lia. destruct (Z.min_spec (nu x) (lb (vst s x) + (Z.min (q + lb (vst s x) + 1) (ub (vst s x)) - lb (vst s x)))) as [[A ->]|[A ->]]; nia.
    + assert (Hq : - ((slack + co * ub (vst s x)) / - co) = ub (vst s x) - slack / (- co)).
      { replace (slack + co * ub (vst s x)) with (slack + (- ub (vst s x)) * (- co)) by lia. rewrite Z.div_add by lia. lia. }
      assert (0 <= slack / (- co)) by (apply Z.div_pos; lia). pose proof (Z.mul_succ_div_gt slack (- co)).
      rewrite Hq. clear Hq. set (q := slack / (- co)) in *. clearbody q.
      set (bb := Z.max (ub (vst s x) - q - 1) (lb (vst s x))). assert (Hb : lb (vst s x) <= bb) by (unfold bb; lia). assert (Hbb : bb <= ub (vst s x)) by (unfold bb; lia).
      assert (LN : Z.of_nat (length (zseq bb (Z.to_nat (ub (vst s x) - bb)))) = ub (vst s x) - bb).
      { replace (length _) with (Z.to_nat (ub (vst s x) - bb)); [lia|]. generalize (Z.to_nat (ub (vst s x) - bb)). intros n. generalize bb. induction n as [|n I0]; intros a; cbn; [easy|]. now rewrite <- I0. }
      rewrite LN. destruct (Z_le_gt_dec bb (nu x)) as [L|L].
      * rewrite capped_zseq by lia. rewrite Z2Nat.id by lia. replace (Z.min _ _) with (nu x) by lia. clearbody bb. nia.
      * replace (capped _ _) with 0.
        -- assert (bb = ub (vst s x) - q - 1) by (unfold bb in *; lia). nia.
        -- unfold capped. replace (filter _ _) with (@nil Z); [easy|]. symmetry. generalize (Z.to_nat (ub (vst s x) - bb)). intros n. clear - L. revert L. generalize bb.
           induction n as [|n I0]; intros a L; cbn; [easy|]. replace (a <? nu x) with false by lia. apply I0. lia.
Qed.

Lemma weight_translate_ok l es rhs s ok rm s' : let P := fun (I : interp) nu => lit_true I l -> lval nu es <= rhs in
  top_ready s -> elems_ok s es -> below (nxt s) l ->
  weight_translate O cfg l es (rhs - sum_lo s es) s = ((ok, rm), s') ->
  ok = true /\ pstep P s s' true /\ (rm = true -> holds s' P).
Proof.
  intros P R F Bl E. unfold weight_translate in E. destruct (weight_lits cfg _ es s) as [wl s1] eqn:E1.
  assert (D : dep (nxt s) (nvars s) P). { apply lval_dep; [easy|]. eapply Forall_impl; [|exact F]. now intros e []. }
  destruct (weight_lits_ok P (rhs - sum_lo s es) es s wl s1 D R F E1) as (R1 & B1 & H1).
  destruct ((_ <? _) && _); [|injection E as <- <- <-; csplit; easy].
  unfold add_weight in E. assert (Bl1 := below_pstep O Base _ _ _ _ _ R1 Bl).
  destruct (is_false O s1 l) eqn:Fl.
  - injection E as <- <- <-. csplit; auto. intros _ I nu (G1 & G2 & G3) Od T. exfalso.
    assert (lit_true I (- l)) as X; [|apply lit_true_neg in X; [easy|apply Bl]].
    apply (cl_top _ _ CO (log s1)); auto. left. apply (tr_dlevel _ (top_pstep _ _ _ R1 R)).
  - injection E as <- <- <-. csplit; auto.
    + apply pstep_trans with s1; auto. constructor.
      * apply wf_emit; [apply (ps_wf _ _ _ _ _ _ R1)|]. now split.
      * apply step_weaken with (P := P) (Q := fun I _ => ev_true I (EWeight l wl (rhs - sum_lo s es))); try easy. apply emit_step.
        intros I nu Gd Od HP. cbn. intros T. specialize (HP T). specialize (H1 I nu Gd Od). cbv beta in H1. lia.
      * apply same_same3, same_emit.
      * now apply grow_vst.
      * intros _. apply later_step; [constructor|exact Logic.I].
    + intros _ I nu (G1 & G2 & G3) Od T. inversion G3 as [|? ? X1 X2]; subst. cbn in X1. specialize (X1 T).
      specialize (H1 I nu (conj G1 (conj G2 X2)) Od). cbv beta in H1. lia.
Qed.

(** ** Clauses *)
Lemma sum_lo_same3 s s' es : same3 s s' -> sum_lo s' es = sum_lo s es.
Proof. apply bsum_same3. Qed.
Lemma hi_same3 s s' es : same3 s s' -> sum_hi s' es = sum_hi s es.
Proof.
  intros H. unfold sum_hi. f_equal. apply map_ext. intros [c y]. unfold hi_of. cbn. now destruct (same3_bnds _ _ y H) as (-> & -> & _).
Qed.
Lemma top_lval s es I nu : top_ready s -> elems_ok s es -> order_ok s I nu -> sum_lo s es <= lval nu es <= sum_hi s es.
Proof.
  intros R F Od. unfold sum_lo, sum_hi. induction F as [|[co x] r [Nz Hx] F IH]; cbn [map zsum fold_right lval]; [lia|].
  fold (zsum (map (lo_of s) r)) (zsum (map (hi_of s) r)). cbn in Nz, Hx. pose proof (top_range s x I nu R Hx Od).
  assert (lo_of s (co, x) <= co * nu x <= hi_of s (co, x)); [|lia]. unfold lo_of, hi_of. cbn [fst snd]. destruct (0 <? co) eqn:C; nia.
Qed.

Definition post (literals_only : bool) (F : interp -> (var -> Z) -> Prop) (s s' : state) (r : outcome bool) : Prop :=
  exists b, r = Ok b /\ pstep F s s' b /\ (b = true -> literals_only = false -> holds s' F).

Lemma vloop_ok lo (F : interp -> (var -> Z) -> Prop) (G : Z -> interp -> (var -> Z) -> Prop) f co x d s0 n : forall w lower upper s r s',
  dep (nxt s) (nvars s) F -> top_ready s -> (x < nvars s)%nat -> same3 s0 s ->
  (forall i g s1 r1 s2, (i < n)%nat -> top_ready s1 -> same3 s0 s1 -> nxt s <= nxt s1 -> lit_means s1 g x (w + d * Z.of_nat i) ->
     f (if 0 <? co then g else - g) (lower + Z.abs co * Z.of_nat i) (upper + Z.abs co * Z.of_nat i) s1 = (r1, s2) -> post lo (G (w + d * Z.of_nat i)) s1 s2 r1) ->
  (forall i s1, (i < n)%nat -> top_ready s1 -> same3 s0 s1 -> holds s1 (fun I nu => F I nu -> G (w + d * Z.of_nat i) I nu)) ->
  vloop cfg f co x d n w lower upper s = (r, s') ->
  exists b, r = Ok b /\ pstep F s s' b /\ (b = true -> lo = false -> holds s' (fun I nu => forall i, (i < n)%nat -> G (w + d * Z.of_nat i) I nu)).
Proof.
  induction n as [|n IH]; intros w lower upper s r s' D R Hx S0 HF HG E; cbn [vloop] in E.
  { injection E as <- <-. exists true. csplit; auto; [now apply pstep_refl, R|]. intros _ _ I nu _ _ i Hi. lia. }
  destruct (get_literal cfg x w s) as [g s1] eqn:GL. destruct (pstep_get O cfg Base n0 BO F x w s g s1 (tr_wf _ R) Hx (tr_nxt _ R) GL) as (R1 & M & _).
  assert (T1 := top_pstep _ _ _ R1 R). assert (S1 : same3 s0 s1) by (apply same3_trans with s; [easy|apply R1]).
  destruct (f _ lower upper s1) as [r1 s2] eqn:E1.
  destruct (HF 0%nat g s1 r1 s2) as (b & -> & R2 & H2); auto; [lia|apply (st_nxt _ _ _ _ _ (ps_step _ _ _ _ _ _ R1))|
    now rewrite Z.mul_0_r, Z.add_0_r|now rewrite !Z.mul_0_r, !Z.add_0_r|].
  apply (pstep_weaken O Base (G (w + d * Z.of_nat 0)) F) in R2; [|apply HG; [lia|easy|easy]].
  destruct b; [|injection E as <- <-; exists false; csplit; auto; [now apply pstep_trans with s1|discriminate]].
  assert (R12 : pstep F s s2 true) by now apply pstep_trans with s1.
  destruct (IH (w + d) (lower + Z.abs co) (upper + Z.abs co) s2 r s') as (b & -> & R3 & H3); auto.
  - now apply (dep_pstep O Base F) with (1 := R12).
  - now apply (top_pstep F) with (1 := R12).
  - now apply (nvars_pstep O Base F) with (1 := R12).
  - apply same3_trans with s1; [easy|apply R2].
  - intros i g' s3 r3 s4 Hi A1 A2 A3 A4 A5.
    replace (w + d + d * Z.of_nat i) with (w + d * Z.of_nat (S i)) in * by lia. apply (HF (S i) g' s3 r3 s4); auto; [lia|pose proof (st_nxt _ _ _ _ _ (ps_step _ _ _ _ _ _ R12)); lia|].
    rewrite <- A5. f_equal; lia.
  - intros i s3 Hi A1 A2. replace (w + d + d * Z.of_nat i) with (w + d * Z.of_nat (S i)) by lia. apply HG; auto. lia.
  - exists b. csplit; auto.
    + now apply pstep_trans with s2.
    + intros -> L I nu Gd Od i Hi. destruct i as [|i].
      * exact (holds_pstep O Base _ _ _ _ _ R3 (H2 eq_refl L) I nu Gd Od).
      * specialize (H3 eq_refl L I nu Gd Od i ltac:(lia)). replace (w + d * Z.of_nat (S i)) with (w + d + d * Z.of_nat i) by lia. exact H3.
Qed.

Definition csat (cl : list lit) (es : list (Z * var)) (bound : Z) (I : interp) (nu : var -> Z) : Prop := clause_true I cl \/ lval nu es <= bound.
Lemma csat_dep n m cl es b : Forall (below n) cl -> Forall (fun e => (snd e < m)%nat) es -> dep n m (csat cl es b).
Proof.
  intros B F I J nu nu' A E [H|H]; [left; now apply clause_true_agree with n I|right].
  replace (lval nu' es) with (lval nu es); [easy|]. clear H. induction F as [|[c y] r H F IH]; cbn; [easy|]. cbn in H. now rewrite (E y H), IH.
Qed.

Lemma clause_elems_ok lo es : forall cl lower upper s r s', top_ready s -> elems_ok s es -> Forall (below (nxt s)) cl ->
  upper = lower - (sum_hi s es - sum_lo s es) -> upper < 0 ->
  clause_elems O cfg lo es cl lower upper s = (r, s') -> post lo (csat cl es (lower + sum_lo s es)) s s' r.
Proof.
  induction es as [|[co x] es IH]; intros cl lower upper s r s' R F B EU NU E.
  - cbn [clause_elems] in E. unfold sum_hi, sum_lo in EU. cbn in EU. replace (lower <? 0) with true in E by lia.
    destruct lo; [injection E as <- <-; exists true; csplit; auto; [now apply pstep_refl, R|discriminate]|].
    destruct (add_clause O Learnt cl s) as [b s1] eqn:E1. injection E as <- <-.
    destruct (pstep_clause O Base (csat cl [] (lower + sum_lo s [])) Learnt cl s b s1 (tr_wf _ R) B) as (R1 & _); auto.
    { intros I nu Gd Od [H|H]; [easy|]. cbn in H. lia. }
    exists b. csplit; auto. intros -> _ I nu (G1 & G2 & G3) Od. left. injection E1 as _ <-. inversion G3. easy.
  - inversion F as [|? ? [Nz Hx] F']; subst. cbn [fst snd] in Nz, Hx.
    assert (D : dep (nxt s) (nvars s) (csat cl ((co, x) :: es) (lower + sum_lo s ((co, x) :: es)))).
    { apply csat_dep; [easy|]. eapply Forall_impl; [|exact F]. now intros e []. }
    cbn [clause_elems] in E. destruct (lower <? 0) eqn:CL.
    + destruct lo; [injection E as <- <-; exists true; csplit; auto; [now apply pstep_refl, R|discriminate]|].
      destruct (add_clause O Learnt cl s) as [b s1] eqn:E1. injection E as <- <-.
      destruct (pstep_clause O Base (csat cl ((co, x) :: es) (lower + sum_lo s ((co, x) :: es))) Learnt cl s b s1 (tr_wf _ R) B) as (R1 & _); auto.
      { intros I nu Gd Od [H|H]; [easy|]. pose proof (top_lval s ((co, x) :: es) I nu R F Od). lia. }
      exists b. csplit; auto. intros -> _ I nu (G1 & G2 & G3) Od. left. injection E1 as _ <-. inversion G3. easy.
    + assert (RX : forall s1, top_ready s1 -> same3 s s1 -> holds s1 (fun I nu => lb (vst s x) <= nu x <= ub (vst s x) /\ sum_lo s es <= lval nu es <= sum_hi s es)).
      { intros s1 T1 S1 I nu Gd Od. rewrite <- (sum_lo_same3 s s1 es S1), <- (hi_same3 s s1 es S1). destruct (same3_bnds _ _ x S1) as (<- & <- & _). split.
        - apply (top_range s1 x I nu T1); auto. now rewrite (same3_nvars _ _ S1).
        - apply (top_lval s1 es I nu T1); auto. unfold elems_ok in *. now rewrite (same3_nvars _ _ S1). }
      assert (LH : sum_lo s es <= sum_hi s es).
      { clear - R F'. unfold sum_lo, sum_hi. induction F' as [|[c y] t [Nz Hx] F IH]; cbn [map zsum fold_right]; [lia|].
        fold (zsum (map (lo_of s) t)) (zsum (map (hi_of s) t)). cbn in Nz, Hx. pose proof (tr_bnds _ R y Hx).
        assert (lo_of s (c, y) <= hi_of s (c, y)); [|lia]. unfold lo_of, hi_of. cbn [fst snd]. destruct (0 <? c) eqn:C; nia. }
      assert (LU := tr_bnds _ R x Hx).
      assert (EL : sum_lo s ((co, x) :: es) = lo_of s (co, x) + sum_lo s es) by reflexivity.
      assert (EH : sum_hi s ((co, x) :: es) = hi_of s (co, x) + sum_hi s es) by reflexivity.
      unfold lo_of in EL. unfold hi_of in EH. cbn [fst snd] in EL, EH. rewrite EL, EH in *.
      set (xl := lb (vst s x)) in *. set (xu := ub (vst s x)) in *. set (sl := sum_lo s es) in *. set (sh := sum_hi s es) in *.
      destruct (0 <? co) eqn:C.
      * set (up := lower - (co * xu + sh - (co * xl + sl))) in *.
        assert (Q1 : (up + co * xu) / co = xu + up / co) by (rewrite (Z.mul_comm co xu), Z.div_add by lia; lia).
        assert (Q2 : (lower + co * xl) / co = xl + lower / co) by (rewrite (Z.mul_comm co xl), Z.div_add by lia; lia).
        rewrite Q1, Q2 in E.
        pose proof (Z.mul_div_le up co ltac:(lia)) as U1. pose proof (Z.mul_succ_div_gt up co ltac:(lia)) as U2.
        pose proof (Z.mul_div_le lower co ltac:(lia)) as U3. pose proof (Z.mul_succ_div_gt lower co ltac:(lia)) as U4.
        set (qu := up / co) in *. set (ql := lower / co) in *. clearbody qu ql.
        set (vl := Z.max (xl - 1) (xu + qu)) in *. set (vu := Z.min (xu - 1) (xl + ql)) in *.
        assert (VV : vl <= vu) by (unfold vl, vu, up in *; nia).
        eapply (vloop_ok lo _ (fun v I nu => clause_true I cl \/ nu x <= v \/ lval nu es <= lower - co * (v - xl + 1) + sl)) in E as (b & -> & R1 & H1).
        4: exact Hx. 2: exact D. 2: exact R. 2: apply same3_refl.
        -- exists b. csplit; auto. intros Eb L I nu Gd Od. specialize (H1 Eb L I nu Gd Od). cbv beta in H1.
           subst b. assert (T1 := top_pstep _ _ _ R1 R). destruct (RX s' T1 (ps_same _ _ _ _ _ _ R1) I nu Gd Od) as (X1 & X2).
           unfold csat. cbn [lval]. destruct (clause_dec I cl) as [CT|CT]; [now left|right].
           assert (NC : ~ clause_true I cl) by (intros (q & Q & TQ); now apply (CT q)).
           destruct (Z_lt_ge_dec (nu x - 1) vl) as [A|A].
           { unfold vl in A. assert (nu x <= xu + qu) by lia. unfold up in *. nia. }
           destruct (Z_lt_ge_dec vu (nu x - 1)) as [A'|A'].
           { destruct (H1 0%nat) as [H|[H|H]]; [lia|easy|lia|]. exfalso. replace (vu + -1 * Z.of_nat 0) with vu in H by lia.
             assert (vu = xl + ql) by (unfold vu in *; lia). nia. }
           destruct (H1 (Z.to_nat (vu - (nu x - 1)))) as [H|[H|H]]; [lia|easy|lia|].
           replace (vu + -1 * Z.of_nat (Z.to_nat (vu - (nu x - 1)))) with (nu x - 1) in H by lia. lia.
        -- intros i g s1 r1 s2 Hi T1 S1 NX M EF.
           set (v := vu + -1 * Z.of_nat i) in *. assert (Hv : vl <= v <= vu) by (unfold v; lia).
           rewrite C in EF.
           assert (Hx1 : (x < nvars s1)%nat) by now rewrite (same3_nvars _ _ S1).
           assert (Bg : below (nxt s1) g). { apply lit_means_below with x v; auto. apply (tr_wf _ T1). }
           apply IH in EF as (b & -> & R2 & H2).
           ++ rewrite (sum_lo_same3 s s1 es S1) in R2, H2. fold sl in R2, H2.
              assert (EQ : forall s3, holds s3 (fun I nu => lit_true I g <-> nu x <= v) -> holds s3 (fun I nu => csat (push_lit g cl) es (lower - co * (vu - xl + 1) + Z.abs co * Z.of_nat i + sl) I nu <->
                 (clause_true I cl \/ nu x <= v \/ lval nu es <= lower - co * (v - xl + 1) + sl))).
              { intros s3 HM I nu Gd Od. unfold csat. rewrite clause_push by apply Gd. rewrite (HM I nu Gd Od).
                replace (lower - co * (vu - xl + 1) + Z.abs co * Z.of_nat i + sl) with (lower - co * (v - xl + 1) + sl) by (unfold v; lia). tauto. }
              assert (M1 := means_holds Base s1 g x v Hx1 M).
              exists b. csplit; auto.
              ** apply (pstep_weaken O Base) with (2 := R2). intros I nu Gd Od. apply (EQ s1 M1 I nu Gd Od).
              ** intros -> L I nu Gd Od. refine (proj1 (EQ s2 _ I nu Gd Od) (H2 eq_refl L I nu Gd Od)). apply (holds_pstep O Base) with (1 := R2). exact M1.
           ++ exact T1.
           ++ unfold elems_ok in *. now rewrite (same3_nvars _ _ S1).
           ++ apply below_push; [exact Bg|]. eapply Forall_impl; [|exact B]. intros q. apply below_mono. exact NX.
           ++ rewrite (sum_lo_same3 s s1 es S1), (hi_same3 s s1 es S1). fold sl sh. unfold up. lia.
           ++ rewrite Z.abs_eq by lia. assert (xu + qu <= v) by (unfold vl in Hv; lia). unfold v in *. nia.
        -- intros i s1 Hi T1 S1 I nu Gd Od. destruct (RX s1 T1 S1 I nu Gd Od) as (X1 & X2). unfold csat. cbn [lval].
           set (v := vu + -1 * Z.of_nat i). intros [H|H]; [now left|right]. destruct (Z_le_gt_dec (nu x) v) as [A|A]; [now left|right]. nia.
      * set (up := lower - (co * xl + sh - (co * xu + sl))) in *. set (c := - co) in *.
        assert (Q1 : (lower + co * xu) / c = lower / c - xu). { replace (lower + co * xu) with (lower + (- xu) * c) by (unfold c; lia). rewrite Z.div_add by lia. lia. }
        assert (Q2 : (up + co * xl) / c = up / c - xl). { replace (up + co * xl) with (up + (- xl) * c) by (unfold c; lia). rewrite Z.div_add by lia. lia. }
        rewrite Q1, Q2 in E. assert (Cp : 0 < c) by (unfold c; lia). assert (EC : co = - c) by (unfold c; lia). clearbody c. subst co.
        pose proof (Z.mul_div_le up c Cp) as U1. pose proof (Z.mul_succ_div_gt up c Cp) as U2.
        pose proof (Z.mul_div_le lower c Cp) as U3. pose proof (Z.mul_succ_div_gt lower c Cp) as U4.
        set (qu := up / c) in *. set (ql := lower / c) in *. clearbody qu ql.
        set (vl := Z.max xl (- (ql - xu) - 1)) in *. set (vu := Z.min xu (- (qu - xl) - 1)) in *.
        assert (VV : vl <= vu) by (unfold vl, vu, up in *; nia).
        eapply (vloop_ok lo _ (fun v I nu => clause_true I cl \/ v < nu x \/ lval nu es <= lower - c * (xu - v) + sl)) in E as (b & -> & R1 & H1).
        4: exact Hx. 2: exact D. 2: exact R. 2: apply same3_refl.
        -- exists b. csplit; auto. intros Eb L I nu Gd Od. specialize (H1 Eb L I nu Gd Od). cbv beta in H1.
           subst b. assert (T1 := top_pstep _ _ _ R1 R). destruct (RX s' T1 (ps_same _ _ _ _ _ _ R1) I nu Gd Od) as (X1 & X2).
           unfold csat. cbn [lval]. destruct (clause_dec I cl) as [CT|CT]; [now left|right].
           assert (NC : ~ clause_true I cl) by (intros (q & Q & TQ); now apply (CT q)).
           destruct (Z_lt_ge_dec vu (nu x)) as [A|A].
           { unfold vu in A. assert (xl - qu <= nu x) by lia. unfold up in *. nia. }
           destruct (Z_lt_ge_dec (nu x) vl) as [A'|A'].
           { destruct (H1 0%nat) as [H|[H|H]]; [lia|easy|lia|]. exfalso. replace (vl + 1 * Z.of_nat 0) with vl in H by lia.
             assert (vl = xu - ql - 1) by (unfold vl in *; lia). nia. }
           destruct (H1 (Z.to_nat (nu x - vl))) as [H|[H|H]]; [lia|easy|lia|].
           replace (vl + 1 * Z.of_nat (Z.to_nat (nu x - vl))) with (nu x) in H by lia. lia.
        -- intros i g s1 r1 s2 Hi T1 S1 NX M EF.
           set (v := vl + 1 * Z.of_nat i) in *. assert (Hv : vl <= v <= vu) by (unfold v; lia).
           rewrite C in EF.
           assert (Hx1 : (x < nvars s1)%nat) by now rewrite (same3_nvars _ _ S1).
           assert (Bg : below (nxt s1) g). { apply lit_means_below with x v; auto. apply (tr_wf _ T1). }
           apply IH in EF as (b & -> & R2 & H2).
           ++ rewrite (sum_lo_same3 s s1 es S1) in R2, H2. fold sl in R2, H2.
              match type of R2 with PropProofs.pstep _ _ (csat _ _ ?bd) _ _ _ => set (bound := bd) in * end.
              assert (EQ : forall s3, holds s3 (fun I nu => lit_true I g <-> nu x <= v) -> holds s3 (fun I nu => csat (push_lit (- g) cl) es bound I nu <->
                 (clause_true I cl \/ v < nu x \/ lval nu es <= lower - c * (xu - v) + sl))).
              { intros s3 HM I nu Gd Od. unfold csat. rewrite clause_push by apply Gd. rewrite lit_true_neg by apply Bg. rewrite (HM I nu Gd Od).
                replace bound with (lower - c * (xu - v) + sl) by (unfold bound, v; lia).
                assert (X : ~ nu x <= v <-> v < nu x) by lia. tauto. }
              assert (M1 := means_holds Base s1 g x v Hx1 M).
              exists b. csplit; auto.
              ** apply (pstep_weaken O Base) with (2 := R2). intros I nu Gd Od. apply (EQ s1 M1 I nu Gd Od).
              ** intros -> L I nu Gd Od. refine (proj1 (EQ s2 _ I nu Gd Od) (H2 eq_refl L I nu Gd Od)). apply (holds_pstep O Base) with (1 := R2). exact M1.
           ++ exact T1.
           ++ unfold elems_ok in *. now rewrite (same3_nvars _ _ S1).
           ++ apply below_push; [now apply below_neg|]. eapply Forall_impl; [|exact B]. intros q. apply below_mono. exact NX.
           ++ rewrite (sum_lo_same3 s s1 es S1), (hi_same3 s s1 es S1). fold sl sh. unfold up. lia.
           ++ rewrite Z.abs_neq by lia. assert (v <= - (qu - xl) - 1) by (unfold vu in Hv; lia). unfold v in *. nia.
        -- intros i s1 Hi T1 S1 I nu Gd Od. destruct (RX s1 T1 S1 I nu Gd Od) as (X1 & X2). unfold csat. cbn [lval].
           set (v := vl + 1 * Z.of_nat i). intros [H|H]; [now left|right]. destruct (Z_lt_ge_dec v (nu x)) as [A|A]; [now left|right]. nia.
Qed.

Lemma translate_sum_gen weight clauses lo l rhs es k s r s' : top_ready s -> c_def k = CSum l rhs es -> elems_ok s es -> below (nxt s) l ->
  is_false O s l = true \/ (c_hi k <= rhs /\ sum_hi s es <= c_hi k) \/ (c_lo k = sum_lo s es /\ c_hi k = sum_hi s es) ->
  translate_sum O cfg weight clauses lo k s = (r, s') ->
  exists ok rm, r = Ok (ok, rm) /\ pstep (csem (mbound s) (c_def k)) s s' ok /\
    (ok = true -> rm = true -> holds s' (csem (mbound s) (c_def k))).
Proof.
  intros R KD K3 K5 V E. unfold translate_sum in E. rewrite KD in *. cbn in K5.
  set (P := fun (I : interp) nu => lit_true I l -> lval nu es <= rhs). change (csem (mbound s) (CSum l rhs es)) with P.
  assert (D : dep (nxt s) (nvars s) P). { apply lval_dep; [easy|]. eapply Forall_impl; [|exact K3]. now intros e []. }
  assert (NoP : forall b, pstep P s s b) by (intros b; apply pstep_refl, R).
  destruct (is_false O s l) eqn:Fl; cbn [orb] in E.
  { injection E as <- <-. exists true, true. csplit; auto. intros _ _ I nu (G1 & G2 & G3) Od T. exfalso.
    assert (lit_true I (- l)) as X; [|apply lit_true_neg in X; [easy|apply K5]].
    apply (cl_top _ _ CO (log s)); auto. left. apply R. }
  destruct (c_hi k <=? rhs) eqn:CH.
  { injection E as <- <-. exists true, true. csplit; auto. intros _ _ I nu Gd Od _. pose proof (top_lval s es I nu R K3 Od). lia. }
  destruct V as [V|[V|[K6 K7]]]; [discriminate|lia|]. rewrite K6, K7 in *.
  destruct weight.
  { destruct (weight_translate O cfg l es _ s) as [[ok rm] s1] eqn:E1. injection E as <- <-.
    destruct (weight_translate_ok l es rhs s ok rm s1 R K3 K5 E1) as (-> & A & B). exists true, rm. csplit; auto. }
  destruct clauses.
  2:{ injection E as <- <-. exists true, false. csplit; auto. discriminate. }
  destruct (clause_translate O cfg lo l es _ _ s) as [r1 s1] eqn:E1. unfold clause_translate in E1.
  assert (Bc : below (nxt s) (if is_true O s l then - TRUE_LIT else - l)).
  { destruct (is_true O s l); [|now apply below_neg]. pose proof (wf_nxt s (proj1 (tr_wf _ R))). split; unfold TRUE_LIT; lia. }
  assert (EQ : forall s2, holds s2 (fun I _ => is_true O s l = true -> lit_true I l) ->
    holds s2 (fun I nu => csat (push_lit (if is_true O s l then - TRUE_LIT else - l) []) es (rhs - sum_lo s es + sum_lo s es) I nu <-> P I nu)).
  { intros s2 HT I nu Gd Od. unfold csat, P. rewrite clause_push by apply Gd. specialize (HT I nu Gd Od). cbv beta in HT.
    assert (CN : ~ clause_true I []) by (intros (q & [] & _)). replace (rhs - sum_lo s es + sum_lo s es) with rhs by lia.
    destruct (is_true O s l).
    - unfold TRUE_LIT. rewrite lit_true_m1. assert (I 1 = true) by apply Gd. assert (lit_true I l) by auto. intuition congruence.
    - rewrite lit_true_neg by apply K5. destruct (lit_true_dec I l); tauto. }
  assert (HT : holds s (fun I _ => is_true O s l = true -> lit_true I l)).
  { intros I nu (G1 & G2 & G3) Od T. apply (cl_top _ _ CO (log s)); auto. left. apply R. }
  apply clause_elems_ok in E1 as (b & -> & R1 & H1); auto.
  - injection E as <- <-. exists b, (negb lo). csplit; auto.
    + apply (pstep_weaken O Base) with (2 := R1). intros I nu Gd Od. apply (EQ s HT I nu Gd Od).
    + intros -> L I nu Gd Od. apply Bool.negb_true_iff in L. refine (proj1 (EQ s1 _ I nu Gd Od) (H1 eq_refl L I nu Gd Od)).
      apply (holds_pstep O Base) with (1 := R1). exact HT.
  - apply below_push; [easy|constructor].
  - lia.
  - lia.
Qed.
Lemma translate_sum_ok weight clauses lo l rhs es c k s r s' : top_ready s -> sum_ok s c k es -> c_def k = CSum l rhs es ->
  translate_sum O cfg weight clauses lo k s = (r, s') ->
  exists ok rm, r = Ok (ok, rm) /\ pstep (csem (mbound s) (c_def k)) s s' ok /\
    (ok = true -> rm = true -> holds s' (csem (mbound s) (c_def k))).
Proof.
  intros R [K1 K2 K3 K4 K5 K6 K7] KD E. apply translate_sum_gen with weight clauses lo l rhs es; auto. now rewrite KD in K5.
Qed.
End Translate.

(** ** The final check *)
Lemma assigned_sums s es : forallb (fun e => is_assigned (vst s (snd e))) es = true ->
  sum_lo s es = lval (fun x => lb (vst s x)) es /\ sum_hi s es = lval (fun x => lb (vst s x)) es.
Proof.
  unfold sum_lo, sum_hi. induction es as [|[co x] r IH]; cbn [forallb map zsum fold_right lval]; [easy|].
  fold (zsum (map (lo_of s) r)) (zsum (map (hi_of s) r)). rewrite Bool.andb_true_iff. intros (A & B). destruct (IH B) as (-> & ->).
  unfold is_assigned in A. apply Z.eqb_eq in A. unfold lo_of, hi_of. cbn [fst snd] in *. rewrite <- A. destruct (0 <? co); lia.
Qed.

(** Consistency of the stored sums: exact for active constraints; the upper sum of inactive
    ones may be out of date but not too small. *)
Record sums_stored (s : state) (k : cst) (es : list (Z * var)) : Prop := {
  ss_active : marked_inactive k = false -> c_lo k = sum_lo s es /\ c_hi k = sum_hi s es;
  ss_inactive : marked_inactive k = true -> sum_hi s es <= c_hi k }.

Lemma check_full_sum_ok c k es s : css s c = Some k -> sum_es (c_def k) = Some es -> sums_stored s k es ->
  forallb (fun e => is_assigned (vst s (snd e))) es = true ->
  forall o, sum_rhs s (c_def k) = Ok o ->
  (check_full_sum c s = Ok tt <-> match o with Some rhs => lval (fun x => lb (vst s x)) es <= rhs | None => True end) /\
  (check_full_sum c s = Ok tt \/ check_full_sum c s = Throw Logic).
Proof.
  intros K1 K2 [S1 S2] A o RH. unfold check_full_sum. rewrite K1, K2, RH, A. cbn [negb]. destruct o as [rhs|]; [|now split; [|left]].
  destruct (assigned_sums s es A) as (L & H). rewrite <- (lval_zsum (fun x => lb (vst s x)) es). set (v := lval _ es) in *.
  destruct (marked_inactive k) eqn:M.
  - specialize (S2 eq_refl). replace (c_hi k <? v) with false by lia. destruct (rhs <? v) eqn:C; (split; [|tauto]); split; try easy; lia.
  - destruct (S1 eq_refl) as (-> & ->). rewrite H, L, Z.eqb_refl, Z.ltb_irrefl. cbn [negb]. destruct (rhs <? v) eqn:C; (split; [|tauto]); split; try easy; lia.
Qed.
Lemma check_full_sum_unassigned c k es s e rhs : css s c = Some k -> sum_es (c_def k) = Some es -> sum_rhs s (c_def k) = Ok (Some rhs) ->
  In e es -> lb (vst s (snd e)) <> ub (vst s (snd e)) -> check_full_sum c s = Throw Logic.
Proof.
  intros K1 K2 RH He N. unfold check_full_sum. rewrite K1, K2, RH. replace (forallb _ es) with false; [easy|].
  symmetry. destruct (forallb _ es) eqn:F; [|easy]. rewrite forallb_forall in F. apply F in He. unfold is_assigned in He. apply Z.eqb_eq in He. easy.
Qed.

(** ** Values left after propagation *)
Lemma limit_spec s co x slack v : co <> 0 -> 
  (slack < co * (v - bnd s co x) <-> if 0 <? co then limit s co x slack <= v else v <= limit s co x slack).
Proof.
  intros N. unfold limit. destruct (0 <? co) eqn:C.
  - rewrite <- Z.opp_involutive with (n := slack + 1) at 1. rewrite Z.div_opp_opp by lia. set (q := (- (slack + 1)) / co).
    pose proof (Z.mul_div_le (- (slack + 1)) co ltac:(lia)). pose proof (Z.mul_succ_div_gt (- (slack + 1)) co ltac:(lia)). fold q in H, H0. nia.
  - assert (Hc : exists c, co = - c) by (exists (- co); lia). destruct Hc as (c & ->).
    rewrite <- Z.opp_involutive with (n := slack + 1) at 1. rewrite Z.div_opp_opp by lia. set (q := (- (slack + 1)) / c).
    pose proof (Z.mul_div_le (- (slack + 1)) c ltac:(lia)). pose proof (Z.mul_succ_div_gt (- (slack + 1)) c ltac:(lia)). fold q in H, H0. nia.
Qed.
Lemma values_left O s s' es rhs : same3 s s' -> elems_ok s es ->
  (sum_hi s es <= rhs \/ forall co x, In (co, x) es -> elem_done O s' co x (rhs - sum_lo s es)) ->
  bounds_ok s ->
  forall co x v, In (co, x) es -> lb (vst s x) <= v <= ub (vst s x) -> rhs < sum_lo s es - lo_of s (co, x) + co * v ->
  (exists l w, lit_means s' l x w /\ ((w < v /\ is_true O s' l = true) \/ (v <= w /\ is_false O s' l = true))) \/
  (0 < co /\ v = ub (vst s x) /\ sum_lo s es - lo_of s (co, x) + co * (v - 1) <= rhs).
Proof.
  intros S3 EO H BD co x v Hin Hv V. unfold elems_ok in EO. pose proof EO as EO'. rewrite Forall_forall in EO. destruct (EO _ Hin) as (Nz & Hx). cbn [fst snd] in Nz, Hx.
  destruct H as [H|H].
  { exfalso. assert (A : forall l : list (Z * var), Forall (fun e => fst e <> 0 /\ (snd e < nvars s)%nat) l -> zsum (map (lo_of s) l) <= zsum (map (hi_of s) l)).
    { clear - BD. induction 1 as [|[c y] t [Nz Hx] F IH]; cbn [map zsum fold_right]; [lia|].
      fold (zsum (map (lo_of s) t)) (zsum (map (hi_of s) t)). cbn in Nz, Hx. destruct (BD y Hx) as (_ & B2 & _).
      assert (lo_of s (c, y) <= hi_of s (c, y)); [|lia]. unfold lo_of, hi_of. cbn [fst snd]. destruct (0 <? c) eqn:C; nia. }
    unfold sum_lo, sum_hi in *. apply in_split in Hin as (l1 & l2 & ->). apply Forall_app in EO' as (F1 & F2). inversion F2 as [|? ? _ F2' ]; subst.
    pose proof (A l1 F1). pose proof (A l2 F2').
    assert (Z : forall f : Z * var -> Z, zsum (map f (l1 ++ (co, x) :: l2)) = zsum (map f l1) + f (co, x) + zsum (map f l2)).
    { intros f. clear. induction l1 as [|e t IH]; cbn [app map zsum fold_right]; [unfold zsum; lia|]. fold (zsum (map f (t ++ (co, x) :: l2))) (zsum (map f t)). rewrite IH. lia. }
    rewrite !Z in *. 
    assert (co * v <= hi_of s (co, x)) by (unfold hi_of; cbn [fst snd]; destruct (0 <? co) eqn:C; nia). lia. }
  specialize (H co x Hin). set (slack := rhs - sum_lo s es) in *.
  assert (VV : slack < co * (v - bnd s co x)) by (unfold slack, lo_of in *; cbn [fst snd] in *; unfold bnd; nia).
  pose proof (proj1 (limit_spec s co x slack v Nz) VV) as LM.
  assert (EB : limit s' co x slack = limit s co x slack) by (unfold limit; now rewrite (bnd_same3 s s' co x S3)).
  unfold elem_done, far in H. rewrite EB in H. destruct (same3_bnds _ _ x S3) as (L1 & L2 & _). rewrite L1, L2 in H.
  destruct (0 <? co) eqn:C.
  - destruct H as [H|(l & M & T)].
    + right. assert (E : v = ub (vst s x)) by lia. split; [lia|]. split; [easy|].
      pose proof (limit_spec s co x slack (v - 1) Nz) as LS. rewrite C in LS.
      assert (~ slack < co * (v - 1 - bnd s co x)) by (rewrite LS; lia).
      unfold slack, lo_of in *. cbn [fst snd]. rewrite C. unfold bnd in H0. rewrite C in H0. nia.
    + left. exists l, (limit s co x slack - 1). split; [easy|]. left. split; [lia|easy].
  - destruct H as [H|(l & M & T)]; [lia|]. left. exists l, (limit s co x slack). split; [easy|]. right. now split.
Qed.

(** The smallest value of a sum within the bounds. *)
Definition best (s : state) (es : list (Z * var)) (x : var) : Z :=
  match find (fun e => Nat.eqb (snd e) x) es with Some (co, _) => if 0 <? co then lb (vst s x) else ub (vst s x) | None => lb (vst s x) end.
Lemma best_in s es co x : NoDup (map snd es) -> In (co, x) es -> best s es x = if 0 <? co then lb (vst s x) else ub (vst s x).
Proof.
  intros N H. unfold best. induction es as [|[c y] t IH]; [easy|]. cbn [find snd]. inversion N as [|? ? N1 N2]; subst.
  destruct H as [H|H].
  - injection H as -> ->. now rewrite Nat.eqb_refl.
  - destruct (Nat.eqb y x) eqn:E; [|now apply IH]. apply Nat.eqb_eq in E. subst. exfalso. apply N1. apply in_map_iff. now exists (co, x).
Qed.
Lemma best_sum s es : NoDup (map snd es) -> lval (best s es) es = sum_lo s es.
Proof.
  intros N. unfold sum_lo. rewrite lval_zsum. f_equal. apply map_ext_in. intros [co x] H. unfold lo_of. cbn [fst snd]. now rewrite (best_in s es co x N H).
Qed.
Lemma best_bounds s es x : bounds_ok s -> (x < nvars s)%nat -> lb (vst s x) <= best s es x <= ub (vst s x).
Proof.
  intros B H. destruct (B x H) as (_ & A & _). unfold best. destruct (find (fun e => Nat.eqb (snd e) x) es) as [[co y]|]; [destruct (0 <? co)|]; lia.
Qed.

Lemma ready_css O n0 f s : ready O n0 s -> ready O n0 (set_css f s).
Proof. intros [A B C D]. constructor; auto. now apply wf_set_css. Qed.
