(** Propagation of linear constraints: soundness, violations. *)
From Verif Require Import Base Util VarState VarStateProofs Terms TermsSpec Solver OrderSpec
  OrderProofs1 OrderProofs2 OrderProofs3 OrderProofs6 OrderProofs7 OrderProofs8 Sum PropProofs SumProofs ConSpec.
Open Scope Z_scope.
Notation lit := Z (only parsing).

(** ** Sums *)
Definition skips (skip : option var) (x : var) : bool := match skip with Some y => Nat.eqb x y | None => false end.
Definition rest (skip : option var) (es : list (Z * var)) : list (Z * var) := filter (fun e => negb (skips skip (snd e))) es.
Definition bsum (s : state) (es : list (Z * var)) : Z := zsum (map (lo_of s) es).

Lemma lo_of_bnd s co x : lo_of s (co, x) = co * bnd s co x.
Proof. reflexivity. Qed.
Lemma rest_none es : rest None es = es.
Proof. induction es as [|e r IH]; [easy|]. cbn. f_equal. exact IH. Qed.
Lemma rest_cons skip c y r : rest skip ((c, y) :: r) = if skips skip y then rest skip r else (c, y) :: rest skip r.
Proof. unfold rest. cbn. now destruct (skips skip y). Qed.
Lemma rest_notin x es : ~ In x (map snd es) -> rest (Some x) es = es.
Proof.
  induction es as [|[c y] r IH]; [easy|]. rewrite rest_cons. cbn. intros N. destruct (Nat.eqb y x) eqn:E; [apply Nat.eqb_eq in E; tauto|].
  f_equal. tauto.
Qed.
Lemma zsum_split (f : Z * var -> Z) es co x : NoDup (map snd es) -> In (co, x) es ->
  zsum (map f es) = f (co, x) + zsum (map f (rest (Some x) es)).
Proof.
  induction es as [|[c y] r IH]; [easy|]. rewrite rest_cons. cbn [map zsum fold_right In skips snd]. intros N H. inversion N as [|? ? N1 N2]; subst.
  fold (zsum (map f r)). destruct H as [H|H].
  - injection H as -> ->. rewrite Nat.eqb_refl. now rewrite rest_notin.
  - assert (In x (map snd r)) by (apply in_map_iff; now exists (co, x)).
    destruct (Nat.eqb y x) eqn:E; [apply Nat.eqb_eq in E; subst; easy|]. rewrite IH by easy. cbn [map zsum fold_right]. fold (zsum (map f (rest (Some x) r))). lia.
Qed.
Lemma lval_zsum nu es : lval nu es = zsum (map (fun e => fst e * nu (snd e)) es).
Proof. induction es as [|[c y] r IH]; cbn; [easy|]. now rewrite IH. Qed.
Lemma bsum_same3 s s' es : same3 s s' -> bsum s' es = bsum s es.
Proof.
  intros H. unfold bsum. f_equal. apply map_ext. intros [c y]. unfold lo_of. cbn. now destruct (same3_bnds _ _ y H) as (-> & -> & _).
Qed.
Lemma bnd_same3 s s' co x : same3 s s' -> bnd s' co x = bnd s co x.
Proof. intros H. unfold bnd. now destruct (same3_bnds _ _ x H) as (-> & -> & _). Qed.

Lemma lval_dep n m es l rhs : below n l -> Forall (fun e => (snd e < m)%nat) es -> dep n m (fun I nu => lit_true I l -> lval nu es <= rhs).
Proof.
  intros B F I J nu nu' A E. rewrite <- (lit_true_agree n I J l A B). intros H T. specialize (H T).
  replace (lval nu' es) with (lval nu es); [easy|]. clear H. induction F as [|[c y] r H F IH]; cbn; [easy|]. cbn in H. now rewrite (E y H), IH.
Qed.

Lemma clause_dec I ls : clause_true I ls \/ forall q, In q ls -> ~ lit_true I q.
Proof.
  induction ls as [|l r [(q & Q1 & Q2)|IH]]; [now right|left; exists q; split; [now right|easy]|].
  destruct (lit_true_dec I l) as [T|T]; [left; exists l; split; [now left|easy]|]. right. intros q [<-|H]; auto.
Qed.

Section Sum.
Context (O : oracle) (cfg : config) (Base : interp -> Prop) (n0 : Z).
Context (BO : base_ok Base n0) (CO : clasp_ok O Base) (U : units_pos O).
Notation good := (good Base).
Notation step := (step Base).
Notation holds := (holds Base).
Notation pstep := (pstep O Base).
Notation justified := (justified O).

(** Hypotheses about the state that last during a run. *)
Record ready (s : state) : Prop := { rd_wf : wf s; rd_just : justified s; rd_bnds : bounds_ok s; rd_nxt : n0 <= nxt s }.
Lemma ready_pstep P s s' : pstep P s s' true -> ready s -> ready s'.
Proof.
  intros R [A1 A2 A3 A4]. constructor.
  - apply R.
  - now apply (justified_pstep O Base CO P s s' R).
  - apply bounds_ok_same3 with s; [apply R|easy].
  - pose proof (st_nxt _ _ _ _ _ (ps_step _ _ _ _ _ _ R)). lia.
Qed.
Lemma dep_pstep P Q s s' b : pstep Q s s' b -> dep (nxt s) (nvars s) P -> dep (nxt s') (nvars s') P.
Proof.
  intros R D. apply dep_mono with (3 := D); [apply (st_nxt _ _ _ _ _ (ps_step _ _ _ _ _ _ R))|]. now rewrite (same3_nvars _ _ (ps_same _ _ _ _ _ _ R)).
Qed.
Lemma below_pstep Q s s' b l : pstep Q s s' b -> below (nxt s) l -> below (nxt s') l.
Proof. intros R. apply below_mono. apply (st_nxt _ _ _ _ _ (ps_step _ _ _ _ _ _ R)). Qed.
Lemma nvars_pstep Q s s' b x : pstep Q s s' b -> (x < nvars s)%nat -> (x < nvars s')%nat.
Proof. intros R. now rewrite (same3_nvars _ _ (ps_same _ _ _ _ _ _ R)). Qed.
Lemma holds_pstep Q s s' b F : pstep Q s s' b -> holds s F -> holds s' F.
Proof. intros R. apply holds_step with (1 := ps_step _ _ _ _ _ _ R). Qed.
Lemma false_pstep Q s s' l : pstep Q s s' true -> is_false O s l = true -> is_false O s' l = true.
Proof. intros R. apply (later_false O Base CO). now apply (ps_later _ _ _ _ _ _ R). Qed.
Lemma true_pstep Q s s' l : pstep Q s s' true -> is_true O s l = true -> is_true O s' l = true.
Proof. intros R. apply (later_is_true O Base CO). now apply (ps_later _ _ _ _ _ _ R). Qed.

Definition elems_ok (s : state) (es : list (Z * var)) : Prop := Forall (fun e => fst e <> 0 /\ (snd e < nvars s)%nat) es.
Lemma elems_pstep Q s s' b es : pstep Q s s' b -> elems_ok s es -> elems_ok s' es.
Proof. intros R. apply Forall_impl. intros e [A B]. split; [easy|]. now apply nvars_pstep with (1 := R). Qed.

Definition some {A} (o : option A) : bool := match o with Some _ => true | None => false end.

Record rs_post (P : interp -> (var -> Z) -> Prop) (skip : option var) (es : list (Z * var)) (slack : Z) (s s' : state) (o : option (list lit)) : Prop := {
  rs_step : pstep P s s' (some o);
  rs_css : css s' = css s;
  rs_ina : ina s' = ina s;
  rs_lits : forall ls, o = Some ls -> Forall (below (nxt s')) ls /\ Forall (fun l => is_false O s' l = true) ls /\
    holds s' (fun I nu => (forall l, In l ls -> ~ lit_true I l) -> slack + bsum s (rest skip es) < lval nu (rest skip es)) }.

Lemma reasons_ok P skip es : forall slack s o s', ready s -> elems_ok s es -> dep (nxt s) (nvars s) P -> slack < 0 ->
  reasons O cfg skip es slack s = (o, s') -> rs_post P skip es slack s s' o.
Proof.
  induction es as [|[co x] r IH]; intros slack s o s' R F D Sl E; cbn [reasons] in E.
  { injection E as <- <-. constructor; auto. - now apply pstep_refl, R. - intros ls H. injection H as <-. csplit; try constructor. intros I nu _ _ _. cbn. lia. }
  inversion F as [|? ? [Nz Hx] F']; subst. cbn [fst snd] in Nz, Hx. fold (skips skip x) in E. assert (RC := rest_cons skip co x r).
  destruct (skips skip x) eqn:Sk.
  { destruct (IH slack s o s' R F' D Sl E) as [I1 I2 I3 I4]. constructor; auto. now rewrite RC. }
  destruct (calc_reason O cfg x co slack s) as [[[ret l] slack1] s1] eqn:C.
  destruct (calc_reason_ok O cfg Base n0 BO CO U P x co slack s ret l slack1 s1) as [C1 C2 C3 C4 C5 C6 C7]; auto; try apply R.
  destruct ret; [|injection E as <- <-; constructor; auto; discriminate].
  destruct (reasons O cfg skip r slack1 s1) as [o2 s2] eqn:E2. injection E as <- <-.
  specialize (IH slack1 s1 o2 s2). destruct IH as [I1 I2 I3 I4]; auto.
  - now apply ready_pstep with (1 := C1).
  - now apply elems_pstep with (1 := C1).
  - now apply dep_pstep with (1 := C1).
  - constructor.
    + destruct o2; now apply pstep_trans with s1.
    + congruence.
    + congruence.
    + destruct o2 as [ls|]; [|discriminate]. intros ls' H. injection H as <-. rewrite RC. cbn [some] in I1. destruct (I4 ls eq_refl) as (J1 & J2 & J3).
      assert (FX : is_fixed O s1 l = true -> holds s2 (fun I nu => ~ lit_true I l)).
      { intros H. apply holds_pstep with (1 := I1). apply (fixed_false O Base CO); auto. apply C4. }
      assert (SM : holds s2 (fun I nu => (forall k, In k (l :: ls) -> ~ lit_true I k) ->
         slack + bsum s ((co, x) :: rest skip r) < lval nu ((co, x) :: rest skip r))).
      { intros I nu Gd Od N. pose proof (J3 I nu Gd Od (fun k H => N k (or_intror H))) as H1.
        pose proof (holds_pstep _ _ _ _ _ I1 C7 I nu Gd Od (N l (or_introl eq_refl))) as H2.
        rewrite (bsum_same3 s s1) in H1 by apply C1. cbn [lval]. unfold bsum in *. cbn [map zsum fold_right]. fold (zsum (map (lo_of s) (rest skip r))).
        rewrite lo_of_bnd. lia. }
      destruct (is_fixed O s1 l).
      * csplit; auto. intros I nu Gd Od N. apply (SM I nu Gd Od). intros k [<-|H]; [now apply (FX eq_refl I nu)|now apply N].
      * csplit.
        -- constructor; [|easy]. now apply below_pstep with (1 := I1).
        -- constructor; [|easy]. apply false_pstep with (1 := I1). now apply C6.
        -- exact SM.
Qed.

(** ** One element *)

(** The first value violating the constraint, seen from the bound: for positive coefficients
    the values from [limit] on, for negative ones the values up to [limit]. *)
Definition limit (s : state) (co : Z) (x : var) (slack : Z) : Z := bnd s co x + (if 0 <? co then - ((slack + 1) / (- co)) else (slack + 1) / co).
Definition far (s : state) (co : Z) (x : var) (slack : Z) : bool :=
  if 0 <? co then ub (vst s x) <=? limit s co x slack else limit s co x slack <? lb (vst s x).
(** The bound has been propagated: there is a literal for it and it is true. *)
Definition elem_done (s : state) (co : Z) (x : var) (slack : Z) : Prop :=
  far s co x slack = true \/
  exists l, lit_means s l x (if 0 <? co then limit s co x slack - 1 else limit s co x slack) /\ is_true O s (if 0 <? co then l else - l) = true.
Definition conseq (w : Z) (co : Z) (x : var) (nu : var -> Z) : Prop := if 0 <? co then nu x <= w else w < nu x.

Lemma means_grow s s' l x v : same3 s s' -> grow s s' -> lit_means s l x v -> lit_means s' l x v.
Proof.
  intros S G. unfold lit_means. destruct (same3_bnds _ _ x S) as (_ & _ & -> & ->). intros [H|[H|H]]; auto.
Qed.
Lemma done_pstep Q s s' co x slack : pstep Q s s' true -> elem_done s co x slack -> elem_done s' co x slack.
Proof.
  intros R. unfold elem_done, far, limit, bnd. destruct (same3_bnds _ _ x (ps_same _ _ _ _ _ _ R)) as (-> & -> & _).
  intros [H|(l & M & T)]; [now left|]. right. exists l. split; [|now apply true_pstep with (1 := R)].
  apply means_grow with s; auto; apply R.
Qed.

Lemma add_clause_ext t c s b s' : add_clause O t c s = (b, s') -> vst s' = vst s /\ css s' = css s /\ ina s' = ina s.
Proof. intros E. injection E as _ <-. easy. Qed.
Lemma last_true (UU : units O) t c l s s' : add_clause O t (c ++ [l]) s = (true, s') -> Forall (fun l => is_false O s l = true) c -> is_true O s' l = true.
Proof.
  intros E F. injection E as A <-. cbn. apply (UU (log s) t (c ++ [l])); auto; [apply in_or_app; right; now left|].
  intros k H N. apply in_app_or in H as [H|[H|[]]]; [|congruence]. rewrite Forall_forall in F. now apply F.
Qed.

Record pe_post (P : interp -> (var -> Z) -> Prop) (s s' : state) (b : bool) : Prop := {
  pe_step : pstep P s s' b;
  pe_css : css s' = css s;
  pe_ina : ina s' = ina s }.

Lemma prop_elem_ok tag clit es rhs slack co x s b s' : ready s -> elems_ok s es -> NoDup (map snd es) -> In (co, x) es ->
  below (nxt s) clit -> is_true O s clit = true -> slack = rhs - bsum s es -> 0 <= slack ->
  prop_elem O cfg tag clit es slack co x s = (b, s') ->
  pe_post (fun I nu => lit_true I clit -> lval nu es <= rhs) s s' b /\ (units O -> b = true -> elem_done s' co x slack).
Proof.
  intros R F N Hin Bc Tc Hs S0 E. set (P := fun I nu => lit_true I clit -> lval nu es <= rhs).
  assert (D : dep (nxt s) (nvars s) P).
  { apply lval_dep; auto. eapply Forall_impl; [|exact F]. now intros e []. }
  assert (Hx : (x < nvars s)%nat /\ co <> 0) by (unfold elems_ok in F; rewrite Forall_forall in F; destruct (F _ Hin); now split).
  destruct Hx as (Hx & Nz).
  unfold prop_elem in E. fold (bnd s co x) in E.
  set (delta := if 0 <? co then - ((slack + 1) / - co) else (slack + 1) / co) in *.
  assert (LIM : limit s co x slack = bnd s co x + delta) by reflexivity.
  rewrite <- LIM in E. fold (far s co x slack) in E.
  destruct (far s co x slack) eqn:Fr.
  { injection E as <- <-. split; [constructor; auto; now apply pstep_refl, R|]. intros _ _. now left. }
  set (w := if 0 <? co then limit s co x slack - 1 else limit s co x slack) in *.
  destruct (if has_lit (vst s x) w then _ else _) as [l s1] eqn:E1.
  assert (Q1 : pe_post P s s1 true /\ (l <> 0 -> exists g, lit_means s1 g x w /\ l = if 0 <? co then g else - g)).
  { destruct (has_lit (vst s x) w).
    - destruct (get_literal cfg x w s) as [g s1'] eqn:G. injection E1 as <- <-.
      destruct (pstep_get O cfg Base n0 BO P x w s g s1') as (A & B & C); auto; try apply R.
      split; [constructor; auto; [now apply (same_get css)|now apply (same_get ina)]|]. intros _. now exists g.
    - injection E1 as <- <-. split; [constructor; auto; now apply pstep_refl, R|]. easy. }
  destruct Q1 as ([A1 A2 A3] & HL). clear E1.
  assert (W1 : limit s1 co x slack = limit s co x slack /\ far s1 co x slack = far s co x slack).
  { unfold far, limit, bnd. now destruct (same3_bnds _ _ x (ps_same _ _ _ _ _ _ A1)) as (-> & -> & _). }
  destruct ((l =? 0) || negb (is_true O s1 l)) eqn:Lt.
  2:{ injection E as <- <-. split; [now constructor|]. intros _ _. right. destruct W1 as (-> & _). fold w.
      destruct HL as (g & M & Hl); [lia|]. exists g. split; [easy|]. rewrite <- Hl. destruct (is_true O s1 l); [easy|]. cbn in Lt. destruct (l =? 0); discriminate. }
  set (pre := if is_fixed O s1 (- clit) then [] else [- clit]) in *.
  destruct (reasons O cfg (Some x) es (slack - co * delta) s1) as [o s2] eqn:E2.
  assert (Sr : slack - co * delta < 0).
  { unfold delta. destruct (0 <? co) eqn:C.
    - destruct (floor_delta slack co); lia.
    - destruct (floor_delta_neg slack co); lia. }
  assert (R1 := ready_pstep _ _ _ A1 R). assert (F1 := elems_pstep _ _ _ _ _ A1 F). assert (D1 := dep_pstep _ _ _ _ _ A1 D).
  destruct (reasons_ok P (Some x) es (slack - co * delta) s1 o s2 R1 F1 D1 Sr E2) as [B1 B2 B3 B4].
  destruct o as [ls|].
  2:{ injection E as <- <-. split; [|easy]. constructor; try congruence. now apply pstep_trans with s1. }
  cbn [some] in B1. destruct (B4 ls eq_refl) as (L1 & L2 & L3).
  assert (A12 : pstep P s s2 true) by now apply pstep_trans with s1.
  (* what the reason implies *)
  assert (K : holds s2 (fun I nu => P I nu -> (forall k, In k (pre ++ ls) -> ~ lit_true I k) -> conseq w co x nu)).
  { intros I nu Gd Od HP HN.
    assert (Tl : lit_true I clit).
    { destruct (lit_true_dec I clit) as [T|T]; [easy|]. unfold pre in HN. destruct (is_fixed O s1 (- clit)) eqn:Fx.
      - apply (cl_fixneg _ _ CO) in Fx. rewrite Z.opp_involutive in Fx.
        assert (Gd1 := proj1 (st_bwd _ _ _ _ _ (ps_step _ _ _ _ _ _ B1) I nu Gd Od)). destruct Gd1 as (G1 & G2 & G3).
        apply (cl_top _ _ CO (log s1)); auto. apply (true_pstep _ _ _ _ A1 Tc).
      - exfalso. apply (HN (- clit)); [now left|]. apply lit_true_neg; [apply Bc|easy]. }
    specialize (HP Tl). specialize (L3 I nu Gd Od (fun k H => HN k (in_or_app _ _ _ (or_intror H)))).
    rewrite (bsum_same3 s s1) in L3 by apply A1.
    rewrite lval_zsum, (zsum_split (fun e => fst e * nu (snd e)) es co x N Hin), <- lval_zsum in HP. cbn [fst snd] in HP.
    pose proof (zsum_split (lo_of s) es co x N Hin) as HB. fold (bsum s es) (bsum s (rest (Some x) es)) in HB. rewrite lo_of_bnd in HB.
    unfold conseq, w. rewrite LIM. destruct (0 <? co) eqn:C; nia. }
  assert (FL : Forall (fun l => is_false O s2 l = true) (pre ++ ls)).
  { apply Forall_app. split; [|easy]. unfold pre. destruct (is_fixed O s1 (- clit)); constructor; [|constructor].
    unfold is_false. rewrite Z.opp_involutive. now apply (true_pstep _ _ _ _ A12). }
  assert (BL : Forall (below (nxt s2)) (pre ++ ls)).
  { apply Forall_app. split; [|easy]. unfold pre. destruct (is_fixed O s1 (- clit)); constructor; [|constructor].
    apply below_neg. now apply below_pstep with (1 := A12). }
  set (reason := pre ++ ls) in *.
  set (guess := negb _ || tag) in E.
  destruct (update_literal O cfg x w _ s2) as [g s3] eqn:E3.
  assert (R2 := ready_pstep _ _ _ A12 R).
  destruct (pstep_update O cfg Base n0 BO P x w (if guess then TFree else if 0 <? co then TTrue else TFalse) s2 g s3) as (U1 & U2 & U3 & U4); auto; try apply R2.
  { now apply nvars_pstep with (1 := A12). }
  { unfold guess. destruct reason as [|q qs] eqn:Er.
    - cbn. destruct tag; [now intros I nu _ _ _|]. intros I nu Gd Od HP. specialize (K I nu Gd Od HP (fun k (H : In k []) => match H with end)).
      unfold conseq in K. destruct (0 <? co); cbn; lia.
    - now intros I nu _ _ _. }
  assert (A13 : pstep P s s3 true) by (apply pstep_trans with s2; auto).
  assert (Hx3 : (x < nvars s3)%nat) by now apply nvars_pstep with (1 := A13).
  assert (Mg := means_holds Base s3 g x w Hx3 U2). assert (Bg := lit_means_below s3 g x w (proj1 (ps_wf _ _ _ _ _ _ U1)) Hx3 U2).
  set (cl := if 0 <? co then g else - g) in *.
  assert (BC : below (nxt s3) cl) by (unfold cl; destruct (0 <? co); [easy|now apply below_neg]).
  destruct (pstep_clause O Base P (if tag then Volatile else Learnt) (reason ++ [cl]) s3 b s') as (V1 & V2 & V3); auto.
  { apply U1. }
  { apply Forall_app. split; [|now constructor]. eapply Forall_impl; [|exact BL]. intros q. now apply below_pstep with (1 := U1). }
  { intros I nu Gd Od HP. destruct (clause_dec I reason) as [X|X].
    - destruct X as (q & Q1 & Q2). exists q. split; [apply in_or_app; now left|easy].
    - exists cl. split; [apply in_or_app; right; now left|].
      assert (C : conseq w co x nu).
      { exact (holds_pstep _ _ _ _ _ U1 K I nu Gd Od HP X). }
      unfold conseq in C. unfold cl. destruct (0 <? co); [|rewrite lit_true_neg by apply Bg]; rewrite (Mg I nu Gd Od); lia. }
  split.
  - constructor.
    + now apply pstep_trans with s3.
    + apply add_clause_ext in E as (_ & -> & _). rewrite U3. congruence.
    + apply add_clause_ext in E as (_ & _ & ->). rewrite U4. congruence.
  - intros UU ->. assert (A14 : pstep P s s' true) by now apply pstep_trans with s3.
    right. assert (limit s' co x slack = limit s co x slack) as ->.
    { unfold limit, bnd. now destruct (same3_bnds _ _ x (ps_same _ _ _ _ _ _ A14)) as (-> & -> & _). }
    fold w. exists g. split; [apply means_grow with s3; auto; apply V1|].
    fold cl. apply (last_true UU) with (1 := E). eapply Forall_impl; [|exact FL]. intros q. now apply false_pstep with (1 := U1).
Qed.

Lemma prop_elems_ok tag clit es rhs slack todo : forall s b s', ready s -> elems_ok s es -> NoDup (map snd es) -> incl todo es ->
  below (nxt s) clit -> is_true O s clit = true -> slack = rhs - bsum s es -> 0 <= slack ->
  prop_elems O cfg tag clit es slack todo s = (b, s') ->
  pe_post (fun I nu => lit_true I clit -> lval nu es <= rhs) s s' b /\ (units O -> b = true -> forall co x, In (co, x) todo -> elem_done s' co x slack).
Proof.
  induction todo as [|[co x] r IH]; intros s b s' R F N Hi Bc Tc Hs S0 E; cbn [prop_elems] in E.
  { injection E as <- <-. split; [constructor; auto; now apply pstep_refl, R|easy]. }
  destruct (prop_elem O cfg tag clit es slack co x s) as [b1 s1] eqn:E1.
  destruct (prop_elem_ok tag clit es rhs slack co x s b1 s1) as ([A1 A2 A3] & A4); auto; [apply Hi; now left|].
  assert (D : dep (nxt s) (nvars s) (fun I nu => lit_true I clit -> lval nu es <= rhs)).
  { apply lval_dep; auto. eapply Forall_impl; [|exact F]. now intros e []. }
  destruct b1; [|injection E as <- <-; split; [now constructor|easy]].
  destruct (IH s1 b s') as ([B1 B2 B3] & B4); auto.
  - now apply ready_pstep with (1 := A1).
  - now apply elems_pstep with (1 := A1).
  - intros e He. apply Hi. now right.
  - now apply below_pstep with (1 := A1).
  - now apply true_pstep with (1 := A1).
  - rewrite (bsum_same3 s s1) by apply A1. easy.
  - split.
    + constructor; try congruence. now apply pstep_trans with s1.
    + intros UU -> co' x' [H|H]; [|now apply B4]. injection H as <- <-. apply done_pstep with (1 := B1). now apply A4.
Qed.

(** ** The whole constraint *)

Lemma wf_marks c k l s : wf s -> wf (set_cs c k (set_ina l s)).
Proof. intros [W V]. split; [constructor; apply W|constructor; apply V]. Qed.
Lemma mark_inactive_ok P c s : wf s -> pstep P s (mark_inactive c s) true /\ log (mark_inactive c s) = log s.
Proof.
  intros W. unfold mark_inactive. destruct (css s c) as [k|]; [|split; [now apply pstep_refl|easy]].
  destruct (c_removable _ && _); [|split; [now apply pstep_refl|easy]]. split; [|easy]. constructor.
  - now apply wf_marks.
  - apply step_weaken with T2 T2; try easy. apply step_silent; easy.
  - now split.
  - now apply grow_vst.
  - intros _. constructor.
Qed.

(** What propagation of constraint [c] does to the data of constraints. *)
Definition marks (c : cid) (s s' : state) : Prop :=
  (forall c', c' <> c -> css s' c' = css s c') /\
  (css s' = css s /\ ina s' = ina s \/
   exists k, css s c = Some k /\ c_inact k = 0%nat /\ c_removable (c_def k) = true /\
     css s' c = Some (set_inact (S (cur_level s)) k) /\ ina s' = ina s ++ [c]).
Lemma marks_same c s s' : css s' = css s -> ina s' = ina s -> marks c s s'.
Proof. intros A B. split; [now rewrite A|]. left. now split. Qed.
Lemma marks_inactive c s : marks c s (mark_inactive c s).
Proof.
  unfold mark_inactive. destruct (css s c) as [k|] eqn:E; [|now apply marks_same].
  destruct (c_removable (c_def k) && negb (marked_inactive k)) eqn:C; [|now apply marks_same].
  split.
  - intros c' H. cbn. unfold upd. destruct (Nat.eqb c' c) eqn:Q; [apply Nat.eqb_eq in Q; easy|easy].
  - right. exists k. csplit; auto.
    + unfold marked_inactive in C. lia.
    + now destruct (c_removable (c_def k)).
    + cbn. unfold upd. now rewrite Nat.eqb_refl.
Qed.
Lemma marks_wrap c s s1 s2 s3 : cur_level s1 = cur_level s -> css s1 = css s -> ina s1 = ina s -> marks c s1 s2 -> css s3 = css s2 -> ina s3 = ina s2 -> marks c s s3.
Proof.
  intros L A B [M1 M2] C D. split; [intros c' H; rewrite C, M1, A; auto|]. destruct M2 as [(E1 & E2)|(k & K1 & K2 & K3 & K4 & K5)].
  - left. split; congruence.
  - right. exists k. csplit; auto; try congruence.
Qed.

(** The constraint is in order: the variables exist, occur once and with coefficients other
    than zero; the sums kept with the constraint are the sums of the bounds. *)
Record sum_ok (s : state) (c : cid) (k : cst) (es : list (Z * var)) : Prop := {
  sk_css : css s c = Some k;
  sk_es : sum_es (c_def k) = Some es;
  sk_vars : elems_ok s es;
  sk_nodup : NoDup (map snd es);
  sk_lit : below (nxt s) (c_lit (c_def k));
  sk_lo : c_lo k = sum_lo s es;
  sk_hi : c_hi k = sum_hi s es }.

Lemma csem_sum d mb es I nu rhs s : sum_es d = Some es -> sum_rhs s d = Ok (Some rhs) -> mbound s = mb -> I 1 = true ->
  (csem mb d I nu <-> (lit_true I (c_lit d) -> lval nu es <= rhs)).
Proof.
  intros E R M I1. destruct d; try discriminate; cbn in *.
  - injection E as ->. injection R as ->. easy.
  - injection E as ->. rewrite M in R. destruct mb as [b|]; [|discriminate]. destruct (_ || _); [discriminate|]. injection R as ->.
    split; [easy|]. intros H. apply H. exact I1.
Qed.

Record prop_post (d : constr) (c : cid) (s s' : state) (r : outcome bool) : Prop := {
  pp_step : pstep (csem (mbound s) d) s s' (match r with Ok true => true | _ => false end);
  pp_marks : marks c s s' }.

Lemma prop_sum_ok chk c k es s r s' : ready s -> sum_ok s c k es -> prop_sum O cfg chk c s = (r, s') ->
  prop_post (c_def k) c s s' r.
Proof.
  intros R [K1 K2 K3 K4 K5 K6 K7] E. unfold prop_sum in E. rewrite K1, K2 in E.
  assert (SAME : forall r', prop_post (c_def k) c s s r').
  { intros r'. constructor; [now apply pstep_refl, R|now apply marks_same]. }
  destruct (sum_rhs s (c_def k)) as [[rhs|]|e|] eqn:RH; try (injection E as <- <-; apply SAME).
  destruct (chk && _); [injection E as <- <-; apply SAME|].
  set (P := fun I nu => lit_true I (c_lit (c_def k)) -> lval nu es <= rhs).
  assert (PC : forall r', pstep P s s' (match r' with Ok true => true | _ => false end) -> marks c s s' -> prop_post (c_def k) c s s' r').
  { intros r' A M. constructor; [|easy]. apply (pstep_weaken O Base P); auto. intros I nu Gd Od HC. refine (proj1 (csem_sum (c_def k) (mbound s) es I nu rhs s K2 RH eq_refl _) HC). apply Gd. }
  assert (D : dep (nxt s) (nvars s) P).
  { apply lval_dep; auto. eapply Forall_impl; [|exact K3]. now intros e []. }
  destruct (c_hi k <=? rhs) eqn:C1.
  { injection E as <- <-. apply PC; [now apply mark_inactive_ok, R|apply marks_inactive]. }
  destruct (rhs - c_lo k <? 0) eqn:C2.
  - destruct (reasons O cfg None es (rhs - c_lo k) s) as [o s1] eqn:E1.
    destruct (reasons_ok P None es (rhs - c_lo k) s o s1 R K3 D ltac:(lia) E1) as [B1 B2 B3 B4].
    destruct o as [ls|].
    2:{ injection E as <- <-. apply PC; [easy|now apply marks_same]. }
    destruct (B4 ls eq_refl) as (L1 & L2 & L3). cbn [some] in B1.
    destruct (add_clause O _ (ls ++ [- c_lit (c_def k)]) (mark_inactive c s1)) as [b s2] eqn:E2. injection E as <- <-.
    destruct (mark_inactive_ok P c s1 (ps_wf _ _ _ _ _ _ B1)) as (M1 & M2).
    destruct (pstep_clause O Base P (if sum_tag (c_def k) then Volatile else Learnt) (ls ++ [- c_lit (c_def k)]) (mark_inactive c s1) b s2) as (V1 & V2 & V3); auto.
    { apply M1. }
    { apply Forall_app. split.
      - eapply Forall_impl; [|exact L1]. intros q. now apply below_pstep with (1 := M1).
      - constructor; [|constructor]. apply below_neg. apply below_pstep with (1 := M1). now apply below_pstep with (1 := B1). }
    { intros I nu Gd Od HP. destruct (clause_dec I ls) as [X|X].
      - destruct X as (q & Q1 & Q2). exists q. split; [apply in_or_app; now left|easy].
      - exists (- c_lit (c_def k)). split; [apply in_or_app; right; now left|]. apply lit_true_neg; [apply K5|]. intros T. specialize (HP T).
        pose proof (holds_pstep _ _ _ _ _ M1 L3 I nu Gd Od) as H. rewrite rest_none in H. unfold bsum in H. fold (sum_lo s es) in H.
        specialize (H X). lia. }
    apply PC.
    + replace (match Ok b with Ok true => true | _ => false end) with b by now destruct b.
      apply pstep_trans with s1; auto; apply pstep_trans with (mark_inactive c s1); auto. now apply dep_pstep with (1 := B1).
    + apply marks_wrap with s1 (mark_inactive c s1); auto.
      * now apply same3_cur, B1.
      * apply marks_inactive.
      * now apply (same_get css).
      * now apply (same_get ina).
  - destruct (negb (is_true O s (c_lit (c_def k)))) eqn:C3; [injection E as <- <-; apply SAME|].
    destruct (prop_elems O cfg _ _ es _ es s) as [b s1] eqn:E1. injection E as <- <-.
    destruct (prop_elems_ok (sum_tag (c_def k)) (c_lit (c_def k)) es rhs (rhs - c_lo k) es s b s1) as ([A1 A2 A3] & _); auto; try lia.
    + easy.
    + unfold bsum. fold (sum_lo s es). lia.
    + apply PC; [now destruct b|now apply marks_same].
Qed.

(** ** Violations *)

Lemma prop_sum_conflict (UU : units O) chk c k es rhs s r s' : ready s -> sum_ok s c k es -> sum_rhs s (c_def k) = Ok (Some rhs) ->
  is_true O s (c_lit (c_def k)) = true -> rhs < sum_lo s es -> sum_lo s es <= sum_hi s es ->
  prop_sum O cfg chk c s = (r, s') -> r = Ok false.
Proof.
  intros R [K1 K2 K3 K4 K5 K6 K7] RH T V HL E. unfold prop_sum in E. rewrite K1, K2, RH in E.
  rewrite K6, K7 in E. rewrite !Z.eqb_refl in E. replace (sum_lo s es <=? sum_hi s es) with true in E by lia. cbn [andb negb] in E.
  rewrite Bool.andb_false_r in E. replace (sum_hi s es <=? rhs) with false in E by lia. replace (rhs - sum_lo s es <? 0) with true in E by lia.
  destruct (reasons O cfg None es (rhs - sum_lo s es) s) as [o s1] eqn:E1.
  destruct (reasons_ok T2 None es (rhs - sum_lo s es) s o s1 R K3 (T2_dep _ _) ltac:(lia) E1) as [B1 B2 B3 B4].
  destruct o as [ls|]; [|now injection E as <- <-].
  destruct (B4 ls eq_refl) as (L1 & L2 & L3). cbn [some] in B1.
  destruct (add_clause O _ (ls ++ [- c_lit (c_def k)]) (mark_inactive c s1)) as [b s2] eqn:E2. injection E as <- <-. f_equal.
  apply (all_false O Base CO UU) with (3 := E2).
  - now destruct ls.
  - assert (M2 := proj2 (mark_inactive_ok T2 c s1 (ps_wf _ _ _ _ _ _ B1))). unfold is_false in *. rewrite M2. apply Forall_app. split; [exact L2|].
    constructor; [|constructor]. rewrite Z.opp_involutive. exact (true_pstep _ _ _ _ B1 T).
Qed.

Lemma lo_hi s es : bounds_ok s -> elems_ok s es -> sum_lo s es <= sum_hi s es.
Proof.
  intros B. unfold sum_lo, sum_hi. induction 1 as [|[co x] r [Nz Hx] F IH]; cbn [map zsum fold_right]; [lia|].
  fold (zsum (map (lo_of s) r)) (zsum (map (hi_of s) r)). cbn in Nz, Hx. destruct (B x Hx) as (_ & B2 & _).
  assert (lo_of s (co, x) <= hi_of s (co, x)); [|lia]. unfold lo_of, hi_of. cbn. destruct (0 <? co) eqn:C; nia.
Qed.

Lemma prop_sum_bounds (UU : units O) chk c k es rhs s s' : ready s -> sum_ok s c k es -> sum_rhs s (c_def k) = Ok (Some rhs) ->
  is_true O s (c_lit (c_def k)) = true -> prop_sum O cfg chk c s = (Ok true, s') ->
  sum_lo s es <= rhs /\ (sum_hi s es <= rhs \/ forall co x, In (co, x) es -> elem_done s' co x (rhs - sum_lo s es)).
Proof.
  intros R SK RH T E. pose proof SK as [K1 K2 K3 K4 K5 K6 K7].
  assert (LH := lo_hi s es (rd_bnds _ R) K3).
  destruct (Z_lt_ge_dec rhs (sum_lo s es)) as [V|V].
  { pose proof (prop_sum_conflict UU chk c k es rhs s _ s' R SK RH T V LH E). discriminate. }
  split; [lia|]. unfold prop_sum in E. rewrite K1, K2, RH in E.
  destruct (chk && _); [discriminate|]. destruct (c_hi k <=? rhs) eqn:C1; [left; lia|].
  replace (rhs - c_lo k <? 0) with false in E by lia. rewrite T in E. cbn [negb] in E.
  destruct (prop_elems O cfg _ _ es _ es s) as [b s1] eqn:E1. injection E as -> ->. right.
  rewrite K6 in E1. intros co x H.
  destruct (prop_elems_ok (sum_tag (c_def k)) (c_lit (c_def k)) es rhs (rhs - sum_lo s es) es s true s') as (_ & A); auto.
  - easy.
  - lia.
Qed.

End Sum.
