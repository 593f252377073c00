(** Propagation of distinct constraints: soundness and detection of violations. *)
From Verif Require Import Base Util VarState VarStateProofs Terms TermsSpec Solver OrderSpec
  OrderProofs1 OrderProofs2 OrderProofs3 OrderProofs6 OrderProofs7 OrderProofs8 Sum PropProofs SumProofs SumProofs2 ConSpec Translate Distinct.
Open Scope Z_scope.
Notation lit := Z (only parsing).

(** Value of an element. *)
Definition eval (nu : var -> Z) (e : delem) : Z := fst e + lval nu (snd e).
Definition differ (nu : var -> Z) (e f : delem) : Prop := eval nu e <> eval nu f.
Definition clashes (es : list delem) (nu : var -> Z) : Prop := ForallOrdPairs (differ nu) es.

Lemma ford_nth {A} (R : A -> A -> Prop) (l : list A) : (forall x y, R x y -> R y x) -> ForallOrdPairs R l ->
  forall i j x y, i <> j -> nth_error l i = Some x -> nth_error l j = Some y -> R x y.
Proof.
  intros Sy F. induction F as [|a l H F IH]; intros i j x y N A1 A2; [now destruct i|]. rewrite Forall_forall in H.
  destruct i as [|i], j as [|j]; cbn in *; [easy| | |].
  - injection A1 as ->. apply H. now apply nth_error_In with j.
  - injection A2 as ->. apply Sy, H. now apply nth_error_In with i.
  - apply IH with i j; auto.
Qed.
Lemma nth_ford {A} (R : A -> A -> Prop) (l : list A) :
  (forall i j x y, (i < j)%nat -> nth_error l i = Some x -> nth_error l j = Some y -> R x y) -> ForallOrdPairs R l.
Proof.
  induction l as [|a l IH]; intros H; [constructor|]. constructor.
  - apply Forall_forall. intros y Hy. apply In_nth_error in Hy as (j & Hj). apply (H 0%nat (S j)); auto. lia.
  - apply IH. intros i j x y Hij A1 A2. apply (H (S i) (S j)); auto. lia.
Qed.

Lemma memb_in i l : memb i l = true <-> In i l.
Proof. unfold memb. rewrite existsb_exists. split; [intros (k & H & E); apply Nat.eqb_eq in E; now subst|intros H; exists i; split; [easy|apply Nat.eqb_refl]]. Qed.
Lemma combine_seq_nth {A} (l : list A) : forall n i x, In (i, x) (combine (seq n (length l)) l) <-> (n <= i)%nat /\ nth_error l (i - n) = Some x.
Proof.
  induction l as [|a l IH]; intros n i x; cbn.
  - split; [easy|]. intros [_ H]. destruct (i - n)%nat; discriminate.
  - rewrite IH. split.
    + intros [H|[H1 H2]]; [injection H as <- <-; split; [lia|now rewrite Nat.sub_diag]|]. split; [lia|]. now replace (i - n)%nat with (S (i - S n)) by lia.
    + intros [H1 H2]. destruct (Nat.eq_dec i n) as [->|N]; [left; rewrite Nat.sub_diag in H2; injection H2 as ->; easy|]. right.
      split; [lia|]. now replace (i - n)%nat with (S (i - S n)) in H2 by lia.
Qed.
Lemma with_value_in f asg v i : In i (with_value f asg v) <-> exists a, nth_error asg i = Some a /\ f a = v.
Proof.
  unfold with_value. rewrite in_map_iff. split.
  - intros ((j & a) & <- & H). rewrite filter_In, combine_seq_nth in H. cbn in *. destruct H as ((_ & H) & E). exists a. rewrite Nat.sub_0_r in H. split; [easy|lia].
  - intros (a & H & E). exists (i, a). split; [easy|]. rewrite filter_In, combine_seq_nth. cbn. rewrite Nat.sub_0_r. split; [split; [lia|easy]|lia].
Qed.

Lemma refresh_gen s es dirty : forall asg n, length asg = length es ->
  (forall i e a, nth_error es i = Some e -> nth_error asg i = Some a -> ~ In (n + i)%nat dirty -> a = dist_init s e) ->
  map (fun p => let '(i, (e, a)) := p in if memb i dirty then dist_init s e else a) (combine (seq n (length es)) (combine es asg)) = map (dist_init s) es.
Proof.
  induction es as [|e es IH]; intros asg n L H; [easy|]. destruct asg as [|a asg]; [discriminate|]. cbn [length seq combine map]. f_equal.
  - destruct (memb n dirty) eqn:E; [easy|]. apply (H 0%nat); try reflexivity. rewrite Nat.add_0_r. intros X. apply memb_in in X. congruence.
  - apply IH; [cbn in L; lia|]. intros i e' a' H1 H2 H3. apply (H (S i)); auto. now rewrite Nat.add_succ_r.
Qed.
Lemma refresh_fresh s es dirty asg : length asg = length es ->
  (forall i e a, nth_error es i = Some e -> nth_error asg i = Some a -> ~ In i dirty -> a = dist_init s e) ->
  dist_refresh s es dirty asg = map (dist_init s) es.
Proof. intros L H. now apply refresh_gen. Qed.

(** The value of a variable at which the element takes its upper ([sgn > 0]) or lower bound. *)
Definition extreme (s : state) (sgn co : Z) (x : var) : Z := if 0 <? sgn * co then ub (vst s x) else lb (vst s x).
Definition dbound (s : state) (sgn : Z) (e : delem) : Z := if 0 <? sgn then snd (dist_init s e) else fst (dist_init s e).

Lemma at_extreme s sgn ts nu : sgn = 1 \/ sgn = -1 -> (forall co x, In (co, x) ts -> co <> 0 -> nu x = extreme s sgn co x) ->
  lval nu ts = if 0 <? sgn then sum_hi s ts else sum_lo s ts.
Proof.
  intros S. induction ts as [|[co x] r IH]; intros H; cbn [lval]; [now destruct (0 <? sgn)|].
  rewrite IH by (intros; apply H; [now right|easy]). unfold sum_hi, sum_lo. cbn [map zsum fold_right]. fold (zsum (map (hi_of s) r)) (zsum (map (lo_of s) r)).
  unfold hi_of at 2, lo_of at 2. cbn [fst snd]. destruct (Z.eq_dec co 0) as [->|N]; [destruct (0 <? sgn), (0 <? 0); lia|].
  rewrite (H co x (or_introl eq_refl) N). unfold extreme.
  destruct S as [-> | ->]; cbn [Z.ltb Z.compare]; destruct (0 <? _ * co) eqn:E1, (0 <? co) eqn:E2; try lia.
Qed.
(** Both bounds of an element agree iff its variables are assigned. *)
Lemma fixed_vars s ts : Forall (fun e => fst e <> 0 /\ lb (vst s (snd e)) <= ub (vst s (snd e))) ts ->
  sum_lo s ts <= sum_hi s ts /\ (sum_lo s ts = sum_hi s ts <-> forall co x, In (co, x) ts -> lb (vst s x) = ub (vst s x)).
Proof.
  induction ts as [|[co x] r IH]; intros F; [now split|]. inversion F as [|? ? [N B] F']; subst. cbn [fst snd] in N, B. destruct (IH F') as (A1 & A2).
  unfold sum_lo, sum_hi. cbn [map zsum fold_right]. fold (zsum (map (hi_of s) r)) (zsum (map (lo_of s) r)). fold (sum_lo s r) (sum_hi s r).
  unfold lo_of, hi_of. cbn [fst snd].
  assert (L : co * (if 0 <? co then lb (vst s x) else ub (vst s x)) <= co * (if 0 <? co then ub (vst s x) else lb (vst s x))) by (destruct (0 <? co) eqn:E; nia).
  split; [lia|]. split.
  - intros H. assert (H1 : sum_lo s r = sum_hi s r) by lia. assert (H2 : co * (if 0 <? co then lb (vst s x) else ub (vst s x)) = co * (if 0 <? co then ub (vst s x) else lb (vst s x))) by lia.
    intros c y [Q|Q]; [injection Q as <- <-; destruct (0 <? co); nia|]. now apply (proj1 A2 H1 c).
  - intros H. assert (H1 : sum_lo s r = sum_hi s r) by (apply A2; intros c y Q; apply (H c); now right). rewrite (H co x (or_introl eq_refl)), H1. destruct (0 <? co); lia.
Qed.
Lemma init_same3 s s' e : same3 s s' -> dist_init s' e = dist_init s e.
Proof.
  intros H. unfold dist_init, sum_lo, sum_hi. f_equal; f_equal; f_equal; apply map_ext; intros [c y]; unfold lo_of, hi_of; cbn;
  destruct (same3_bnds _ _ y H) as (-> & -> & _); easy.
Qed.
Lemma extreme_same3 s s' sgn co x : same3 s s' -> extreme s' sgn co x = extreme s sgn co x.
Proof. intros H. unfold extreme. now destruct (same3_bnds _ _ x H) as (-> & -> & _). Qed.

Lemma lval_ext m nu nu' ts : ext_nu m nu nu' -> Forall (fun t => (snd t < m)%nat) ts -> lval nu' ts = lval nu ts.
Proof. intros E F. induction F as [|[c y] r H F IH]; cbn; [easy|]. cbn in H. now rewrite (E y H), IH. Qed.
Lemma clashes_dep n m es : Forall (fun e => Forall (fun t => (snd t < m)%nat) (snd e)) es -> dep n m (fun _ nu => clashes es nu).
Proof.
  intros F I J nu nu' _ E. assert (X : forall e, In e es -> eval nu' e = eval nu e).
  { intros e He. rewrite Forall_forall in F. unfold eval. f_equal. apply lval_ext with m; auto. }
  clear F. unfold clashes. intros H. induction H as [|a l Ha H IH]; [constructor|]. constructor.
  - rewrite Forall_forall in *. intros f Hf. unfold differ. rewrite (X a), (X f); [now apply Ha|now right|now left].
  - apply IH. intros e He. apply X. now right.
Qed.

Section Distinct.
Context (O : oracle) (cfg : config) (Base : interp -> Prop) (n0 : Z).
Context (BO : base_ok Base n0) (CO : clasp_ok O Base).
Notation good := (good Base).
Notation step := (step Base).
Notation holds := (holds Base).
Notation pstep := (pstep O Base).
Notation justified := (justified O).
Notation ready := (ready O n0).

(** Literals at and below the current bounds do not need a new literal. *)
Lemma update_lower_false x t s l s' : ready s -> (x < nvars s)%nat ->
  update_literal O cfg x (lb (vst s x) - 1) t s = (l, s') -> s' = s /\ is_false O s l = true.
Proof.
  intros R Hx E. unfold update_literal in E.
  assert (G : get_literal cfg x (lb (vst s x) - 1) s = (l, s') -> s' = s /\ is_false O s l = true) by (apply (lower_false O cfg Base CO); auto; apply R).
  destruct t; [| |exact (G E)]; (destruct (0 <? dlevel O s)%nat; [exact (G E)|]); clear G;
  destruct (rd_just _ _ _ R x Hx) as (J1 & _); destruct (rd_bnds _ _ _ R x Hx) as (B1 & B2 & B3);
  (destruct (lb (vst s x) - 1 <? minb (vst s x)) eqn:C1; [injection E as <- <-; split; [easy|]; apply (cl_one _ _ CO)|]);
  (destruct J1 as (k & K1 & K2); [lia|]); replace (maxb (vst s x) <=? lb (vst s x) - 1) with false in E by lia;
  (assert (F : vfind (vst s x) (lb (vst s x) - 1) = Some k) by (apply m_find_in; [now apply (rd_wf _ _ _ R)|easy])); rewrite F in E; injection E as <- <-; now split.
Qed.
Lemma update_upper_true x t s l s' : ready s -> (x < nvars s)%nat ->
  update_literal O cfg x (ub (vst s x)) t s = (l, s') -> s' = s /\ is_true O s l = true.
Proof.
  intros R Hx E. unfold update_literal in E.
  assert (G : get_literal cfg x (ub (vst s x)) s = (l, s') -> s' = s /\ is_true O s l = true) by (apply (upper_true O cfg Base CO); auto; apply R).
  destruct t; [| |exact (G E)]; (destruct (0 <? dlevel O s)%nat; [exact (G E)|]); clear G;
  destruct (rd_just _ _ _ R x Hx) as (_ & J1); destruct (rd_bnds _ _ _ R x Hx) as (B1 & B2 & B3);
  replace (ub (vst s x) <? minb (vst s x)) with false in E by lia;
  (destruct (maxb (vst s x) <=? ub (vst s x)) eqn:C1; [injection E as <- <-; split; [easy|]; apply (cl_one _ _ CO)|]);
  (destruct J1 as (k & K1 & K2); [lia|]);
  (assert (F : vfind (vst s x) (ub (vst s x)) = Some k) by (apply m_find_in; [now apply (rd_wf _ _ _ R)|easy])); rewrite F in E; injection E as <- <-; now split.
Qed.

(** Literals collected in a reason: if they are false then [F]. *)
Record reason (s : state) (ls : list lit) (F : interp -> (var -> Z) -> Prop) : Prop := {
  re_below : Forall (below (nxt s)) ls;
  re_holds : holds s (fun I nu => (forall l, In l ls -> ~ lit_true I l) -> F I nu) }.
Definition falses (s : state) (ls : list lit) : Prop := Forall (fun l => is_false O s l = true) ls.
Lemma push_ok s l r F : below (nxt s) l -> is_false O s l = true -> reason s r F ->
  reason s (push_reason O s l r) (fun I nu => F I nu /\ ~ lit_true I l) /\ (falses s r -> falses s (push_reason O s l r)).
Proof.
  intros B H [A1 A3]. unfold push_reason. destruct (is_fixed O s l) eqn:E.
  - split; [|easy]. constructor; auto. intros I nu Gd Od N. split; [now apply (A3 I nu)|]. now apply (fixed_false O Base CO s l (proj1 B) H E I nu).
  - split; [constructor|].
    + apply Forall_app. split; [easy|now constructor].
    + intros I nu Gd Od N. split; [apply (A3 I nu Gd Od); intros k Hk; apply N, in_or_app; now left|]. apply N, in_or_app. right. now left.
    + intros X. apply Forall_app. split; [easy|now constructor].
Qed.
Lemma reason_impl s r (F F' : interp -> (var -> Z) -> Prop) : holds s (fun I nu => F I nu -> F' I nu) -> reason s r F -> reason s r F'.
Proof. intros H [A1 A3]. constructor; auto. intros I nu Gd Od N. apply (H I nu Gd Od). now apply (A3 I nu Gd Od). Qed.
Lemma reason_pstep Q s s' r F : pstep Q s s' true -> reason s r F -> reason s' r F.
Proof.
  intros R [A1 A3]. constructor.
  - eapply Forall_impl; [|exact A1]. intros l. now apply (below_pstep O Base) with (1 := R).
  - now apply (holds_pstep O Base) with (1 := R).
Qed.
Lemma falses_pstep Q s s' r : pstep Q s s' true -> falses s r -> falses s' r.
Proof. intros R A. eapply Forall_impl; [|exact A]. intros l. now apply (false_pstep O Base CO) with (1 := R). Qed.
Lemma reason_last s r F l : reason s r F -> below (nxt s) l -> reason s (r ++ [l]) (fun I nu => F I nu /\ ~ lit_true I l).
Proof.
  intros [A1 A3] B. constructor.
  - apply Forall_app. split; [easy|now constructor].
  - intros I nu Gd Od N. split; [apply (A3 I nu Gd Od); intros k Hk; apply N, in_or_app; now left|]. apply N, in_or_app. right. now left.
Qed.

Lemma assigned_ok ts : forall r s r' s' F, ready s -> elems_ok s ts -> reason s r F ->
  reason_assigned O cfg ts r s = (r', s') ->
  s' = s /\ reason s r' (fun I nu => F I nu /\ forall co x, In (co, x) ts -> lb (vst s x) <= nu x <= ub (vst s x)) /\ (falses s r -> falses s r').
Proof.
  induction ts as [|[co x] t IH]; intros r s r' s' F R El Re E; cbn [reason_assigned] in E.
  { injection E as <- <-. csplit; auto. apply reason_impl with (2 := Re). now intros I nu _ _. }
  inversion El as [|? ? [Nz Hx] El']; subst. cbn [fst snd] in Nz, Hx.
  destruct (get_literal cfg x (ub (vst s x)) s) as [u s1] eqn:G1. destruct (upper_true O cfg Base CO x s u s1 (rd_wf _ _ _ R) (rd_just _ _ _ R) (rd_bnds _ _ _ R) Hx G1) as (-> & T1).
  destruct (pstep_get O cfg Base n0 BO T2 x (ub (vst s x)) s u s (rd_wf _ _ _ R) Hx (rd_nxt _ _ _ R) G1) as (_ & M1 & _).
  destruct (get_literal cfg x (lb (vst s x) - 1) s) as [l s2] eqn:G2. destruct (lower_false O cfg Base CO x s l s2 (rd_wf _ _ _ R) (rd_just _ _ _ R) (rd_bnds _ _ _ R) Hx G2) as (-> & T2').
  destruct (pstep_get O cfg Base n0 BO T2 x (lb (vst s x) - 1) s l s (rd_wf _ _ _ R) Hx (rd_nxt _ _ _ R) G2) as (_ & M2 & _).
  assert (B1 := lit_means_below s u x _ (proj1 (rd_wf _ _ _ R)) Hx M1). assert (B2 := lit_means_below s l x _ (proj1 (rd_wf _ _ _ R)) Hx M2).
  assert (H1 := means_holds Base s u x _ Hx M1). assert (H2 := means_holds Base s l x _ Hx M2).
  assert (Fu : is_false O s (- u) = true) by (unfold is_false; rewrite Z.opp_involutive; exact T1).
  destruct (push_ok s (- u) r F (below_neg _ _ B1) Fu Re) as (Re1 & X1). destruct (push_ok s l _ _ B2 T2' Re1) as (Re2 & X2).
  destruct (IH _ s r' s' _ R El' Re2 E) as (-> & Re3 & X3). csplit; auto.
  apply reason_impl with (2 := Re3). intros I nu Gd Od (((Y1 & Y2) & Y3) & Y4). split; [easy|].
  intros c y [Q|Q]; [|now apply (Y4 c)]. injection Q as <- <-.
  rewrite lit_true_neg in Y2 by apply B1. specialize (H1 I nu Gd Od). specialize (H2 I nu Gd Od).
  destruct (lit_true_dec I u) as [D|D]; [|tauto]. apply H1 in D. rewrite H2 in Y3. lia.
Qed.

(** [fact] is set only if there is one term, whose variable cannot have the extreme value. *)
Record bd_post (P : interp -> (var -> Z) -> Prop) (sgn : Z) (ts : list (Z * var)) (F : interp -> (var -> Z) -> Prop) (r : list lit) (s s' : state) (o : option (list lit)) : Prop := {
  bd_step : pstep P s s' true;
  bd_css : css s' = css s;
  bd_ina : ina s' = ina s;
  bd_some : forall r', o = Some r' -> reason s' r' (fun I nu => F I nu /\ forall co x, In (co, x) ts -> nu x = extreme s sgn co x);
  bd_fix : falses s r -> (forall co x, In (co, x) ts -> lb (vst s x) = ub (vst s x)) -> exists r', o = Some r' /\ falses s' r' }.

Lemma bounded_ok P sgn ts : forall fact r s o s' F, ready s -> elems_ok s ts -> dep (nxt s) (nvars s) P -> reason s r F ->
  (fact = true -> forall co x, In (co, x) ts -> ts = [(co, x)] /\ holds s (fun I nu => P I nu -> F I nu -> nu x = extreme s sgn co x -> False)) ->
  reason_bounded O cfg sgn fact ts r s = (o, s') -> bd_post P sgn ts F r s s' o.
Proof.
  induction ts as [|[co x] t IH]; intros fact r s o s' F R El D Re Fa E; cbn [reason_bounded] in E.
  { injection E as <- <-. constructor; auto.
    - now apply pstep_refl, R.
    - intros r' H. injection H as <-. apply reason_impl with (2 := Re). now intros I nu _ _.
    - intros H _. now exists r. }
  inversion El as [|? ? [Nz Hx] El']; subst. cbn [fst snd] in Nz, Hx.
  assert (EXT : forall b : bool, (0 <? sgn * co) = b -> forall q z val t0 g s1, below (nxt s) q -> is_false O s q = true ->
     update_literal O cfg x val t0 s = (g, s1) -> (z = if b then g else - g) ->
     t0 = (if fact && is_nil (push_reason O s q r) then (if b then TTrue else TFalse) else TFree) ->
     holds s (fun I nu => ~ lit_true I q -> if b then nu x <= ub (vst s x) else lb (vst s x) <= nu x) ->
     val = (if b then ub (vst s x) - 1 else lb (vst s x)) ->
     (if is_true O s1 z then (None, s1) else reason_bounded O cfg sgn fact t (push_reason O s q r ++ [z]) s1) = (o, s') ->
     bd_post P sgn ((co, x) :: t) F r s s' o).
  2:{ destruct (0 <? sgn * co) eqn:Sg.
      - destruct (get_literal cfg x (ub (vst s x)) s) as [u s1] eqn:G1. destruct (upper_true O cfg Base CO x s u s1 (rd_wf _ _ _ R) (rd_just _ _ _ R) (rd_bnds _ _ _ R) Hx G1) as (-> & T1).
        destruct (pstep_get O cfg Base n0 BO T2 x (ub (vst s x)) s u s (rd_wf _ _ _ R) Hx (rd_nxt _ _ _ R) G1) as (_ & M1 & _).
        assert (B1 := lit_means_below s u x _ (proj1 (rd_wf _ _ _ R)) Hx M1). assert (H1 := means_holds Base s u x _ Hx M1).
        destruct (update_literal O cfg x (ub (vst s x) - 1) _ s) as [g s1] eqn:G2.
        apply (EXT true eq_refl (- u) g _ _ g s1) with (3 := G2); auto.
        + now apply below_neg.
        + unfold is_false. now rewrite Z.opp_involutive.
        + intros I nu Gd Od N. rewrite lit_true_neg in N by apply B1. apply (H1 I nu Gd Od). destruct (lit_true_dec I u); tauto.
      - destruct (get_literal cfg x (lb (vst s x) - 1) s) as [l s1] eqn:G1. destruct (lower_false O cfg Base CO x s l s1 (rd_wf _ _ _ R) (rd_just _ _ _ R) (rd_bnds _ _ _ R) Hx G1) as (-> & T1).
        destruct (pstep_get O cfg Base n0 BO T2 x (lb (vst s x) - 1) s l s (rd_wf _ _ _ R) Hx (rd_nxt _ _ _ R) G1) as (_ & M1 & _).
        assert (B1 := lit_means_below s l x _ (proj1 (rd_wf _ _ _ R)) Hx M1). assert (H1 := means_holds Base s l x _ Hx M1).
        destruct (update_literal O cfg x (lb (vst s x)) _ s) as [g s1] eqn:G2.
        apply (EXT false eq_refl l (- g) _ _ g s1) with (3 := G2); auto.
        intros I nu Gd Od N. specialize (H1 I nu Gd Od). rewrite H1 in N. lia. }
  clear E. intros b Sg q z val t0 g s1 Bq Fq UL Hz Ht Hq Hv E.
  destruct (push_ok s q r F Bq Fq Re) as (Re1 & Fr1). assert (TR : holds s (fun I nu => P I nu -> truth_ok t0 x val I nu)).
  { rewrite Ht. intros I nu Gd Od HP. destruct fact; [|easy]. destruct (push_reason O s q r) as [|p ps] eqn:PR; [|easy]. cbn [andb is_nil].
    destruct (Fa eq_refl co x (or_introl eq_refl)) as (_ & Fa'). destruct (re_holds _ _ _ Re1 I nu Gd Od) as (X1 & X2); [easy|].
    specialize (Fa' I nu Gd Od HP X1). specialize (Hq I nu Gd Od X2). unfold extreme in Fa'. rewrite Sg in Fa'. rewrite Hv. destruct b; cbn; lia. }
  destruct (pstep_update O cfg Base n0 BO P x val t0 s g s1 (rd_wf _ _ _ R) Hx (rd_nxt _ _ _ R) TR UL) as (U1 & U2 & U3 & U4).
  assert (Hx1 : (x < nvars s1)%nat) by now apply (nvars_pstep O Base) with (1 := U1).
  assert (Bg := lit_means_below s1 g x val (proj1 (ps_wf _ _ _ _ _ _ U1)) Hx1 U2). assert (Mg := means_holds Base s1 g x val Hx1 U2).
  assert (Bz : below (nxt s1) z) by (rewrite Hz; destruct b; [easy|now apply below_neg]).
  assert (FX : lb (vst s x) = ub (vst s x) -> s1 = s /\ is_false O s z = true).
  { intros EQ. rewrite Hv in UL. destruct b.
    - rewrite <- EQ in UL. apply update_lower_false in UL as (-> & X); auto. now rewrite Hz.
    - rewrite EQ in UL. apply update_upper_true in UL as (-> & X); auto. rewrite Hz. unfold is_false. now rewrite Z.opp_involutive. }
  destruct (is_true O s1 z) eqn:Tz.
  { injection E as <- <-. constructor; auto; [easy|]. intros _ H. destruct (FX (H co x (or_introl eq_refl))) as (-> & X).
    exfalso. apply (cl_cons _ _ CO _ _ Tz). exact X. }
  assert (R1 : ready s1) by now apply (ready_pstep O Base n0 CO) with (1 := U1).
  assert (El1 : elems_ok s1 t) by now apply (elems_pstep O Base) with (1 := U1).
  assert (Re2 := reason_last s1 _ _ z (reason_pstep _ _ _ _ _ U1 Re1) Bz).
  assert (Re3 : reason s1 (push_reason O s q r ++ [z]) (fun I nu => F I nu /\ nu x = extreme s sgn co x)).
  { apply reason_impl with (2 := Re2). intros I nu Gd Od ((X1 & X2) & Nz'). split; [easy|]. specialize (Mg I nu Gd Od).
    pose proof (holds_pstep O Base _ _ _ _ _ U1 Hq I nu Gd Od X2) as X3. unfold extreme. rewrite Sg. rewrite Hz in Nz'. rewrite Hv in Mg. destruct b.
    + rewrite Mg in Nz'. lia.
    + rewrite lit_true_neg in Nz' by apply Bg. destruct (lit_true_dec I g) as [Y|Y]; [|tauto]. apply Mg in Y. lia. }
  destruct (IH fact _ s1 o s' _ R1 El1 (dep_pstep O Base _ _ _ _ _ U1 D) Re3) as [I1 I2 I3 I4 I5]; auto.
  { intros Hf c y Hc. destruct (Fa Hf co x (or_introl eq_refl)) as (Q & _). injection Q as Q. now rewrite Q in Hc. }
  assert (S01 : same3 s s1) by apply U1. constructor; try congruence.
  - now apply pstep_trans with s1.
  - intros r' Hr. apply reason_impl with (2 := I4 r' Hr). intros I nu Gd Od ((Z1 & Z2) & Z3). split; [easy|].
    intros c y [Q|Q]; [injection Q as <- <-; exact Z2|]. rewrite (Z3 c y Q). now apply extreme_same3.
  - intros Fr H. destruct (FX (H co x (or_introl eq_refl))) as (-> & X). apply I5; [|intros c y Q; apply (H c); now right].
    apply Forall_app. split; [now apply Fr1|now constructor].
Qed.

(** When the constraint literal is fixed, it is fixed to true. *)
Definition lit_safe (clit : lit) (s : state) : Prop := forall s', later O (log s) (log s') -> is_fixed O s' (- clit) = true -> is_true O s' clit = true.
Lemma safe_pstep clit Q s s' : pstep Q s s' true -> lit_safe clit s -> lit_safe clit s'.
Proof. intros R H s2 L. apply H. apply later_trans with (log s'); [now apply (ps_later _ _ _ _ _ _ R)|exact L]. Qed.

(** Every clause is guarded by the constraint literal ([guard = true]), unless the literal
    became false on the top level after the propagation started. *)
Definition dsem (guard : bool) (clit : lit) (es : list delem) (I : interp) (nu : var -> Z) : Prop :=
  (guard = true -> lit_true I clit) -> clashes es nu.
Definition guarded (guard : bool) (clit : lit) (s : state) : Prop := guard = true -> lit_safe clit s.

Section Pairs.
Context (guard : bool) (clit : lit) (es : list delem).
Notation P := (dsem guard clit es).
(** Conditions on the constraint that last during propagation. *)
Record dis (s : state) : Prop := {
  di_ready : ready s;
  di_lit : below (nxt s) clit;
  di_vars : Forall (fun e => elems_ok s (snd e)) es;
  di_safe : guarded guard clit s }.
Lemma di_dep s : dis s -> dep (nxt s) (nvars s) P.
Proof.
  intros [_ B V _] I J nu nu' A E H G. assert (X := clashes_dep (nxt s) (nvars s) es).
  refine (X _ I J nu nu' A E _).
  - eapply Forall_impl; [|exact V]. intros e. apply Forall_impl. now intros t [].
  - apply H. intros g. apply (lit_true_agree _ I J clit A B). now apply G.
Qed.
Lemma dis_pstep s s' : pstep P s s' true -> dis s -> dis s'.
Proof.
  intros R [A1 A2 A3 A4]. constructor.
  - now apply (ready_pstep O Base n0 CO) with (1 := R).
  - now apply (below_pstep O Base) with (1 := R).
  - eapply Forall_impl; [|exact A3]. intros e. now apply (elems_pstep O Base) with (1 := R).
  - intros g. apply safe_pstep with (1 := R). now apply A4.
Qed.

Lemma dist_pair_ok sgn i j ei ej s b s' : dis s -> (sgn = 1 \/ sgn = -1) -> i <> j -> nth_error es i = Some ei -> nth_error es j = Some ej ->
  fst (dist_init s ei) = snd (dist_init s ei) -> dbound s sgn ej = fst (dist_init s ei) ->
  dist_pair O cfg clit sgn ei ej s = (b, s') ->
  pstep P s s' b /\ css s' = css s /\ ina s' = ina s /\
  (units O -> (forall t lg, o_answer O (EClause t [] :: lg) = false) -> is_true O s clit = true ->
   fst (dist_init s ej) = snd (dist_init s ej) -> b = false).
Proof.
  intros DI Sg Nij Hi Hj Fi Bj E. assert (D := di_dep s DI). destruct DI as [R Bc V Sf]. unfold dist_pair in E.
  assert (Vi : elems_ok s (snd ei)) by (rewrite Forall_forall in V; apply V; now apply nth_error_In with i).
  assert (Vj : elems_ok s (snd ej)) by (rewrite Forall_forall in V; apply V; now apply nth_error_In with j).
  assert (Re0 : reason s (push_reason O s (- clit) []) (fun I nu => guard = true -> lit_true I clit)).
  { constructor.
    - unfold push_reason. destruct (is_fixed O s (- clit)); [constructor|]. constructor; [now apply below_neg|constructor].
    - intros I nu Gd Od N g. destruct (lit_true_dec I clit) as [T|T]; [easy|]. unfold push_reason in N. destruct (is_fixed O s (- clit)) eqn:Fx.
      + assert (Tc : is_true O s clit = true) by (apply (Sf g); [constructor|easy]). apply (cl_fixneg _ _ CO) in Fx. rewrite Z.opp_involutive in Fx.
        destruct Gd as (G1 & G2 & G3). apply (cl_top _ _ CO (log s)); auto.
      + exfalso. apply (N (- clit)); [now left|]. apply lit_true_neg; [apply Bc|easy]. }
  destruct (reason_assigned O cfg (snd ei) (push_reason O s (- clit) []) s) as [r1 s1] eqn:E1.
  destruct (assigned_ok _ _ _ _ _ _ R Vi Re0 E1) as (-> & Re1 & Fr1). clear E1.
  assert (BN : forall ts, elems_ok s ts -> Forall (fun e => fst e <> 0 /\ lb (vst s (snd e)) <= ub (vst s (snd e))) ts).
  { intros ts El. eapply Forall_impl; [|exact El]. intros [c y] [H1 H2]. split; [easy|]. cbn in *. destruct (rd_bnds _ _ _ R y H2). tauto. }
  assert (VI : forall nu : var -> Z, (forall co x, In (co, x) (snd ei) -> lb (vst s x) <= nu x <= ub (vst s x)) -> eval nu ei = fst (dist_init s ei)).
  { intros nu H. unfold eval, dist_init. cbn [fst]. f_equal. rewrite (at_extreme s (-1) (snd ei) nu); auto.
    intros co x Hc _. specialize (H co x Hc). unfold dist_init in Fi. cbn [fst snd] in Fi. destruct (fixed_vars s (snd ei) (BN _ Vi)) as (_ & Q).
    assert (EQ : lb (vst s x) = ub (vst s x)) by (apply (proj1 Q ltac:(lia) co); easy). unfold extreme. destruct (0 <? -1 * co); lia. }
  assert (VJ : forall nu : var -> Z, (forall co x, In (co, x) (snd ej) -> nu x = extreme s sgn co x) -> eval nu ej = dbound s sgn ej).
  { intros nu H. unfold eval, dbound, dist_init. cbn [fst snd]. rewrite (at_extreme s sgn (snd ej) nu); auto. now destruct (0 <? sgn). }
  assert (DF : forall nu, clashes es nu -> eval nu ei <> eval nu ej).
  { intros nu H. apply (ford_nth (differ nu) es) with (i := i) (j := j); auto. unfold differ. congruence. }
  destruct (reason_bounded O cfg sgn (Nat.eqb (length (snd ej)) 1) (snd ej) r1 s) as [o s2] eqn:E2.
  assert (Fa : Nat.eqb (length (snd ej)) 1 = true -> forall co x, In (co, x) (snd ej) -> snd ej = [(co, x)] /\ holds s (fun I nu => P I nu ->
     ((guard = true -> lit_true I clit) /\ (forall co x, In (co, x) (snd ei) -> lb (vst s x) <= nu x <= ub (vst s x))) -> nu x = extreme s sgn co x -> False)).
  { intros Hf co x Hc. assert (HL : snd ej = [(co, x)]).
    { destruct (snd ej) as [|a [|a' l]]; [easy| |discriminate]. destruct Hc as [->|[]]. easy. }
    split; [easy|]. intros I nu Gd Od HP (X1 & X2) X3. apply (DF nu (HP X1)). rewrite (VI nu X2), (VJ nu); [easy|].
    rewrite HL. intros c y [Q|[]]. injection Q as <- <-. exact X3. }
  destruct (bounded_ok P sgn (snd ej) _ _ _ _ _ _ R Vj D Re1 Fa E2) as [B1 B2 B3 B4 B5].
  destruct o as [r2|].
  2:{ injection E as <- <-. csplit; auto. intros _ _ Tc Fj. exfalso. destruct B5 as (r' & Hr & _); [| |discriminate].
      - apply Fr1. unfold push_reason. destruct (is_fixed O s (- clit)); constructor; [|constructor]. unfold is_false. now rewrite Z.opp_involutive.
      - intros co x Hc. unfold dist_init in Fj. cbn [fst snd] in Fj. destruct (fixed_vars s (snd ej) (BN _ Vj)) as (_ & Q). apply (proj1 Q ltac:(lia) co); easy. }
  destruct (B4 r2 eq_refl) as [L1 L2].
  destruct (pstep_clause O Base P Learnt r2 s2 b s') as (V1 & V2 & V3); auto.
  { apply B1. }
  { intros I nu Gd Od HP. destruct (clause_dec I r2) as [X|X]; [exact X|exfalso].
    destruct (L2 I nu Gd Od X) as ((X1 & X2) & X3). apply (DF nu (HP X1)). rewrite (VI nu X2), (VJ nu X3). easy. }
  csplit.
  - now apply pstep_trans with s2.
  - apply (add_clause_ext O) in E as (_ & -> & _). easy.
  - apply (add_clause_ext O) in E as (_ & _ & ->). easy.
  - intros UU UE Tc Fj. destruct B5 as (r' & Hr & Fr).
    + apply Fr1. unfold push_reason. destruct (is_fixed O s (- clit)); constructor; [|constructor]. unfold is_false. now rewrite Z.opp_involutive.
    + intros co x Hc. unfold dist_init in Fj. cbn [fst snd] in Fj. destruct (fixed_vars s (snd ej) (BN _ Vj)) as (_ & Q). apply (proj1 Q ltac:(lia) co); easy.
    + injection Hr as <-. destruct r2 as [|q qs].
      * injection E as <- <-. apply UE.
      * apply (all_false O Base CO UU) with (3 := E); [discriminate|exact Fr].
Qed.

Definition okb (r : outcome bool) : bool := match r with Ok true => true | _ => false end.
Record dp_post (s s' : state) (r : outcome bool) : Prop := {
  dp_step : pstep P s s' (okb r);
  dp_css : css s' = css s;
  dp_ina : ina s' = ina s;
  dp_ok : exists b, r = Ok b }.
Lemma dp_refl s b : dis s -> dp_post s s (Ok b).
Proof. intros DI. constructor; auto; [apply pstep_refl, DI|now exists b]. Qed.
Lemma andthen_ok s r s1 f r' s' : dis s -> dp_post s s1 r -> (r = Ok true -> dis s1 -> dp_post s1 (snd (f s1)) (fst (f s1))) ->
  andthen (r, s1) f = (r', s') -> dp_post s s' r' /\ (r' = Ok true -> r = Ok true /\ f s1 = (Ok true, s')).
Proof.
  intros DI [A1 A2 A3 (b & ->)] H E. unfold andthen in E. destruct b.
  - specialize (H eq_refl (dis_pstep _ _ A1 DI)). rewrite E in H. destruct H as [B1 B2 B3 B4]. cbn [fst snd] in *. split.
    + constructor; try congruence. apply pstep_trans with s1; auto. now apply di_dep.
    + intros ->. now split.
  - injection E as <- <-. split; [|discriminate]. constructor; auto. now exists false.
Qed.

(** Two elements have been assigned the same value. *)
Definition clash (s : state) (i j : nat) : Prop := i <> j /\ exists ei ej, nth_error es i = Some ei /\ nth_error es j = Some ej /\
  fst (dist_init s ei) = snd (dist_init s ei) /\ dist_init s ej = dist_init s ei.
Lemma clash_same3 s s' i j : same3 s s' -> clash s i j -> clash s' i j.
Proof. intros H (N & ei & ej & A & B & C & D). split; [easy|]. exists ei, ej. rewrite !(init_same3 s s') by easy. easy. Qed.
(** clasp reports false and empty clauses. *)
Definition alert (s : state) : Prop := units O /\ (forall t lg, o_answer O (EClause t [] :: lg) = false) /\ is_true O s clit = true.
Lemma alert_pstep s s' : pstep P s s' true -> alert s -> alert s'.
Proof. intros R (A & B & C). split; [easy|]. split; [easy|]. now apply (true_pstep O Base CO) with (1 := R). Qed.

Lemma dist_others_ok sgn i ei js : forall s r s', dis s -> (sgn = 1 \/ sgn = -1) -> nth_error es i = Some ei -> fst (dist_init s ei) = snd (dist_init s ei) ->
  (forall j, In j js -> exists ej, nth_error es j = Some ej /\ dbound s sgn ej = fst (dist_init s ei)) ->
  dist_others O cfg clit sgn es i js s = (r, s') -> dp_post s s' r /\ (alert s -> forall j, In j js -> clash s i j -> r <> Ok true).
Proof.
  induction js as [|j js IH]; intros s r s' DI Sg Hi Fi Hjs E; cbn [dist_others] in E.
  { injection E as <- <-. split; [now apply dp_refl|easy]. }
  destruct (Nat.eqb j i) eqn:Eji.
  { destruct (IH s r s') as (A & B); auto; [intros; apply Hjs; now right|]. split; [easy|]. intros U k [<-|Hk] C; [apply Nat.eqb_eq in Eji; exfalso; destruct C as (N & _); congruence|now apply (B U k)]. }
  destruct (Hjs j (or_introl eq_refl)) as (ej & Hj & Bj). rewrite Hi, Hj in E.
  destruct (dist_pair O cfg clit sgn ei ej s) as [ok s1] eqn:E1. apply Nat.eqb_neq in Eji.
  destruct (dist_pair_ok sgn i j ei ej s ok s1 DI Sg) as (A1 & A2 & A3 & A4); auto.
  destruct ok.
  - assert (S1 := ps_same _ _ _ _ _ _ A1).
    destruct (IH s1 r s') as ([B1 B2 B3 B4] & B5); auto.
    + now apply (dis_pstep _ _ A1).
    + now rewrite (init_same3 s s1).
    + intros k Hk. destruct (Hjs k (or_intror Hk)) as (ek & K1 & K2). exists ek. split; [easy|]. unfold dbound in *. rewrite !(init_same3 s s1) by easy. easy.
    + split.
      * constructor; try congruence. apply pstep_trans with s1; auto. now apply di_dep.
      * intros U k [<-|Hk] C.
        -- exfalso. destruct U as (U1 & U2 & U3). destruct C as (_ & ei' & ej' & C1 & C2 & C3 & C4). rewrite Hi in C1. rewrite Hj in C2. injection C1 as <-. injection C2 as <-.
           assert (X : true = false); [|discriminate]. apply A4; auto. congruence.
        -- apply (B5 (alert_pstep _ _ A1 U) k Hk). now apply (clash_same3 s s1).
  - injection E as <- <-. split; [|easy]. constructor; auto. now exists false.
Qed.

Lemma dist_assigned_ok asg i ei s r s' : dis s -> asg = map (dist_init s) es -> nth_error es i = Some ei -> fst (dist_init s ei) = snd (dist_init s ei) ->
  dist_assigned O cfg clit es asg (fst (dist_init s ei)) i s = (r, s') -> dp_post s s' r /\ (alert s -> forall j, clash s i j -> r <> Ok true).
Proof.
  intros DI Ha Hi Fi E. unfold dist_assigned in E. destruct (dist_others O cfg clit 1 es i _ s) as [r1 s1] eqn:E1.
  destruct (dist_others_ok 1 i ei (with_value snd asg (fst (dist_init s ei))) s r1 s1 DI (or_introl eq_refl) Hi Fi) as (A & B); [|exact E1|].
  { intros j Hj. apply with_value_in in Hj as (a & H1 & H2). rewrite Ha in H1. rewrite nth_error_map in H1. destruct (nth_error es j) as [ej|]; [|discriminate].
    exists ej. split; [easy|]. injection H1 as <-. exact H2. }
  assert (H : r1 = Ok true -> dis s1 -> dp_post s1 (snd (dist_others O cfg clit (-1) es i (with_value fst asg (fst (dist_init s ei))) s1)) (fst (dist_others O cfg clit (-1) es i (with_value fst asg (fst (dist_init s ei))) s1))).
  { intros Hr D1. destruct (dist_others O cfg clit (-1) es i _ s1) as [r2 s2] eqn:E2.
    assert (S1 : same3 s s1) by apply A.
    destruct (dist_others_ok (-1) i ei (with_value fst asg (fst (dist_init s ei))) s1 r2 s2 D1 (or_intror eq_refl) Hi) as (C & _); auto.
    - now rewrite (init_same3 s s1).
    - intros j Hj. apply with_value_in in Hj as (a & H1 & H2). rewrite Ha in H1. rewrite nth_error_map in H1. destruct (nth_error es j) as [ej|]; [|discriminate].
      exists ej. split; [easy|]. injection H1 as <-. unfold dbound. rewrite !(init_same3 s s1) by easy. exact H2. }
  destruct (andthen_ok s r1 s1 _ r s' DI A H E) as (C1 & C2). split; [easy|].
  intros U j C Hr. destruct (C2 Hr) as (X1 & _). apply (B U j); auto. apply with_value_in. destruct C as (_ & ei' & ej & Q1 & Q2 & Q3 & Q4).
  rewrite Hi in Q1. injection Q1 as <-. exists (dist_init s ej). split; [rewrite Ha, nth_error_map, Q2; easy|]. now rewrite Q4.
Qed.

Lemma dist_item_ok sgn f asg tlo tup i s r s' : dis s -> asg = map (dist_init s) es -> (i < length es)%nat ->
  (sgn = 1 /\ f = snd \/ sgn = -1 /\ f = fst) ->
  dist_item O cfg clit sgn f es asg tlo tup i s = (r, s') -> dp_post s s' r /\ (alert s -> forall j, clash s i j -> r <> Ok true).
Proof.
  intros DI Ha Hi Sf E. unfold dist_item in E. destruct (nth_error es i) as [ei|] eqn:Ei; [|apply nth_error_None in Ei; lia].
  assert (Ai : nth_error asg i = Some (dist_init s ei)) by (rewrite Ha, nth_error_map, Ei; easy). rewrite Ai in E.
  destruct (dist_init s ei) as [lo hi] eqn:Di.
  assert (NC : lo <> hi -> forall j, clash s i j -> r <> Ok true).
  { intros N j (_ & e1 & e2 & H1 & _ & H2 & _). exfalso. rewrite Ei in H1. injection H1 as <-. rewrite Di in H2. cbn in H2. lia. }
  destruct (lo =? hi) eqn:C.
  { apply (dist_assigned_ok asg i ei s r s' DI Ha Ei); [rewrite Di; cbn; lia|now rewrite Di]. }
  destruct (find (fixed_at asg) (with_value f asg (f (lo, hi)))) as [j|] eqn:Fj.
  2:{ injection E as <- <-. split; [now apply dp_refl|]. intros _. apply NC. lia. }
  destruct (memb j tlo || memb j tup); [injection E as <- <-; split; [now apply dp_refl|]; intros _; apply NC; lia|].
  apply find_some in Fj as (F1 & F2). apply with_value_in in F1 as (a & F1 & F3). unfold fixed_at in F2. rewrite F1 in F2. rewrite Ha, nth_error_map in F1.
  destruct (nth_error es j) as [ej|] eqn:Ej; [|discriminate]. injection F1 as <-.
  destruct (dist_pair O cfg clit sgn ej ei s) as [ok s1] eqn:E1. injection E as <- <-.
  destruct (dist_init s ej) as [lo' hi'] eqn:Dj.
  assert (Nij : j <> i). { intros ->. rewrite Ei in Ej. injection Ej as <-. rewrite Di in Dj. injection Dj as <- <-. lia. }
  destruct (dist_pair_ok sgn j i ej ei s ok s1 DI) as (A1 & A2 & A3 & _); auto.
  - destruct Sf as [[-> _]|[-> _]]; auto.
  - rewrite Dj. cbn. lia.
  - unfold dbound. rewrite Di, Dj. destruct Sf as [[-> ->]|[-> ->]]; cbn in *; lia.
  - split; [|intros _; apply NC; lia]. constructor; auto; [now destruct ok|now exists ok].
Qed.

Lemma dist_items_ok sgn f asg tlo tup is : forall s r s', dis s -> asg = map (dist_init s) es -> Forall (fun i => (i < length es)%nat) is ->
  (sgn = 1 /\ f = snd \/ sgn = -1 /\ f = fst) ->
  dist_items O cfg clit sgn f es asg tlo tup is s = (r, s') -> dp_post s s' r /\ (alert s -> forall i j, In i is -> clash s i j -> r <> Ok true).
Proof.
  induction is as [|i is IH]; intros s r s' DI Ha L Sf E; cbn [dist_items] in E.
  { injection E as <- <-. split; [now apply dp_refl|easy]. }
  inversion L as [|? ? Li L']; subst. destruct (dist_item O cfg clit sgn f es (map (dist_init s) es) tlo tup i s) as [r1 s1] eqn:E1.
  destruct (dist_item_ok sgn f _ tlo tup i s r1 s1 DI eq_refl Li Sf E1) as (A & B).
  assert (EQ : map (dist_init s) es = map (dist_init s1) es) by (apply map_ext; intros e; symmetry; apply init_same3, A).
  assert (H : r1 = Ok true -> dis s1 -> dp_post s1 (snd (dist_items O cfg clit sgn f es (map (dist_init s) es) tlo tup is s1)) (fst (dist_items O cfg clit sgn f es (map (dist_init s) es) tlo tup is s1))).
  { intros _ D1. destruct (dist_items O cfg clit sgn f es (map (dist_init s) es) tlo tup is s1) as [r2 s2] eqn:E2. now apply IH in E2. }
  destruct (andthen_ok s r1 s1 _ r s' DI A H E) as (C1 & C2). split; [easy|].
  intros U k j [<-|Hk] C Hr.
  - destruct (C2 Hr) as (X1 & _). now apply (B U j).
  - destruct (C2 Hr) as (X1 & X2). subst r1. assert (PS : pstep P s s1 true) by apply A.
    apply IH in X2 as (_ & X2); auto; [|now apply (dis_pstep _ _ PS)]. apply (X2 (alert_pstep _ _ PS U) k j Hk); [|easy]. apply (clash_same3 s s1); [apply A|easy].
Qed.
End Pairs.

(** The constraint is in order: variables exist and occur with coefficients other than zero, the
    bounds of elements that are not marked as dirty are up to date. *)
Record dist_ok (s : state) (c : cid) (k : cst) (clit : lit) (es : list delem) : Prop := {
  dk_css : css s c = Some k;
  dk_def : c_def k = CDistinct clit es;
  dk_vars : Forall (fun e => elems_ok s (snd e)) es;
  dk_lit : below (nxt s) clit;
  dk_len : length (c_asg k) = length es;
  dk_asg : forall i e a, nth_error es i = Some e -> nth_error (c_asg k) i = Some a -> ~ In i (c_dirty k) -> a = dist_init s e;
  dk_todo : Forall (fun i => (i < length es)%nat) (c_tlo k ++ c_tup k) }.

Lemma set_cs_pstep P c k s : wf s -> pstep P s (set_cs c k s) true.
Proof.
  intros W. constructor.
  - now apply wf_set_css.
  - apply step_weaken with T2 T2; try easy. apply step_silent; easy.
  - now split.
  - now apply grow_vst.
  - intros _. constructor.
Qed.

Record pd_post (guard : bool) (clit : lit) (es : list delem) (c : cid) (k : cst) (s s' : state) (r : outcome bool) : Prop := {
  pd_step : pstep (dsem guard clit es) s s' (okb r);
  pd_ok : exists b, r = Ok b;
  pd_css : forall c', css s' c' = if Nat.eqb c' c then Some (if okb r then set_dist (map (dist_init s) es) [] [] [] k else set_dist (map (dist_init s) es) [] (c_tup k) (c_tlo k) k) else css s c';
  pd_ina : ina s' = ina s }.

Lemma prop_distinct_ok guard c k clit es s r s' : ready s -> dist_ok s c k clit es -> guarded guard clit s ->
  prop_distinct O cfg c s = (r, s') -> pd_post guard clit es c k s s' r /\
  (alert clit s -> forall i j, In i (c_tlo k ++ c_tup k) -> clash es s i j -> r = Ok false).
Proof.
  intros R [K1 K2 K3 K4 K5 K6 K7] G E. unfold prop_distinct in E. rewrite K1, K2 in E. rewrite (refresh_fresh s es _ _ K5 K6) in E.
  set (asg := map (dist_init s) es) in *. set (s0 := set_cs c (set_dist asg [] (c_tup k) (c_tlo k) k) s) in *.
  assert (PS0 : pstep (dsem guard clit es) s s0 true) by apply set_cs_pstep, R.
  apply Forall_app in K7 as (T1 & T2).
  assert (D : dis guard clit es s) by now constructor. assert (D0 := dis_pstep _ _ _ _ _ PS0 D).
  assert (Ha : asg = map (dist_init s0) es) by (apply map_ext; intros e; symmetry; apply init_same3, PS0).
  destruct (dist_items O cfg clit (-1) fst es asg (c_tlo k) (c_tup k) (c_tlo k) s0) as [r1 s1] eqn:E1.
  destruct (dist_items_ok guard clit es (-1) fst asg _ _ _ s0 r1 s1 D0 Ha T1 (or_intror (conj eq_refl eq_refl)) E1) as ([A1 A2 A3 (b1 & ->)] & A5).
  assert (CS : forall c' k', css (set_cs c k' s) c' = if Nat.eqb c' c then Some k' else css s c') by (intros; cbn; unfold upd; easy).
  assert (ALR : alert clit s -> alert clit s0) by now apply (alert_pstep guard clit es s s0 PS0).
  destruct b1; cbn [andthen] in E.
  2:{ injection E as <- <-. split; [|easy]. constructor; auto.
      - apply pstep_trans with s0; auto. now apply di_dep.
      - now exists false.
      - intros c'. rewrite A2. apply CS. }
  assert (D1 := dis_pstep _ _ _ _ _ A1 D0).
  assert (Ha1 : asg = map (dist_init s1) es) by (rewrite Ha; apply map_ext; intros e; symmetry; apply init_same3, A1).
  destruct (dist_items O cfg clit 1 snd es asg (c_tlo k) (c_tup k) (c_tup k) s1) as [r2 s2] eqn:E2.
  destruct (dist_items_ok guard clit es 1 snd asg _ _ _ s1 r2 s2 D1 Ha1 T2 (or_introl (conj eq_refl eq_refl)) E2) as ([B1 B2 B3 (b2 & ->)] & B5).
  assert (P02 : pstep (dsem guard clit es) s s2 b2).
  { apply pstep_trans with s0; auto; [now apply di_dep|]. apply pstep_trans with s1; auto; [now apply di_dep|]. now destruct b2. }
  destruct b2; cbn [andthen] in E.
  2:{ injection E as <- <-. split; [|easy]. constructor; auto.
      - now exists false.
      - intros c'. rewrite B2, A2. apply CS.
      - now rewrite B3, A3. }
  injection E as <- <-. split.
  - constructor; auto.
    + apply pstep_trans with s2; auto; [now apply di_dep|]. apply set_cs_pstep. apply P02.
    + now exists true.
    + intros c'. cbn. unfold upd. rewrite B2, A2. cbn. unfold upd. now destruct (Nat.eqb c' c).
    + cbn. now rewrite B3, A3.
  - intros U i j Hi C. exfalso. assert (C0 : clash es s0 i j) by (apply (clash_same3 es s s0); [apply PS0|easy]).
    apply in_app_or in Hi as [Hi|Hi]; [now apply (A5 (ALR U) i j Hi)|]. apply (B5 (alert_pstep _ _ _ _ _ A1 (ALR U)) i j Hi); [|easy].
    apply (clash_same3 es s0 s1); [apply A1|easy].
Qed.

(** ** The final check *)
Lemma check_values_ok s es : forall seen, check_values s es seen = Ok tt <->
  (forall e t, In e es -> In t (snd e) -> lb (vst s (snd t)) = ub (vst s (snd t))) /\
  NoDup (map (eval (fun x => lb (vst s x))) es) /\ (forall e, In e es -> ~ In (eval (fun x => lb (vst s x)) e) seen).
Proof.
  induction es as [|[fx ts] r IH]; intros seen; cbn [check_values].
  { split; [|easy]. intros _. csplit; [easy|constructor|easy]. }
  rewrite <- lval_zsum with (nu := fun x => lb (vst s x)).
  assert (FB : forallb (fun e => is_assigned (vst s (snd e))) ts = true <-> forall t, In t ts -> lb (vst s (snd t)) = ub (vst s (snd t))).
  { rewrite forallb_forall. unfold is_assigned. split; intros H t Ht; specialize (H t Ht); lia. }
  destruct (forallb _ ts) eqn:F; cbn [negb].
  2:{ split; [discriminate|]. intros (H & _). assert (X : false = true); [|discriminate]. apply FB. intros t Ht. now apply (H (fx, ts)); [left|]. }
  set (nu := fun x => lb (vst s x)) in *. set (v := fx + lval nu ts).
  assert (EB : existsb (Z.eqb v) seen = true <-> In v seen).
  { rewrite existsb_exists. split; [intros (w & H & E); apply Z.eqb_eq in E; now subst|intros H; exists v; split; [easy|apply Z.eqb_refl]]. }
  destruct (existsb (Z.eqb v) seen) eqn:E.
  { split; [discriminate|]. intros (_ & _ & H). exfalso. apply (H (fx, ts)); [now left|]. now apply EB. }
  rewrite IH. cbn [map]. rewrite NoDup_cons_iff. unfold eval at 3. cbn [fst snd]. fold v. split.
  - intros (A & B & C). csplit; auto.
    + intros e t [<-|He] Ht; [now apply (proj1 FB)|now apply (A e)].
    + rewrite in_map_iff. intros (e & E1 & E2). apply (C e E2). left. now rewrite E1.
    + intros e [<-|He]; [intros X; apply EB in X; discriminate X|]. intros X. apply (C e He). now right.
  - intros (A & (B1 & B2) & C). csplit; auto.
    + intros e t He. apply A. now right.
    + intros e He [X|X]; [apply B1; rewrite X; now apply in_map|]. apply (C e); [now right|easy].
Qed.
Lemma clashes_nodup es nu : clashes es nu <-> NoDup (map (eval nu) es).
Proof.
  unfold clashes. induction es as [|e r IH]; [split; constructor|]. cbn. rewrite NoDup_cons_iff, <- IH. split.
  - intros H. inversion H as [|? ? H1 H2]; subst. split; [|easy]. rewrite in_map_iff. intros (f & F1 & F2). rewrite Forall_forall in H1. now apply (H1 f F2).
  - intros (H1 & H2). constructor; [|easy]. apply Forall_forall. intros f Hf X. apply H1. rewrite X. now apply in_map.
Qed.
End Distinct.
