(** The constraints posted by the builder. *)
From Verif Require Import Base Util UtilProofs IntervalSet IntervalSetProofs VarState VarStateProofs Terms TermsSpec TermsProofs TermsProofs3 StatementsProofs Solver OrderSpec
  OrderProofs1 OrderProofs2 OrderProofs3 OrderProofs5 OrderProofs6 OrderProofs7 OrderProofs8 Sum PropProofs ConSpec
  Distinct Objective Search SearchSpec SearchFrame SearchGrow SearchInv5 SearchSetup Builder BuilderSpec BuilderProofs CheckSpec KeepSpec InitFrame InitSpec.
From Coq Require Import Permutation.
Open Scope Z_scope.

(** ** Frames of add_simple and add_dom *)
Section Frames.
Context (O : oracle) (cfg : config).
Lemma add_simple_fd clit co x rhs strict s : fd s (snd (add_simple O cfg clit co x rhs strict s)).
Proof.
  split; [apply add_simple_fr|]. unfold add_simple. destruct (negb strict && _); [apply deg_refl|].
  destruct (strict && (minb (vst s x) <=? simple_value co rhs) && (simple_value co rhs <? maxb (vst s x)) && _) eqn:C.
  - apply andb_true_iff in C as [C _]. apply andb_true_iff in C as [C C2]. apply andb_true_iff in C as [_ C1].
    assert (ST : forall l u, vst u = vst s -> deg s (store_lit x (simple_value co rhs) l u)) by (intros l u Eu; apply store_deg; auto; lia).
    assert (W : forall l s2, vst s2 = vst s -> deg s (store_lit x (simple_value co rhs) l (litmap_add x (simple_value co rhs) l (add_watch (- l) (add_watch l s2))))).
    { intros l s2 E2. apply ST. unfold litmap_add. pose proof (litmap_vst x l (simple_value co rhs) (add_watch (- l) (add_watch l s2))) as Q.
      destruct (update_litmap _ _ _ _) as [[p n] s1]. cbn [snd] in Q. cbn. rewrite Q. exact E2. }
    assert (F : forall t l, deg s (snd (let '((p, n), s1) := update_litmap x l (simple_value co rhs) s in
        (true, store_lit x (simple_value co rhs) l (push_fact (mkf l x (simple_value co rhs) (match t with TTrue => n | _ => p end)) s1))))).
    { intros t l. pose proof (litmap_vst x l (simple_value co rhs) s) as H. destruct (update_litmap _ _ _ _) as [[p n] s1]. cbn [snd] in *. apply ST. exact H. }
    destruct (if 0 <? co then _ else _); [apply (F TTrue)|apply (F TFalse)|].
    destruct (lookup s _) as [e|]; [|cbn [snd]; now apply W].
    cbn [add_literal]. set (u := emit _ _). assert (Eu : vst u = vst s) by reflexivity. clearbody u.
    unfold add_clause at 1. destruct (o_answer O _); [|apply deg_vst; exact Eu].
    unfold add_clause. destruct (o_answer O _); [|apply deg_vst; exact Eu]. cbn [snd]. apply W. exact Eu.
  - pose proof (deg_upd O cfg x (simple_value co rhs) (if 0 <? co then truth_value O s clit else truth_value O s (- clit)) s) as F1.
    destruct (update_literal _ _ _ _ _ _) as [l s1]. cbn [snd] in F1. apply deg_trans with s1; auto. apply deg_vst.
    unfold add_clause. destruct (o_answer O _); [|reflexivity]. destruct strict; reflexivity.
Qed.
Lemma dom_up_deg l x dom : forall py s, deg s (snd (dom_up O cfg l x py dom s)).
Proof.
  induction dom as [|(a, b) dom IH]; intros py s; cbn [dom_up]; [apply deg_refl|].
  destruct (match py with Some p => _ | None => _ end) as [ly s1] eqn:E1.
  assert (F1 : deg s s1).
  { destruct py as [p|]; [|injection E1 as _ <-; apply deg_refl]. pose proof (deg_get cfg x (p - 1) s) as H. destruct (get_literal _ _ _ _). now injection E1 as _ <-. }
  destruct (update_literal O cfg x (a - 1) _ s1) as [lx s2] eqn:E2. assert (F2 : deg s1 s2) by (change s2 with (snd (lx, s2)); rewrite <- E2; apply deg_upd).
  destruct (add_clause O Learnt _ s2) as [ok s3] eqn:E3. assert (F3 : deg s2 s3) by (change s3 with (snd (ok, s3)); rewrite <- E3; now apply deg_vst).
  destruct ok; (apply deg_trans with s1; auto; apply deg_trans with s2; auto). apply deg_trans with s3; auto.
Qed.
Lemma dom_down_deg l x dom : forall py s, deg s (snd (dom_down O cfg l x py dom s)).
Proof.
  induction dom as [|(a, b) dom IH]; intros py s; cbn [dom_down]; [apply deg_refl|].
  destruct (match py with Some p => _ | None => _ end) as [ly s1] eqn:E1.
  assert (F1 : deg s s1).
  { destruct py as [p|]; [|injection E1 as _ <-; apply deg_refl]. pose proof (deg_get cfg x (p - 1) s) as H. destruct (get_literal _ _ _ _). now injection E1 as _ <-. }
  destruct (update_literal O cfg x (b - 1) _ s1) as [lx s2] eqn:E2. assert (F2 : deg s1 s2) by (change s2 with (snd (lx, s2)); rewrite <- E2; apply deg_upd).
  destruct (add_clause O Learnt _ s2) as [ok s3] eqn:E3. assert (F3 : deg s2 s3) by (change s3 with (snd (ok, s3)); rewrite <- E3; now apply deg_vst).
  destruct ok; (apply deg_trans with s1; auto; apply deg_trans with s2; auto). apply deg_trans with s3; auto.
Qed.
Lemma add_dom_fd l x dom s : fd s (snd (add_dom O cfg l x dom s)).
Proof.
  split; [apply add_dom_fr|]. unfold add_dom. destruct (is_false _ _ _); [apply deg_refl|].
  pose proof (dom_up_deg (if is_true O s l then TRUE_LIT else l) x dom None s) as H. destruct (dom_up _ _ _ _ _ _ _) as [ok s1]. cbn [snd] in H.
  destruct ok; auto. apply deg_trans with s1; auto. apply dom_down_deg.
Qed.
End Frames.

(** ** Calls *)
Inductive bmv (D : constr -> Prop) (b : bld) : bld -> Prop :=
| bm_refl : bmv D b b
| bm_lits b1 s : bmv D b b1 -> fd (b_s b1) s -> bmv D b (mkb s (b_cs b1) (b_id b1))
| bm_post d b1 : bmv D b b1 -> D d -> bmv D b (post d b1).
Lemma bmv_trans D b b1 b2 : bmv D b b1 -> bmv D b1 b2 -> bmv D b b2.
Proof.
  intros A B. induction B as [|u s B IH F|d u B IH H]; auto.
  - now apply bm_lits.
  - now apply bm_post.
Qed.
Lemma bmv_more (D E : constr -> Prop) b b1 : (forall d, D d -> E d) -> bmv D b b1 -> bmv E b b1.
Proof. intros H B. induction B as [|u s B IH F|d u B IH Hd]; [apply bm_refl|now apply bm_lits|apply bm_post; auto]. Qed.
Lemma bmv_cs D b b1 : bmv D b b1 -> exists ds, b_cs b1 = b_cs b ++ ds /\ Forall (fun p => D (snd p)) ds.
Proof.
  induction 1 as [|u s B IH F|d u B IH Hd].
  - exists []. split; [now rewrite app_nil_r|constructor].
  - exact IH.
  - destruct IH as (ds & E & F). exists (ds ++ [(b_id u, d)]). cbn [post b_cs]. split; [now rewrite E, app_assoc|]. apply Forall_app. split; auto.
Qed.
Lemma add_con_nv c d s : nvars (add_constraint c d s) = nvars s.
Proof. destruct (css s c) eqn:K; [unfold add_constraint; now rewrite K|]. now destruct (add_con_state c d s K) as (_ & _ & _ & Q & _). Qed.
Lemma only_nv s s' : literals_only s s' -> nvars s' = nvars s.
Proof. intros (A & _). now apply same3_nvars. Qed.
Lemma bmv_nv D b b1 : bmv D b b1 -> nvars (b_s b1) = nvars (b_s b).
Proof.
  induction 1 as [|u s B IH [[F _] _]|d u B IH Hd]; auto.
  - cbn [b_s]. rewrite <- IH. now apply only_nv.
  - cbn [post b_s]. rewrite <- IH. apply add_con_nv.
Qed.
Lemma bmv_mv (D : constr -> Prop) b b1 : (forall d, D d -> Forall (fun x => x < nvars (b_s b))%nat (cvars d)) -> bmv D b b1 -> mv (b_s b) (b_s b1).
Proof.
  intros H B. induction B as [|u s B IH F|d u B IH Hd].
  - apply mv_refl.
  - cbn [b_s]. now apply mv_lits with (b_s u).
  - cbn [post b_s]. apply mv_con; auto. rewrite (bmv_nv D b u B). auto.
Qed.

Section Calls.
Context (O : oracle) (cfg : config) (srt : list (Z * var) -> list (Z * var)) (PS : forall es, Permutation (srt es) es).
Definition sums (m : nat) (d : constr) : Prop := match d with CSum _ _ _ => shape d /\ Forall (fun x => x < m)%nat (cvars d) | _ => False end.
Definition tidy (es : list (Z * var)) : Prop := Forall (fun e => fst e <> 0) es /\ NoDup (map snd es).

Lemma bmv_on D {A} (f : state -> A * state) b a b' : (forall s, fd s (snd (f s))) -> on_s f b = (a, b') -> bmv D b b'.
Proof.
  intros F E. unfold on_s in E. specialize (F (b_s b)). destruct (f (b_s b)) as [a1 s]. injection E as _ <-. apply bm_lits; [apply bm_refl|exact F].
Qed.
Lemma bmv_clause D c b ok b' : b_clause O c b = (ok, b') -> bmv D b b'.
Proof. apply bmv_on. intros s. apply fd_clause. Qed.
Lemma bmv_literal D b x b' : b_literal b = (x, b') -> bmv D b b'.
Proof. apply bmv_on. intros s. apply fd_literal. Qed.
Lemma tidy_srt es : tidy es -> tidy (srt es).
Proof.
  intros [A B]. pose proof (PS es) as P. split.
  - rewrite Forall_forall in *. intros e He. apply A. eapply Permutation_in; [exact P|easy].
  - eapply Permutation_NoDup; [|exact B]. apply Permutation_map. now symmetry.
Qed.
Lemma inv_tidy es : forall r, tidy es -> inv_terms es = Ok r -> tidy r.
Proof.
  intros r [A B] E. destruct (inv_terms_spec srt PS _ _ E) as [V _]. split; [|now rewrite V]. clear B V.
  revert r E A. induction es as [|[c x] es IH]; cbn [inv_terms]; intros r E A; inv_ok; [constructor|]. inversion_clear A as [|? ? A1 A2].
  apply safe_inv_val in H. subst. constructor; [cbn [fst] in *; lia|]. auto.
Qed.
Lemma neg_tidy es r : tidy es -> neg_terms es = Ok r -> tidy r.
Proof. intros [A B] E. destruct (neg_terms_spec srt PS _ _ E) as (V & _ & C). split; [auto|now rewrite V]. Qed.
Lemma b_sum_bmv m l es rhs strict b ok b' : tidy es -> Forall (fun e => snd e < m)%nat es -> b_sum O cfg srt l es rhs strict b = Ok (ok, b') -> bmv (sums m) b b'.
Proof.
  intros T F E. unfold b_sum in E. destruct (negb strict && _); [injection E as _ <-; apply bm_refl|].
  assert (V : forall e2, Forall (fun x => x < m)%nat (map snd e2) -> Forall (fun x => x < m)%nat (map snd (srt e2))) by (intros e2; now apply vars_srt).
  assert (PO : forall b2, (let b1 := post (CSum l rhs (srt es)) b in
        if strict then ies <- inv_terms es ;; r <- safe_add int32 rhs 1 ;; r <- safe_inv int32 r ;; Ok (true, post (CSum (- l) r (srt ies)) b1) else Ok (true, b1)) = Ok (ok, b2) -> bmv (sums m) b b2).
  { intros b2 E2. cbv zeta in E2. assert (B1 : bmv (sums m) b (post (CSum l rhs (srt es)) b)).
    { apply bm_post; [apply bm_refl|]. split; [now apply tidy_srt|]. cbn [cvars]. apply V. now apply Forall_map. }
    destruct strict; [|now injection E2 as _ <-]. inv_ok. destruct (inv_terms_spec srt PS _ _ H) as [V2 _]. apply bm_post; [exact B1|]. split; [apply tidy_srt; now apply inv_tidy with es|].
    cbn [cvars]. apply V. assert (Q : Forall (fun x => (x < m)%nat) (map snd es)) by now apply Forall_map. exact (eq_ind _ (fun q => Forall _ q) Q _ (eq_sym V2)). }
  destruct es as [|[co x] [|e es]]; [now apply PO| |now apply PO].
  assert (E' : on_s (add_simple O cfg l co x rhs strict) b = (ok, b')) by congruence. revert E'. apply bmv_on. intros s. apply add_simple_fd.
Qed.
Lemma simplify_tidy ts vec r es m : simplify true (map (fun t => (fst t, Some (snd t))) ts) = Ok (vec, r) -> Terms.strip vec = Ok es ->
  Forall (fun t => snd t < m)%nat ts -> tidy es /\ Forall (fun e => snd e < m)%nat es.
Proof.
  intros S ST F. destruct (simplify_vars ts vec r es m S ST F) as (_ & _ & Fe). destruct (simplify_spec _ _ _ _ S) as (_ & ND & _). destruct (strip_keys _ _ ST) as [K _].
  rewrite K in ND. split; [split; [eapply Forall_impl; [|exact Fe]; cbn; tauto|]|eapply Forall_impl; [|exact Fe]; cbn; tauto]. now apply NoDup_map_inv in ND.
Qed.
Lemma b_differ_bmv m l fixed e1 e2 b ok b' : Forall (fun t => snd t < m)%nat (fst e1) -> Forall (fun t => snd t < m)%nat (fst e2) -> b_differ O cfg srt l fixed e1 e2 b = Ok (ok, b') -> bmv (sums m) b b'.
Proof.
  intros F1 F2 E. unfold b_differ in E. apply bind_ok in E as (rhs0 & _ & E). apply bind_ok in E as (ns & NT & E). apply bind_ok in E as ([vec r] & S & E).
  apply bind_ok in E as (es & ST & E). apply bind_ok in E as (rhs & _ & E). destruct (neg_terms_spec srt PS _ _ NT) as (K & _).
  assert (Fn : Forall (fun t => snd t < m)%nat ns).
  { rewrite <- Forall_map with (f := snd) (P := fun x => (x < m)%nat). refine (eq_ind _ (fun q => Forall _ q) _ _ (eq_sym K)). now apply Forall_map. }
  assert (Fa : Forall (fun t => snd t < m)%nat (fst e1 ++ ns)) by (apply Forall_app; split; assumption).
  pose proof (simplify_tidy (fst e1 ++ ns) vec r es m S ST Fa) as [TD FE].
  destruct es as [|e0 es0] eqn:Es.
  { destruct (rhs =? 0); [|injection E as _ <-; apply bm_refl]. assert (E' : b_clause O [- l] b = (ok, b')) by congruence. exact (bmv_clause _ _ _ _ _ E'). }
  rewrite <- Es in *. clear Es. destruct (b_literal b) as [x b1] eqn:L1. apply (bmv_literal (sums m)) in L1.
  match type of E with context [if fixed then ?a else ?c] => destruct (if fixed then a else c) as [ok1 [y b2]] eqn:L2 end.
  assert (B2 : bmv (sums m) b b2).
  { apply bmv_trans with b1; auto. destruct fixed; [injection L2 as _ _ <-; apply bm_refl|]. destruct (b_literal b1) as [y1 c1] eqn:Q1. apply (bmv_literal (sums m)) in Q1.
    destruct (b_clause O _ c1) as [k2 c2] eqn:Q2. apply (bmv_clause (sums m)) in Q2. assert (R2 := bmv_trans _ _ _ _ Q1 Q2). destruct k2; cbn [negb] in L2; [|now injection L2 as _ _ <-].
    destruct (b_clause O _ c2) as [k3 c3] eqn:Q3. apply (bmv_clause (sums m)) in Q3. assert (R3 := bmv_trans _ _ _ _ R2 Q3). destruct k3; cbn [negb] in L2; [|now injection L2 as _ _ <-].
    destruct (b_clause O _ c3) as [k4 c4] eqn:Q4. apply (bmv_clause (sums m)) in Q4. assert (R4 := bmv_trans _ _ _ _ R3 Q4). destruct k4; cbn [negb] in L2; [|now injection L2 as _ _ <-].
    destruct (b_clause O _ c4) as [k5 c5] eqn:Q5. apply (bmv_clause (sums m)) in Q5. assert (R5 := bmv_trans _ _ _ _ R4 Q5). now injection L2 as _ _ <-. }
  destruct ok1; cbn [negb] in E; [|now injection E as _ <-].
  apply bind_ok in E as (r1 & _ & E). apply bind_ok in E as (r1' & _ & E). apply bind_ok in E as ([ok2 b3] & E3 & E). apply (b_sum_bmv m) in E3; auto.
  assert (B3 := bmv_trans _ _ _ _ B2 E3). destruct ok2; cbn [negb] in E; [|now injection E as _ <-].
  apply bind_ok in E as (ns' & NT' & E). apply bind_ok in E as (r2 & _ & E). apply bind_ok in E as (r2' & _ & E). apply bind_ok in E as (r2'' & _ & E).
  apply bmv_trans with b3; auto. revert E. destruct (neg_terms_spec srt PS _ _ NT') as (K' & _). apply b_sum_bmv; [now apply neg_tidy with es|].
  rewrite <- Forall_map with (f := snd) (P := fun x => (x < m)%nat). refine (eq_ind _ (fun q => Forall _ q) _ _ (eq_sym K')). now apply Forall_map.
Qed.
Lemma dj_terms_tidy m i j rhs l es r : (i < m)%nat -> (j < m)%nat -> dj_terms i j rhs = Ok (l, (es, r)) -> tidy es /\ Forall (fun e => snd e < m)%nat es.
Proof.
  intros Hi Hj E. unfold dj_terms in E. apply bind_ok in E as ([vec r0] & S & E). apply bind_ok in E as (es0 & ST & E). apply bind_ok in E as (r1 & _ & E). injection E as _ <- _.
  apply (simplify_tidy [(1, i); (-1, j)] vec r0 es0 m); auto.
Qed.
Lemma dj_lit_bmv m l es rhs b ok l' b' : tidy es -> Forall (fun e => snd e < m)%nat es -> dj_lit O cfg srt l es rhs b = Ok (ok, (l', b')) -> bmv (sums m) b b'.
Proof.
  intros T F E. unfold dj_lit in E. destruct (l =? 0); [|injection E as _ _ <-; apply bm_refl]. destruct (b_literal b) as [x b1] eqn:L. apply (bmv_literal (sums m)) in L.
  apply bind_ok in E as ([k b2] & E & E'). injection E' as _ _ <-. apply bmv_trans with b1; auto. now apply (b_sum_bmv m) in E.
Qed.
Lemma b_disjoint1_bmv m l i j b ok b' : (snd i < m)%nat -> (snd j < m)%nat -> b_disjoint1 O cfg srt l i j b = Ok (ok, b') -> bmv (sums m) b b'.
Proof.
  intros Hi Hj E. unfold b_disjoint1 in E. apply bind_ok in E as ([la [ea ra]] & Ta & E). destruct (dj_terms_tidy m _ _ _ _ _ _ Hj Hi Ta) as [A1 A2].
  destruct (la =? _); [injection E as _ <-; apply bm_refl|]. apply bind_ok in E as (w & _ & E). apply bind_ok in E as ([lb [eb rb]] & Tb & E). destruct (dj_terms_tidy m _ _ _ _ _ _ Hi Hj Tb) as [B1 B2].
  destruct (lb =? _); [injection E as _ <-; apply bm_refl|]. apply bind_ok in E as ([k1 [l1 b1]] & E1 & E). apply (dj_lit_bmv m) in E1; auto. destruct k1; cbn [negb] in E; [|now injection E as _ <-].
  apply bind_ok in E as ([k2 [l2 b2]] & E2 & E). apply (dj_lit_bmv m) in E2; auto. assert (R2 := bmv_trans _ _ _ _ E1 E2). destruct k2; cbn [negb] in E; [|now injection E as _ <-].
  apply bmv_trans with b2; auto. assert (E' : b_clause O [- l; - l1; - l2] b2 = (ok, b')) by congruence. exact (bmv_clause _ _ _ _ _ E').
Qed.

(** Where the constraints come from. *)
Definition from (m : nat) (c : bcall) (d : constr) : Prop := shape d /\ Forall (fun x => x < m)%nat (cvars d) /\
  match d with
  | CSum _ _ _ => True
  | CMin _ _ => False
  | CDistinct l es => exists es', c = BDistinct l es' /\ (2 < length es')%nat /\ es = map (fun e => (snd e, srt (fst e))) es'
  | CDisjoint l es => c = BDisjoint l es /\ (2 < length es)%nat
  | CNonlin l ca x y cc z rhs => c = BNonlin l ca (Some x) (Some y) cc z rhs false /\ ca <> 0
  end.
Lemma sums_from m c d : sums m d -> from m c d.
Proof. destruct d; try easy. intros [A B]. split; [exact A|]. now split. Qed.
Lemma build1_bmv (K : Z -> Prop) m c b ok b' : call_ok K m c -> call_tidy c -> build1 O cfg srt c b = Ok (ok, b') -> bmv (from m c) b b'.
Proof.
  intros C T E. pose proof (bmv_more (sums m) (from m c)) as MO.
  destruct c as [c|l es rhs st|l ca va vb cc vc rhs st|l es|l es|l x dom|co v| |nm ar|v]; cbn [build1 call_ok call_tidy] in *; try (injection E as _ <-; apply bm_refl).
  - assert (E' : b_clause O c b = (ok, b')) by congruence. exact (bmv_clause _ _ _ _ _ E').
  - destruct C as [_ C]. apply MO; [intros d; apply sums_from|]. revert E. apply b_sum_bmv; [split; [eapply Forall_impl; [|exact C]; cbn; tauto|apply T]|eapply Forall_impl; [|exact C]; cbn; tauto].
  - destruct C as (C1 & C2 & C3 & C4 & C5). unfold b_nonlinear in E. destruct (Z.eqb_spec ca 0) as [->|Ha].
    + apply MO; [intros d; apply sums_from|]. destruct (Z.eqb_spec cc 0) as [->|Hc]; [apply (b_sum_bmv m) in E; auto; now split; constructor|].
      destruct vc as [z|]; [|discriminate]. revert E. apply b_sum_bmv; [split; [now repeat constructor|repeat constructor; intros []]|]. constructor; [apply C2; auto|constructor].
    + destruct va as [x|], vb as [y|]; try discriminate. rewrite (C5 Ha) in *. injection E as _ <-. apply bm_post; [apply bm_refl|]. split; [|split].
      * now apply T.
      * cbn [cvars]. constructor; [apply C2; auto|]. constructor; [apply C2; auto|]. destruct vc as [z|]; [constructor; [apply C2; auto|constructor]|constructor].
      * now split.
  - destruct C as [_ C]. unfold b_distinct in E. destruct (is_false _ _ _); [injection E as _ <-; apply bm_refl|]. destruct (Nat.ltb_spec 2 (length es)) as [L|L].
    + injection E as _ <-. apply bm_post; [apply bm_refl|]. split; [|split].
      * cbn. rewrite Forall_map. eapply Forall_impl; [|exact T]. intros e [H N]. cbn [snd]. split.
        { rewrite Forall_forall in *. intros t Ht. apply H. eapply Permutation_in; [apply PS|exact Ht]. }
        { eapply Permutation_NoDup; [|exact N]. apply Permutation_map, Permutation_sym, PS. }
      * cbn [cvars]. rewrite map_map. cbn [snd]. apply Forall_concat. rewrite Forall_map. eapply Forall_impl; [|exact C]. intros e H. apply vars_srt; [exact PS|]. now apply Forall_map.
      * exists es. auto.
    + apply MO; [intros d; apply sums_from|]. destruct es as [|e1 [|e2 [|]]]; try (injection E as _ <-; apply bm_refl). inversion_clear C as [|? ? F1 C']. inversion_clear C' as [|? ? F2 _]. now apply (b_differ_bmv m) in E.
  - destruct C as [_ C]. unfold b_disjoint in E. destruct (is_false _ _ _); [injection E as _ <-; apply bm_refl|]. destruct (Nat.ltb_spec 2 (length es)) as [L|L].
    + injection E as _ <-. apply bm_post; [apply bm_refl|]. split; [|split; [|now split]].
      * cbn. eapply Forall_impl; [|exact C]. cbn. tauto.
      * cbn [cvars]. apply Forall_map. eapply Forall_impl; [|exact C]. cbn. tauto.
    + apply MO; [intros d; apply sums_from|]. destruct es as [|i [|j [|]]]; try (injection E as _ <-; apply bm_refl). inversion_clear C as [|? ? [_ F1] C']. inversion_clear C' as [|? ? [_ F2] _].
      apply bind_ok in E as ([k b1] & E1 & E). apply (b_disjoint1_bmv m) in E1; auto. destruct k; cbn [negb] in E; [|now injection E as _ <-]. apply bmv_trans with b1; auto. now apply (b_disjoint1_bmv m) in E.
  - assert (E' : b_dom O cfg l x dom b = (ok, b')) by congruence. unfold b_dom in E'. destruct (is_false _ _ _); [injection E' as _ <-; apply bm_refl|]. revert E'. apply bmv_on. intros s. apply add_dom_fd.
Qed.
End Calls.
