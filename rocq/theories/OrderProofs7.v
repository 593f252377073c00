(** Steps and well-formedness for domains, new variables and the removal of literals. *)
From Verif Require Import Base Util IntervalSet VarState VarStateProofs Terms TermsSpec Solver OrderSpec OrderProofs1 OrderProofs2 OrderProofs3 OrderProofs4 OrderProofs5 OrderProofs6.
From Verif Require IntervalSetProofs.
From Coq Require Import Sorting.Sorted.
Open Scope Z_scope.

(** ** Same callback *)

Section Later.
Context (O : oracle) (Base : interp -> Prop) (CO : clasp_ok O Base).
Lemma later_trans lg lg1 lg2 : later O lg lg1 -> later O lg1 lg2 -> later O lg lg2.
Proof. induction 2; [easy|]. now constructor. Qed.
Lemma later_level lg lg' : later O lg lg' -> o_level O lg' = o_level O lg.
Proof. induction 1; [easy|]. rewrite <- IHlater. now apply (cl_level _ _ CO). Qed.
Lemma later_true lg lg' l : later O lg lg' -> o_true O lg l = true -> o_true O lg' l = true.
Proof. induction 1; [easy|]. intros. apply (cl_mono _ _ CO); auto. Qed.
Lemma later_fixed lg lg' l : later O lg lg' -> o_fixed O lg l = true -> o_fixed O lg' l = true.
Proof. induction 1; [easy|]. intros. apply (cl_fixed _ _ CO); auto. Qed.
Lemma later_one lg e : quiet O lg e -> later O lg (e :: lg).
Proof. intros. now apply later_step; [constructor|]. Qed.

Lemma update_litmap_log x l v s : log (snd (update_litmap x l v s)) = log s.
Proof.
  unfold update_litmap. cbn [snd]. destruct (vlit_lt _ _ =? 0), (vlit_gt _ _ =? 0); cbn; auto.
  - now destruct (valid_entry _ _).
  - now destruct (valid_entry _ _).
  - destruct (valid_entry s _); cbn; now destruct (valid_entry _ _).
Qed.
Lemma get_literal_later cfg x v s l s' : get_literal cfg x v s = (l, s') -> later O (log s) (log s').
Proof.
  unfold get_literal. destruct (v <? minb _); [intros E; injection E as _ <-; constructor|].
  destruct (maxb _ <=? v); [intros E; injection E as _ <-; constructor|].
  destruct (vfind _ v); [intros E; injection E as _ <-; constructor|].
  unfold add_literal. intros E. injection E as _ <-. cbn [log add_watch emit set_log].
  repeat (apply later_step; [|easy]). unfold litmap_add.
  destruct (update_litmap _ _ _ _) as [[p n] s1] eqn:U. cbn.
  assert (L : log s1 = ELit (nxt s) :: log s) by (change s1 with (snd ((p, n), s1)); rewrite <- U, update_litmap_log; reflexivity).
  rewrite L. now apply later_one.
Qed.
Lemma update_literal_later cfg x v t s l s' : update_literal O cfg x v t s = (l, s') -> later O (log s) (log s').
Proof.
  unfold update_literal.
  assert (G : get_literal cfg x v s = (l, s') -> later O (log s) (log s')) by apply get_literal_later.
  assert (F : forall tt f, log (push_fact f (snd (update_litmap x tt v (store_lit x v tt s)))) = log s) by (intros; unfold push_fact; cbn [log set_fmap]; now rewrite update_litmap_log).
  destruct t; [| |exact G]; destruct (0 <? dlevel O s)%nat; auto;
  (destruct (v <? minb _); [intros E; injection E as _ <-; constructor|]);
  (destruct (maxb _ <=? v); [intros E; injection E as _ <-; constructor|]);
  (destruct (vfind _ v); [intros E; injection E as _ <-; constructor|]).
  - specialize (F TRUE_LIT). destruct (update_litmap x TRUE_LIT v (store_lit x v TRUE_LIT s)) as [[p n] s1]. intros E. injection E as _ <-. rewrite F. constructor.
  - specialize (F (- TRUE_LIT)). destruct (update_litmap x (- TRUE_LIT) v (store_lit x v (- TRUE_LIT) s)) as [[p n] s1]. intros E. injection E as _ <-. rewrite F. constructor.
Qed.
Lemma add_clause_later t c s s' : add_clause O t c s = (true, s') -> later O (log s) (log s').
Proof. intros E. injection E as A <-. cbn. now apply later_one. Qed.
End Later.

(** ** Domains *)

Definition ge_opt (p : option Z) (n : Z) : Prop := match p with Some p => p <= n | None => True end.
Definition lt_opt (p : option Z) (n : Z) : Prop := match p with Some p => n < p | None => True end.
Fixpoint up_sem (py : option Z) (dom : list (Z * Z)) (n : Z) : Prop :=
  match dom with [] => True | (a, b) :: r => (ge_opt py n -> a <= n) /\ up_sem (Some b) r n end.
Fixpoint down_sem (px : option Z) (dom : list (Z * Z)) (n : Z) : Prop :=
  match dom with [] => True | (a, b) :: r => (lt_opt px n -> n < b) /\ down_sem (Some a) r n end.

Notation dmem := IntervalSetProofs.mem.
Lemma up_sem_mem dom : forall lo n, IntervalSetProofs.wf_from lo dom -> dmem dom n -> up_sem lo dom n.
Proof.
  induction dom as [|[a b] r IH]; intros lo n W M; [easy|]. cbn in W |- *. destruct W as (W1 & W2 & W3).
  apply IntervalSetProofs.mem_cons in M as [M|M].
  - split; [lia|]. clear IH. assert (U : forall r b, n < b -> IntervalSetProofs.wf_from (Some b) r -> up_sem (Some b) r n).
    { clear. induction r as [|[c d] r IH]; intros b Hb W; [easy|]. cbn in W |- *. destruct W as (W1 & W2 & W3). split; [lia|]. apply IH; [lia|easy]. }
    apply U; [lia|easy].
  - split; [|now apply IH]. apply (IntervalSetProofs.mem_ge_from r b n) in M; [lia|easy].
Qed.
Lemma down_sem_app dom : forall px q n, down_sem px (dom ++ [q]) n -> down_sem px dom n.
Proof. induction dom as [|[a b] r IH]; intros px q n; cbn; [easy|]. intros [A B]. split; [easy|]. now apply IH in B. Qed.
Lemma down_sem_mem dom : forall hi n, IntervalSetProofs.rwf hi dom -> dmem dom n -> down_sem hi dom n.
Proof.
  induction dom as [|[a b] r IH]; intros lo n W M; [easy|]. cbn in W |- *. destruct W as (W1 & W2 & W3).
  apply IntervalSetProofs.mem_cons in M as [M|M].
  - split; [lia|]. clear IH. assert (U : forall r b, b <= n -> IntervalSetProofs.rwf (Some b) r -> down_sem (Some b) r n).
    { clear. induction r as [|[c d] r IH]; intros b Hb W; [easy|]. cbn in W |- *. destruct W as (W1 & W2 & W3). split; [lia|]. apply IH; [lia|easy]. }
    apply U; [lia|easy].
  - split; [|now apply IH]. apply (IntervalSetProofs.mem_lt_rwf r a n) in M; [lia|easy].
Qed.
Lemma up_mem dom : forall lo n, dom <> [] -> ge_opt lo n -> up_sem lo dom n -> (forall a b, last dom (0, 0) = (a, b) -> n < b) -> dmem dom n.
Proof.
  induction dom as [|[a b] r IH]; intros lo n N H U L; [easy|]. cbn in U. destruct U as (U1 & U2).
  apply IntervalSetProofs.mem_cons. destruct (Z_lt_ge_dec n b) as [Q|Q]; [left; split; [now apply U1|easy]|].
  right. destruct r as [|q r]; [specialize (L a b eq_refl); lia|]. apply IH with (Some b); try easy.
  cbn. lia.
Qed.
Lemma dom_sem dom n : IntervalSetProofs.wf dom -> dom <> [] -> (dmem dom n <-> up_sem None dom n /\ down_sem None (rev dom) n).
Proof.
  intros W N. split.
  - intros M. split; [now apply up_sem_mem|]. apply down_sem_mem.
    + assert (A : rev (rev dom) ++ [] = dom) by now rewrite rev_involutive, app_nil_r.
      rewrite <- A in W. now apply IntervalSetProofs.wf_rev_app in W.
    + now apply IntervalSetProofs.mem_rev.
  - intros [U D]. apply up_mem with None; auto; [easy|]. intros a b L.
    destruct (exists_last N) as (r & q & ->). rewrite last_last in L. subst q. rewrite rev_app_distr in D. cbn in D. now apply D.
Qed.

Section Steps.
Context (O : oracle) (cfg : config) (Base : interp -> Prop) (n0 : Z).
Notation good := (good Base).
Notation step := (step Base).
Context (BO : base_ok Base n0) (CO : clasp_ok O Base).

Lemma clause3_true I a b c : clause_true I [a; b; c] <-> lit_true I a \/ lit_true I b \/ lit_true I c.
Proof.
  unfold clause_true. split.
  - intros (l & [<-|[<-|[<-|[]]]] & H); auto.
  - intros [H|[H|H]]; [exists a|exists b|exists c]; cbn; auto.
Qed.
Lemma as_trans P Q s s1 s2 ok : dep (nxt s) (nvars s) P -> dep (nxt s) (nvars s) Q ->
  as_post Base P s s1 true -> as_post Base Q s1 s2 ok -> as_post Base (fun I nu => P I nu /\ Q I nu) s s2 ok.
Proof.
  intros DP DQ [A1 A2 A3 A4 A5] [B1 B2 B3 B4 B5].
  assert (D : dep (nxt s) (nvars s) (fun I nu => P I nu /\ Q I nu)).
  { intros I J nu nu' E1 E2 [p q]. split; [apply (DP I J nu nu')|apply (DQ I J nu nu')]; auto. }
  constructor; auto.
  - apply step_trans with (5 := A2) (6 := B2); tauto.
  - intros Hok. apply step_trans with (5 := A3 eq_refl) (6 := B3 Hok); tauto.
  - now apply same2_trans with s1.
  - intros y. rewrite B5. apply A5.
Qed.
Lemma as_equiv P Q s s' ok : (forall I nu, good s I -> (P I nu <-> Q I nu)) -> as_post Base P s s' ok -> as_post Base Q s s' ok.
Proof.
  intros E [A1 A2 A3 A4 A5]. constructor; auto.
  - apply step_weaken with (1 := A2); auto. intros I nu HG HO. now apply E.
  - intros Hok. apply step_weaken with (1 := A3 Hok); auto.
    + intros I nu HG HO. now apply E.
    + intros I nu _ _ HG HO. now apply E.
Qed.

(** One interval: literals for the two sides and a clause connecting them.  [neg] selects
    the direction. *)
Lemma dom_clause s x l ly lx (A B : (var -> Z) -> Prop) ok s' : wf s -> below (nxt s) l -> below (nxt s) ly -> below (nxt s) lx ->
  (forall I nu, good s I -> order_ok s I nu -> (lit_true I ly <-> A nu)) ->
  (forall I nu, good s I -> order_ok s I nu -> (lit_true I lx <-> B nu)) ->
  (x < nvars s)%nat ->
  add_clause O Learnt [- l; - ly; lx] s = (ok, s') ->
  as_post Base (fun I nu => lit_true I l -> A nu -> B nu) s s' ok.
Proof.
  intros W Bl By Bx HA HB Hx E.
  assert (F : Forall (below (nxt s)) [- l; - ly; lx]) by (repeat (constructor; [try apply below_neg; assumption|]); constructor).
  destruct (add_clause_wf O _ _ _ _ _ E W F) as (W1 & SM & NX).
  set (P := fun (I : interp) (nu : var -> Z) => lit_true I l -> A nu -> B nu).
  assert (S1 : step P (fun I _ => clause_true I [- l; - ly; lx]) s s').
  { apply (add_clause_step O Base _ _ _ _ _ P E). intros I nu HG HO Hp. rewrite clause3_true, !lit_true_neg by (apply Bl || apply By).
    rewrite (HA I nu HG HO), (HB I nu HG HO). destruct (lit_true_dec I l) as [R|R]; [|now left].
    destruct (lit_true_dec I lx) as [R'|R']; [right; right; now apply (HB I nu HG HO)|]. rewrite (HB I nu HG HO) in R'.
    right; left. intros HA'. apply R'. now apply Hp. }
  assert (S2 : step P P s s').
  { apply step_weaken with (1 := S1); auto. intros I nu _ _ HG HO q. rewrite clause3_true, !lit_true_neg in q by (apply Bl || apply By).
    rewrite (HA I nu HG HO), (HB I nu HG HO) in q. unfold P. tauto. }
  constructor; auto.
  - now apply step_weaken with (1 := S2).
  - now apply same_same2.
  - apply SM.
Qed.

Lemma as_get x v s g s1 : wf s -> (x < nvars s)%nat -> n0 <= nxt s -> get_literal cfg x v s = (g, s1) ->
  as_post Base T2 s s1 true /\ lit_means s1 g x v /\ same s s1.
Proof.
  intros W Hx Hn G. destruct (get_literal_ok cfg Base n0 BO x v s g s1 (proj1 W) Hx Hn G) as [A B C D F].
  split; [|now split]. constructor; auto.
  - split; [easy|]. rewrite (same_fmap _ _ D). apply B, W.
  - now apply same_same2.
  - apply D.
Qed.

Lemma dom_dep n m l x (S : Z -> Prop) : below n l -> (x < m)%nat -> dep n m (fun I nu => lit_true I l -> S (nu x)).
Proof. intros B Hx I J nu nu' A E. rewrite (E x Hx), (lit_true_agree n I J l A B). auto. Qed.

Lemma dom_up_ok l x dom : forall py s ok s', wf s -> (x < nvars s)%nat -> n0 <= nxt s -> below (nxt s) l -> dlevel O s = 0%nat ->
  dom_up O cfg l x py dom s = (ok, s') ->
  as_post Base (fun I nu => lit_true I l -> up_sem py dom (nu x)) s s' ok /\ (ok = true -> later O (log s) (log s')).
Proof.
  induction dom as [|[a b] r IH]; intros py s ok s' W Hx Hn Bl D0 E; cbn [dom_up] in E.
  { injection E as <- <-. split; [|intros _; constructor]. constructor; auto; try easy.
    - constructor; try lia; [now exists []| |]; intros I nu HG HO; [intros _; exists I, nu; now csplit|now csplit].
    - intros _. apply step_refl. left. easy. }
  destruct (match py with Some p => _ | None => _ end) as [ly s1] eqn:G.
  assert (Q1 : as_post Base T2 s s1 true /\ same s s1 /\ below (nxt s1) ly /\ later O (log s) (log s1) /\
    forall I nu, good s1 I -> order_ok s1 I nu -> (lit_true I ly <-> ge_opt py (nu x))).
  { destruct py as [p|].
    - destruct (get_literal cfg x (p - 1) s) as [g s1'] eqn:G'. injection G as <- <-.
      destruct (as_get x (p - 1) s g s1' W Hx Hn G') as (A & M & SM).
      assert (Hx1 : (x < nvars s1')%nat) by now rewrite (same_nvars _ _ SM).
      pose proof (lit_means_below s1' g x (p - 1) (proj1 (as_wf _ _ _ _ _ A)) Hx1 M) as Bg.
      split; [easy|]. split; [easy|]. split; [now apply below_neg|]. split; [now apply get_literal_later with cfg x (p - 1) g|].
      intros I nu HG HO. rewrite lit_true_neg by apply Bg.
      rewrite (lit_means_ok s1' g x (p - 1) I nu Hx1 M (proj1 (proj2 HG)) HO). cbn. lia.
    - injection G as <- <-. split; [|split; [apply same_refl|split; [apply tlit_below; [apply W|now left]|split; [constructor|]]]].
      + constructor; auto; try easy; intros; apply step_refl; now right.
      + intros I nu HG HO. cbn. split; [easy|]. intros _. exact (true_good _ _ _ HG). }
  clear G. destruct Q1 as (A1 & SM1 & By & LT1 & HA). pose proof A1 as [W1 S1 _ _ _].
  pose proof (st_nxt _ _ _ _ _ S1) as Nx1.
  assert (Hx1 : (x < nvars s1)%nat) by now rewrite (same_nvars _ _ SM1).
  set (t := if (l =? TRUE_LIT) && is_true O s1 ly then TFalse else TFree) in *.
  destruct (update_literal O cfg x (a - 1) t s1) as [lx s2] eqn:U.
  destruct (update_literal_ok O cfg Base n0 BO x (a - 1) t s1 lx s2 W1 Hx1 ltac:(lia) U) as [W2 S2 SS2 VB2 M2].
  assert (Hx2 : (x < nvars s2)%nat) by now rewrite (same2_nvars _ _ SS2).
  pose proof (lit_means_below s2 lx x (a - 1) (proj1 W2) Hx2 M2) as Bx.
  pose proof (st_nxt _ _ _ _ _ S2) as Nx2.
  assert (LT2 : later O (log s) (log s2)) by (apply later_trans with (log s1); [easy|now apply update_literal_later with cfg x (a - 1) t lx]).
  set (P1 := fun (I : interp) (nu : var -> Z) => lit_true I l -> ge_opt py (nu x) -> a <= nu x).
  assert (D1 : dep (nxt s) (nvars s) P1) by exact (dom_dep (nxt s) (nvars s) l x (fun n => ge_opt py n -> a <= n) Bl Hx).
  assert (S12 : step P1 T2 s s2).
  { apply step_trans with (5 := S1) (6 := S2); auto; [easy|]. intros I nu HG HO Hp. unfold truth_ok, t.
    destruct ((l =? TRUE_LIT) && is_true O s1 ly) eqn:Q; [|easy].
    assert (l = TRUE_LIT) as -> by lia. assert (Ty : is_true O s1 ly = true) by (destruct (is_true O s1 ly); [easy|now rewrite Bool.andb_false_r in Q]).
    assert (Dl : dlevel O s1 = 0%nat) by (unfold dlevel; rewrite (later_level O Base CO _ _ LT1); exact D0).
    pose proof (top_true O Base CO s1 ly I Dl Ty HG) as TY. apply (HA I nu HG HO) in TY.
    specialize (Hp (true_good _ _ _ HG) TY). lia. }
  destruct (add_clause O Learnt [- l; - ly; - lx] s2) as [ok1 s3] eqn:AC.
  assert (A3 : as_post Base P1 s2 s3 ok1).
  { apply dom_clause with (1 := W2) (8 := AC) (x := x); auto.
    - apply below_mono with (nxt s); [lia|easy].
    - now apply below_mono with (nxt s1).
    - now apply below_neg.
    - intros I nu HG HO. destruct (st_bwd _ _ _ _ _ S2 I nu HG HO) as (HG1 & HO1 & _). now apply HA.
    - intros I nu HG HO. rewrite lit_true_neg by apply Bx.
      rewrite (lit_means_ok s2 lx x (a - 1) I nu Hx2 M2 (proj1 (proj2 HG)) HO). lia. }
  assert (A13 : as_post Base P1 s s3 ok1).
  { destruct A3 as [W3 S3 K3 SS3 VB3]. constructor; auto.
    - apply step_trans with (5 := S12) (6 := S3); auto.
    - intros Hok. apply step_trans with (5 := S12) (6 := K3 Hok); auto.
    - apply same2_trans with s1; [now apply same_same2|]. now apply same2_trans with s2.
    - intros y. rewrite VB3, VB2. apply SM1. }
  destruct ok1.
  - pose proof (as_step _ _ _ _ _ A13) as S13. pose proof (st_nxt _ _ _ _ _ S13) as Nx3.
    assert (LT3 : later O (log s) (log s3)) by (apply later_trans with (log s2); [easy|now apply add_clause_later in AC]).
    destruct (IH (Some b) s3 ok s') as (A4 & LT4).
    + apply A13.
    + now rewrite (same2_nvars _ _ (as_same _ _ _ _ _ A13)).
    + lia.
    + now apply below_mono with (nxt s).
    + unfold dlevel. rewrite (later_level O Base CO _ _ LT3). exact D0.
    + exact E.
    + split.
      * eapply as_equiv; [|apply as_trans with (3 := A13) (4 := A4)]; auto.
        -- intros I nu _. cbn. unfold P1. tauto.
        -- exact (dom_dep (nxt s) (nvars s) l x (fun n => up_sem (Some b) r n) Bl Hx).
      * intros Hok. apply later_trans with (log s3); auto.
  - injection E as <- <-. split; [|easy]. destruct A13 as [W3 S3 _ SS3 VB3]. constructor; auto; try easy.
    apply step_weaken with (1 := S3); auto. intros I nu _ _ Hp Hl. now apply (Hp Hl).
Qed.

Lemma dom_down_ok l x dom : forall px s ok s', wf s -> (x < nvars s)%nat -> n0 <= nxt s -> below (nxt s) l -> dlevel O s = 0%nat ->
  dom_down O cfg l x px dom s = (ok, s') ->
  as_post Base (fun I nu => lit_true I l -> down_sem px dom (nu x)) s s' ok.
Proof.
  induction dom as [|[a b] r IH]; intros py s ok s' W Hx Hn Bl D0 E; cbn [dom_down] in E.
  { injection E as <- <-. constructor; auto; try easy.
    - constructor; try lia; [now exists []| |]; intros I nu HG HO; [intros _; exists I, nu; now csplit|now csplit].
    - intros _. apply step_refl. left. easy. }
  destruct (match py with Some p => _ | None => _ end) as [ly s1] eqn:G.
  assert (Q1 : as_post Base T2 s s1 true /\ same s s1 /\ below (nxt s1) ly /\ later O (log s) (log s1) /\
    forall I nu, good s1 I -> order_ok s1 I nu -> (lit_true I ly <-> lt_opt py (nu x))).
  { destruct py as [p|].
    - destruct (as_get x (p - 1) s ly s1 W Hx Hn G) as (A & M & SM).
      assert (Hx1 : (x < nvars s1)%nat) by now rewrite (same_nvars _ _ SM).
      pose proof (lit_means_below s1 ly x (p - 1) (proj1 (as_wf _ _ _ _ _ A)) Hx1 M) as Bg.
      split; [easy|]. split; [easy|]. split; [easy|]. split; [now apply get_literal_later with cfg x (p - 1) ly|].
      intros I nu HG HO.
      rewrite (lit_means_ok s1 ly x (p - 1) I nu Hx1 M (proj1 (proj2 HG)) HO). cbn. lia.
    - injection G as <- <-. split; [|split; [apply same_refl|split; [apply tlit_below; [apply W|now left]|split; [constructor|]]]].
      + constructor; auto; try easy; intros; apply step_refl; now right.
      + intros I nu HG HO. cbn. split; [easy|]. intros _. exact (true_good _ _ _ HG). }
  clear G. destruct Q1 as (A1 & SM1 & By & LT1 & HA). pose proof A1 as [W1 S1 _ _ _].
  pose proof (st_nxt _ _ _ _ _ S1) as Nx1.
  assert (Hx1 : (x < nvars s1)%nat) by now rewrite (same_nvars _ _ SM1).
  set (t := if (l =? TRUE_LIT) && is_true O s1 ly then TTrue else TFree) in *.
  destruct (update_literal O cfg x (b - 1) t s1) as [lx s2] eqn:U.
  destruct (update_literal_ok O cfg Base n0 BO x (b - 1) t s1 lx s2 W1 Hx1 ltac:(lia) U) as [W2 S2 SS2 VB2 M2].
  assert (Hx2 : (x < nvars s2)%nat) by now rewrite (same2_nvars _ _ SS2).
  pose proof (lit_means_below s2 lx x (b - 1) (proj1 W2) Hx2 M2) as Bx.
  pose proof (st_nxt _ _ _ _ _ S2) as Nx2.
  assert (LT2 : later O (log s) (log s2)) by (apply later_trans with (log s1); [easy|now apply update_literal_later with cfg x (b - 1) t lx]).
  set (P1 := fun (I : interp) (nu : var -> Z) => lit_true I l -> lt_opt py (nu x) -> nu x < b).
  assert (D1 : dep (nxt s) (nvars s) P1) by exact (dom_dep (nxt s) (nvars s) l x (fun n => lt_opt py n -> n < b) Bl Hx).
  assert (S12 : step P1 T2 s s2).
  { apply step_trans with (5 := S1) (6 := S2); auto; [easy|]. intros I nu HG HO Hp. unfold truth_ok, t.
    destruct ((l =? TRUE_LIT) && is_true O s1 ly) eqn:Q; [|easy].
    assert (l = TRUE_LIT) as -> by lia. assert (Ty : is_true O s1 ly = true) by (destruct (is_true O s1 ly); [easy|now rewrite Bool.andb_false_r in Q]).
    assert (Dl : dlevel O s1 = 0%nat) by (unfold dlevel; rewrite (later_level O Base CO _ _ LT1); exact D0).
    pose proof (top_true O Base CO s1 ly I Dl Ty HG) as TY. apply (HA I nu HG HO) in TY.
    specialize (Hp (true_good _ _ _ HG) TY). lia. }
  destruct (add_clause O Learnt [- l; - ly; lx] s2) as [ok1 s3] eqn:AC.
  assert (A3 : as_post Base P1 s2 s3 ok1).
  { apply dom_clause with (1 := W2) (8 := AC) (x := x); auto.
    - apply below_mono with (nxt s); [lia|easy].
    - now apply below_mono with (nxt s1).
    - intros I nu HG HO. destruct (st_bwd _ _ _ _ _ S2 I nu HG HO) as (HG1 & HO1 & _). now apply HA.
    - intros I nu HG HO.
      rewrite (lit_means_ok s2 lx x (b - 1) I nu Hx2 M2 (proj1 (proj2 HG)) HO). lia. }
  assert (A13 : as_post Base P1 s s3 ok1).
  { destruct A3 as [W3 S3 K3 SS3 VB3]. constructor; auto.
    - apply step_trans with (5 := S12) (6 := S3); auto.
    - intros Hok. apply step_trans with (5 := S12) (6 := K3 Hok); auto.
    - apply same2_trans with s1; [now apply same_same2|]. now apply same2_trans with s2.
    - intros y. rewrite VB3, VB2. apply SM1. }
  destruct ok1.
  - pose proof (as_step _ _ _ _ _ A13) as S13. pose proof (st_nxt _ _ _ _ _ S13) as Nx3.
    assert (LT3 : later O (log s) (log s3)) by (apply later_trans with (log s2); [easy|now apply add_clause_later in AC]).
    assert (A4 : as_post Base (fun I nu => lit_true I l -> down_sem (Some a) r (nu x)) s3 s' ok).
    { apply IH; auto.
      - apply A13.
      - now rewrite (same2_nvars _ _ (as_same _ _ _ _ _ A13)).
      - lia.
      - now apply below_mono with (nxt s).
      - unfold dlevel. rewrite (later_level O Base CO _ _ LT3). exact D0. }
    eapply as_equiv; [|apply as_trans with (3 := A13) (4 := A4)]; auto.
    + intros I nu _. cbn. unfold P1. tauto.
    + exact (dom_dep (nxt s) (nvars s) l x (fun n => down_sem (Some a) r n) Bl Hx).
  - injection E as <- <-. destruct A13 as [W3 S3 _ SS3 VB3]. constructor; auto; try easy.
    apply step_weaken with (1 := S3); auto. intros I nu _ _ Hp Hl. now apply (Hp Hl).
Qed.

Lemma add_dom_ok l x dom s ok s' : wf s -> (x < nvars s)%nat -> n0 <= nxt s -> below (nxt s) l -> dlevel O s = 0%nat ->
  IntervalSetProofs.wf dom -> dom <> [] ->
  add_dom O cfg l x dom s = (ok, s') ->
  as_post Base (fun I nu => lit_true I l -> dmem dom (nu x)) s s' ok.
Proof.
  intros W Hx Hn Bl D0 Wd Nd E. unfold add_dom in E.
  pose proof (wf_nxt s (proj1 W)) as Nx.
  destruct (is_false O s l) eqn:F.
  { injection E as <- <-.
    assert (R : step (fun I nu => lit_true I l -> dmem dom (nu x)) (fun I nu => lit_true I l -> dmem dom (nu x)) s s).
    { apply step_refl. left. intros I nu HG _ T. destruct (top_false O Base CO s l I); auto. apply Bl. }
    constructor; auto; try easy. now apply step_weaken with (1 := R). }
  set (l' := if is_true O s l then TRUE_LIT else l) in *.
  assert (Bl' : below (nxt s) l') by (unfold l'; destruct (is_true O s l); [apply tlit_below; [easy|now left]|easy]).
  assert (EQ : forall I, good s I -> (lit_true I l' <-> lit_true I l)).
  { intros I HG. unfold l'. destruct (is_true O s l) eqn:T; [|easy]. split; [intros _; now apply (top_true O Base CO s)|intros _; exact (true_good _ _ _ HG)]. }
  destruct (dom_up O cfg l' x None dom s) as [ok1 s1] eqn:U.
  destruct (dom_up_ok l' x dom None s ok1 s1 W Hx Hn Bl' D0 U) as (A1 & LT).
  assert (AE : forall I nu, good s I -> ((lit_true I l' -> up_sem None dom (nu x)) /\ (lit_true I l' -> down_sem None (rev dom) (nu x)) <-> (lit_true I l -> dmem dom (nu x)))).
  { intros I nu HG. rewrite (EQ I HG), dom_sem by easy. tauto. }
  destruct ok1.
  - pose proof (as_step _ _ _ _ _ A1) as S1. pose proof (st_nxt _ _ _ _ _ S1) as Nx1.
    assert (A2 : as_post Base (fun I nu => lit_true I l' -> down_sem None (rev dom) (nu x)) s1 s' ok).
    { apply dom_down_ok; auto.
      - apply A1. - now rewrite (same2_nvars _ _ (as_same _ _ _ _ _ A1)). - lia. - now apply below_mono with (nxt s).
      - unfold dlevel. rewrite (later_level O Base CO _ _ (LT eq_refl)). exact D0. }
    eapply as_equiv; [exact AE|]. apply as_trans with (3 := A1) (4 := A2).
    + exact (dom_dep (nxt s) (nvars s) l' x (fun n => up_sem None dom n) Bl' Hx).
    + exact (dom_dep (nxt s) (nvars s) l' x (fun n => down_sem None (rev dom) n) Bl' Hx).
  - injection E as <- <-. destruct A1 as [W1 S1 _ SS1 VB1]. constructor; auto; try easy.
    apply step_weaken with (1 := S1); auto. intros I nu HG _ Hp. now apply (AE I nu HG).
Qed.

(** ** New variables *)

Lemma add_variable_ok mn mx s x s' : wf s -> add_variable mn mx s = (x, s') -> cur_level s = 0%nat ->
  wf s' /\ x = nvars s /\ nvars s' = S (nvars s) /\
  (mn <= mx -> step T2 (fun _ nu => mn <= nu x <= mx) s s').
Proof.
  intros [W F] E C0. injection E as <- <-.
  match goal with |- wf ?q /\ _ => set (s' := q) end.
  assert (VN : forall y, (y < nvars s)%nat -> vst s' y = vst s y) by (intros y Hy; cbn; apply upd_other; lia).
  assert (VX : vst s' (nvars s) = mkvs mn mx [] [] []) by (cbn; apply upd_same).
  assert (NE : forall y, (y < S (nvars s))%nat -> (y < nvars s)%nat \/ y = nvars s) by lia.
  csplit; auto.
  - destruct W as [W1 W2 W3 W4 W5 W6]. split; constructor; auto.
    + intros y Hy. destruct (NE y Hy) as [H| ->]; [rewrite VN by easy; now apply W2|rewrite VX; constructor].
    + intros y w l Hy. destruct (NE y Hy) as [H| ->]; [rewrite VN by easy; now apply W3|now rewrite VX].
    + intros k e H. destruct (W4 k e H) as (A1 & A2 & A3). rewrite VN by easy. split; [easy|]. split; [cbn; lia|easy].
    + intros _ y Hy. destruct (NE y Hy) as [H| ->]; [rewrite VN by easy; now apply W6|now rewrite VX].
    + intros f Hf. destruct F as [F1 F2 F3]. destruct (F1 f Hf) as (A1 & A2 & A3). rewrite VN by easy. csplit; auto. cbn; lia.
    + apply F.
    + intros y w l Hy. destruct F as [F1 F2 F3]. destruct (NE y Hy) as [H| ->]; [rewrite VN by easy; now apply F3|now rewrite VX].
  - intros Hm. constructor; try (cbn; lia).
    + now exists [].
    + intros I nu HG HO _. exists I, (fun y => if Nat.eqb y (nvars s) then mn else nu y). split; [easy|]. split.
      * intros y Hy. destruct (Nat.eqb_spec y (nvars s)); [lia|easy].
      * split; [exact HG|]. intros y Hy. destruct (Nat.eqb_spec y (nvars s)) as [->|N].
        -- rewrite VX. split; [unfold minb, maxb; cbn; lia|easy].
        -- destruct (NE y Hy) as [H|H]; [|easy]. rewrite VN by easy. now apply HO.
    + intros I nu HG HO. split; [exact HG|]. split.
      * intros y Hy. rewrite <- VN by easy. apply HO. cbn. lia.
      * specialize (HO (nvars s) ltac:(cbn; lia)). rewrite VX in HO. destruct HO as [H _]. unfold minb, maxb in H. exact H.
Qed.
End Steps.

(** ** Removing literals between steps *)

(** The literals that remain. *)
Definition keep_lits (p : Z -> bool) (m : list (Z * Z)) := filter (fun e => p (Z.abs (snd e))) m.
Lemma in_keep p m u l : In (u, l) (keep_lits p m) <-> In (u, l) m /\ p (Z.abs l) = true.
Proof. unfold keep_lits. now rewrite filter_In. Qed.
Lemma sorted_ext m m' : sorted m -> sorted m' -> (forall u l, In (u, l) m <-> In (u, l) m') -> m = m'.
Proof.
  revert m'. induction m as [|[u l] m IH]; intros m' S S' H.
  - destruct m' as [|[u' l'] m']; [easy|]. destruct (proj2 (H u' l')); now left.
  - destruct m' as [|[u' l'] m']. { destruct (proj1 (H u l)); now left. }
    apply StronglySorted_inv in S as (S & F). apply StronglySorted_inv in S' as (S' & F'). rewrite Forall_forall in F, F'.
    assert (E : (u, l) = (u', l')).
    { destruct (proj1 (H u l)) as [E|E]; [now left|now symmetry|]. destruct (proj2 (H u' l')) as [E'|E']; [now left|easy|].
      apply F' in E. apply F in E'. unfold klt in *. cbn in *. lia. }
    injection E as <- <-. f_equal. apply IH; auto. intros w z. split; intros Hw.
    + destruct (proj1 (H w z)) as [E|E]; [now right| |easy]. injection E as <- <-. apply F in Hw. unfold klt in Hw. cbn in Hw. lia.
    + destruct (proj2 (H w z)) as [E|E]; [now right| |easy]. injection E as <- <-. apply F' in Hw. unfold klt in Hw. cbn in Hw. lia.
Qed.

Lemma remove_entry_ok k s : wf_core s ->
  let s' := remove_entry k s in
  wf_core s' /\ same s s' /\ nxt s' = nxt s /\ log s' = log s /\
  (forall fs, wf_facts fs s -> wf_facts fs s') /\
  (forall y, (y < nvars s)%nat -> lits (vst s' y) = if maxstat s <? k then keep_lits (fun a => (a =? 1) || negb (a =? k)) (lits (vst s y)) else lits (vst s y)) /\
  (forall j, lmap s' j = None <-> lmap s j = None \/ (j = k /\ maxstat s < k)).
Proof.
  intros W s'. unfold remove_entry in s'.
  assert (KF : forall m, (forall u l, In (u, l) m -> (Z.abs l =? 1) || negb (Z.abs l =? k) = true) -> m = keep_lits (fun a => (a =? 1) || negb (a =? k)) m).
  { induction m as [|[u l] m IH]; intros H; [easy|]. unfold keep_lits. cbn [filter snd]. rewrite (H u l) by now left. f_equal. apply IH. intros u' l' H'. apply (H u' l'). now right. }
  destruct (lmap s k) as [e|] eqn:LE.
  2:{ subst s'. csplit; auto using same_refl.
      - intros y Hy. destruct (maxstat s <? k); [|easy]. apply KF. intros u l H. destruct (wf_lits s W y u l Hy H) as (_ & A).
        destruct (Z.eq_dec (Z.abs l) 1) as [Q|Q]; [now rewrite Q|]. destruct (A Q) as (e & E & _).
        destruct (Z.abs l =? k) eqn:Qk; [|now rewrite Bool.orb_true_r]. apply Z.eqb_eq in Qk. congruence.
      - intros j. split; [tauto|]. intros [H|(-> & _)]; easy. }
  destruct (maxstat s <? k) eqn:MS.
  2:{ subst s'. csplit; auto using same_refl. intros j. split; [tauto|]. intros [H|(-> & H)]; [easy|lia]. }
  destruct (wf_lmap s W k e LE) as (K1 & Hx & Hin & _).
  set (x := e_var e) in *. set (v := e_val e) in *.
  set (s1 := erase_lit x v s) in *.
  pose proof (wf_link s x v W Hx) as [A B C D E].
  assert (EL : lits (vst s1 x) = m_erase (lits (vst s x)) v) by (cbn; now rewrite upd_same).
  assert (OF : off v (lits (vst s x)) (m_erase (lits (vst s x)) v)) by (intros u y N; rewrite in_m_erase by easy; tauto).
  assert (LK : link_ok x v s1).
  { constructor; rewrite ?EL.
    - now apply m_erase_sorted.
    - intros u l H. apply in_m_erase in H as [_ H]; [|easy]. now apply B in H.
    - exact C.
    - intros j e1 H1 Ex Nv. rewrite in_m_erase by easy. split; [easy|]. now apply D.
    - intros u l H N. apply in_m_erase in H as [_ H]; [|easy]. now apply E. }
  destruct (update_litmap x 0 v s1) as [[p n] s2] eqn:U.
  destruct (update_litmap_spec x 0 v s1 _ _ LK U) as (HP & HN & L & -> & L1 & L2).
  rewrite EL in *. cbn [fst snd Z.eqb lmap set_lmap] in *.
  rewrite off_nbelow in HP by eassumption. rewrite off_nabove in HN by eassumption.
  assert (SM : same s s').
  { split; [reflexivity|]. intros y. cbn. unfold upd, vbounds. destruct (Nat.eqb_spec y x) as [->|]; reflexivity. }
  assert (VS : forall y, lits (vst s' y) = if Nat.eqb y x then m_erase (lits (vst s x)) v else lits (vst s y)).
  { intros y. cbn. unfold upd. destruct (Nat.eqb_spec y x) as [->|]; reflexivity. }
  assert (LM : lmap s' = updz L k None) by reflexivity.
  assert (NX : nxt s' = nxt s) by reflexivity. assert (LG : log s' = log s) by reflexivity. assert (NV : nvars s' = nvars s) by reflexivity.
  clearbody s'.
  assert (U1 : forall j e1, lmap s j = Some e1 -> e_var e1 = x -> e_val e1 = v -> j = k).
  { intros j e1 H1 Ex Ev. destruct (wf_lmap s W j e1 H1) as (K2 & _ & Q & _). rewrite Ex, Ev in Q.
    pose proof (in_unique _ _ _ _ A Q Hin) as R. unfold elit in R. destruct (e_pos e1), (e_pos e); lia. }
  csplit; auto.
  - apply wf_link_erase with s x v (m_erase (lits (vst s x)) v) p n; auto.
    + lia.
    + rewrite NX, LG. apply W.
    + intros Hc y Hy. destruct (same_bnds s s' y SM) as (_ & _ & -> & ->). rewrite (same_cur _ _ SM) in Hc. now apply W.
    + intros j e' H. rewrite LM in H. unfold updz in H. destruct (j =? k) eqn:Qj; [discriminate|].
      destruct (lmap s j) as [e1|] eqn:Q1; [|rewrite (L1 j Q1) in H; discriminate].
      destruct (L2 j e1 Q1) as (e2 & R1 & R2). rewrite R1 in H. injection H as <-. exists e1. split; [easy|]. split; [|easy].
      intros [Ex Ev]. pose proof (U1 j e1 Q1 Ex Ev). lia.
    + intros j e1 H N. destruct (L2 j e1 H) as (e2 & R1 & R2). exists e2. split; [|easy]. rewrite LM. unfold updz.
      destruct (j =? k) eqn:Qj; [|easy]. apply Z.eqb_eq in Qj as ->. rewrite LE in H. injection H as <-. destruct N. now split.
  - intros fs [F1 F2 F3]. constructor; auto.
    + intros f Hf. destruct (F1 f Hf) as (G1 & G2 & G3). rewrite NV. csplit; auto. rewrite VS.
      destruct (Nat.eqb_spec (f_var f) x) as [Q|Q]; [|easy]. rewrite Q in G3. rewrite in_m_erase by easy. split; [|easy].
      intros Ev. rewrite Ev in G3. pose proof (in_unique _ _ _ _ A G3 Hin) as R. unfold elit in R. unfold TRUE_LIT in G1. destruct (e_pos e); lia.
    + intros y w z Hy Hz Q. rewrite NV in Hy. apply (F3 y w z Hy); [|easy]. rewrite VS in Hz. destruct (Nat.eqb_spec y x) as [->|]; [|easy].
      now apply in_m_erase in Hz.
  - intros y Hy. rewrite VS. destruct (Nat.eqb_spec y x) as [->|Ny].
    + apply sorted_ext.
      * now apply m_erase_sorted.
      * now apply filter_sorted.
      * intros u l. rewrite in_m_erase, in_keep by easy. split.
        -- intros [N H]. split; [easy|]. destruct (wf_lits s W x u l Hx H) as (_ & R).
           destruct (Z.eq_dec (Z.abs l) 1) as [Q|Q]; [now rewrite Q|]. destruct (R Q) as (e1 & R1 & R2 & R3 & R4).
           destruct (Z.abs l =? k) eqn:Qk; [|now rewrite Bool.orb_true_r]. apply Z.eqb_eq in Qk. rewrite Qk, LE in R1. injection R1 as <-. now destruct N.
        -- intros [H Q]. split; [|easy]. intros ->. pose proof (in_unique _ _ _ _ A H Hin) as R. unfold elit in R. destruct (e_pos e); lia.
    + apply KF. intros u l H. destruct (wf_lits s W y u l Hy H) as (_ & R).
      destruct (Z.eq_dec (Z.abs l) 1) as [Q|Q]; [now rewrite Q|]. destruct (R Q) as (e1 & R1 & R2 & _).
      destruct (Z.abs l =? k) eqn:Qk; [|now rewrite Bool.orb_true_r]. apply Z.eqb_eq in Qk. rewrite Qk, LE in R1. injection R1 as <-. now destruct Ny.
  - intros j. rewrite LM. unfold updz. destruct (j =? k) eqn:Qj.
    + split; [|easy]. intros _. right. lia.
    + split.
      * intros H. left. destruct (lmap s j) as [e1|] eqn:Q1; [|easy]. destruct (L2 j e1 Q1) as (e2 & R1 & _). congruence.
      * intros [H|H]; [now apply L1|lia].
Qed.

Lemma solver_update_ok s : wf s ->
  let s' := solver_update s in
  wf s' /\ (forall y, vbounds (vst s' y) = vbounds (vst s y)) /\ nvars s' = nvars s /\ log s' = log s /\ nxt s' = nxt s /\ fmap s' = fmap s /\
  mbound s' = None /\ mlevel s' = 0%nat /\
  (forall y, (y < nvars s)%nat -> lits (vst s' y) = keep_lits (fun a => (a =? 1) || (a <=? maxstat s)) (lits (vst s y))) /\
  (forall k, lmap s' k = None <-> lmap s k = None \/ maxstat s < k).
Proof.
  intros [W F] s'. unfold solver_update in s'. set (s0 := set_mlevel 0 (set_mbound None s)) in *.
  assert (W0 : wf_core s0) by (destruct W; now constructor).
  assert (F0 : wf_facts (fmap s0) s0) by (destruct F; now constructor).
  assert (G : forall n s1 a, wf_core s1 -> wf_facts (fmap s0) s1 -> same s0 s1 -> nxt s1 = nxt s -> log s1 = log s ->
    let r := fold_left (fun s k => remove_entry k s) (zseq a n) s1 in
    wf_core r /\ wf_facts (fmap s0) r /\ same s0 r /\ nxt r = nxt s /\ log r = log s /\
    (forall y, (y < nvars s)%nat -> lits (vst r y) = keep_lits (fun i => (i =? 1) || negb ((maxstat s <? i) && (a <=? i) && (i <? a + Z.of_nat n))) (lits (vst s1 y))) /\
    (forall k, lmap r k = None <-> lmap s1 k = None \/ (maxstat s < k /\ a <= k < a + Z.of_nat n))).
  { induction n as [|n IH]; intros s1 a W1 F1 SM NX LG r.
    - cbn in r. subst r. csplit; auto.
      + intros y Hy. unfold keep_lits. symmetry. clear. induction (lits (vst s1 y)) as [|[u l] m IH]; [easy|].
        cbn [filter snd]. replace (negb _) with true by lia. rewrite Bool.orb_true_r. now rewrite IH.
      + intros k. assert (~ (a <= k < a + Z.of_nat 0)) by lia. tauto.
    - cbn [zseq fold_left] in r.
      destruct (remove_entry_ok a s1 W1) as (R1 & R2 & R3 & R4 & R5 & R6 & R7).
      set (s2 := remove_entry a s1) in *.
      assert (MS : maxstat s1 = maxstat s) by (rewrite (same_get maxstat) with (2 := SM); reflexivity).
      assert (NV1 : nvars s1 = nvars s) by (rewrite (same_nvars _ _ SM); reflexivity).
      destruct (IH s2 (a + 1)) as (Q1 & Q2 & Q3 & Q4 & Q5 & Q6 & Q7); auto; try congruence.
      { now apply same_trans with s1. }
      fold r in Q1, Q2, Q3, Q4, Q5, Q6, Q7. csplit; auto.
      + intros y Hy. rewrite (Q6 y Hy), (R6 y) by lia. rewrite MS. unfold keep_lits. destruct (maxstat s <? a) eqn:Qa.
        * clear -Qa. induction (lits (vst s1 y)) as [|[u l] m IHm]; [easy|]. cbn [filter snd].
          destruct ((Z.abs l =? 1) || negb (Z.abs l =? a)) eqn:T1.
          -- cbn [filter snd].
             replace ((Z.abs l =? 1) || negb ((maxstat s <? Z.abs l) && (a + 1 <=? Z.abs l) && (Z.abs l <? a + 1 + Z.of_nat n)))
               with ((Z.abs l =? 1) || negb ((maxstat s <? Z.abs l) && (a <=? Z.abs l) && (Z.abs l <? a + Z.of_nat (S n)))) by lia.
             now rewrite IHm.
          -- rewrite IHm. replace ((Z.abs l =? 1) || negb ((maxstat s <? Z.abs l) && (a <=? Z.abs l) && (Z.abs l <? a + Z.of_nat (S n)))) with false by lia. easy.
        * apply filter_ext. intros [u l]. cbn [snd]. lia.
      + intros k. rewrite Q7, R7, MS.
        assert (maxstat s < k /\ a <= k < a + Z.of_nat (S n) <-> (k = a /\ maxstat s < a) \/ (maxstat s < k /\ a + 1 <= k < a + 1 + Z.of_nat n)) by lia. tauto. }
  assert (P1 : 0 <= nxt s - 1) by (pose proof (wf_nxt s W); lia).
  destruct (G (Z.to_nat (nxt s - 1)) s0 1 W0 F0 (same_refl _) eq_refl eq_refl) as (Q1 & Q2 & Q3 & Q4 & Q5 & Q6 & Q7).
  fold s' in Q1, Q2, Q3, Q4, Q5, Q6, Q7. csplit; auto.
  - split; [easy|]. now rewrite (same_fmap _ _ Q3).
  - apply Q3.
  - apply (same_nvars _ _ Q3).
  - now rewrite (same_fmap _ _ Q3).
  - now rewrite (same_get mbound) with (2 := Q3).
  - now rewrite (same_get mlevel) with (2 := Q3).
  - intros y Hy. rewrite (Q6 y Hy). change (vst s0 y) with (vst s y). unfold keep_lits. apply filter_ext_in. intros [u l] H. cbn [snd].
    destruct (wf_lits s W y u l Hy H) as (B & _). unfold below in B. lia.
  - intros k. rewrite Q7. change (lmap s0 k) with (lmap s k). split; [intros [H|H]; [now left|right; lia]|].
    intros [H|H]; [now left|]. destruct (lmap s k) as [e|] eqn:Q; [|now left]. right. apply (wf_lmap s W) in Q. lia.
Qed.
