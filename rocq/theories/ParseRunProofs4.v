(** The parser on the real builder: atoms and programs. *)
From Coq Require Import String.
From Verif Require Import Base Util UtilProofs IntervalSet IntervalSetProofs VarState Terms TermsSpec TermsProofs TermsProofs2 TermsProofs3 TermsProofs4 Statements StatementsSpec DenFun StatementsProofs StatementsMain
  Solver OrderSpec OrderProofs2 OrderProofs5 OrderProofs6 Sum PropProofs ConSpec Objective Search SearchSpec SearchFrame SearchInv5 Builder BuilderSpec BuilderProofs BuilderProofs3 Init InitSpec
  ParseRun ParseRunSpec ParseRunProofs ParseRunProofs2 ParseRunProofs3 ParseRunNonlin.
From Coq Require Import Permutation.
Open Scope Z_scope.
Local Notation holds := TermsSpec.holds.
Local Notation add_variable := Terms.add_variable.

(** ** Atoms that make one call *)
Lemma call_means n a c t t' : parse_atom (fun l => l =? 1) (fun _ => true) a (t, mkbst n []) = Ok (true, (t', mkbst n [c])) ->
  1 < n -> below n (a_lit a) -> call_below n c -> (forall b, a_kind a <> KNsum b) ->
  extends t t' /\ (tab_wf t -> tab_wf t') /\
  forall rho nu, tab_agrees rho nu t' -> forall I, I 1 = true -> (call_holds I nu c <-> atom_means rho a I).
Proof.
  intros H N B C NS.
  assert (Bn : bounded_by (fun l => l =? 1) n) by (split; [exact N|]; intros l El; unfold below; lia).
  assert (Fi : atom_fine a t) by (unfold atom_fine; destruct (a_kind a); auto; now elim (NS body)).
  pose proof (fun nu => atom_realizable _ _ nu a _ _ H B Bn Fi) as R. cbn [fst snd b_next b_log app] in R.
  destruct (R (fun _ => 0)) as (R1 & R2 & _). split; [exact R1|]. split; [exact R2|]. intros rho nu TA I I1. destruct (R nu) as (_ & _ & new & E & X).
  cbn [app] in E. subst new. specialize (X rho TA I). assert (OK : forall I, I 1 = true -> okI (fun l => l =? 1) I).
  { intros J J1. split; [exact J1|]. intros l El. apply Z.eqb_eq in El. subst l. exact J1. }
  rewrite <- (X (OK I I1)). split.
  - intros Hc. exists I. split; [easy|]. split; [now apply OK|]. constructor; [exact Hc|constructor].
  - intros (J & A & _ & F). inversion_clear F. eapply call_holds_agree; [apply agree_sym, A|exact C|assumption].
Qed.

(** What an atom adds to the objective function. *)
Definition part (rho : sym -> Z) (a : tatom) (w : Z) : Prop :=
  match a_kind a with
  | KMinimize => den_elems (den rho) (a_elems a) w
  | KMaximize => exists x, den_elems (den rho) (a_elems a) x /\ w = - x
  | _ => w = 0
  end.

Section Atoms.
Context (O : oracle) (cfg : config) (srt : list (Z * var) -> list (Z * var)) (mn mx : Z) (Base : interp -> Prop) (n0 : Z).
Context (BO : base_ok Base n0) (CO : clasp_ok O Base) (PS : forall es, Permutation (srt es) es) (MX : mn <= mx) (MR : MIN_VAL <= mn /\ mx <= MAX_VAL).
Notation models := (models Base).
Notation pok := (pok O n0).
Notation plain := (plain O cfg srt Base n0 (fun _ _ => True)).
Notation adds := (adds O cfg srt Base n0).
Notation Pr := (interp -> (var -> Z) -> Prop).
Notation nv s := (nvars (b_s (p_b s))).
Notation rng := (rng mn mx).
Notation read_step := (read_step O cfg srt mn mx Base n0 MX MR).
Notation call_step := (call_step O cfg srt Base n0 BO CO PS).

(** The step from [s] to [s'] adds what [a] means, and the ranges of new variables. *)
Definition stands (Q F : Pr) (W : (var -> Z) -> Z) (t : symtab) (a : tatom) : Prop :=
  (forall n, below n (a_lit a) -> onlyI n Q) /\
  forall rho nu, tab_agrees rho nu t -> (forall I, I 1 = true -> (Q I nu <-> atom_means rho a I)) /\ (forall I, I 1 = true -> holds_firmly rho a I -> F I nu) /\ part rho a (W nu).
Definition added (K : Z -> Prop) (s : pr) (K' : Z -> Prop) (s' : pr) (a : tatom) : Prop :=
  exists Q F W, adds K s K' s' (fun I nu => rng (nv s) (nv s') nu /\ Q I nu) F W /\ stands Q F W (p_tab s') a.

Lemma same_tab K s K' s' : pok K s -> pok K' s' -> p_tab s' = p_tab s -> nv s' = nv s.
Proof. intros A B E. rewrite <- (po_next _ _ _ _ A), <- (po_next _ _ _ _ B), E. reflexivity. Qed.

Lemma read_then K s s1 K' s' a Q F W : pok K s -> plain K s K s1 (fun _ nu => rng (nv s) (nv s1) nu) -> adds K s1 K' s' Q F W -> p_tab s' = p_tab s1 ->
  K (Z.abs (a_lit a)) -> stands Q F W (p_tab s1) a -> added K s K' s' a.
Proof.
  intros P0 R A T Kl [D S]. exists Q, F, W. rewrite T. split; [|now split].
  pose proof (same_tab _ _ _ _ (ad_ok _ _ _ _ _ _ _ _ _ _ _ _ R) (ad_ok _ _ _ _ _ _ _ _ _ _ _ _ A) T) as NV.
  eapply ad_imp; [eapply ad_trans; [exact P0|exact R|exact A|]|..].
  - apply D. eapply pk_below; eauto.
  - intros I nu _. rewrite NV. reflexivity.
  - intros I nu f. split; [exact Logic.I|exact f].
  - intros nu. apply Z.add_0_l.
Qed.
Lemma call_added K s s1 s' a c : pok K s -> plain K s K s1 (fun _ nu => rng (nv s) (nv s1) nu) -> p_call O cfg srt c s1 = Ok (true, s') ->
  K (Z.abs (a_lit a)) -> call_ok K (nv s1) c -> call_tidy c -> (forall co v, c <> BMin co v) -> (forall n, below n (a_lit a) -> call_below n c) ->
  (forall rho nu, tab_agrees rho nu (p_tab s1) -> forall I, I 1 = true -> (call_holds I nu c <-> atom_means rho a I)) ->
  (forall rho nu, tab_agrees rho nu (p_tab s1) -> forall I, I 1 = true -> holds_firmly rho a I -> firm c = c \/ call_holds I nu (firm c)) ->
  (forall rho, part rho a 0) -> added K s K s' a.
Proof.
  intros P0 R H Kl C1 C2 NM CB HM HF HW. pose proof (ad_ok _ _ _ _ _ _ _ _ _ _ _ _ R) as P1.
  destruct (call_step K c s1 s' H P1 C1 C2 ltac:(destruct c; auto; now elim (NM co v))) as [A T].
  eapply read_then; [exact P0|exact R|exact A|exact T|exact Kl|]. split.
  - intros n B. apply call_only, CB, B.
  - intros rho nu TA. split; [now apply HM|]. split; [now apply HF|]. replace (obj1 c nu) with 0; [apply HW|]. destruct c; try reflexivity. now elim (NM co v).
Qed.

Lemma part_zero rho a : a_kind a <> KMinimize -> a_kind a <> KMaximize -> part rho a 0.
Proof. unfold part. destruct (a_kind a); congruence. Qed.

Lemma addc_l_step K l es rhs strict s s' : p_addc_l O cfg srt l es rhs strict s = Ok (true, s') -> pok K s -> K (Z.abs l) -> tidy_terms (st_next (p_tab s)) es ->
  plain K s K s' (reifn l strict (fun nu => terms_val (key_val nu) es <= rhs)) /\ p_tab s' = p_tab s.
Proof.
  intros H P Kl TD. unfold p_addc_l in H. inv_ok. destruct (strip_tidy _ _ _ H0 TD) as [F ND]. rewrite (po_next _ _ _ _ P) in F.
  destruct (call_step K _ s s' H P ltac:(split; [exact Kl|exact F]) ltac:(exact ND) Logic.I) as [A T]. split; [|exact T].
  eapply ad_imp; [exact A|..].
  - intros I nu _. cbn [call_holds]. unfold reifn, reif. rewrite (strip_val nu _ _ H0). reflexivity.
  - intros. now left.
  - reflexivity.
Qed.
Lemma linear_means (is_sum : bool) a strict op g t t' ts es rhs es' rhs' : a_kind a = (if is_sum then KSum strict else KDiff strict) -> a_guard a = Some (op, g) ->
  (if is_sum then parse_elems_sum lkey (a_elems a) (Some g) else parse_elems_diff lkey (a_elems a) (Some g)) t = Ok (ts, t') ->
  simplify true ts = Ok (es, rhs) -> gcd_reduce es rhs = (es', rhs') ->
  forall rho nu, tab_agrees rho nu t' -> forall I, reifn (a_lit a) strict (fun nu => holds op (terms_val (key_val nu) es') rhs') I nu <-> atom_means rho a I.
Proof.
  intros Ki G RT HS GR rho nu TA I.
  destruct (simplify_spec _ _ _ _ HS) as (V & _). destruct (gcd_reduce_spec _ _ _ _ GR) as (_ & GV & _).
  assert (E : holds op (terms_val (key_val nu) es') rhs' <-> holds op (terms_val (key_val nu) ts) 0).
  { rewrite GV, (V nu). destruct op; cbn [TermsSpec.holds]; lia. }
  unfold reifn, atom_means. rewrite Ki. destruct is_sum.
  - destruct (parse_elems_sum_spec lkey (key_val nu) nu _ _ _ _ _ (lkey_compat nu) RT) as (_ & _ & E3). destruct (E3 rho TA) as (x & y & X & Y & Vx).
    unfold reif. rewrite E, Vx, (holds_sub (fun _ => true)). split.
    + intros Hq. exists op, g, x, y. unfold reified. auto.
    + intros (op' & g' & x' & y' & Eg & X' & Y' & Hq). rewrite G in Eg. injection Eg as <- <-.
      rewrite (den_elems_fun _ (fun t x H => den_fun rho t x H) _ _ X _ X'), (den_fun rho _ _ Y _ Y'). exact Hq.
  - destruct (parse_elems_diff_spec lkey (key_val nu) nu _ _ _ _ _ (lkey_compat nu) RT) as (_ & _ & E3). destruct (E3 rho TA) as (x & y & X & Y & Vx).
    unfold reif. rewrite E, Vx, (holds_sub (fun _ => true)). split.
    + intros Hq. exists op, g, x, y. unfold reified. auto.
    + intros (op' & g' & x' & y' & Eg & X' & Y' & Hq). rewrite G in Eg. injection Eg as <- <-.
      rewrite (den_elems_fun _ (fun t x H => den_diff_fun rho t x H) _ _ X _ X').
      pose proof (ground_fun _ _ Y _ Y') as Ey. injection Ey as ->. exact Hq.
Qed.
Lemma constraint_l_step is_sum K s s' a strict : p_constraint_l O cfg srt mn mx is_sum a strict s = Ok (true, s') -> pok K s -> K (Z.abs (a_lit a)) ->
  a_kind a = (if is_sum then KSum strict else KDiff strict) -> exists K', added K s K' s' a.
Proof.
  intros H P Kl Ki. unfold p_constraint_l in H. destruct (a_guard a) as [[op g]|] eqn:G; [|discriminate]. inv_ok. rename a0 into ts. destruct a1 as [es rhs].
  destruct (gcd_reduce es rhs) as [es' rhs'] eqn:GR. rename H0 into HR, H1 into HS.
  destruct (read_step _ K s ts s0 HR P) as (RT & R & _).
  { intros t' Ht. destruct is_sum.
    - destruct (parse_elems_sum_spec lkey _ _ _ _ _ _ _ (lkey_compat (fun _ => 0)) Ht) as (A & B & _). auto.
    - destruct (parse_elems_diff_spec lkey _ _ _ _ _ _ _ (lkey_compat (fun _ => 0)) Ht) as (A & B & _). auto. }
  pose proof (ad_ok _ _ _ _ _ _ _ _ _ _ _ _ R) as P1.
  assert (KI : kins (st_next (p_tab s0)) ts) by (destruct is_sum; [eapply sum_kins|eapply elems_diff_kins]; eauto; apply P).
  pose proof (gcd_tidy _ _ _ _ _ GR (simplify_tidy _ _ _ _ HS KI)) as TD.
  destruct (normalize_step O cfg srt Base n0 BO CO PS (fun _ _ => True) (fun nu => key_val nu) (p_addc_l O cfg srt) tidy_terms inv_tidy addc_l_step _ K _ _ _ _ _ _ _ H P1 Kl TD) as [[K' A] T].
  exists K'. eapply read_then; [exact P|exact R|exact A|exact T|exact Kl|]. split; [intros n B; apply reifn_only, B|].
  intros rho nu TA. split; [|split; [intros; exact Logic.I|apply part_zero; rewrite Ki; destruct is_sum; discriminate]].
  intros I _. exact (linear_means is_sum a strict op g _ _ ts es rhs es' rhs' Ki G RT HS GR rho nu TA I).
Qed.

Lemma product_means a strict op g t t' ts es rhs es' rhs' : a_kind a = KNsum strict -> a_guard a = Some (op, g) ->
  parse_elems_sum nkey (a_elems a) (Some g) t = Ok (ts, t') -> simplify_n true ts = Ok (es, rhs) -> gcd_reduce es rhs = (es', rhs') ->
  forall rho nu, tab_agrees rho nu t' -> forall I l, reifn l strict (fun nu => holds op (terms_val (prod_val nu) es') rhs') I nu <-> atom_means rho (mkatom (a_kind a) (a_elems a) (a_guard a) l) I.
Proof.
  intros Ki G RT HS GR rho nu TA I l.
  destruct (simplify_n_spec _ _ _ _ HS) as (V & _). destruct (gcd_reduce_spec _ _ _ _ GR) as (_ & GV & _).
  assert (E : holds op (terms_val (prod_val nu) es') rhs' <-> holds op (terms_val (prod_val nu) ts) 0).
  { rewrite GV, (V nu). destruct op; cbn [TermsSpec.holds]; lia. }
  unfold reifn, atom_means. cbn [a_kind a_guard a_elems a_lit]. rewrite Ki.
  destruct (parse_elems_sum_spec nkey (prod_val nu) nu _ _ _ _ _ (nkey_compat nu) RT) as (_ & _ & E3). destruct (E3 rho TA) as (x & y & X & Y & Vx).
  unfold reif. rewrite E, Vx, (holds_sub (fun _ => true)). split.
  - intros Hq. exists op, g, x, y. unfold reified. auto.
  - intros (op' & g' & x' & y' & Eg & X' & Y' & Hq). rewrite G in Eg. injection Eg as <- <-.
    rewrite (den_elems_fun _ (fun t x H => den_fun rho t x H) _ _ X _ X'), (den_fun rho _ _ Y _ Y'). exact Hq.
Qed.
Lemma atom_eta a : mkatom (a_kind a) (a_elems a) (a_guard a) (a_lit a) = a. Proof. now destruct a. Qed.
Lemma constraint_n_step K s s' a : p_constraint_n O cfg srt mn mx a false s = Ok (true, s') -> pok K s -> K (Z.abs (a_lit a)) ->
  a_kind a = KNsum false -> (forall t, one_product_atom a t) -> exists K', added K s K' s' a.
Proof.
  intros H P Kl Ki OP. unfold p_constraint_n in H. destruct (a_guard a) as [[op g]|] eqn:G; [|discriminate]. inv_ok. rename a0 into ts. destruct a1 as [es rhs].
  destruct (gcd_reduce es rhs) as [es' rhs'] eqn:GR. rename H0 into HR, H1 into HS.
  destruct (read_step _ K s ts s0 HR P) as (RT & R & _).
  { intros t' Ht. destruct (parse_elems_sum_spec nkey _ _ _ _ _ _ _ (nkey_compat (fun _ => 0)) Ht) as (A & B & _). auto. }
  pose proof (ad_ok _ _ _ _ _ _ _ _ _ _ _ _ R) as P1.
  destruct (simplify_prods _ _ _ _ HS (sum_nins _ _ _ _ _ RT (po_tab _ _ _ _ P)) (OP _ _ _ _ _ _ _ G RT HS)) as [TP V].
  destruct (gcd_prods _ _ _ _ _ GR TP V) as [TP' V'].
  destruct (prods_step O cfg srt Base n0 BO CO PS K _ _ _ _ _ _ H P1 Kl TP' V') as [[K' A] T].
  exists K'. eapply read_then; [exact P|exact R|exact A|exact T|exact Kl|]. split; [intros n B; apply reifn_only, B|].
  intros rho nu TA. pose proof (product_means a false op g _ _ ts es rhs es' rhs' Ki G RT HS GR rho nu TA) as PM.
  split; [|split; [|apply part_zero; rewrite Ki; discriminate]].
  - intros I _. rewrite (PM I (a_lit a)), atom_eta. reflexivity.
  - intros I I1 HF. unfold holds_firmly in HF. rewrite Ki in HF. destruct HF as [NE HF]. split; [intros ->; now apply (NE g)|]. apply (PM I TRUE_LIT) in HF. apply HF. exact I1.
Qed.

Lemma distinct_means a t res t' : parse_distinct_elems (a_elems a) t = Ok (res, t') -> a_kind a = KDistinct -> a_lit a <> 0 ->
  extends t t' /\ (tab_wf t -> tab_wf t') /\
  forall rho nu, tab_agrees rho nu t' -> forall I, I 1 = true -> (call_holds I nu (BDistinct (a_lit a) res) <-> atom_means rho a I).
Proof.
  intros H Ki Nz. assert (Bl : below (Z.abs (a_lit a) + 2) (a_lit a)) by (unfold below; lia).
  apply (call_means (Z.abs (a_lit a) + 2)); auto; [|lia|rewrite Ki; discriminate].
  unfold parse_atom, parse_distinct, on_tab, on_bld, call, sbind. rewrite Ki. cbn [fst snd]. rewrite H. reflexivity.
Qed.
Lemma disjoint_means a t res t' : parse_disjoint_elems (a_elems a) t = Ok (res, t') -> a_kind a = KDisjoint -> a_lit a <> 0 ->
  extends t t' /\ (tab_wf t -> tab_wf t') /\
  forall rho nu, tab_agrees rho nu t' -> forall I, I 1 = true -> (call_holds I nu (BDisjoint (a_lit a) res) <-> atom_means rho a I).
Proof.
  intros H Ki Nz. assert (Bl : below (Z.abs (a_lit a) + 2) (a_lit a)) by (unfold below; lia).
  apply (call_means (Z.abs (a_lit a) + 2)); auto; [|lia|rewrite Ki; discriminate].
  unfold parse_atom, parse_disjoint, on_tab, on_bld, call, sbind. rewrite Ki. cbn [fst snd]. rewrite H. reflexivity.
Qed.
Lemma lit_nz K s l : pok K s -> K (Z.abs l) -> l <> 0.
Proof. intros P Kl. apply (pk_below O n0 K s l P Kl). Qed.

Lemma distinct_step K s s' a : p_distinct O cfg srt mn mx a s = Ok (true, s') -> pok K s -> K (Z.abs (a_lit a)) -> a_kind a = KDistinct -> added K s K s' a.
Proof.
  intros H P Kl Ki. pose proof (lit_nz _ _ _ P Kl) as Nz. unfold p_distinct in H. inv_ok. rename a0 into res.
  destruct (read_step _ K s res s0 H0 P) as (RT & R & _); [intros t' Ht; destruct (distinct_means a _ _ _ Ht Ki Nz) as (A & B & _); auto|].
  pose proof (ad_ok _ _ _ _ _ _ _ _ _ _ _ _ R) as P1.
  destruct (distinct_means a _ _ _ RT Ki Nz) as (_ & _ & DM). destruct (distinct_means (as_fact a) _ _ _ RT Ki ltac:(discriminate)) as (_ & _ & DF).
  destruct (distinct_elems_tidy _ _ _ _ RT (po_tab _ _ _ _ P)) as (L & F1 & F2). rewrite (po_next _ _ _ _ P1) in F1.
  eapply call_added; [exact P|exact R|exact H|exact Kl|split; [exact Kl|exact F1]|exact F2|discriminate|auto|exact DM| |intros rho; apply part_zero; rewrite Ki; discriminate].
  intros rho nu TA I I1 HF. unfold holds_firmly in HF. rewrite Ki in HF. cbn [firm]. destruct (Nat.ltb_spec 2 (length res)); [|now left]. right.
  destruct HF as [HF|HF]; [lia|]. apply (DF rho nu TA I I1). exact HF.
Qed.
Lemma disjoint_step K s s' a : p_disjoint O cfg srt mn mx a s = Ok (true, s') -> pok K s -> K (Z.abs (a_lit a)) -> a_kind a = KDisjoint -> added K s K s' a.
Proof.
  intros H P Kl Ki. pose proof (lit_nz _ _ _ P Kl) as Nz. unfold p_disjoint in H. inv_ok. rename a0 into res.
  destruct (read_step _ K s res s0 H0 P) as (RT & R & _); [intros t' Ht; destruct (disjoint_means a _ _ _ Ht Ki Nz) as (A & B & _); auto|].
  pose proof (ad_ok _ _ _ _ _ _ _ _ _ _ _ _ R) as P1.
  destruct (disjoint_means a _ _ _ RT Ki Nz) as (_ & _ & DM). destruct (disjoint_means (as_fact a) _ _ _ RT Ki ltac:(discriminate)) as (_ & _ & DF).
  destruct (disjoint_elems_tidy _ _ _ _ RT (po_tab _ _ _ _ P)) as (L & F1). rewrite (po_next _ _ _ _ P1) in F1.
  destruct (parse_disjoint_elems_spec (fun _ => true) (fun _ => 0) _ _ _ _ RT) as (_ & _ & F2 & _).
  eapply call_added; [exact P|exact R|exact H|exact Kl|split; [exact Kl|]|exact Logic.I|discriminate|auto|exact DM| |intros rho; apply part_zero; rewrite Ki; discriminate].
  - rewrite Forall_forall in *. intros e He. specialize (F1 e He). specialize (F2 e He). cbv beta in *. split; [apply F2|exact F1].
  - intros rho nu TA I I1 HF. unfold holds_firmly in HF. rewrite Ki in HF. cbn [firm]. destruct (Nat.ltb_spec 2 (length res)); [|now left]. right.
    destruct HF as [HF|HF]; [lia|]. apply (DF rho nu TA I I1). exact HF.
Qed.
Lemma dom_step K s s' a : p_dom O cfg srt mn mx a s = Ok (true, s') -> pok K s -> K (Z.abs (a_lit a)) -> a_kind a = KDom -> covered a -> added K s K s' a.
Proof.
  intros H P Kl Ki Cv. pose proof (lit_nz _ _ _ P Kl) as Nz. unfold p_dom in H. inv_ok. destruct (a_guard a) as [[op g]|] eqn:G; [|discriminate]. inv_ok. rename a0 into dom, a1 into sy, a2 into v.
  destruct (read_step _ K s v s1 H2 P) as (RT & R & _); [intros t' Ht; destruct (add_variable_spec _ _ _ _ Ht) as (A & _ & B); auto|].
  pose proof (ad_ok _ _ _ _ _ _ _ _ _ _ _ _ R) as P1.
  assert (Bl : below (Z.abs (a_lit a) + 2) (a_lit a)) by (unfold below; lia).
  destruct (call_means (Z.abs (a_lit a) + 2) a (BDom (a_lit a) v dom) (p_tab s) (p_tab s1)) as (_ & _ & DM); auto; [|lia|rewrite Ki; discriminate|].
  { unfold parse_atom, parse_dom, on_tab, on_bld, call, sbind, slift. rewrite Ki, H0, G. rewrite H1. cbn [fst snd]. rewrite RT. reflexivity. }
  destruct (domain_read _ _ H0) as (WD & MD & _).
  assert (V : (v < nv s1)%nat).
  { rewrite <- (po_next _ _ _ _ P1). destruct (add_variable_spec _ _ _ _ RT) as (_ & Hi & _). apply (proj2 (proj2 (po_tab _ _ _ _ P1)) _ _ Hi). }
  assert (NE : dom <> []).
  { intros ->. unfold covered in Cv. rewrite Ki in Cv. destruct Cv as (t & z & X & Y). destruct (mem_nil z). apply MD. eauto. }
  eapply call_added; [exact P|exact R|exact H|exact Kl|split; [exact Kl|split; [exact V|split; [exact WD|exact NE]]]|exact Logic.I|discriminate|auto|exact DM|intros; now left|intros rho; apply part_zero; rewrite Ki; discriminate].
Qed.

(** ** Statements that add nothing to the constraints *)
Lemma idle_step K c s b s' : p_call O cfg srt c s = Ok (b, s') -> (match c with BMin _ _ | BShow | BShowSig _ _ | BShowVar _ => True | _ => False end) ->
  (match c with BMin _ (Some x) => (x < nv s)%nat | _ => True end) -> pok K s ->
  adds K s K s' (fun _ _ => True) (fun _ _ => True) (obj1 c) /\ p_tab s' = p_tab s.
Proof.
  intros H C B P. assert (E : p_call O cfg srt c s = Ok (true, s')) by (revert H; unfold p_call; destruct c; try easy; cbn [build1]; congruence).
  destruct (call_step K c s s' E P ltac:(now destruct c) ltac:(now destruct c) B) as [A T]. split; [|exact T].
  eapply ad_imp; [exact A|..].
  - intros I nu _. destruct c; easy.
  - intros. left. now destruct c.
  - reflexivity.
Qed.
Lemma min_step factor ts : forall K s u s', p_add_min O cfg srt factor ts s = Ok (u, s') -> pok K s -> kins (nv s) ts ->
  adds K s K s' (fun _ _ => True) (fun _ _ => True) (fun nu => factor * terms_val (key_val nu) ts) /\ p_tab s' = p_tab s.
Proof.
  induction ts as [|[co v] ts IH]; cbn [p_add_min]; intros K s u s' H P F.
  - inv_ok. split; [|reflexivity]. eapply ad_imp; [apply ad_refl, P|easy|easy|]. intros nu. cbn. lia.
  - inv_ok. inversion_clear F as [|? ? F1 F2]. destruct (idle_step K _ _ _ _ H1 Logic.I ltac:(destruct v; auto) P) as [A T]. pose proof (ad_ok _ _ _ _ _ _ _ _ _ _ _ _ A) as P1.
    destruct (IH K _ _ _ H P1 ltac:(rewrite (same_tab _ _ _ _ P P1 T); exact F2)) as [B T2]. split; [|congruence].
    eapply ad_imp; [eapply ad_trans; [exact P|exact A|exact B|easy]|easy|easy|]. intros nu. cbn [obj1 terms_val]. apply safe_mul_val in H0. subst. cbn [obj1]. ring.
Qed.
Lemma objective_step K s u s' a factor : p_objective O cfg srt mn mx a factor s = Ok (u, s') -> pok K s -> K (Z.abs (a_lit a)) ->
  (factor = 1 /\ a_kind a = KMinimize \/ factor = -1 /\ a_kind a = KMaximize) -> added K s K s' a.
Proof.
  intros H P Kl Ki. unfold p_objective in H. inv_ok. rename a0 into ts.
  destruct (read_step _ K s ts s0 H0 P) as (RT & R & _); [intros t' Ht; destruct (parse_elems_sum_spec lkey _ _ _ _ _ _ _ (lkey_compat (fun _ => 0)) Ht) as (A & B & _); auto|].
  pose proof (ad_ok _ _ _ _ _ _ _ _ _ _ _ _ R) as P1. pose proof (sum_kins _ _ _ _ _ RT (po_tab _ _ _ _ P)) as KI. rewrite (po_next _ _ _ _ P1) in KI.
  destruct (min_step factor ts K _ _ _ H P1 KI) as [A T]. eapply read_then; [exact P|exact R|exact A|exact T|exact Kl|]. split; [easy|].
  intros rho nu TA. split; [|split; [easy|]].
  - intros I _. unfold atom_means. destruct Ki as [[_ ->]|[_ ->]]; easy.
  - destruct (parse_elems_sum_spec lkey (key_val nu) nu _ _ _ _ _ (lkey_compat nu) RT) as (_ & _ & E3). destruct (E3 rho TA) as (x & y & X & -> & V).
    unfold part. destruct Ki as [[-> ->]|[-> ->]].
    + replace (1 * terms_val (key_val nu) ts) with x by lia. exact X.
    + exists x. split; [exact X|]. lia.
Qed.
Lemma show_elem_step K s u s' t : p_show_elem O cfg srt mn mx t s = Ok (u, s') -> pok K s -> plain K s K s' (fun _ nu => rng (nv s) (nv s') nu).
Proof.
  intros H P. unfold p_show_elem in H. destruct (op2 t "/") as [[x y]|].
  - inv_ok. destruct a as [|?|name [|? ?] ?]; try discriminate. inv_ok. destruct (idle_step K _ _ _ _ H3 Logic.I Logic.I P) as [A T].
    rewrite (same_tab _ _ _ _ P (ad_ok _ _ _ _ _ _ _ _ _ _ _ _ A) T). eapply ad_imp; [exact A|intros I nu _|easy|easy]. split; [|easy]. intros _ z Hz. lia.
  - inv_ok. assert (G : forall sy, (v <~ p_read mn mx (add_variable sy);; _ <~ p_call O cfg srt (BShowVar v);; sret tt) s = Ok (u, s') -> plain K s K s' (fun _ nu => rng (nv s) (nv s') nu)).
    { intros sy H'. inv_ok. destruct (read_step _ K s _ _ H1 P) as (RT & R & _); [intros t' Ht; destruct (add_variable_spec _ _ _ _ Ht) as (A & _ & B); auto|].
      pose proof (ad_ok _ _ _ _ _ _ _ _ _ _ _ _ R) as P1. destruct (idle_step K _ _ _ _ H2 Logic.I Logic.I P1) as [A T].
      rewrite (same_tab _ _ _ _ P1 (ad_ok _ _ _ _ _ _ _ _ _ _ _ _ A) T). eapply ad_imp; [eapply ad_trans; [exact P|exact R|exact A|easy]|intros I nu _|easy|easy]. tauto. }
    destruct a as [|?|? ? ?]; [discriminate|..]; eapply G; eassumption.
Qed.
Lemma rng_nil n nu : rng n n nu. Proof. intros x Hx. lia. Qed.
Lemma show_elems_step es : forall K s u s', p_show_elems O cfg srt mn mx es s = Ok (u, s') -> pok K s -> plain K s K s' (fun _ nu => rng (nv s) (nv s') nu).
Proof.
  induction es as [|[[|t [|? ?]] [|]] es IH]; cbn [p_show_elems]; intros K s u s' H P; try discriminate.
  - inv_ok. eapply ad_imp; [apply ad_refl, P|intros I nu _|easy|easy]. split; [intros _; apply rng_nil|easy].
  - inv_ok. pose proof (show_elem_step K _ _ _ _ H0 P) as A. pose proof (ad_ok _ _ _ _ _ _ _ _ _ _ _ _ A) as P1. pose proof (IH K _ _ _ H P1) as B.
    eapply pl_iff; [eapply pl_trans; [exact P|exact A|exact B|easy]|]. intros I nu _. apply rng_app; [exact (ad_nv _ _ _ _ _ _ _ _ _ _ _ _ P A)|exact (ad_nv _ _ _ _ _ _ _ _ _ _ _ _ P1 B)].
Qed.
Lemma idle_added K s s' a : plain K s K s' (fun _ nu => rng (nv s) (nv s') nu) -> (forall rho I, atom_means rho a I) -> a_kind a <> KMinimize -> a_kind a <> KMaximize -> added K s K s' a.
Proof.
  intros A M N1 N2. exists (fun _ _ => True), (fun _ _ => True), (fun _ => 0). split.
  - eapply ad_imp; [exact A|..]; try easy.
  - split; [easy|]. intros rho nu _. split; [intros I _; split; [intros _; apply M|easy]|]. split; [easy|now apply part_zero].
Qed.

Theorem atom_step K s s' a : p_atom O cfg srt mn mx a s = Ok (true, s') -> pok K s -> K (Z.abs (a_lit a)) -> covered a -> exists K', added K s K' s' a.
Proof.
  intros H P Kl Cv. unfold p_atom in H. destruct (a_kind a) as [b|b|b| | | | | | |] eqn:Ki.
  - eapply (constraint_l_step true); eauto.
  - eapply (constraint_l_step false); eauto.
  - unfold covered in Cv. rewrite Ki in Cv. destruct Cv as [-> OP]. eapply constraint_n_step; eauto.
  - exists K. apply distinct_step; auto.
  - exists K. apply disjoint_step; auto.
  - exists K. inv_ok. unfold p_show in H0. inv_ok. destruct (idle_step K _ _ _ _ H1 Logic.I Logic.I P) as [A T]. pose proof (ad_ok _ _ _ _ _ _ _ _ _ _ _ _ A) as P1.
    pose proof (show_elems_step _ K _ _ _ H0 P1) as B. apply idle_added; [|unfold atom_means; now rewrite Ki|congruence..].
    eapply ad_imp; [eapply ad_trans; [exact P|exact A|exact B|easy]|intros I nu _|easy|easy]. rewrite (same_tab _ _ _ _ P P1 T). tauto.
  - exists K. apply dom_step; auto.
  - exists K. inv_ok. eapply objective_step; eauto.
  - exists K. inv_ok. eapply objective_step; eauto.
  - exists K. inv_ok. apply idle_added; [|unfold atom_means; now rewrite Ki|congruence..].
    eapply ad_imp; [apply ad_refl, P|intros I nu _|easy|easy]. split; [intros _; apply rng_nil|easy].
Qed.

(** ** Programs *)
Theorem parse_step atoms : forall K s s', p_parse O cfg srt mn mx atoms s = Ok (true, s') -> pok K s -> Forall (fun a => K (Z.abs (a_lit a))) atoms -> Forall covered atoms ->
  exists K' Q F W, adds K s K' s' (fun I nu => rng (nv s) (nv s') nu /\ Q I nu) F W /\
    (forall n, Forall (fun a => below n (a_lit a)) atoms -> onlyI n Q) /\
    forall rho nu, tab_agrees rho nu (p_tab s') ->
      (forall I, I 1 = true -> (Q I nu <-> Forall (fun a => atom_means rho a I) atoms)) /\
      (forall I, I 1 = true -> Forall (fun a => holds_firmly rho a I) atoms -> F I nu) /\ objective rho atoms (W nu).
Proof.
  induction atoms as [|a r IH]; cbn [p_parse]; intros K s s' H P KL CV.
  - inv_ok. exists K, (fun _ _ => True), (fun _ _ => True), (fun _ => 0). split; [|split; [easy|]].
    + eapply ad_imp; [apply ad_refl, P|intros I nu _|easy|easy]. split; [|easy]. intros _. split; [apply rng_nil|easy].
    + intros rho nu _. split; [intros I _; split; [constructor|easy]|]. split; [easy|constructor].
  - apply sbind_ok in H as (b & s1 & H1 & H). destruct b; [|discriminate]. inversion_clear KL as [|? ? Ka Kr]. inversion_clear CV as [|? ? Ca Cr].
    destruct (atom_step K s s1 a H1 P Ka Ca) as (K1 & Q1 & F1 & W1 & A & D1 & S1). pose proof (ad_ok _ _ _ _ _ _ _ _ _ _ _ _ A) as P1.
    destruct (IH K1 s1 s' H P1 ltac:(eapply Forall_impl; [|exact Kr]; intros x; apply (ad_K _ _ _ _ _ _ _ _ _ _ _ _ A)) Cr) as (K2 & Q2 & F2 & W2 & B & D2 & S2).
    exists K2, (fun I nu => Q1 I nu /\ Q2 I nu), (fun I nu => F1 I nu /\ F2 I nu), (fun nu => W1 nu + W2 nu). split; [|split].
    + eapply ad_imp; [eapply ad_trans; [exact P|exact A|exact B|]|..]; try easy.
      * apply and_only; [intros ? ? ? _ X; exact X|]. apply D2. eapply Forall_impl; [|exact Kr]. intros x Kx. eapply pk_below; eauto.
      * intros I nu _. rewrite <- (rng_app mn mx (nv s) (nv s1) (nv s') nu (ad_nv _ _ _ _ _ _ _ _ _ _ _ _ P A) (ad_nv _ _ _ _ _ _ _ _ _ _ _ _ P1 B)). tauto.
    + intros n F. inversion_clear F. apply and_only; auto.
    + intros rho nu TA. pose proof (tab_agrees_ext _ _ _ _ (ad_ext _ _ _ _ _ _ _ _ _ _ _ _ B) TA) as TA1. destruct (S1 rho nu TA1) as (X1 & Y1 & Z1), (S2 rho nu TA) as (X2 & Y2 & Z2).
      split; [|split].
      * intros I I1. rewrite Forall_cons_iff, (X1 I I1), (X2 I I1). reflexivity.
      * intros I I1 F. inversion_clear F. auto.
      * unfold part in Z1. destruct (a_kind a) eqn:Ki; try (rewrite Z1, Z.add_0_l; apply o_skip; [congruence..|exact Z2]).
        -- now apply o_min.
        -- destruct Z1 as (x & X & ->). now apply o_max.
Qed.
End Atoms.
