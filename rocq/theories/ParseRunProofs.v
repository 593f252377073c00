(** The parser on the real builder: composing its steps. *)
From Verif Require Import Base Util UtilProofs IntervalSet IntervalSetProofs VarState Terms TermsSpec TermsProofs TermsProofs2 TermsProofs3 TermsProofs4 Statements StatementsSpec DenFun StatementsProofs
  Solver OrderSpec OrderProofs2 OrderProofs5 OrderProofs6 Sum PropProofs ConSpec Objective Search SearchSpec SearchFrame SearchInv5 Builder BuilderSpec BuilderProofs BuilderProofs3 Init InitSpec ParseRun.
From Coq Require Import Permutation.
Open Scope Z_scope.

Section Steps.
Context (O : oracle) (cfg : config) (srt : list (Z * var) -> list (Z * var)) (Base : interp -> Prop) (n0 : Z).
Context (BO : base_ok Base n0) (CO : clasp_ok O Base) (PS : forall es, Permutation (srt es) es).
Notation models := (models Base).
Notation Pr := (interp -> (var -> Z) -> Prop).
Notation top := (top O n0).

(** States between two steps: [K] are the known literals. *)
Record pok (K : Z -> Prop) (s : pr) : Prop := {
  po_top : top (p_b s); po_lit : forall i, K i -> 0 < i < nxt (b_s (p_b s)); po_one : K 1;
  po_tab : tab_wf (p_tab s); po_next : st_next (p_tab s) = nvars (b_s (p_b s)) }.

(** From [s] to [s']: exactly [Q] is added; [F] implies what is demanded on the top level (see [firm]); the objective function grows by [W]. *)
Record adds (K : Z -> Prop) (s : pr) (K' : Z -> Prop) (s' : pr) (Q F : Pr) (W : (var -> Z) -> Z) : Prop := {
  ad_run : exists ops P, p_ops s' = p_ops s ++ ops /\ run O cfg srt K (p_b s) ops K' (p_b s') P /\ Forall (op_tidy (nvars (b_s (p_b s')))) ops /\
    (forall I nu, F I nu -> forall c, In (POp c) ops -> firm c = c \/ call_holds I nu (firm c)) /\
    (forall nu, terms_val (key_val nu) (min_terms (calls ops)) = W nu);
  ad_ok : pok K' s';
  ad_ext : extends (p_tab s) (p_tab s');
  ad_K : forall i, K i -> K' i;
  ad_nxt : nxt (b_s (p_b s)) <= nxt (b_s (p_b s'));
  ad_bwd : forall I nu, models (p_b s') I nu -> models (p_b s) I nu /\ Q I nu;
  ad_fwd : forall I nu, models (p_b s) I nu -> Q I nu -> exists J, agree_below (nxt (b_s (p_b s))) I J /\ models (p_b s') J nu }.

Definition onlyI (n : Z) (Q : Pr) : Prop := forall I J nu, agree_below n I J -> Q I nu -> Q J nu.

Lemma run_app K b ops K1 b1 P : run O cfg srt K b ops K1 b1 P -> forall ops2 K2 b2 P2, run O cfg srt K1 b1 ops2 K2 b2 P2 ->
  exists P', run O cfg srt K b (ops ++ ops2) K2 b2 P'.
Proof.
  induction 1 as [K b|K b o ops b1 K' b' P OK E R IH]; intros ops2 K2 b2 P2 R2; [eauto|].
  destruct (IH _ _ _ _ R2) as [P' R']. eexists. cbn [app]. econstructor; eauto.
Qed.
Lemma tidy_mono m m' o : (m <= m')%nat -> op_tidy m o -> op_tidy m' o.
Proof. intros L. destruct o as [c| |]; cbn [op_tidy]; auto. intros [A B]. split; [exact A|]. destruct c as [| | | | | |? [x|]| | |]; auto. lia. Qed.
Lemma calls_app a b : calls (a ++ b) = calls a ++ calls b.
Proof. unfold calls. apply flat_map_app. Qed.
Lemma obj_app nu a b : terms_val (key_val nu) (min_terms (calls (a ++ b))) = terms_val (key_val nu) (min_terms (calls a)) + terms_val (key_val nu) (min_terms (calls b)).
Proof. rewrite calls_app. unfold min_terms. rewrite flat_map_app. exact (terms_val_app (key_val nu) _ _). Qed.

Lemma ad_refl K s : pok K s -> adds K s K s (fun _ _ => True) (fun _ _ => True) (fun _ => 0).
Proof.
  intros H. constructor; auto; try lia.
  - exists [], (fun _ _ => True). rewrite app_nil_r. split; [reflexivity|]. split; [constructor|]. split; [constructor|]. split; [|reflexivity]. intros I nu _ c [].
  - apply extends_refl.
  - intros I nu M _. exists I. split; [easy|exact M].
Qed.
Lemma ad_nv K s K' s' Q F W : pok K s -> adds K s K' s' Q F W -> (nvars (b_s (p_b s)) <= nvars (b_s (p_b s')))%nat.
Proof. intros P A. pose proof (proj2 (ad_ext _ _ _ _ _ _ _ A)) as E. rewrite (po_next _ _ P), (po_next _ _ (ad_ok _ _ _ _ _ _ _ A)) in E. exact E. Qed.
Lemma ad_trans K s K1 s1 K2 s2 Q1 F1 W1 Q2 F2 W2 : pok K s -> adds K s K1 s1 Q1 F1 W1 -> adds K1 s1 K2 s2 Q2 F2 W2 -> onlyI (nxt (b_s (p_b s))) Q2 ->
  adds K s K2 s2 (fun I nu => Q1 I nu /\ Q2 I nu) (fun I nu => F1 I nu /\ F2 I nu) (fun nu => W1 nu + W2 nu).
Proof.
  intros P0 A B D. pose proof (ad_nv _ _ _ _ _ _ _ (ad_ok _ _ _ _ _ _ _ A) B) as NV. destruct A as [A1 A2 A3 A4 A5 A6 A7], B as [B1 B2 B3 B4 B5 B6 B7]. constructor; auto; try lia.
  - destruct A1 as (o1 & P1 & E1 & R1 & T1 & X1 & M1), B1 as (o2 & P2 & E2 & R2 & T2 & X2 & M2). destruct (run_app _ _ _ _ _ _ R1 _ _ _ _ R2) as [P R].
    exists (o1 ++ o2), P. split; [rewrite E2, E1, app_assoc; reflexivity|]. split; [exact R|]. split; [|split].
    + apply Forall_app. split; [|exact T2]. eapply Forall_impl; [|exact T1]. intros o. apply tidy_mono, NV.
    + intros I nu [f1 f2] c H. apply in_app_or in H as [H|H]; [now apply (X1 I nu)|now apply (X2 I nu)].
    + intros nu. rewrite obj_app, M1, M2. reflexivity.
  - eapply extends_trans; eauto.
  - intros I nu M. destruct (B6 I nu M) as [M1 q2]. destruct (A6 I nu M1) as [M0 q1]. auto.
  - intros I nu M [q1 q2]. destruct (A7 I nu M q1) as (J & E1 & M1). destruct (B7 J nu M1 (D I J nu E1 q2)) as (L & E2 & M2).
    exists L. split; [|exact M2]. eapply agree_trans; [exact E1|]. eapply agree_mono; [|exact E2]. exact A5.
Qed.
Lemma ad_imp K s K' s' Q F W Q' (F' : Pr) W' : adds K s K' s' Q F W -> (forall I nu, models (p_b s) I nu -> (Q I nu <-> Q' I nu)) -> (forall I nu, F' I nu -> F I nu) -> (forall nu, W nu = W' nu) ->
  adds K s K' s' Q' F' W'.
Proof.
  intros [A1 A2 A3 A4 A5 A6 A7] HQ HF HW. constructor; auto.
  - destruct A1 as (o1 & P1 & E1 & R1 & T1 & X1 & M1). exists o1, P1. split; [exact E1|]. split; [exact R1|]. split; [exact T1|]. split; [intros I nu f; apply X1, HF, f|].
    intros nu. rewrite M1. apply HW.
  - intros I nu M. destruct (A6 I nu M) as [M0 q]. split; [exact M0|]. now apply HQ.
  - intros I nu M q. apply A7; [exact M|]. now apply HQ.
Qed.
(** ** Single steps *)
Lemma and_ok m k s s' : p_and m k s = Ok (true, s') -> exists s1, m s = Ok (true, s1) /\ k s1 = Ok (true, s').
Proof. unfold p_and. intros H. inv_ok. destruct a; [eauto|]. inv_ok. discriminate. Qed.

Definition obj1 (c : bcall) (nu : var -> Z) : Z := match c with BMin co v => co * key_val nu v | _ => 0 end.
Lemma call_step K c s s' : p_call O cfg srt c s = Ok (true, s') -> pok K s -> call_ok K (nvars (b_s (p_b s))) c -> call_tidy c ->
  (match c with BMin _ (Some x) => (x < nvars (b_s (p_b s)))%nat | _ => True end) ->
  adds K s K s' (fun I nu => call_holds I nu c) (fun I nu => firm c = c \/ call_holds I nu (firm c)) (obj1 c) /\ p_tab s' = p_tab s.
Proof.
  intros H [T L One Tw Tn] C CT CM. unfold p_call in H. destruct (build1 O cfg srt c (p_b s)) as [[ok b]| |] eqn:E; try discriminate. injection H as -> <-. cbn [p_b p_tab p_ops].
  split; [|reflexivity]. destruct (build1_built O cfg srt Base n0 BO CO PS K c (p_b s) true b T L C E) as ([U1 U2 U3 U4 U5] & T1).
  constructor; cbn [p_b p_tab p_ops]; auto.
  - exists [POp c], (fun I nu => op_holds (p_b s) (POp c) I nu /\ True). split; [reflexivity|]. split; [|split; [|split]].
    + econstructor; [exact C| |apply run_nil]. cbn [build]. rewrite E. reflexivity.
    + constructor; [|constructor]. cbn [op_tidy]. split; [exact CT|]. rewrite U3. exact CM.
    + intros I nu Hf c' [X|[]]. injection X as <-. exact Hf.
    + intros nu. unfold min_terms, calls. cbn [flat_map app]. destruct c; cbn [terms_val obj1 app]; try reflexivity. lia.
  - constructor; cbn [p_b p_tab p_ops]; auto; [|lia]. intros i Hi. specialize (L i Hi). lia.
  - apply extends_refl.
  - intros I nu M. destruct (U5 I nu M). auto.
Qed.
Lemma true_step K s l f s' : p_true O l s = Ok (f, s') -> pok K s -> s' = s /\ (f = true -> forall I nu, models (p_b s) I nu -> lit_true I l).
Proof.
  intros H P. injection H as H1 H2. split; [congruence|]. intros Ef I nu (G & _). subst f. apply (top_true O Base CO (b_s (p_b s)) l I); auto.
  apply (stays_dlevel O _ (t_top _ (po_top _ _ P))).
Qed.
(** Steps that do not touch the objective function; where they are not affected by the top level [F0] is True. *)
Context (F0 : Pr).
Definition plain K s K' s' Q := adds K s K' s' Q F0 (fun _ => 0).
Lemma pl_refl K s : pok K s -> plain K s K s (fun _ _ => True).
Proof. intros P. eapply ad_imp; [apply ad_refl, P|easy..]. Qed.
Lemma pl_trans K s K1 s1 K2 s2 Q1 Q2 : pok K s -> plain K s K1 s1 Q1 -> plain K1 s1 K2 s2 Q2 -> onlyI (nxt (b_s (p_b s))) Q2 -> plain K s K2 s2 (fun I nu => Q1 I nu /\ Q2 I nu).
Proof. intros P A B D. eapply ad_imp; [exact (ad_trans _ _ _ _ _ _ _ _ _ _ _ _ P A B D)|..]; [reflexivity|now split|reflexivity]. Qed.
Lemma pl_iff K s K' s' Q Q' : plain K s K' s' Q -> (forall I nu, models (p_b s) I nu -> (Q I nu <-> Q' I nu)) -> plain K s K' s' Q'.
Proof. intros A H. eapply ad_imp; eauto. Qed.

Lemma lit_step K s x s' : p_lit s = Ok (x, s') -> pok K s ->
  x = nxt (b_s (p_b s)) /\ nxt (b_s (p_b s')) = x + 1 /\ 1 < x /\ p_tab s' = p_tab s /\ plain K s (fun i => K i \/ i = x) s' (fun _ _ => True) /\
  forall I nu, models (p_b s) I nu -> models (p_b s') I nu.
Proof.
  intros H [T L One Tw Tn]. unfold p_lit in H. destruct (b_literal (p_b s)) as [y b] eqn:E. injection H as -> <-. cbn [p_b p_tab p_ops].
  destruct (g_literal O Base n0 BO (p_b s) x b (fun _ _ => True) (fun _ _ => True) T E ltac:(intros; now exists true)) as (-> & N & _ & _ & [G1 G2 G3 G4 G5 G6]).
  pose proof (wf_nxt _ (proj1 (bo_wf _ (t_ok _ T)))) as Nx.
  assert (MM : forall I nu, models (p_b s) I nu -> models b I nu).
  { intros I nu ((M1 & M2 & M3) & HO & F). unfold b_literal, on_s in E. cbn in E. injection E as <-. split; [|now split]. split; [easy|]. split; [easy|]. cbn. now constructor. }
  split; [reflexivity|]. split; [exact N|]. split; [lia|]. split; [reflexivity|]. split; [|exact MM].
  constructor; cbn [p_b p_tab p_ops]; auto.
  - exists [PLit], (fun I nu => op_holds (p_b s) PLit I nu /\ True). split; [reflexivity|]. split; [|split; [|split]].
    + econstructor; [exact Logic.I| |apply run_nil]. cbn [build]. rewrite E. reflexivity.
    + constructor; [exact Logic.I|constructor].
    + intros I nu _ c [X|[]]. discriminate.
    + reflexivity.
  - constructor; cbn [p_b p_tab p_ops]; auto; [|lia]. intros i [Hi| ->]; [specialize (L i Hi)|]; lia.
  - apply extends_refl.
  - intros I nu M _. exists I. split; [easy|auto].
Qed.
Lemma fresh_step K s x s1 K' s' Q : p_lit s = Ok (x, s1) -> pok K s -> plain (fun i => K i \/ i = x) s1 K' s' Q ->
  plain K s K' s' (fun I nu => exists J, agree_below (nxt (b_s (p_b s))) I J /\ Q J nu).
Proof.
  intros E P A. destruct (lit_step K s x s1 E P) as (-> & N & _ & _ & B & MM).
  destruct B as [B1 B2 B3 B4 B5 B6 B7], A as [A1 A2 A3 A4 A5 A6 A7]. constructor; auto; try lia.
  - destruct B1 as (o1 & P1 & E1 & R1 & T1 & X1 & M1), A1 as (o2 & P2 & E2 & R2 & T2 & X2 & M2). destruct (run_app _ _ _ _ _ _ R1 _ _ _ _ R2) as [P' R].
    exists (o1 ++ o2), P'. split; [rewrite E2, E1, app_assoc; reflexivity|]. split; [exact R|]. split; [|split].
    + apply Forall_app. split; [|exact T2]. eapply Forall_impl; [|exact T1]. intros o. apply tidy_mono. pose proof (proj2 A3) as Z. rewrite (po_next _ _ B2), (po_next _ _ A2) in Z. exact Z.
    + intros I nu f c H. apply in_app_or in H as [H|H]; [now apply (X1 I nu)|now apply (X2 I nu)].
    + intros nu. rewrite obj_app, M1, M2. reflexivity.
  - eapply extends_trans; eauto.
  - intros I nu M. destruct (A6 I nu M) as [M1 q]. destruct (B6 I nu M1) as [M0 _]. split; [exact M0|]. exists I. split; [easy|exact q].
  - intros I nu M (J & AJ & q). pose proof (models_dep O Base n0 BO _ (po_top _ _ P) I J nu nu AJ ltac:(easy) M) as MJ.
    destruct (A7 J nu (MM _ _ MJ) q) as (L & E2 & M2). exists L. split; [|exact M2]. eapply agree_trans; [exact AJ|]. eapply agree_mono; [|exact E2]. lia.
Qed.
End Steps.
