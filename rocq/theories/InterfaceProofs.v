From Coq Require Import String Sorting.
From Verif Require Import Base Util UtilProofs Terms TermsSpec TermsProofs TermsProofs2 TermsProofs3 TermsProofs4
  Statements StatementsSpec StatementsProofs Interface InterfaceSpec.
Open Scope Z_scope.

(** ** Calls made while reading *)
Definition no_show (c : bcall) : Prop := match c with BShow | BShowSig _ _ | BShowVar _ => False | _ => True end.
Section Emit.
Variable is_true : lit -> bool.
Variable ret : list bcall -> bool.
Definition emitsN {A} (m : SM bst A) : Prop := forall s a s', m s = Ok (a, s') -> exists new, b_log s' = b_log s ++ new /\ Forall no_show new.
Lemma em_ret {A} (a : A) : emitsN (sret a).
Proof. intros s x s' H. inv_ok. exists []. rewrite app_nil_r. split; [reflexivity|constructor]. Qed.
Lemma em_lift {A} (a : outcome A) : emitsN (slift a).
Proof. intros s x s' H. apply slift_ok in H. destruct H as [_ ->]. exists []. rewrite app_nil_r. split; [reflexivity|constructor]. Qed.
Lemma em_new : emitsN new_lit.
Proof. intros s x s' H. injection H as _ <-. exists []. rewrite app_nil_r. split; [reflexivity|constructor]. Qed.
Lemma em_bind {A B} (m : SM bst A) (k : A -> SM bst B) : emitsN m -> (forall a, emitsN (k a)) -> emitsN (sbind m k).
Proof.
  intros E F s x s' H. apply sbind_ok in H. destruct H as (a & s1 & H1 & H2). destruct (E _ _ _ H1) as (n1 & A1 & B1). destruct (F _ _ _ _ H2) as (n2 & A2 & B2).
  exists (n1 ++ n2). rewrite A2, A1, app_assoc. split; [reflexivity|apply Forall_app; auto].
Qed.
Lemma em_call c : no_show c -> emitsN (call ret c).
Proof. intros N s x s' H. injection H as _ <-. exists [c]. split; [reflexivity|constructor; [exact N|constructor]]. Qed.
Lemma em_andthen m k : emitsN m -> emitsN k -> emitsN (andthen m k).
Proof. intros A B. unfold andthen. apply em_bind; [exact A|]. intros []; [exact B|apply em_ret]. Qed.
Lemma em_normalize {K} (addc : lit -> list (Z * K) -> Z -> bool -> SM bst bool) :
  (forall l es rhs st, emitsN (addc l es rhs st)) -> forall fuel l es op rhs strict, emitsN (normalize is_true ret addc fuel l es op rhs strict).
Proof.
  intros A. induction fuel as [|fuel IH]; intros l es op rhs strict; [intros s x s' H; discriminate|]. cbn [normalize].
  apply em_bind; [apply em_lift|]. intros [op1 rhs1]. apply em_bind; [apply em_lift|]. intros [[op2 rhs2] el].
  repeat first [ apply em_andthen | apply em_call; exact Logic.I | apply em_ret | apply A | apply IH | apply em_new
    | apply em_bind; [|intros ?] | match goal with |- emitsN (match ?x with _ => _ end) => destruct x end ].
Qed.
Lemma em_constrain_l l ts op strict : emitsN (constrain_l is_true ret l ts op strict).
Proof.
  unfold constrain_l. apply em_bind; [apply em_lift|]. intros [es rhs]. destruct (gcd_reduce es rhs). apply em_normalize.
  intros. unfold addc_l. apply em_bind; [apply em_lift|]. intros. apply em_call. exact Logic.I.
Qed.
Lemma em_constrain_n l ts op strict : emitsN (constrain_n is_true ret l ts op strict).
Proof.
  unfold constrain_n. apply em_bind; [apply em_lift|]. intros [es rhs]. destruct (gcd_reduce es rhs). apply em_normalize.
  intros. unfold addc_n. apply em_bind; [apply em_lift|]. intros [[[[? ?] ?] ?] ?]. apply em_call. exact Logic.I.
Qed.
Lemma em_add_min factor ts : forall st u st', add_min ret factor ts st = Ok (u, st') ->
  exists new, b_log (snd st') = b_log (snd st) ++ new /\ Forall no_show new.
Proof.
  induction ts as [|[co v] r IH]; cbn [add_min]; intros st u st' H.
  - inv_ok. exists []. rewrite app_nil_r. auto.
  - inv_p. destruct (IH _ _ _ H) as (n & N1 & N2). apply em_call in H1; [|exact Logic.I]. destruct H1 as (m & M1 & M2).
    exists (m ++ n). rewrite N1, M1, app_assoc. split; [reflexivity|apply Forall_app; auto].
Qed.


(** Tables and show calls of atoms that are not show statements. *)
Lemma atom_tab a st b st' : parse_atom is_true ret a st = Ok (b, st') -> a_kind a <> KShow ->
  extends (fst st) (fst st') /\ (tab_wf (fst st) -> tab_wf (fst st')) /\
  exists new, b_log (snd st') = b_log (snd st) ++ new /\ Forall no_show new.
Proof.
  intros H NS. unfold parse_atom in H. destruct (a_kind a); try congruence.
  - unfold parse_constraint_l in H. destruct (a_guard a) as [[op g]|]; [|discriminate]. inv_p.
    apply (parse_elems_sum_spec lkey _ (fun _ => 0) _ _ _ _ _ (lkey_compat _)) in H0. destruct H0 as (A & B & _).
    rewrite Es0. split; [exact A|]. split; [exact B|]. rewrite <- Es. eapply em_constrain_l; exact H.
  - unfold parse_constraint_l in H. destruct (a_guard a) as [[op g]|]; [|discriminate]. inv_p.
    apply (parse_elems_diff_spec lkey _ (fun _ => 0) _ _ _ _ _ (lkey_compat _)) in H0. destruct H0 as (A & B & _).
    rewrite Es0. split; [exact A|]. split; [exact B|]. rewrite <- Es. eapply em_constrain_l; exact H.
  - unfold parse_constraint_n in H. destruct (a_guard a) as [[op g]|]; [|discriminate]. inv_p.
    apply (parse_elems_sum_spec nkey _ (fun _ => 0) _ _ _ _ _ (nkey_compat _)) in H0. destruct H0 as (A & B & _).
    rewrite Es0. split; [exact A|]. split; [exact B|]. rewrite <- Es. eapply em_constrain_n; exact H.
  - unfold parse_distinct in H. inv_p. apply (parse_distinct_elems_spec (fun _ => 0)) in H0. destruct H0 as (A & B & _).
    rewrite Es0. split; [exact A|]. split; [exact B|]. rewrite <- Es. eapply em_call; [|exact H]. exact Logic.I.
  - unfold parse_disjoint in H. inv_p. apply (parse_disjoint_elems_spec is_true (fun _ => 0)) in H0. destruct H0 as (A & B & _).
    rewrite Es0. split; [exact A|]. split; [exact B|]. rewrite <- Es. eapply em_call; [|exact H]. exact Logic.I.
  - unfold parse_dom in H. inv_p. destruct (a_guard a) as [[op g]|]; [|discriminate]. inv_p. match goal with X : add_variable _ _ = Ok _ |- _ => apply add_variable_spec in X; rename X into HX end. destruct HX as (A & _ & B).
    rewrite Es0. split; [exact A|]. split; [exact B|]. rewrite <- Es. eapply em_call; [|exact H]. exact Logic.I.
  - inv_ok. pose proof H0 as H1. apply (parse_objective_sem is_true _ (fun _ => 0)) in H0. destruct H0 as (A & B & _). split; [exact A|]. split; [exact B|].
    unfold parse_objective in H1. inv_p. rewrite <- Es. eapply em_add_min; exact H1.
  - inv_ok. pose proof H0 as H1. apply (parse_objective_sem is_true _ (fun _ => 0)) in H0. destruct H0 as (A & B & _). split; [exact A|]. split; [exact B|].
    unfold parse_objective in H1. inv_p. rewrite <- Es. eapply em_add_min; exact H1.
  - inv_ok. split; [apply extends_refl|]. split; [auto|]. exists []. rewrite app_nil_r. auto.
Qed.

(** One element of a show statement. *)
Definition shown_elem (e : telem) (t' : symtab) (c : bcall) : Prop :=
  (exists s v, c = BShowVar v /\ names e s /\ In (s, v) (st_map t')) \/
  (exists name n, c = BShowSig name n /\ signs e name n /\ (wf_telem e -> fits int32 n)).
Lemma show_elem t st u st' : parse_show_elem ret t st = Ok (u, st') ->
  extends (fst st) (fst st') /\ (tab_wf (fst st) -> tab_wf (fst st')) /\
  exists c, b_log (snd st') = b_log (snd st) ++ [c] /\ shown_elem ([t], true) (fst st') c.
Proof.
  assert (L : (forall x y, t <> TFun "/" [x; y]) -> forall st u st', (s <~ slift (evaluate t) ;;
      match s with
      | SNum _ => slift (Throw Syntax)
      | _ => v <~ on_tab (add_variable s) ;; _ <~ on_bld (call ret (BShowVar v)) ;; sret tt
      end) st = Ok (u, st') ->
    extends (fst st) (fst st') /\ (tab_wf (fst st) -> tab_wf (fst st')) /\
    exists c, b_log (snd st') = b_log (snd st) ++ [c] /\ shown_elem ([t], true) (fst st') c).
  { clear st u st'. intros NS st u st' H. inv_p. apply evaluate_ground in H0.
    destruct a; [discriminate| |]; inv_p;
      destruct (add_variable_spec _ _ _ _ H1) as (V1 & V2 & V3); rewrite Es0, <- Es; (split; [exact V1|]); (split; [exact V3|]);
      unfold call in H2; injection H2 as _ <-; (eexists; split; [reflexivity|]); left; do 2 eexists;
      (split; [reflexivity|]); (split; [constructor; [exact NS|eassumption]|exact V2]). }
  unfold parse_show_elem, op2. intros H.
  destruct t as [n|n|name [|x [|y [|w q]]]|q|q]; try (apply (L ltac:(intros; discriminate) _ _ _ H)).
  destruct (String.eqb name "/") eqn:E.
  - apply String.eqb_eq in E. subst name. clear L. inv_p. apply evaluate_ground in H0. destruct a as [|s|nm [|] p]; try discriminate. inv_p.
    match goal with X : evaluate y = Ok _ |- _ => rename X into HE; pose proof HE as HG; apply evaluate_ground in HG end. match goal with X : num_of ?s = Ok _ |- _ => destruct s; try discriminate; cbn [num_of] in X end. inv_p. rewrite Es. split; [apply extends_refl|]. split; [auto|].
    match goal with X : call _ _ _ = Ok _ |- _ => unfold call in X; injection X as _ <- end. eexists. split; [reflexivity|]. right. do 2 eexists. split; [reflexivity|]. split; [econstructor; eassumption|].
    intros W. inversion W as [|? ? W1 _]; subst. cbn in W1. destruct W1 as (_ & W1 & _). pose proof (evaluate_safe _ W1) as Y. rewrite HE in Y. exact Y.
  - apply (L ltac:(intros ? ? Q; injection Q as -> _ _; discriminate) _ _ _ H).
Qed.
Lemma shown_elem_ext e t t' c : extends t t' -> shown_elem e t c -> shown_elem e t' c.
Proof. intros [E _] [(s & v & A & B & C)|H]; [left|right; exact H]. exists s, v. auto. Qed.
Lemma show_elems es : forall st u st', parse_show_elems ret es st = Ok (u, st') ->
  extends (fst st) (fst st') /\ (tab_wf (fst st) -> tab_wf (fst st')) /\
  exists new, b_log (snd st') = b_log (snd st) ++ new /\ Forall2 (fun e c => shown_elem e (fst st') c) es new.
Proof.
  induction es as [|[[|t [|t2 ts]] c] es IH]; cbn [parse_show_elems]; intros st u st' H; try discriminate.
  - inv_ok. split; [apply extends_refl|]. split; [auto|]. exists []. rewrite app_nil_r. split; [reflexivity|constructor].
  - destruct c; [|discriminate]. inv_p. destruct (show_elem _ _ _ _ H0) as (A1 & A2 & c & A3 & A4). destruct (IH _ _ _ H) as (B1 & B2 & new & B3 & B4).
    split; [eapply extends_trans; eauto|]. split; [auto|]. exists (c :: new). rewrite B3, A3, <- app_assoc. split; [reflexivity|].
    constructor; [|exact B4]. eapply shown_elem_ext; eauto.
Qed.
Lemma show_atom a st u st' : parse_show ret a st = Ok (u, st') ->
  extends (fst st) (fst st') /\ (tab_wf (fst st) -> tab_wf (fst st')) /\
  exists new, b_log (snd st') = b_log (snd st) ++ BShow :: new /\ Forall2 (fun e c => shown_elem e (fst st') c) (a_elems a) new.
Proof.
  unfold parse_show. intros H. inv_p. unfold call in H0. injection H0 as _ E. destruct (show_elems _ _ _ _ H) as (A1 & A2 & new & A3 & A4).
  rewrite Es in A1, A2. split; [exact A1|]. split; [exact A2|]. exists new. rewrite A3, <- E. cbn [b_log]. rewrite <- app_assoc. auto.
Qed.
End Emit.

(** ** Sessions *)
Definition listed (atoms : list tatom) (P : telem -> Prop) : Prop := exists a e, In a atoms /\ a_kind a = KShow /\ In e (a_elems a) /\ P e.
Lemma listed_app l m P : listed (l ++ m) P <-> listed l P \/ listed m P.
Proof.
  split.
  - intros (a & e & A & B). apply in_app_or in A. destruct A; [left|right]; exists a, e; auto.
  - intros [(a & e & A & B)|(a & e & A & B)]; exists a, e; (split; [apply in_or_app; auto|exact B]).
Qed.

Record inv (atoms : list tatom) (t : symtab) (log : list bcall) : Prop := {
  iv_wf : tab_wf t;
  iv_on : In BShow log <-> exists a, In a atoms /\ a_kind a = KShow;
  iv_var : forall v, In (BShowVar v) log -> exists s, In (s, v) (st_map t) /\ listed atoms (fun e => names e s);
  iv_name : forall s, listed atoms (fun e => names e s) -> exists v, In (s, v) (st_map t) /\ In (BShowVar v) log;
  iv_sig : forall name n, In (BShowSig name n) log <-> listed atoms (fun e => signs e name n);
  iv_fit : wf_shows atoms -> forall name n, In (BShowSig name n) log -> fits int32 n }.

Lemma inv_ext atoms t t' log : inv atoms t log -> extends t t' -> tab_wf t' -> inv atoms t' log.
Proof.
  intros [A B C D E F] [X _] W. constructor; auto.
  - intros v H. destruct (C _ H) as (s & S1 & S2). exists s. auto.
  - intros s H. destruct (D _ H) as (v & S1 & S2). exists v. auto.
Qed.

Lemma names_fun e s s' : names e s -> names e s' -> s = s'.
Proof. intros A B. inversion A; subst. inversion B; subst. eapply DenFun.ground_fun; eauto. Qed.
Lemma signs_fun e n z n' z' : signs e n z -> signs e n' z' -> n = n' /\ z = z'.
Proof.
  intros A B. inversion A; subst. inversion B; subst.
  match goal with X : ground x ?a, Y : ground x ?b |- _ => pose proof (DenFun.ground_fun _ _ X _ Y) as E1 end.
  match goal with X : ground y ?a, Y : ground y ?b |- _ => pose proof (DenFun.ground_fun _ _ X _ Y) as E2 end.
  injection E1 as -> _. injection E2 as ->. auto.
Qed.
Lemma names_signs e s n z : names e s -> signs e n z -> False.
Proof. intros A B. inversion A; subst. inversion B; subst. eapply H; reflexivity. Qed.

Lemma no_show_in c new : Forall no_show new -> In c new -> no_show c.
Proof. rewrite Forall_forall. auto. Qed.
Lemma forall2_in_l {A B} (R : A -> B -> Prop) l m : Forall2 R l m -> forall a, In a l -> exists b, In b m /\ R a b.
Proof. induction 1 as [|x y l m X F IH]; intros a [].  - subst. exists y. cbn; auto. - destruct (IH _ H) as (b & B1 & B2). exists b. cbn; auto. Qed.
Lemma forall2_in_r {A B} (R : A -> B -> Prop) l m : Forall2 R l m -> forall b, In b m -> exists a, In a l /\ R a b.
Proof. induction 1 as [|x y l m X F IH]; intros a [].  - subst. exists x. cbn; auto. - destruct (IH _ H) as (b & B1 & B2). exists b. cbn; auto. Qed.

Lemma listed_one a P : a_kind a = KShow -> (listed [a] P <-> exists e, In e (a_elems a) /\ P e).
Proof. intros K. split; [intros (x & e & [<-|[]] & _ & B & C); eauto|intros (e & B & C); exists a, e; cbn; auto]. Qed.
Lemma listed_none a P : a_kind a <> KShow -> ~ listed [a] P.
Proof. intros K (x & e & [<-|[]] & K' & _). auto. Qed.

Lemma inv_atom is_true ret atoms a st b st' : inv atoms (fst st) (b_log (snd st)) -> parse_atom is_true ret a st = Ok (b, st') ->
  inv (atoms ++ [a]) (fst st') (b_log (snd st')).
Proof.
  intros I H.
  assert (D : a_kind a = KShow \/ a_kind a <> KShow) by (destruct (a_kind a); (left; reflexivity) || (right; discriminate)).
  destruct D as [K|K].
  - unfold parse_atom in H. rewrite K in H. inv_ok. destruct (show_atom _ _ _ _ _ H0) as (A1 & A2 & new & A3 & A4).
    pose proof (inv_ext _ _ _ _ I A1 (A2 (iv_wf _ _ _ I))) as [B1 B2 B3 B4 B5 B6]. rewrite A3. constructor; [exact B1|..].
    + split; [|intros _; apply in_or_app; right; left; reflexivity]. intros _. exists a. split; [apply in_or_app; right; left; reflexivity|exact K].
    + intros v Hv. apply in_app_or in Hv. destruct Hv as [Hv|[Hv|Hv]]; [|discriminate|].
      * destruct (B3 _ Hv) as (sy & S1 & S2). exists sy. split; [exact S1|]. apply listed_app. auto.
      * destruct (forall2_in_r _ _ _ A4 _ Hv) as (e & E1 & [(sy & w & Q & N & W)|(n & z & Q & _)]); [|discriminate]. injection Q as <-.
        exists sy. split; [exact W|]. apply listed_app. right. apply listed_one; eauto.
    + intros sy Hs. apply listed_app in Hs. destruct Hs as [Hs|Hs].
      * destruct (B4 _ Hs) as (v & V1 & V2). exists v. split; [exact V1|]. apply in_or_app. auto.
      * apply listed_one in Hs; [|exact K]. destruct Hs as (e & E1 & E2). destruct (forall2_in_l _ _ _ A4 _ E1) as (c & C1 & [(sy' & v & Q & N & W)|(n & z & Q & Sg & _)]).
        -- subst c. rewrite (names_fun _ _ _ E2 N). exists v. split; [exact W|]. apply in_or_app. right. right. exact C1.
        -- destruct (names_signs _ _ _ _ E2 Sg).
    + intros name n. rewrite listed_app, <- B5, in_app_iff, listed_one by exact K. cbn [In]. split.
      * intros [X|[X|X]]; [auto|discriminate|]. right. destruct (forall2_in_r _ _ _ A4 _ X) as (e & E1 & [(sy & w & Q & _)|(n' & z & Q & Sg)]); [discriminate|].
        injection Q as <- <-. destruct Sg as [Sg _]. eauto.
      * intros [X|(e & E1 & E2)]; [auto|]. right. right. destruct (forall2_in_l _ _ _ A4 _ E1) as (c & C1 & [(sy' & v & Q & N & W)|(n' & z & Q & Sg & _)]).
        -- destruct (names_signs _ _ _ _ N E2).
        -- destruct (signs_fun _ _ _ _ _ E2 Sg) as [-> ->]. subst c. exact C1.
    + intros WS name n Hn. assert (WS' : wf_shows atoms) by (intros x e X; apply WS; apply in_or_app; auto).
      apply in_app_or in Hn. destruct Hn as [Hn|[Hn|Hn]]; [apply (B6 WS' _ _ Hn)|discriminate|].
      destruct (forall2_in_r _ _ _ A4 _ Hn) as (e & E1 & [(sy & w & Q & _)|(n' & z & Q & _ & W)]); [discriminate|]. injection Q as <- <-.
      apply W. apply (WS a e); [apply in_or_app; right; left; reflexivity|exact K|exact E1].
  - destruct (atom_tab _ _ _ _ _ _ H K) as (A1 & A2 & new & A3 & A4).
    pose proof (inv_ext _ _ _ _ I A1 (A2 (iv_wf _ _ _ I))) as [B1 B2 B3 B4 B5 B6]. rewrite A3. constructor; [exact B1|..].
    + rewrite in_app_iff, B2. split.
      * intros [(x & X1 & X2)|X]; [|destruct (no_show_in _ _ A4 X)]. exists x. rewrite in_app_iff. auto.
      * intros (x & X1 & X2). apply in_app_or in X1. destruct X1 as [X1|[X1|[]]]; [|congruence]. eauto.
    + intros v Hv. apply in_app_or in Hv. destruct Hv as [Hv|Hv]; [|destruct (no_show_in _ _ A4 Hv)].
      destruct (B3 _ Hv) as (sy & S1 & S2). exists sy. rewrite listed_app. auto.
    + intros sy Hs. apply listed_app in Hs. destruct Hs as [Hs|Hs]; [|destruct (listed_none _ _ K Hs)].
      destruct (B4 _ Hs) as (v & V1 & V2). exists v. rewrite in_app_iff. auto.
    + intros name n. rewrite listed_app, in_app_iff, B5. split; [intros [X|X]; [auto|destruct (no_show_in _ _ A4 X)]|intros [X|X]; [auto|destruct (listed_none _ _ K X)]].
    + intros WS name n Hn. assert (WS' : wf_shows atoms) by (intros x e X; apply WS; apply in_or_app; auto).
      apply in_app_or in Hn. destruct Hn as [Hn|Hn]; [apply (B6 WS' _ _ Hn)|destruct (no_show_in _ _ A4 Hn)].
Qed.

Lemma inv_parse is_true ret more : forall atoms st b st', inv atoms (fst st) (b_log (snd st)) -> parse is_true ret more st = Ok (true, st') ->
  b = true -> inv (atoms ++ more) (fst st') (b_log (snd st')).
Proof.
  induction more as [|a r IH]; cbn [parse]; intros atoms st b st' I H Eb.
  - inv_ok. rewrite app_nil_r. exact I.
  - apply sbind_ok in H. destruct H as (c & s1 & H1 & H). destruct c; [|discriminate]. apply (inv_atom _ _ _ _ _ _ _ I) in H1.
    apply (IH _ _ true _ H1) in H; [|reflexivity]. rewrite <- app_assoc in H. exact H.
Qed.

Lemma inv_session atoms st : session atoms st -> inv atoms (fst st) (b_log (snd st)).
Proof.
  induction 1 as [n k|atoms st S IH more it ret n k st' N H].
  - cbn [fst snd st_map b_log]. constructor; try easy.
    + split; [constructor|split; [constructor|intros s v []]].
    + split; [intros []|intros (a & [] & _)].
    + intros s (a & e & [] & _).
    + intros name z. split; [intros []|intros (a & e & [] & _)].
  - eapply (inv_parse _ _ _ _ (_, _) true); [|exact H|reflexivity]. cbn [fst snd b_log].
    destruct IH as [A B C D E F]. constructor; auto. destruct A as (A1 & A2 & A3). split; [exact A1|]. split; [exact A2|].
    intros s v X. cbn [st_map st_next] in *. apply A3 in X. lia.
Qed.

(** ** What is reported *)
Lemma shows_on log : sh_on (shows_of log) = true <-> In BShow log.
Proof.
  unfold shows_of. rewrite <- fold_left_rev_right. rewrite in_rev. induction (rev log) as [|c r IH]; cbn [fold_right In]; [split; [discriminate|intros []]|].
  destruct c; cbn [show_call sh_on]; rewrite ?IH; split; try (intros H; right; exact H); try (intros [H|H]; [discriminate|exact H]); auto.
Qed.
Lemma shows_vars log v : In v (sh_vars (shows_of log)) <-> In (BShowVar v) log.
Proof.
  unfold shows_of. rewrite <- fold_left_rev_right. rewrite (in_rev log (BShowVar v)). induction (rev log) as [|c r IH]; cbn [fold_right In]; [reflexivity|].
  destruct c; cbn [show_call sh_vars]; cbn [In]; rewrite ?IH; split; try (intros H; right; exact H); try (intros [H|H]; [discriminate|exact H]);
    intros [H|H]; auto; left; congruence.
Qed.
Lemma shows_sigs log x : In x (sh_sigs (shows_of log)) <-> exists name n, x = (name, to_uint32 n) /\ In (BShowSig name n) log.
Proof.
  unfold shows_of. rewrite <- fold_left_rev_right.
  enough (E : In x (sh_sigs (fold_right (fun c s => show_call s c) shows0 (rev log))) <-> exists name n, x = (name, to_uint32 n) /\ In (BShowSig name n) (rev log)).
  { rewrite E. split; intros (a & b & P & Q); exists a, b; (split; [exact P|]); [rewrite in_rev|rewrite <- in_rev]; exact Q. }
  induction (rev log) as [|c r IH]; cbn [fold_right In]; [split; [intros []|intros (a & b & _ & [])]|].
  assert (K : (exists name n, x = (name, to_uint32 n) /\ In (BShowSig name n) r) -> exists name n, x = (name, to_uint32 n) /\ (c = BShowSig name n \/ In (BShowSig name n) r))
    by (intros (a & b & P & Q); exists a, b; auto).
  destruct c; cbn [show_call sh_sigs]; cbn [In]; rewrite ?IH; split; auto;
    try (intros (a & b & P & [Q|Q]); [discriminate|exists a, b; auto]).
  - intros [<-|H]; [exists name, arity; auto|auto].
  - intros (a & b & P & [Q|Q]); [left; congruence|right; exists a, b; auto].
Qed.

Lemma var_find_in v m s : NoDup (map snd m) -> (var_find v m = Some s <-> In (s, v) m).
Proof.
  induction m as [|[s' w] r IH]; cbn; [split; [discriminate|intros []]|]. intros N. inversion_clear N as [|? ? N1 N2]. destruct (Nat.eqb v w) eqn:E.
  - apply Nat.eqb_eq in E. subst w. split; [intros H; injection H as ->; auto|]. intros [H|H]; [congruence|]. destruct N1. apply in_map_iff. exists (s, v). auto.
  - apply Nat.eqb_neq in E. rewrite IH by exact N2. split; [auto|]. intros [H|H]; [congruence|exact H].
Qed.
Lemma sym_find_iff s v m : NoDup (map fst m) -> (sym_find s m = Some v <-> In (s, v) m).
Proof.
  intros N. split; [apply sym_find_in|]. intros H. destruct (sym_find s m) as [w|] eqn:E; [|destruct (sym_find_none _ _ E _ H)].
  apply sym_find_in in E. f_equal. clear - N H E. induction m as [|[s' u] r IH]; [destruct H|]. inversion_clear N as [|? ? N1 N2].
  destruct H as [H|H], E as [E|E]; [congruence| | |auto].
  - injection H as -> ->. destruct N1. apply in_map_iff. exists (s, w). auto.
  - injection E as -> ->. destruct N1. apply in_map_iff. exists (s, v). auto.
Qed.

Lemma to_uint32_small n : 0 <= n < 2^32 -> to_uint32 n = n.
Proof. apply Z.mod_small. Qed.

Theorem reported_session atoms t b value : session atoms (t, b) -> wf_shows atoms ->
  (forall name args p v, In (SFun name args p, v) (st_map t) -> Z.of_nat (List.length args) < 2^31) ->
  NoDup (map fst (reported t (shows_of (b_log b)) value)) /\
  forall s z, In (s, z) (reported t (shows_of (b_log b)) value) <->
    exists v, get_index t s = Some v /\ z = value v /\ to_show atoms s.
Proof.
  intros S WS AR. destruct (inv_session _ _ S) as [A B C D E F]. cbn [fst snd] in *. destruct A as (A1 & A2 & A3). split.
  - unfold reported. rewrite map_map. cbn [fst]. clear -A1. induction (st_map t) as [|[s v] r IH]; [constructor|]. inversion_clear A1 as [|? ? N1 N2].
    cbn [filter snd]. destruct (shown _ _ _); [|auto]. cbn [map fst]. constructor; [|auto]. intros H. apply N1. apply in_map_iff in H. destruct H as (x & X1 & X2).
    apply filter_In in X2. apply in_map_iff. exists x. tauto.
  - intros s z. unfold reported. rewrite in_map_iff.
    assert (K : forall v, In (s, v) (st_map t) -> (shown t (shows_of (b_log b)) v = true <-> to_show atoms s)).
    { intros v Hv. unfold shown, get_symbol. rewrite (proj2 (var_find_in v _ s A2) Hv). unfold to_show.
      destruct (sh_on (shows_of (b_log b))) eqn:On; cbn [negb].
      - assert (X : exists a, In a atoms /\ a_kind a = KShow) by (apply B, shows_on, On).
        assert (N : ~ (forall a, In a atoms -> a_kind a <> KShow)) by (intros H; destruct X as (a & X1 & X2); exact (H a X1 X2)).
        destruct (existsb (Nat.eqb v) (sh_vars (shows_of (b_log b)))) eqn:Ev.
        + apply existsb_exists in Ev. destruct Ev as (w & W1 & W2). apply Nat.eqb_eq in W2. subst w. apply shows_vars in W1. destruct (C _ W1) as (s' & S1 & S2).
          assert (s' = s) by (apply (var_find_in v _ _ A2) in S1; apply (var_find_in v _ _ A2) in Hv; congruence). subst s'.
          destruct S2 as (a & e & P1 & P2 & P3 & P4). split; [|reflexivity]. intros _. right. exists a, e. auto.
        + assert (NV : ~ listed atoms (fun e => names e s)).
          { intros H. destruct (D _ H) as (w & W1 & W2). assert (w = v) by (apply (sym_find_iff s w _ A1) in W1; apply (sym_find_iff s v _ A1) in Hv; congruence). subst w.
            apply shows_vars in W2. assert (Q : existsb (Nat.eqb v) (sh_vars (shows_of (b_log b))) = true) by (apply existsb_exists; exists v; split; [exact W2|apply Nat.eqb_refl]). congruence. }
          assert (R : forall name args p, s = SFun name args p -> (existsb (sig_eqb (name, to_uint32 (Z.of_nat (List.length args)))) (sh_sigs (shows_of (b_log b))) = true <->
             listed atoms (fun e => signs e name (Z.of_nat (List.length args))))).
          { intros name args p ->. pose proof (AR _ _ _ _ Hv) as L. rewrite to_uint32_small by lia. rewrite existsb_exists. rewrite <- E. split.
            - intros ([nm z'] & X1 & X2). unfold sig_eqb in X2. cbn [fst snd] in X2. apply andb_prop in X2. destruct X2 as [X2 X3]. apply String.eqb_eq in X2. apply Z.eqb_eq in X3.
              apply shows_sigs in X1. destruct X1 as (nm' & n & X1 & X4). injection X1 as -> ->. subst name. pose proof (F WS _ _ X4) as Ft. unfold fits in Ft. cbn in Ft.
              assert (n = Z.of_nat (List.length args)) as <-; [|exact X4]. unfold to_uint32 in X3.
              destruct (Z_lt_le_dec n 0) as [Hn|Hn]; [|rewrite Z.mod_small in X3 by lia; lia].
              assert (n mod 2^32 = n + 2^32) by (symmetry; apply Z.mod_unique with (-1); lia). lia.
            - intros X0. exists (name, to_uint32 (Z.of_nat (List.length args))). split; [apply shows_sigs; do 2 eexists; split; [reflexivity|exact X0]|]. unfold sig_eqb. cbn [fst snd].
              rewrite String.eqb_refl, to_uint32_small by lia. apply Z.eqb_refl. }
          destruct s as [k|str|name args p].
          1,2: split; [discriminate|]; intros [H|(a & e & P1 & P2 & P3 & [P4|(? & ? & ? & Q & _)])];
               [destruct (N H)|destruct NV; exists a, e; auto|discriminate].
          rewrite (R _ _ _ eq_refl). split.
          * intros (a & e & P1 & P2 & P3 & P4). right. exists a, e. split; [exact P1|]. split; [exact P2|]. split; [exact P3|]. right. exists name, args, p. auto.
          * intros [H|(a & e & P1 & P2 & P3 & [P4|(nm & ar & q & Q & P4)])]; [destruct (N H)|destruct NV; exists a, e; auto|].
            injection Q as <- <- <-. exists a, e. auto.
      - split; [|reflexivity]. intros _. left. intros a P1 P2. assert (In BShow (b_log b)) by (apply B; eauto). apply shows_on in H. congruence. }
    split.
    + intros ([s' v] & Q & H). cbn [fst snd] in Q. injection Q as -> <-. apply filter_In in H. destruct H as [H1 H2]. cbn [snd] in H2.
      exists v. split; [apply sym_find_iff; assumption|]. split; [reflexivity|]. apply (K v); assumption.
    + intros (v & V1 & -> & V2). apply sym_find_iff in V1; [|exact A1]. exists (s, v). split; [reflexivity|]. apply filter_In. split; [exact V1|]. apply (K v); assumption.
Qed.
