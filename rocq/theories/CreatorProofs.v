From Verif Require Import Base Util UtilProofs Terms TermsSpec Creator CreatorSpec.
Open Scope Z_scope.

Section CreateP.
Context (S : isolver).

(** The clauses in the queue. *)
Definition flat (cs : list (list Z)) : list Z := flat_map (fun c => c ++ [0]) cs.
Lemma send_acc c : Forall (fun l => l <> 0) c -> forall q acc o, send_clauses S (c ++ q) acc o = send_clauses S q (acc ++ c) o.
Proof.
  induction 1 as [|l c N F IH]; intros q acc o; cbn [app send_clauses]; [now rewrite app_nil_r|].
  destruct (Z.eqb_spec l 0); [contradiction|]. rewrite IH, <- app_assoc. reflexivity.
Qed.
Lemma send_clauses_ok cs : Forall (Forall (fun l => l <> 0)) cs -> forall o, exists pre ok,
  send_clauses S (flat cs) [] o = Ok (o ++ map IClause pre, ok) /\
  (ok = true -> pre = cs) /\ (ok = false -> is_ans S (o ++ map IClause pre) = false /\ exists post, cs = pre ++ post).
Proof.
  unfold flat. induction 1 as [|c cs N F IH]; intros o; cbn [flat_map].
  - exists [], true. cbn. rewrite app_nil_r. split; [reflexivity|]. split; [reflexivity|discriminate].
  - rewrite <- app_assoc, send_acc by exact N. cbn [app send_clauses]. rewrite Z.eqb_refl. destruct (is_ans S (o ++ [IClause c])) eqn:A.
    + destruct (IH (o ++ [IClause c])) as (pre & ok & -> & H1 & H2). exists (c :: pre), ok. rewrite <- app_assoc. split; [reflexivity|]. split; [intros H; rewrite H1; auto|].
      intros H. destruct (H2 H) as (P & post & ->). rewrite <- app_assoc in P. split; [exact P|]. exists post. reflexivity.
    + exists [c], false. split; [reflexivity|]. split; [discriminate|]. intros _. split; [exact A|]. exists cs. reflexivity.
Qed.
Definition wcall (w : Z * list (Z * Z) * Z * Z) : icall := let '(l, wl, b, t) := w in IWeight (- l) wl (b + 1) (- t).
Lemma send_weights_ok ws : forall o o' ok, send_weights S ws o = Ok (o', ok) -> exists pre,
  o' = o ++ map wcall pre /\ (ok = true -> pre = ws) /\ (ok = false -> is_ans S o' = false /\ exists post, ws = pre ++ post).
Proof.
  induction ws as [|[[[l wl] b] t] ws IH]; intros o o' ok; cbn [send_weights].
  - intros H. injection H as <- <-. exists []. cbn. rewrite app_nil_r. split; [reflexivity|]. split; [reflexivity|discriminate].
  - unfold iadd, ck. match goal with |- context [if ?x then Ok _ else _] => destruct x end; cbn [bind]; [|discriminate]. destruct (is_ans S _) eqn:A.
    + intros H. destruct (IH _ _ _ H) as (pre & -> & H1 & H2). exists ((l, wl, b, t) :: pre). rewrite <- app_assoc in *. split; [reflexivity|]. split; [intros E; rewrite H1; auto|].
      intros E. destruct (H2 E) as (P & post & ->). split; [exact P|]. exists post. reflexivity.
    + intros H. injection H as <- <-. exists [(l, wl, b, t)]. split; [reflexivity|]. split; [discriminate|]. intros _. split; [exact A|]. exists ws. reflexivity.
Qed.

(** ** Invariant: sent plus queued is added *)
Lemma kept_app {A} (D : A -> Prop) a b c d : kept D a b -> kept D c d -> kept D (a ++ c) (b ++ d).
Proof. induction 1; cbn; intros K; [exact K|constructor; auto|constructor; auto]. Qed.
Lemma kept_mono {A} (D E : A -> Prop) a b : (forall x, D x -> E x) -> kept D a b -> kept E a b.
Proof. intros H. induction 1; constructor; auto. Qed.

Lemma clauses_sent_app o p : clauses_sent (o ++ p) = clauses_sent o ++ clauses_sent p.
Proof. apply flat_map_app. Qed.
Lemma weights_sent_app o p : weights_sent (o ++ p) = weights_sent o ++ weights_sent p.
Proof. apply flat_map_app. Qed.
Lemma minimize_sent_app o p : minimize_sent (o ++ p) = minimize_sent o ++ minimize_sent p.
Proof. apply flat_map_app. Qed.
Lemma sent_clauses cs : clauses_sent (map IClause cs) = cs /\ weights_sent (map IClause cs) = [] /\ minimize_sent (map IClause cs) = [].
Proof. unfold clauses_sent, weights_sent, minimize_sent. induction cs as [|c cs (I1 & I2 & I3)]; cbn; [auto|]. now rewrite I1, I2, I3. Qed.
Lemma sent_weights ws : clauses_sent (map wcall ws) = [] /\ weights_sent (map wcall ws) = ws /\ minimize_sent (map wcall ws) = [].
Proof.
  unfold clauses_sent, weights_sent, minimize_sent. induction ws as [|[[[l wl] b] t] ws (I1 & I2 & I3)]; cbn; [auto|]. rewrite I1, I2, I3. repeat split; try reflexivity.
  f_equal. f_equal; [f_equal; [f_equal|]|]; lia.
Qed.
Lemma sent_minimize ms : let o := map (fun '(l, w, p) => IMin l w p) ms in clauses_sent o = [] /\ weights_sent o = [] /\ minimize_sent o = ms.
Proof. cbn zeta. unfold clauses_sent, weights_sent, minimize_sent. induction ms as [|[[l w] p] ms (I1 & I2 & I3)]; cbn; [auto|]. now rewrite I1, I2, I3. Qed.

Lemma dropped_app o p w : dropped_at S o w -> dropped_at S (o ++ p) w.
Proof. destruct w as [[[l wl] b] t]. intros (o1 & o2 & -> & H). exists o1, (o2 ++ p). rewrite app_assoc. auto. Qed.

Record inv (ops : list cop) (s : creator) : Prop := {
  iv_clauses : exists cs, cr_clauses s = flat cs /\ Forall (Forall (fun l => l <> 0)) cs /\ clauses_sent (cr_out s) ++ cs = clauses_added ops;
  iv_weights : kept (dropped_at S (cr_out s)) (weights_sent (cr_out s) ++ cr_weights s) (weights_added ops);
  iv_minimize : minimize_sent (cr_out s) ++ cr_minimize s = minimize_added ops;
  iv_count : cr_nclauses s = Z.of_nat (length (clauses_added ops)) }.

(** A failing operation: a call was rejected and is the last one sent. *)
Record failed (ops : list cop) (s : creator) : Prop := {
  fl_ans : is_ans S (cr_out s) = false;
  fl_clauses : exists post, clauses_sent (cr_out s) ++ post = clauses_added ops;
  fl_weights : exists post, kept (dropped_at S (cr_out s)) (weights_sent (cr_out s) ++ post) (weights_added ops) }.

Lemma commit_ok ops s s' ok : inv ops s -> cr_commit S s = Ok (s', ok) ->
  (ok = true -> inv ops s' /\ cr_clauses s' = [] /\ cr_weights s' = [] /\ cr_minimize s' = []) /\ (ok = false -> failed ops s').
Proof.
  intros [(cs & Q & N & C) W M K]. unfold cr_commit. rewrite Q. destruct (send_clauses_ok cs N (cr_out s)) as (pre & ok1 & -> & H1 & H2). cbn [bind].
  destruct (sent_clauses pre) as (P1 & P2 & P3).
  assert (KW : forall p x y, kept (dropped_at S (cr_out s)) x y -> kept (dropped_at S (cr_out s ++ p)) x y) by (intros p x y; apply kept_mono; intros; apply dropped_app; assumption).
  destruct ok1.
  - specialize (H1 eq_refl). subst pre. clear H2. cbn [cr_weights cr_out]. destruct (send_weights S (cr_weights s) _) as [[o2 ok2]| |] eqn:E; cbn [bind]; try discriminate.
    destruct (send_weights_ok _ _ _ _ E) as (wp & -> & H3 & H4). destruct (sent_weights wp) as (R1 & R2 & R3). destruct ok2; intros H; injection H as <- <-.
    + split; [intros _|discriminate]. specialize (H3 eq_refl). subst wp. cbn. split; [|auto]. destruct (sent_minimize (cr_minimize s)) as (S1 & S2 & S3). unfold send_minimize. split; cbn.
      * exists []. split; [reflexivity|]. split; [constructor|]. rewrite !clauses_sent_app, P1, R1, S1, !app_nil_r. exact C.
      * rewrite !weights_sent_app, P2, R2, S2, !app_nil_r. rewrite <- !app_assoc. apply KW. exact W.
      * rewrite !minimize_sent_app, P3, R3, S3, !app_nil_r. exact M.
      * exact K.
    + split; [discriminate|]. intros _. destruct (H4 eq_refl) as (A & post & HP). split; cbn.
      * exact A.
      * exists []. rewrite !clauses_sent_app, P1, R1, !app_nil_r. exact C.
      * exists post. rewrite !weights_sent_app, P2, R2, app_nil_r, <- !app_assoc, <- HP. apply KW. exact W.
  - intros H. injection H as <- <-. split; [discriminate|]. intros _. destruct (H2 eq_refl) as (A & post & ->). split; cbn.
    + exact A.
    + exists post. rewrite clauses_sent_app, P1, <- app_assoc. exact C.
    + exists (cr_weights s). rewrite weights_sent_app, P2, app_nil_r. apply KW. exact W.
Qed.

Lemma inv_out ops s p : clauses_sent p = [] -> weights_sent p = [] -> minimize_sent p = [] -> inv ops s -> inv ops (set_out s (cr_out s ++ p)).
Proof.
  intros E1 E2 E3 [(cs & Q & N & C) W M K]. split; cbn; [|..].
  - exists cs. rewrite clauses_sent_app, E1, app_nil_r. auto.
  - rewrite weights_sent_app, E2, app_nil_r. eapply kept_mono; [|exact W]. intros. apply dropped_app. assumption.
  - rewrite minimize_sent_app, E3, app_nil_r. exact M.
  - exact K.
Qed.
Lemma inv_more ops s op : clauses_added [op] = [] -> weights_added [op] = [] -> minimize_added [op] = [] -> inv ops s -> inv (ops ++ [op]) s.
Proof.
  intros E1 E2 E3 [C W M K]. unfold clauses_added, weights_added, minimize_added in *. split; unfold clauses_added, weights_added, minimize_added; rewrite !flat_map_app, ?E1, ?E2, ?E3, !app_nil_r; assumption.
Qed.
Lemma failed_more ops s op : clauses_added [op] = [] -> weights_added [op] = [] -> failed ops s -> failed (ops ++ [op]) s.
Proof.
  intros E1 E2 [A C W]. unfold clauses_added, weights_added, minimize_added in *. split; unfold clauses_added, weights_added, minimize_added; rewrite ?flat_map_app, ?E1, ?E2, ?app_nil_r; assumption.
Qed.

Lemma kept_snoc {A} (D : A -> Prop) a b x : kept D a b -> kept D (a ++ [x]) (b ++ [x]).
Proof. intros K. apply kept_app; [exact K|]. constructor. constructor. Qed.

Lemma run_op_ok ops s op s' ok : wf_op op -> inv ops s -> run_op S s op = Ok (s', ok) ->
  (ok = true -> inv (ops ++ [op]) s' /\ (is_commit op -> cr_clauses s' = [] /\ cr_weights s' = [] /\ cr_minimize s' = [])) /\
  (ok = false -> failed (ops ++ [op]) s').
Proof.
  intros WF I. destruct op; cbn [run_op].
  - intros H. injection H as <- <-. split; [intros _|discriminate]. split; [|intros [?|?]; discriminate]. destruct I as [(cs & Q & N & C) W M K].
    unfold clauses_added, weights_added, minimize_added in *.
    split; cbn; unfold clauses_added, weights_added, minimize_added; rewrite flat_map_app; cbn [flat_map app]; rewrite ?app_nil_r; try assumption.
    + exists (cs ++ [c]). rewrite Q. unfold flat. rewrite flat_map_app. cbn [flat_map]. rewrite app_nil_r. split; [reflexivity|]. split; [apply Forall_app; split; [exact N|constructor; [exact WF|constructor]]|].
      rewrite <- C, <- app_assoc. reflexivity.
    + rewrite app_length, K. cbn. lia.
  - assert (QQ : inv (ops ++ [OWeight l wl bound type])
        (mkcreator (cr_trans s) (cr_clauses s) (cr_weights s ++ [(l, wl, bound, type)]) (cr_minimize s) (cr_nlits s) (cr_tlits s)
     (cr_nclauses s) (cr_tclauses s) (if cr_trans s then cr_twcs s + 1 else cr_twcs s) (cr_out s))).
    { destruct I as [C W M K]. unfold clauses_added, weights_added, minimize_added in *.
      split; cbn; unfold clauses_added, weights_added, minimize_added; rewrite flat_map_app; cbn [flat_map app]; rewrite ?app_nil_r; try assumption. rewrite app_assoc. apply kept_snoc. exact W. }
    assert (DD : dropped_at S (cr_out s) (l, wl, bound, type) -> inv (ops ++ [OWeight l wl bound type]) s).
    { intros D. destruct I as [C W M K]. unfold clauses_added, weights_added, minimize_added in *.
      split; unfold clauses_added, weights_added, minimize_added; rewrite flat_map_app; cbn [flat_map app]; rewrite ?app_nil_r; try assumption.
      rewrite <- (app_nil_r (weights_sent _ ++ _)). apply kept_app; [exact W|]. constructor; [exact D|constructor]. }
    assert (FIN : forall s1, inv (ops ++ [OWeight l wl bound type]) s1 -> Ok (s1, true) = Ok (s', ok) ->
      (ok = true -> inv (ops ++ [OWeight l wl bound type]) s' /\ (is_commit (OWeight l wl bound type) -> cr_clauses s' = [] /\ cr_weights s' = [] /\ cr_minimize s' = [])) /\
      (ok = false -> failed (ops ++ [OWeight l wl bound type]) s')).
    { intros s1 I1 H. injection H as <- <-. split; [intros _|discriminate]. split; [exact I1|]. intros [?|?]; discriminate. }
    unfold cr_add_weight. destruct (is_true S (cr_out s) l) eqn:T1.
    + destruct (Z.ltb_spec type 0); apply FIN; [|exact QQ]. apply DD. exists (cr_out s), []. rewrite app_nil_r. auto.
    + destruct (is_true S (cr_out s) (- l)) eqn:T2; [|apply FIN; exact QQ].
      destruct (Z.ltb_spec 0 type); apply FIN; [|exact QQ]. apply DD. exists (cr_out s), []. rewrite app_nil_r. auto.
  - intros H. injection H as <- <-. split; [intros _|discriminate]. split; [|intros [?|?]; discriminate]. destruct I as [C W M K]. unfold clauses_added, weights_added, minimize_added in *.
    split; cbn; unfold clauses_added, weights_added, minimize_added; rewrite flat_map_app; cbn [flat_map app]; rewrite ?app_nil_r; try assumption. rewrite <- M, <- app_assoc. reflexivity.
  - intros H. injection H as <- <-. split; [intros _|discriminate]. split; [|intros [?|?]; discriminate]. apply inv_more; try reflexivity.
    destruct (inv_out ops s [ILit] eq_refl eq_refl eq_refl I) as [C W M K]. split; assumption.
  - intros H. injection H as <- <-. split; [intros _|discriminate]. split; [|intros [?|?]; discriminate]. apply inv_more; try reflexivity. exact (inv_out ops s [IWatch l] eq_refl eq_refl eq_refl I).
  - intros H. injection H as <- <-. split; [intros _|discriminate]. split; [|intros [?|?]; discriminate]. apply inv_more; try reflexivity. destruct I as [C W M K]. split; assumption.
  - intros H. destruct (commit_ok _ _ _ _ I H) as [H1 H2]. split; intros E.
    + destruct (H1 E) as (I' & R). split; [|intros _; exact R]. apply inv_more; auto.
    + apply failed_more; auto.
  - unfold cr_propagate. destruct (cr_commit S s) as [[s1 ok1]| |] eqn:Q; cbn [bind]; try discriminate. destruct (commit_ok _ _ _ _ I Q) as [H1 H2]. destruct ok1; intros H; injection H as <- <-.
    + destruct (H1 eq_refl) as (I' & R). pose proof (inv_out ops s1 [IProp] eq_refl eq_refl eq_refl I') as I2. split; intros E.
      * split; [apply inv_more; auto|]. intros _. exact R.
      * apply failed_more; try reflexivity. destruct I2 as [(cs & Q' & N & C) W M K]. split; [exact E|exists cs; exact C|eexists; exact W].
    + split; [discriminate|]. intros _. apply failed_more; auto.
Qed.

Lemma run_ops_ok ops : forall done s s' ok, Forall wf_op ops -> inv done s -> run_ops S s ops = Ok (s', ok) ->
  (ok = true -> inv (done ++ ops) s' /\ (forall pre op, ops = pre ++ [op] -> is_commit op -> cr_clauses s' = [] /\ cr_weights s' = [] /\ cr_minimize s' = [])) /\
  (ok = false -> exists pre post, ops = pre ++ post /\ failed (done ++ pre) s').
Proof.
  induction ops as [|op ops IH]; intros done s s' ok F I; cbn [run_ops].
  - intros H. injection H as <- <-. split; [intros _|discriminate]. rewrite app_nil_r. split; [exact I|]. intros pre op E. destruct pre; discriminate.
  - inversion_clear F as [|? ? F1 F2]. destruct (run_op S s op) as [[s1 ok1]| |] eqn:Q; cbn [bind]; try discriminate. destruct (run_op_ok _ _ _ _ _ F1 I Q) as [H1 H2].
    destruct ok1.
    + destruct (H1 eq_refl) as [I1 R]. intros H. destruct (IH _ _ _ _ F2 I1 H) as [K1 K2]. rewrite <- app_assoc in K1. split; intros E.
      * destruct (K1 E) as [J1 J2]. split; [exact J1|]. intros pre op' EQ CM. destruct pre as [|p pre].
        -- cbn in EQ. injection EQ as -> ->. cbn in H. injection H as <- <-. apply R, CM.
        -- cbn in EQ. injection EQ as -> EQ. eapply J2; eauto.
      * destruct (K2 E) as (pre & post & -> & Fl). exists (op :: pre), post. rewrite <- app_assoc in Fl. split; [reflexivity|exact Fl].
    + intros H. injection H as <- <-. split; [discriminate|]. intros _. exists [op], ops. split; [reflexivity|]. apply H2. reflexivity.
Qed.
Lemma inv0 : inv [] creator0.
Proof. split; cbn; [exists []; cbn; repeat split; constructor|constructor|reflexivity|reflexivity]. Qed.

(** ** Meaning *)
Lemma neg_lit I l : l <> 0 -> (lit_true I (- l) <-> ~ lit_true I l).
Proof.
  intros N. unfold lit_true. destruct (Z.ltb_spec 0 l), (Z.ltb_spec 0 (- l)); try lia.
  - rewrite Z.opp_involutive. destruct (I l); intuition congruence.
  - destruct (I (- l)); intuition congruence.
Qed.
Lemma lit_dec I l : lit_true I l \/ ~ lit_true I l.
Proof. unfold lit_true. destruct (0 <? l); [destruct (I l)|destruct (I (- l))]; auto; right; discriminate. Qed.
Lemma at_most_least I l wl b t : l <> 0 -> (at_least I (- l) wl (b + 1) (- t) <-> at_most I l wl b t).
Proof.
  intros N. unfold at_least, at_most. rewrite (neg_lit I l N). generalize (weight I wl). intros w.
  assert (E1 : - t <= 0 <-> 0 <= t) by lia. assert (E2 : 0 <= - t <-> t <= 0) by lia. assert (E3 : b + 1 <= w <-> ~ w <= b) by lia. rewrite E1, E2, E3.
  assert (D : w <= b \/ ~ w <= b) by lia. destruct (lit_dec I l); tauto.
Qed.

Theorem delivered ops s : Forall wf_op ops -> (exists pre op, ops = pre ++ [op] /\ is_commit op) -> run_ops S creator0 ops = Ok (s, true) ->
  clauses_sent (cr_out s) = clauses_added ops /\
  minimize_sent (cr_out s) = minimize_added ops /\
  kept (dropped_at S (cr_out s)) (weights_sent (cr_out s)) (weights_added ops) /\
  cr_nclauses s = Z.of_nat (length (clauses_added ops)).
Proof.
  intros F (pre & op & E & CM) H. destruct (run_ops_ok _ _ _ _ _ F inv0 H) as [H1 _]. destruct (H1 eq_refl) as [[(cs & Q & N & C) W M K] R]. destruct (R pre op E CM) as (E1 & E2 & E3).
  cbn [app] in *. rewrite E1 in Q. rewrite E2, app_nil_r in W. rewrite E3, app_nil_r in M. split; [|auto].
  destruct cs as [|c cs]; [rewrite app_nil_r in C; exact C|]. destruct c; discriminate.
Qed.

Lemma sent_in o I : (forall l wl b t, In (IWeight l wl b t) o -> l <> 0) ->
  ((forall c, In c o -> called I c) <-> (forall c, In c (clauses_sent o) -> clause_true I c) /\ (forall l wl b t, In (l, wl, b, t) (weights_sent o) -> at_most I l wl b t)).
Proof.
  intros N. unfold clauses_sent, weights_sent. split.
  - intros H. split.
    + intros c C. apply in_flat_map in C. destruct C as (x & X & Y). destruct x; cbn in Y; try tauto. destruct Y as [<-|[]]. exact (H _ X).
    + intros l wl b t C. apply in_flat_map in C. destruct C as (x & X & Y). destruct x as [|l' wl' b' t'| | | |]; cbn in Y; try tauto. destruct Y as [Y|[]].
      pose proof (N _ _ _ _ X). injection Y as <- <- <- <-. apply at_most_least; [lia|]. rewrite !Z.opp_involutive, Z.sub_add. exact (H _ X).
  - intros [H1 H2] c C. destruct c; cbn [called]; try exact Logic.I.
    + apply H1. apply in_flat_map. exists (IClause c). cbn. auto.
    + pose proof (N _ _ _ _ C). assert (A : at_most I (- l) wl (bound - 1) (- type)) by (apply H2; apply in_flat_map; eexists; split; [exact C|cbn; auto]).
      apply at_most_least in A; [|lia]. rewrite !Z.opp_involutive, Z.sub_add in A. exact A.
Qed.
Lemma kept_in {A} (D : A -> Prop) a b : kept D a b -> (forall x, In x a -> In x b) /\ (forall x, In x b -> In x a \/ D x).
Proof. induction 1 as [|x a b K [I1 I2]|x a b Dx K [I1 I2]]; cbn; split; try tauto; intros y Y; try (destruct Y as [->|Y]; auto); auto; destruct (I2 y Y); auto. Qed.


Theorem delivered_meaning ops s I : Forall wf_op ops -> (exists pre op, ops = pre ++ [op] /\ is_commit op) -> run_ops S creator0 ops = Ok (s, true) ->
  respects S I (cr_out s) ->
  ((forall c, In c (cr_out s) -> called I c) <-> (forall op, In op ops -> added I op)).
Proof.
  intros F E H R. destruct (delivered ops s F E H) as (C & _ & K & _). destruct (kept_in _ _ _ K) as [K1 K2].
  assert (W : forall l wl b t, In (l, wl, b, t) (weights_added ops) <-> In (OWeight l wl b t) ops).
  { intros l wl b t. unfold weights_added. rewrite in_flat_map. split.
    - intros (x & X & Y). destruct x; cbn in Y; try tauto. destruct Y as [Y|[]]. injection Y as -> -> -> ->. exact X.
    - intros X. eexists. split; [exact X|cbn; auto]. }
  assert (CL : forall c, In c (clauses_added ops) <-> In (OClause c) ops).
  { intros c. unfold clauses_added. rewrite in_flat_map. split.
    - intros (x & X & Y). destruct x; cbn in Y; try tauto. destruct Y as [<-|[]]. exact X.
    - intros X. eexists. split; [exact X|cbn; auto]. }
  rewrite Forall_forall in F.
  rewrite sent_in.
  - rewrite C. split.
    + intros [H1 H2] op OP. destruct op; cbn [added]; try exact Logic.I.
      * apply H1, CL, OP.
      * pose proof (F _ OP) as N. cbn in N. destruct (K2 _ (proj2 (W _ _ _ _) OP)) as [X|X]; [apply H2, X|]. destruct X as (o1 & o2 & EQ & [(T & Y)|(T & Y)]).
        -- split; [|lia]. intros _ _. eapply R; eauto.
        -- split; [lia|]. intros _ L. assert (L' : lit_true I (- l)) by (eapply R; [exact EQ|lia|exact T]). apply neg_lit in L'; [contradiction|exact N].
    + intros H1. split; [intros c X; apply CL in X; exact (H1 _ X)|]. intros l wl b t X. apply K1 in X. apply W in X. exact (H1 _ X).
  - intros l wl b t X. assert (Y : In (- l, wl, b - 1, - t) (weights_sent (cr_out s))) by (apply in_flat_map; eexists; split; [exact X|cbn; auto]).
    apply K1, W, F in Y. cbn in Y. lia.
Qed.

Theorem delivery_failed ops s : Forall wf_op ops -> run_ops S creator0 ops = Ok (s, false) ->
  is_ans S (cr_out s) = false /\ exists pre post, ops = pre ++ post /\
    (exists rest, clauses_sent (cr_out s) ++ rest = clauses_added pre) /\
    (exists rest, kept (dropped_at S (cr_out s)) (weights_sent (cr_out s) ++ rest) (weights_added pre)).
Proof.
  intros F H. destruct (run_ops_ok _ _ _ _ _ F inv0 H) as [_ H2]. destruct (H2 eq_refl) as (pre & post & -> & [A C W]). split; [exact A|]. exists pre, post. auto.
Qed.
End CreateP.
