(** The constraints left by the translation. *)
From Verif Require Import Base Util UtilProofs IntervalSet VarState VarStateProofs Terms TermsSpec Solver OrderSpec
  OrderProofs1 OrderProofs2 OrderProofs3 OrderProofs5 OrderProofs7 Orders Sum PropProofs ConSpec SumProofs2 Translate TranslateProofs
  Distinct DistinctProofs DistinctProofs2 Objective ObjectiveProofs Search SearchSpec SearchFrame SearchInv SearchInv5
  Builder BuilderSpec BuilderProofs Translation TranslationSpec TranslationProofs TranslationProofs2 InitSpec.
Open Scope Z_scope.

(** Linear constraints over different variables. *)
Definition added (d : constr) : Prop := shape d /\ exists l r es, d = CSum l r es.
Lemma dist_vars_added cnt l : forall s, Forall (fun q => let e : delem := fst (fst q) in (Forall (fun t => fst t <> 0) (snd e) /\ NoDup (map snd (snd e))) /\ Forall (fun x => x < nvars s)%nat (map snd (snd e))) l ->
  Forall added (snd (fst (dist_vars cnt l s))).
Proof.
  induction l as [|[[e a] d] l IH]; intros s F; cbn [dist_vars]; [constructor|]. inversion_clear F as [|? ? F1 F2]. cbn [fst snd] in F1. destruct F1 as [[NZ ND] V].
  match goal with |- context [if ?c then dist_var e a s else ?z] => set (q := if c then dist_var e a s else z) end.
  assert (X : Forall added (snd (fst q)) /\ (nvars s <= nvars (snd q))%nat).
  { unfold q. clear q. destruct (_ && _); [|split; [constructor|auto]]. unfold dist_var. destruct (snd e) as [|[co x] ts] eqn:E; [|destruct ts as [|t ts]; [split; [constructor|auto]|]].
    - cbn [add_variable fst snd]. split; [|cbn; lia]. constructor; [|constructor; [|constructor]]; (split; [|eauto]); cbn [shape map fst snd]; (split; [repeat constructor; cbn; lia|repeat constructor; intros []]).
    - set (us := (co, x) :: t :: ts) in *. cbn [add_variable fst snd]. split; [|cbn; lia]. assert (FR : ~ In (nvars s) (map snd us)) by (intros H; rewrite Forall_forall in V; specialize (V _ H); lia).
      constructor; [|constructor; [|constructor]]; (split; [|eauto]); cbn [shape].
      + split; [constructor; [cbn; lia|exact NZ]|]. cbn [map snd]. now constructor.
      + split.
        * apply Forall_map. constructor; [cbn; lia|]. eapply Forall_impl; [|exact NZ]. cbn. lia.
        * rewrite map_map. cbn [snd]. change (NoDup (map (fun t : Z * var => snd t) ((-1, nvars s) :: us))). cbn [map snd]. now constructor. }
  destruct q as [[de cs] s1]. cbn [fst snd] in X. destruct X as [X1 X2].
  assert (F3 : Forall (fun q : delem * (Z * Z) * iset => let e : delem := fst (fst q) in (Forall (fun t => fst t <> 0) (snd e) /\ NoDup (map snd (snd e))) /\ Forall (fun x => x < nvars s1)%nat (map snd (snd e))) l).
  { eapply Forall_impl; [|exact F2]. cbn. intros q [A B]. split; auto. eapply Forall_impl; [|exact B]. cbn. lia. }
  specialize (IH s1 F3). destruct (dist_vars cnt l s1) as [[des css0] s2]. cbn [fst snd] in *. apply Forall_app. now split.
Qed.

Section Translation.
Context (O : oracle) (cfg : config) (Base : interp -> Prop) (n0 : Z) (BO : base_ok Base n0) (CO : clasp_ok O Base).
Context (dlimit mlimit : Z) (order : bool) (ch : cid -> choice).
Lemma translate1_added c s k ok rm cs s' : css s c = Some k -> shape (c_def k) -> Forall (fun x => x < nvars s)%nat (cvars (c_def k)) ->
  translate1 O cfg dlimit mlimit ch c s = (Ok (ok, rm, cs), s') -> Forall added cs.
Proof.
  intros K SH V E. unfold translate1 in E. rewrite K in E. destruct (c_def k) as [l rhs es|a es|l es|l es|l ca x y cb z rhs] eqn:D.
  - destruct (translate_sum _ _ _ _ _ _ _) as [[p|e|] s1]; try discriminate. injection E as _ <- _. constructor.
  - destruct (translate_minimize _ _ _ _) as [[b s1]|e|]; try discriminate. injection E as _ _ <- _. constructor.
  - unfold translate_distinct in E. rewrite D in E. destruct (negb _); [injection E as _ _ <- _; constructor|].
    set (doms := map _ (combine es (c_asg k))) in E. set (l0 := combine (combine es (c_asg k)) doms) in E.
    pose proof (dist_vars_added (dist_counts doms) l0 s) as H. destruct (dist_vars (dist_counts doms) l0 s) as [[des css0] s1].
    destruct (dist_weights _ _ _ _ _ _) as [b s2]. injection E as _ _ <- _. cbn [fst snd] in H. apply H. apply Forall_forall. intros [[e a] d] I. unfold l0 in I. apply in_combine_l, in_combine_l in I. cbn [fst].
    cbn [shape cvars] in SH, V. rewrite Forall_forall in SH, V. split; [now apply SH|]. apply Forall_forall. intros x Hx. apply V. apply in_concat. exists (map snd (snd e)). split; [|exact Hx]. now apply (in_map (fun e : delem => map snd (snd e))).
  - injection E as _ _ <- _. constructor.
  - injection E as _ _ <- _. constructor.
Qed.
Lemma number_in cs : forall id p, In p (number id cs) -> In (snd p) cs.
Proof. induction cs as [|d cs IH]; intros id p I; [destruct I|]. destruct I as [<-|I]; [now left|right; now apply IH with (S id)]. Qed.

Definition known_con (b : bld) (p : cid * constr) : Prop := In p (b_cs b) \/ added (snd p).
Lemma tloop_added b n : (forall p, In p (b_cs b) -> shape (snd p)) -> forall w w', winv O Base n0 b w -> tloop O cfg dlimit mlimit ch n w = Some (Ok true, w') ->
  Forall (known_con b) (w_kept w ++ w_rest w) -> Forall (known_con b) (w_kept w').
Proof.
  intros SH. induction n as [|n IH]; intros [kp rm rest id s] w' W E F; cbn [tloop w_rest w_kept w_rm w_id w_s] in *.
  { destruct rest as [|[c d] rest]; [|discriminate]. injection E as <-. now rewrite app_nil_r in F. }
  destruct rest as [|[c d] rest]; [injection E as <-; now rewrite app_nil_r in F|].
  destruct (winv_add O Base n0 b kp rm c d rest id s W) as (W1 & k & K1 & K2 & K3). set (s1 := add_constraint c d s) in *.
  destruct (translate1 O cfg dlimit mlimit ch c s1) as [q s2] eqn:E1.
  assert (Co : con_ok (nxt s1) (nvars s1) d). { pose proof (ws_con _ _ _ (wi_sem _ _ _ _ _ W1)) as Q. unfold all in Q. cbn [w_kept w_rm w_rest w_s] in Q. rewrite !Forall_app in Q. destruct Q as (_ & _ & Q). now inversion_clear Q. }
  pose proof (translate1_ok O cfg Base n0 BO CO dlimit mlimit ch c d k s1 (wi_top _ _ _ _ _ W1) (wi_f _ _ _ _ _ W1) Co K1 K2 K3 q s2 E1) as T.
  destruct q as [[[ok r1] cs]|e|]; try discriminate.
  apply Forall_app in F as [F1 F2]. inversion_clear F2 as [|? ? F3 F4].
  assert (SD : shape d) by (destruct F3 as [F3|F3]; [now apply (SH _ F3)|apply F3]).
  assert (AD : Forall added cs) by (apply (translate1_added c s1 k ok r1 cs s2); auto; rewrite K2; auto; apply Co).
  assert (NW : Forall (known_con b) (number id cs)) by (apply Forall_forall; intros p I; right; rewrite Forall_forall in AD; apply AD; now apply number_in with id).
  assert (Kc : css s1 c <> None) by congruence.
  destruct (winv_step O Base n0 CO ch b kp rm c d rest id s1 s2 ok r1 cs W1 Kc T) as [S1 S2]. destruct ok; cbn [negb] in E; [|discriminate].
  specialize (S2 eq_refl). destruct r1; apply (IH _ _ S2 E); cbn [w_kept w_rest]; rewrite !Forall_app; auto.
Qed.
Lemma translate_added n b b' : translatable O n0 b -> (forall p, In p (b_cs b) -> shape (snd p)) -> solver_translate O cfg dlimit mlimit order ch n b = Some (Ok true, b') ->
  Forall (known_con b) (b_cs b').
Proof.
  intros T SH E. pose proof (start_inv O Base n0 b T) as W. unfold solver_translate in E.
  destruct (tloop O cfg dlimit mlimit ch n (mkw [] [] (b_cs b) (b_id b) (b_s b))) as [[q w]|] eqn:E1; [|discriminate].
  destruct q as [q|e|]; try discriminate. destruct q; [|discriminate].
  match type of E with context [if order then order_clauses O (seq 0 (nvars ?q)) _ else _] => set (s1 := q) in E end.
  destruct (if order then order_clauses O (seq 0 (nvars s1)) s1 else (true, s1)) as [ok' s'] eqn:E2.
  assert (E' : mkb s' (w_kept w) (w_id w) = b') by congruence. rewrite <- E'. cbn [b_cs]. apply (tloop_added b n SH _ _ W E1). cbn [w_kept w_rest app]. apply Forall_forall. intros p I. now left.
Qed.
End Translation.
