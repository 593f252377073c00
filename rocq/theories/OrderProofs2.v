(** Steps and well-formedness for creating order literals. *)
From Verif Require Import Base Util VarState VarStateProofs Terms TermsSpec Solver OrderSpec OrderProofs1.
From Coq Require Import Sorting.Sorted.
Open Scope Z_scope.

(** ** What an operation leaves alone *)

Definition strip (s : state) : state :=
  set_nxt 0 (set_log [] (set_lmap (fun _ => None) (set_vst (fun _ => mkvs 0 0 [] [] []) s))).
Definition vbounds (v : vstate) := (lb v, ub v, lbs v, ubs v).
(** Only the table of order literals and the communication with clasp changes. *)
Definition same (s s' : state) : Prop := strip s' = strip s /\ forall y, vbounds (vst s' y) = vbounds (vst s y).
Lemma same_refl s : same s s.
Proof. now split. Qed.
Lemma same_trans s s1 s2 : same s s1 -> same s1 s2 -> same s s2.
Proof. intros [A B] [C D]. split; [now rewrite C|]. intros y. now rewrite D. Qed.
Lemma same_get {A} (f : state -> A) : (forall s, f s = f (strip s)) -> forall s s', same s s' -> f s' = f s.
Proof. intros F s s' [H _]. now rewrite (F s'), (F s), H. Qed.
Lemma same_nvars s s' : same s s' -> nvars s' = nvars s.
Proof. now apply same_get. Qed.
Lemma same_fmap s s' : same s s' -> fmap s' = fmap s.
Proof. now apply same_get. Qed.
Lemma same_cur s s' : same s s' -> cur_level s' = cur_level s.
Proof. now apply same_get. Qed.
Lemma same_bnds s s' y : same s s' -> lb (vst s' y) = lb (vst s y) /\ ub (vst s' y) = ub (vst s y) /\ lbs (vst s' y) = lbs (vst s y) /\ ubs (vst s' y) = ubs (vst s y).
Proof. intros [_ H]. specialize (H y). unfold vbounds in H. injection H. auto. Qed.
Lemma same_minb s s' y : same s s' -> minb (vst s' y) = minb (vst s y).
Proof. intros H. destruct (same_bnds s s' y H) as (A & B & C & D). unfold minb. now rewrite A, C. Qed.
Lemma same_maxb s s' y : same s s' -> maxb (vst s' y) = maxb (vst s y).
Proof. intros H. destruct (same_bnds s s' y H) as (A & B & C & D). unfold maxb. now rewrite B, D. Qed.
Lemma same_emit e s : same s (emit e s).
Proof. now split. Qed.
Lemma upd_same {A} (f : var -> A) x a : upd f x a x = a.
Proof. unfold upd. now rewrite Nat.eqb_refl. Qed.
Lemma upd_other {A} (f : var -> A) x a y : y <> x -> upd f x a y = f y.
Proof. unfold upd. intros N. destruct (Nat.eqb_spec y x); easy. Qed.
Lemma same_lits x m s : same s (set_vs x (set_lits m (vst s x)) s).
Proof. split; [reflexivity|]. intros y. cbn. unfold upd, vbounds. destruct (Nat.eqb_spec y x) as [->|]; reflexivity. Qed.
Lemma same_lmap L s : same s (set_lmap L s).
Proof. now split. Qed.
Lemma same_litmap x l v s : same s (snd (update_litmap x l v s)).
Proof.
  unfold update_litmap. cbn [snd]. set (s1 := if vlit_lt _ _ =? 0 then s else _).
  assert (H : same s s1). { unfold s1. destruct (_ =? 0); [apply same_refl|]. destruct (valid_entry _ _); [apply same_lmap|apply same_refl]. }
  destruct (vlit_gt _ _ =? 0); [exact H|]. destruct (valid_entry s1 _); [|exact H]. apply same_trans with s1; [exact H|apply same_lmap].
Qed.

(** ** Bringing the table up to date *)

(** Lists agreeing except at [v]. *)
Definition off (v : Z) (m mm : list (Z * Z)) := forall u y, u <> v -> (In (u, y) mm <-> In (u, y) m).
Lemma off_refl v m : off v m m.
Proof. easy. Qed.
Lemma off_set v m l : sorted m -> off v m (m_set m v l).
Proof. intros S u y N. rewrite in_m_set by easy. intuition. Qed.
Lemma off_below v m mm w : off v m mm -> (just_below mm v w <-> just_below m v w).
Proof. intros H. unfold just_below. split; intros [A B]; split; auto; intros u' l' I L; apply (B u' l'); auto; apply H; auto; lia. Qed.
Lemma off_above v m mm w : off v m mm -> (just_above mm v w <-> just_above m v w).
Proof. intros H. unfold just_above. split; intros [A B]; split; auto; intros u' l' I L; apply (B u' l'); auto; apply H; auto; lia. Qed.
Lemma off_nbelow v m mm d a : off v m mm -> (nearest_below mm v d a <-> nearest_below m v d a).
Proof.
  intros H. split; (intros [(u & A & B & C)|(A & C)]; [left; exists u|right]);
  repeat split; auto; try (apply H; [lia|easy]); intros u' l' I.
  - intros L. apply (C u' l'); auto. apply H; [lia|easy].
  - destruct (Z_lt_ge_dec u' v); [|lia]. apply (C u' l'). apply H; [lia|easy].
  - intros L. apply (C u' l'); auto. apply H; [lia|easy].
  - destruct (Z_lt_ge_dec u' v); [|lia]. apply (C u' l'). apply H; [lia|easy].
Qed.
Lemma off_nabove v m mm d a : off v m mm -> (nearest_above mm v d a <-> nearest_above m v d a).
Proof.
  intros H. split; (intros [(u & A & B & C)|(A & C)]; [left; exists u|right]);
  repeat split; auto; try (apply H; [lia|easy]); intros u' l' I.
  - intros L. apply (C u' l'); auto. apply H; [lia|easy].
  - destruct (Z_lt_ge_dec v u'); [|lia]. apply (C u' l'). apply H; [lia|easy].
  - intros L. apply (C u' l'); auto. apply H; [lia|easy].
  - destruct (Z_lt_ge_dec v u'); [|lia]. apply (C u' l'). apply H; [lia|easy].
Qed.

Lemma jb_dec m v w d a : nearest_above m w d a -> just_below m v w \/ ~ just_below m v w.
Proof.
  intros [(u & Hu & L & M)|(-> & M)].
  - destruct (Z_lt_ge_dec w v) as [W|W]; [|right; intros [? _]; lia]. destruct (Z_lt_ge_dec u v) as [U|U].
    + right. intros [_ J]. apply J in Hu; lia.
    + left. split; [easy|]. intros u' l' H' L'. destruct (Z_le_gt_dec u' w); [easy|]. apply M in H'; lia.
  - destruct (Z_lt_ge_dec w v) as [W|W]; [|right; intros [? _]; lia]. left. split; [easy|]. intros. now apply M in H.
Qed.
Lemma ja_dec m v w d a : nearest_below m w d a -> just_above m v w \/ ~ just_above m v w.
Proof.
  intros [(u & Hu & L & M)|(-> & M)].
  - destruct (Z_lt_ge_dec v w) as [W|W]; [|right; intros [? _]; lia]. destruct (Z_lt_ge_dec v u) as [U|U].
    + right. intros [_ J]. apply J in Hu; lia.
    + left. split; [easy|]. intros u' l' H' L'. destruct (Z_le_gt_dec w u'); [easy|]. apply M in H'; lia.
  - destruct (Z_lt_ge_dec v w) as [W|W]; [|right; intros [? _]; lia]. left. split; [easy|]. intros. now apply M in H.
Qed.

Lemma relinked_set x v m mm l e e' : sorted m -> off v m mm -> e_var e = x -> e_val e <> v ->
  (exists y, In (e_val e, y) m) ->
  nearest_below m (e_val e) (- TRUE_LIT) (e_prev e) -> nearest_above m (e_val e) TRUE_LIT (e_succ e) ->
  relinked x v mm l l e e' ->
  nearest_below (m_set m v l) (e_val e') (- TRUE_LIT) (e_prev e') /\ nearest_above (m_set m v l) (e_val e') TRUE_LIT (e_succ e').
Proof.
  intros S F Ex Nv Hy HB HA (_ & _ & -> & R1 & R2 & R3 & R4).
  rewrite off_below in R1, R2 by eassumption. rewrite off_above in R3, R4 by eassumption.
  destruct (above_set m v S (e_val e) l _ Nv HA) as [A1 A2].
  destruct (below_set m v S (e_val e) l _ Nv HB) as [B1 B2]. split.
  - destruct (ja_dec m v (e_val e) _ _ HB) as [J|J]; [rewrite R3; auto|rewrite R4; auto; tauto].
  - destruct (jb_dec m v (e_val e) _ _ HA) as [J|J]; [rewrite R1; auto|rewrite R2; auto; tauto].
Qed.
Lemma relinked_erase x v m mm p n e e' : sorted m -> off v m mm -> e_var e = x -> e_val e <> v ->
  nearest_below m (e_val e) (- TRUE_LIT) (e_prev e) -> nearest_above m (e_val e) TRUE_LIT (e_succ e) ->
  nearest_below m v (- TRUE_LIT) p -> nearest_above m v TRUE_LIT n ->
  relinked x v mm p n e e' ->
  nearest_below (m_erase m v) (e_val e') (- TRUE_LIT) (e_prev e') /\ nearest_above (m_erase m v) (e_val e') TRUE_LIT (e_succ e').
Proof.
  intros S F Ex Nv HB HA HP HN (_ & _ & -> & R1 & R2 & R3 & R4).
  rewrite off_below in R1, R2 by eassumption. rewrite off_above in R3, R4 by eassumption.
  destruct (above_erase m v S (e_val e) _ _ Nv HA HN) as [A1 A2].
  destruct (below_erase m v S (e_val e) _ _ Nv HB HP) as [B1 B2]. split.
  - destruct (ja_dec m v (e_val e) _ _ HB) as [J|J]; [rewrite R3; auto|rewrite R4; auto; tauto].
  - destruct (jb_dec m v (e_val e) _ _ HA) as [J|J]; [rewrite R1; auto|rewrite R2; auto; tauto].
Qed.

Lemma elit_abs l p n x v : elit (Z.abs l) (mke x (0 <? l) v p n) = l.
Proof. unfold elit. cbn. destruct (0 <? l) eqn:E; lia. Qed.

(** Storing a literal for a value and adjusting the table accordingly. *)
Lemma wf_link_set s s' x v l mm p n : wf_core s -> (x < nvars s)%nat ->
  let m := lits (vst s x) in
  nvars s' = nvars s -> nxt s <= nxt s' -> below (nxt s') l ->
  Forall (ev_below (nxt s')) (log s') ->
  (cur_level s' = 0%nat -> forall x, (x < nvars s)%nat -> lbs (vst s' x) = [] /\ ubs (vst s' x) = []) ->
  (forall y, lits (vst s' y) = if Nat.eqb y x then m_set m v l else lits (vst s y)) ->
  off v m mm -> nearest_below m v (- TRUE_LIT) p -> nearest_above m v TRUE_LIT n ->
  (forall k e', lmap s' k = Some e' -> (k = Z.abs l /\ k <> 1 /\ e' = mke x (0 <? l) v p n) \/
     exists e, lmap s k = Some e /\ ~ (e_var e = x /\ e_val e = v) /\ relinked x v mm l l e e') ->
  (forall k e, lmap s k = Some e -> ~ (e_var e = x /\ e_val e = v) -> exists e', lmap s' k = Some e' /\ relinked x v mm l l e e') ->
  (Z.abs l <> 1 -> lmap s' (Z.abs l) = Some (mke x (0 <? l) v p n)) ->
  wf_core s'.
Proof.
  intros W Hx m En Hn Bl Hlog Htop El Hoff HP HN H1 H2 H3. destruct W as [W1 W2 W3 W4 W5 W6].
  pose proof (W2 x Hx) as Sm. fold m in Sm. constructor.
  - lia.
  - intros y Hy. rewrite En in Hy. rewrite El. destruct (Nat.eqb_spec y x); [now apply m_set_sorted|now apply W2].
  - intros y w z Hy Hin. rewrite En in Hy. rewrite El in Hin. destruct (Nat.eqb_spec y x) as [->|Ny].
    + apply in_m_set in Hin; [|easy]. destruct Hin as [(-> & ->)|(Nw & Hin)].
      * split; [easy|]. intros A. rewrite (H3 A). eexists; repeat split.
      * destruct (W3 x w z Hx Hin) as (B & C). split; [now apply below_mono with (nxt s)|]. intros A.
        destruct (C A) as (e & E1 & E2 & E3 & E4). destruct (H2 _ _ E1) as (e' & F1 & F2 & F3 & F4 & _); [intros [_ ?]; lia|].
        exists e'. repeat split; congruence.
    + destruct (W3 y w z Hy Hin) as (B & C). split; [now apply below_mono with (nxt s)|]. intros A.
      destruct (C A) as (e & E1 & E2 & E3 & E4). destruct (H2 _ _ E1) as (e' & F1 & F2 & F3 & F4 & _); [intros [? _]; congruence|].
      exists e'. repeat split; congruence.
  - intros k e' He. destruct (H1 k e' He) as [(-> & N1 & ->)|(e & E1 & N & R)].
    + unfold below in Bl. cbn [e_var e_val e_prev e_succ]. rewrite elit_abs, En, El, Nat.eqb_refl.
      split; [lia|]. split; [easy|]. split; [rewrite in_m_set by easy; now left|].
      split; [now apply below_set_self|now apply above_set_self].
    + destruct (W4 k e E1) as (K1 & K2 & K3 & K4 & K5). pose proof R as (R1 & R2 & R3 & R4 & R5 & R6 & R7).
      split; [lia|]. rewrite En, R1. split; [easy|]. rewrite El.
      assert (EL : elit k e' = elit k e) by (unfold elit; now rewrite R2).
      destruct (Nat.eqb_spec (e_var e) x) as [Ex|Nx].
      * assert (Nv : e_val e <> v) by tauto.
        rewrite Ex in *. fold m in K3, K4, K5. split.
        { rewrite in_m_set by easy. rewrite EL, R3. right. now split. }
        apply relinked_set with x mm e; auto. now exists (elit k e).
      * split; [now rewrite EL, R3|]. rewrite R3. split.
        { rewrite R7 by tauto. easy. } { rewrite R5 by tauto. easy. }
  - easy.
  - rewrite En. exact Htop.
Qed.

Lemma wf_link s x v : wf_core s -> (x < nvars s)%nat -> link_ok x v s.
Proof.
  intros [W1 W2 W3 W4 W5 W6] Hx. constructor.
  - now apply W2.
  - intros u l H. destruct (W3 x u l Hx H) as [[B _] _]. easy.
  - intros k e H. now apply W4 in H.
  - intros k e H Ex _. destruct (W4 k e H) as (_ & _ & A & _). now rewrite Ex in A.
  - intros u y H _ N. destruct (W3 x u y Hx H) as [_ A]. now apply A.
Qed.
Lemma wf_link_store s x v l : wf_core s -> (x < nvars s)%nat -> l <> 0 -> link_ok x v (store_lit x v l s).
Proof.
  intros W Hx Nl. pose proof (wf_link s x v W Hx) as [A B C D E].
  assert (EL : lits (vst (store_lit x v l s) x) = m_set (lits (vst s x)) v l) by (cbn; now rewrite upd_same).
  constructor; rewrite ?EL.
  - now apply m_set_sorted.
  - intros u y H. apply in_m_set in H as [(-> & ->)|(_ & H)]; [easy| |easy]. now apply B in H.
  - exact C.
  - intros k e H Ex Nv. rewrite in_m_set by easy. right. split; [easy|]. now apply D.
  - intros u y H Nv. apply in_m_set in H as [(-> & ->)|(_ & H)]; [easy| |easy]. now apply E.
Qed.

(** ** Steps *)

Definition T2 : interp -> (var -> Z) -> Prop := fun _ _ => True.

Section Steps.
Context (O : oracle) (cfg : config) (Base : interp -> Prop) (n0 : Z).
Notation good := (good Base).
Notation step := (step Base).

Lemma step_refl (P : interp -> (var -> Z) -> Prop) s : (forall I nu, good s I -> order_ok s I nu -> P I nu) \/ P = T2 -> step P P s s.
Proof.
  intros H. constructor; try easy.
  - now exists [].
  - intros I nu G Od _. exists I, nu. split; [easy|]. split; [easy|]. now split.
  - intros I nu G Od. split; [easy|]. split; [easy|]. destruct H as [H| ->]; [now apply H|easy].
Qed.
Lemma step_trans (P1 Q1 P2 Q2 P Q : interp -> (var -> Z) -> Prop) s s1 s2 :
  dep (nxt s) (nvars s) P ->
  (forall I nu, good s I -> order_ok s I nu -> P I nu -> P1 I nu) ->
  (forall I nu, good s1 I -> order_ok s1 I nu -> P I nu -> P2 I nu) ->
  (forall I nu, good s2 I -> order_ok s2 I nu -> Q1 I nu -> Q2 I nu -> Q I nu) ->
  step P1 Q1 s s1 -> step P2 Q2 s1 s2 -> step P Q s s2.
Proof.
  intros D H1 H2 HQ [A1 A2 (es1 & A3) A4 A5] [B1 B2 (es2 & B3) B4 B5]. constructor.
  - lia.
  - lia.
  - exists (es2 ++ es1). now rewrite B3, A3, app_assoc.
  - intros I nu G Od Hp. destruct (A4 I nu G Od (H1 _ _ G Od Hp)) as (J & mu & C1 & C2 & C3 & C4).
    pose proof (D I J nu mu C1 C2 Hp) as Hp'.
    destruct (B4 J mu C3 C4 (H2 _ _ C3 C4 Hp')) as (K & ka & D1 & D2 & D3 & D4).
    exists K, ka. split; [|split; [|now split]].
    + apply agree_trans with J; [easy|]. now apply agree_mono with (nxt s1).
    + intros y Hy. rewrite D2 by lia. now apply C2.
  - intros I nu G Od. destruct (B5 I nu G Od) as (G1 & O1 & q2). destruct (A5 I nu G1 O1) as (G0 & O0 & q1).
    split; [easy|]. split; [easy|]. now apply HQ.
Qed.
Lemma step_weaken (P Q P' Q' : interp -> (var -> Z) -> Prop) s s' : step P Q s s' ->
  (forall I nu, good s I -> order_ok s I nu -> P' I nu -> P I nu) ->
  (forall I nu, good s' I -> order_ok s' I nu -> good s I -> order_ok s I nu -> Q I nu -> Q' I nu) -> step P' Q' s s'.
Proof.
  intros [A1 A2 A3 A4 A5] HP HQ. constructor; auto.
  intros I nu G Od. destruct (A5 I nu G Od) as (G0 & O0 & q). auto.
Qed.
Lemma T2_dep n m : dep n m T2.
Proof. easy. Qed.
Lemma step_trans_T s s1 s2 : step T2 T2 s s1 -> step T2 T2 s1 s2 -> step T2 T2 s s2.
Proof. now apply step_trans. Qed.

(** A change of the state that clasp does not see and that does not affect the variables. *)
Lemma step_silent P s s' : log s' = log s -> nxt s' = nxt s -> nvars s' = nvars s ->
  (forall x, (x < nvars s)%nat -> minb (vst s' x) = minb (vst s x) /\ maxb (vst s' x) = maxb (vst s x) /\ lits (vst s' x) = lits (vst s x)) ->
  step P T2 s s'.
Proof.
  intros L N V H.
  assert (G : forall I, good s' I <-> good s I) by (intros I; unfold OrderSpec.good; now rewrite L).
  assert (OO : forall I nu, order_ok s' I nu <-> order_ok s I nu).
  { intros I nu. unfold order_ok. rewrite V. split; intros A x Hx; specialize (A x Hx); destruct (H x Hx) as (E1 & E2 & E3); unfold means in *.
    - now rewrite E1, E2, E3 in A. - now rewrite E1, E2, E3. }
  constructor; try lia.
  - now exists [].
  - intros I nu HG HO _. exists I, nu. split; [easy|]. split; [easy|]. split; [now apply G|now apply OO].
  - intros I nu HG HO. split; [now apply G|]. split; [now apply OO|easy].
Qed.

Lemma good_emit e s I : good (emit e s) I <-> good s I /\ ev_true I e.
Proof. unfold OrderSpec.good. cbn. split; [intros (A & B & C); inversion C; tauto|intros ((A & B & C) & D); auto]. Qed.
Lemma emit_step e s (P : interp -> (var -> Z) -> Prop) : (forall I nu, good s I -> order_ok s I nu -> P I nu -> ev_true I e) ->
  step P (fun I _ => ev_true I e) s (emit e s).
Proof.
  intros H. constructor; try (cbn; lia).
  - now exists [e].
  - intros I nu HG HO Hp. exists I, nu. split; [easy|]. split; [easy|]. split; [|exact HO]. apply good_emit. eauto.
  - intros I nu HG HO. apply good_emit in HG as (A & B). auto.
Qed.
Lemma add_clause_step t c s b s' (P : interp -> (var -> Z) -> Prop) : add_clause O t c s = (b, s') ->
  (forall I nu, good s I -> order_ok s I nu -> P I nu -> clause_true I c) ->
  step P (fun I _ => clause_true I c) s s'.
Proof. intros E H. injection E as _ <-. exact (emit_step (EClause t c) s P H). Qed.

Lemma wf_emit e s : wf s -> ev_below (nxt s) e -> wf (emit e s).
Proof.
  intros [[W1 W2 W3 W4 W5 W6] [F1 F2 F3]] H. split; constructor; auto. cbn. now constructor.
Qed.
Lemma add_clause_wf t c s b s' : add_clause O t c s = (b, s') -> wf s -> Forall (below (nxt s)) c -> wf s' /\ same s s' /\ nxt s' = nxt s.
Proof. intros E W F. injection E as _ <-. split; [now apply wf_emit|]. split; [apply same_emit|easy]. Qed.
Lemma add_clause_core t c s b s' : add_clause O t c s = (b, s') -> wf_core s -> Forall (below (nxt s)) c -> wf_core s'.
Proof. intros E [W1 W2 W3 W4 W5 W6] F. injection E as _ <-. constructor; auto. cbn. now constructor. Qed.

(** ** Creating order literals *)

(** [l] is how the solver writes x <= v. *)
Definition lit_means (s : state) (l : lit) (x : var) (v : Z) : Prop :=
  (l = - TRUE_LIT /\ v < minb (vst s x)) \/ (l = TRUE_LIT /\ maxb (vst s x) <= v) \/ In (v, l) (lits (vst s x)).
Lemma lit_means_ok s l x v I nu : (x < nvars s)%nat -> lit_means s l x v -> I 1 = true -> order_ok s I nu -> (lit_true I l <-> nu x <= v).
Proof.
  intros Hx M I1 Od. destruct (Od x Hx) as [Hb Hl]. destruct M as [(-> & H)|[(-> & H)|H]].
  - rewrite lit_true_m1. split; [congruence|lia].
  - rewrite lit_true_1. split; [lia|easy].
  - now apply Hl.
Qed.
Lemma lit_means_below s l x v : wf_core s -> (x < nvars s)%nat -> lit_means s l x v -> below (nxt s) l.
Proof.
  intros [W1 W2 W3 W4 W5 W6] Hx [(-> & _)|[(-> & _)|H]]; unfold TRUE_LIT; [split; lia|split; lia|].
  now apply W3 in H.
Qed.

Context (BO : base_ok Base n0).

(** A fresh solver variable can take the value needed. *)
Lemma fresh_step s s' x v l : wf_core s -> (x < nvars s)%nat -> n0 <= nxt s ->
  Z.abs l = nxt s -> nxt s' = nxt s + 1 -> nvars s' = nvars s ->
  (forall e, In e (log s') -> In e (log s) \/ (match e with EClause _ _ | EWeight _ _ _ => False | _ => True end)) ->
  (exists es, log s' = es ++ log s) ->
  (forall y, minb (vst s' y) = minb (vst s y) /\ maxb (vst s' y) = maxb (vst s y) /\
             lits (vst s' y) = if Nat.eqb y x then m_set (lits (vst s x)) v l else lits (vst s y)) ->
  vfind (vst s x) v = None ->
  step T2 T2 s s'.
Proof.
  intros W Hx Hn0 Al Nx Nv Hlog Hext HV Hf.
  pose proof W as [W1 W2 W3 W4 W5 W6].
  assert (Gb : forall I, good s' I <-> good s I).
  { intros I. unfold OrderSpec.good. rewrite !Forall_forall. split; intros (A & B & C); repeat split; auto.
    - intros e He. apply C. destruct Hext as (es & ->). apply in_or_app. now right.
    - intros e He. destruct (Hlog e He) as [H|H]; [now apply C|]. now destruct e. }
  constructor; try lia; auto.
  - intros I nu HG HO _.
    set (b := if 0 <? l then nu x <=? v else negb (nu x <=? v)).
    set (J := fun i => if i =? nxt s then b else I i).
    assert (AJ : agree_below (nxt s) I J).
    { intros i Hi. unfold J. destruct (i =? nxt s) eqn:E; [lia|easy]. }
    assert (LJ : lit_true J l <-> nu x <= v).
    { unfold lit_true, J, b. destruct (0 <? l) eqn:E.
      - replace (l =? nxt s) with true by lia. now rewrite Z.leb_le.
      - replace (- l =? nxt s) with true by lia. destruct (nu x <=? v) eqn:Q; cbn; split; try easy; lia. }
    exists J, nu. split; [easy|]. split; [easy|]. split.
    + apply Gb. destruct HG as (A & B & C). split; [|split].
      * apply (BO I J); [|easy]. now apply agree_mono with (nxt s).
      * rewrite <- B. symmetry. apply AJ. lia.
      * rewrite Forall_forall in *. intros e He. apply ev_true_agree with (nxt s) I; auto.
    + intros y Hy. rewrite Nv in Hy. destruct (HV y) as (V1 & V2 & V3). destruct (HO y Hy) as [B1 B2]. split; [lia|].
      intros w z. rewrite V3.
      assert (Old : In (w, z) (lits (vst s y)) -> (lit_true J z <-> nu y <= w)).
      { intros H. rewrite <- (lit_true_agree (nxt s) I J z AJ); [now apply B2|]. now apply W3 in H. }
      destruct (Nat.eqb_spec y x) as [->|Ny]; [|exact Old].
      rewrite in_m_set by now apply W2. intros [(-> & ->)|(_ & H)]; [easy|]. now apply Old.
  - intros I nu HG HO. split; [now apply Gb|]. split; [|easy]. intros y Hy. destruct (HV y) as (V1 & V2 & V3).
    destruct (HO y ltac:(lia)) as [B1 B2]. split; [lia|]. intros w z H. apply B2. rewrite V3.
    destruct (Nat.eqb_spec y x) as [->|Ny]; [|easy]. rewrite in_m_set by now apply W2. right. split; [|easy].
    intros ->. apply m_find_in in H; [|now apply W2]. unfold vfind in Hf. congruence.
Qed.

Lemma abs_sign (b : bool) n : 0 < n -> Z.abs (if b then - n else n) = n.
Proof. destruct b; lia. Qed.

Record gl_post (x : var) (v : Z) (s s' : state) (l : lit) : Prop := {
  gl_wf : wf_core s';
  gl_wff : forall fs, wf_facts fs s -> wf_facts fs s';
  gl_step : step T2 T2 s s';
  gl_same : same s s';
  gl_lit : lit_means s' l x v }.

Lemma get_literal_ok x v s l s' : wf_core s -> (x < nvars s)%nat -> n0 <= nxt s ->
  get_literal cfg x v s = (l, s') -> gl_post x v s s' l.
Proof.
  intros W Hx Hn E. unfold get_literal in E.
  destruct (v <? minb (vst s x)) eqn:C1.
  { injection E as <- <-. constructor; auto using same_refl. - apply step_refl; now right. - left. split; [easy|lia]. }
  destruct (maxb (vst s x) <=? v) eqn:C2.
  { injection E as <- <-. constructor; auto using same_refl. - apply step_refl; now right. - right; left. split; [easy|lia]. }
  destruct (vfind (vst s x) v) as [l0|] eqn:C3.
  { injection E as <- <-. constructor; auto using same_refl. - apply step_refl; now right. - right; right.
    apply m_find_in; [|easy]. now apply W. }
  unfold add_literal in E. cbn [fst snd] in E.
  set (ll := if sign_value cfg <=? v then - nxt s else nxt s) in *.
  assert (Al : Z.abs ll = nxt s). { apply abs_sign. pose proof (wf_nxt s W). lia. }
  clearbody ll.
  set (s0 := emit (ELit (nxt s)) (set_nxt (nxt s + 1) s)) in *.
  assert (W0 : wf_core s0).
  { destruct W as [W1 W2 W3 W4 W5 W6]. constructor; cbn; auto; try lia.
    - intros y w z Hy Hz. destruct (W3 y w z Hy Hz) as (A & B). split; [|easy]. apply below_mono with (nxt s); [lia|easy].
    - intros k e H. destruct (W4 k e H) as (A & B). split; [lia|easy].
    - constructor; [easy|]. eapply Forall_impl; [|exact W5]. intros e. apply ev_below_mono. lia. }
  set (s1 := store_lit x v ll s0) in *.
  assert (K1 : link_ok x v s1) by (apply wf_link_store; auto; pose proof (wf_nxt s W); lia).
  unfold litmap_add in E. destruct (update_litmap x ll v s1) as [[p n] s2] eqn:U.
  destruct (update_litmap_spec x ll v s1 (p, n) s2 K1 U) as (HP & HN & L & -> & L1 & L2). cbn [fst snd] in *.
  replace (ll =? 0) with false in L2 by (pose proof (wf_nxt s W); lia).
  cbn [lmap set_lmap] in E.
  assert (M1 : lits (vst s1 x) = m_set (lits (vst s x)) v ll) by (cbn; now rewrite upd_same).
  rewrite M1 in *.
  assert (OF : off v (lits (vst s x)) (m_set (lits (vst s x)) v ll)) by (apply off_set; now apply W).
  rewrite off_nbelow in HP by eassumption. rewrite off_nabove in HN by eassumption.
  injection E as <- <-.
  match goal with |- gl_post _ _ _ ?q _ => set (s3 := q) end.
  assert (VS : forall y, lits (vst s3 y) = if Nat.eqb y x then m_set (lits (vst s x)) v ll else lits (vst s y)).
  { intros y. cbn. unfold upd. destruct (Nat.eqb_spec y x) as [->|]; reflexivity. }
  assert (SM : same s s3).
  { split; [reflexivity|]. intros y. cbn. unfold upd, vbounds. destruct (Nat.eqb_spec y x) as [->|]; reflexivity. }
  assert (NF : forall k e, lmap s k = Some e -> ~ (e_var e = x /\ e_val e = v)).
  { intros k e He [Ex Ev]. destruct (wf_lmap s W k e He) as (_ & _ & A & _). rewrite Ex, Ev in A.
    apply m_find_in in A; [|now apply W]. unfold vfind in C3. congruence. }
  constructor.
  - apply wf_link_set with s0 x v ll (m_set (lits (vst s x)) v ll) p n; auto.
    + cbn. lia.
    + cbn. unfold below. pose proof (wf_nxt s W). lia.
    + cbn. repeat constructor. eapply Forall_impl; [|exact (wf_log s W)]. intros e. apply ev_below_mono. lia.
    + intros Hc y Hy. destruct (same_bnds s s3 y SM) as (_ & _ & -> & ->). rewrite (same_cur s s3 SM) in Hc. now apply W.
    + intros k e'. cbn [s3 lmap add_watch emit set_log set_lmap]. unfold updz. destruct (k =? Z.abs ll) eqn:Q.
      * intros H. injection H as <-. left. pose proof (wf_nxt s W). repeat split; lia.
      * intros H. right. destruct (lmap s1 k) as [e|] eqn:Qe; [|rewrite (L1 k Qe) in H; discriminate].
        destruct (L2 k e Qe) as (e2 & A & B). rewrite A in H. injection H as <-. exists e. split; [easy|].
        split; [now apply NF with k|easy].
    + intros k e He _. destruct (L2 k e He) as (e2 & A & B). exists e2. split; [|easy].
      cbn [s3 lmap add_watch emit set_log set_lmap]. unfold updz. destruct (k =? Z.abs ll) eqn:Q; [|easy].
      destruct (wf_lmap s W k e He) as (? & _). lia.
    + intros _. cbn [s3 lmap add_watch emit set_log set_lmap]. unfold updz. now rewrite Z.eqb_refl.
  - intros fs [F1 F2 F3]. constructor; auto.
    + intros f Hf. destruct (F1 f Hf) as (A & B & C). repeat split; auto. rewrite VS. destruct (Nat.eqb_spec (f_var f) x) as [Q|Q]; [|easy].
      rewrite Q in C. rewrite in_m_set by now apply W. right. split; [|easy]. intros Ev. rewrite Ev in C.
      apply m_find_in in C; [|now apply W]. unfold vfind in C3. congruence.
    + intros y w z Hy Hz A. rewrite VS in Hz. destruct (Nat.eqb_spec y x) as [->|]; [|now apply F3].
      apply in_m_set in Hz as [(-> & ->)|(_ & H)]; [pose proof (wf_nxt s W); lia| |now apply W]. now apply F3.
  - apply fresh_step with x v ll; auto.
    + intros e. cbn. intros [<-|[<-|[<-|H]]]; auto.
    + exists [EWatch (- ll); EWatch ll; ELit (nxt s)]. reflexivity.
    + intros y. split; [now apply same_minb|]. split; [now apply same_maxb|]. apply VS.
  - easy.
  - right; right. rewrite VS, Nat.eqb_refl. rewrite in_m_set by now apply W. now left.
Qed.

(** Asking again gives the same literal and changes nothing. *)
Lemma get_literal_again x v s l s' : wf_core s -> (x < nvars s)%nat -> n0 <= nxt s -> get_literal cfg x v s = (l, s') ->
  get_literal cfg x v s' = (l, s').
Proof.
  intros W Hx Hn E. destruct (get_literal_ok x v s l s' W Hx Hn E) as [A _ _ S L].
  unfold get_literal in E |- *. rewrite (same_minb s s' x S), (same_maxb s s' x S).
  destruct (v <? minb (vst s x)) eqn:C1; [congruence|].
  destruct (maxb (vst s x) <=? v) eqn:C2; [congruence|].
  destruct L as [(-> & H)|[(-> & H)|H]].
  - rewrite (same_minb s s' x S) in H. lia.
  - rewrite (same_maxb s s' x S) in H. lia.
  - unfold vfind. apply m_find_in in H; [|apply A; now rewrite (same_nvars s s' S)]. now rewrite H.
Qed.

End Steps.
