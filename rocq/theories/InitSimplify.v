(** The initial simplification keeps all solutions and prepares the translation. *)
From Verif Require Import Base Util VarState VarStateProofs Terms TermsSpec Solver OrderSpec OrderProofs1 OrderProofs2 OrderProofs3 OrderProofs4 OrderProofs5 OrderProofs7 Orders Sum SumProofs2 PropProofs ConSpec
  Distinct DistinctProofs DistinctProofs2 Disjoint DisjointProofs Objective Search SearchSpec SearchFrame SearchGrow SearchInv SearchInv3 SearchInv4 SearchInv5 SearchUndo SearchMain
  CheckSpec CheckFrame CheckGrow CheckSays CheckProofs FreshInv FreshCalls FreshSearch KeepCons KeepSpec KeepProofs KeepLoop KeepSearch KeepMain InitDist.
From Coq Require Import Permutation Sorting.Sorted.
Open Scope Z_scope.

(** The literals on the trail are true, and it is never empty: its first literal is the true literal. *)
Definition trail_ok (O : oracle) : Prop := forall lg, o_trail O lg <> [] /\ Forall (fun l => l <> 0 /\ o_true O lg l = true) (o_trail O lg).

Section Simplify.
Context (srt : (ival -> Z) -> list ival -> list ival) (SP : forall f l, Permutation (srt f l) l) (SS : forall f l, StronglySorted Z.le (map f (srt f l))).
Context (O : oracle) (cfg : config) (chk sol : bool) (Base : interp -> Prop) (n0 : Z).
Context (BO : base_ok Base n0) (CO : clasp_ok O Base) (U : units_pos O) (CA : calm O) (TO : trail_ok O).
Context (s0 : state) (PD : forall c k, css s0 c = Some k -> posted s0 (c_def k)) (W : lit -> Prop) (SD : started srt O cfg chk sol W s0) (N0 : n0 <= nxt s0).
Notation D := (demands false s0).
Let SO : false = true -> steady O. Proof. discriminate. Qed.
Notation kinv := (kinv Base false s0 W).
Notation step := (OrderSpec.step Base).

Record init_inv (s : state) : Prop := {
  ii_k : kinv [] true [] s;
  ii_top : stays_top O s;
  ii_dd : dd O None s;
  ii_out : out s;
  ii_st : settled s }.

Lemma kinv_next s s' : kinv [] true [] s -> dlevel O s = 0%nat -> tg O s s' -> sinv [] s' -> dinv [] s' -> wf s' -> cons s s' -> mbound s' = mbound s -> step (D (mbound s)) T2 s s' -> kinv [] true [] s'.
Proof.
  intros I D0 T S' D' W' C M ST. assert (H := ki_hist _ _ _ _ _ _ _ _ I). assert (C0 : cur_level s = 0%nat) by (now apply (core_cur [] s (proj1 (h_inv _ _ _ _ H)))). constructor; auto.
  - apply (hist_tg O CA W [] [] s); auto. lia.
  - apply W'.
  - apply cons_trans with s; auto. apply I.
  - rewrite (tg_nv _ _ _ T). apply I.
  - apply just_zero, S'.
  - apply (ki_later srt O cfg chk sol Base false SO s0 PD W SD [] true [] s s' I); rewrite M; auto using mb_le_refl.
Qed.
Lemma kinv_emit s : kinv [] true [] s -> kinv [] true [] (emit EProp s).
Proof.
  intros [A1 A2 A3 A4 A5 A6 A7 A8]. constructor; auto.
  - destruct A1 as [H1 H2 H3 HL H4 H5 H6 H7 H8 H9 HU]. constructor; auto.
    + apply sinv_only with (2 := H1). apply only_emit.
    + apply tab_ext with s; auto.
    + intros t [<-|I] x; [apply (H3 s); now left|now apply H3; right].
    + intros x w l I L. destruct (H6 x w l I L) as [[B1|B1] [B2|B2]]; unfold watched; cbn; auto.
    + intros t [<-|I] x X; [apply (HU s); [now left|exact X]|now apply HU; [right|]].
  - now apply dinv_fields with s.
  - destruct A3 as [W1 W2 W3 W4 W5 W6]. constructor; auto. cbn. constructor; auto. exact Logic.I.
  - intros _. destruct (A4 eq_refl) as [[W1 W2 W3 W4 W5 W6] [F1 F2 F3]]. split; constructor; auto. cbn. constructor; auto. exact Logic.I.
  - apply just_same with s; auto. intros x w k Q. exact Q.
  - change (mbound (emit EProp s)) with (mbound s). apply (step_seq Base) with s; auto; [|apply step_emit; now intros]. apply (D_dep O false SO s0 PD (DV srt O cfg chk sol s0 W SD)); lia.
Qed.
Lemma fixed6_toff n s : fixed6 s (set_toff n s).
Proof. now repeat split. Qed.

Lemma kinv_inner s : kinv [] true [] s -> dlevel O s = 0%nat -> inner O n0 false s0 [] s /\ fc O s /\ cur_level s = 0%nat.
Proof.
  intros I D0. assert (H := ki_hist _ _ _ _ _ _ _ _ I). assert (SI := h_inv _ _ _ _ H). assert (NX := ki_nxt _ _ _ _ _ _ _ _ I). assert (C0 : cur_level s = 0%nat) by (now apply (core_cur [] s (proj1 SI))).
  split; [|split; auto; split; lia]. constructor; [apply SI|apply I|constructor| |apply I| |discriminate|exact NX|apply I].
  - now apply (ki_wf _ _ _ _ _ _ _ _ I).
  - apply top_justified; auto. apply I.
  - apply core_bounds_ok with []. apply SI.
  - lia.
  - intros x. apply (h_small _ _ _ _ H s). now left.
  - apply ivs_cons with s0; [apply I|]. apply (reachable_ivs srt SP chk sol O cfg s0). apply SD.
Qed.

Lemma simplify_keep n : forall s b s', init_inv s -> solver_simplify srt O cfg chk n s = Some (Ok b, s') ->
  wf_core s' /\ step (D (mbound s')) T2 s0 s' /\ mbound s' = mbound s /\
  (b = true -> init_inv s' /\ tod s' = [] /\ (toff s = 0%nat \/ fmap s = [] -> fmap s' = [])).
Proof.
  induction n as [|n IH]; intros s b s' I E; cbn [solver_simplify] in E; [discriminate|]. unfold cc_propagate in E.
  destruct I as [I1 ST D1 OU SE]. assert (I2 := kinv_emit s I1). set (s1 := emit EProp s) in *.
  assert (ST1 : stays_top O s1) by (apply (stays_grow O) with (2 := ST); now apply wgrow_emit). assert (L1 := stays_dlevel O _ ST1).
  assert (OU1 : out s1) by (now apply out_ext with s).
  assert (KS : forall t, kinv [] true [] t -> wf_core t /\ step (D (mbound t)) T2 s0 t) by (intros t K; split; apply K).
  destruct (o_answer O (log s1)) eqn:AN; cbn [negb] in E.
  2:{ injection E as <- <-. destruct (KS s1 I2). split; auto. split; auto. split; auto. discriminate. }
  assert (LA : later O (log s) (log s1)) by (apply later_step; [apply later_refl|exact AN]).
  assert (D2 : dd O None s1). { apply (dd_queues O Base CO None s s1); auto; [exact (tight_refl s)|now apply queues_css]. }
  destruct (Nat.eqb_spec (toff s1) (length (o_trail O (log s1)))) as [TF|TF]; [destruct (is_nil (tod s1)) eqn:TD|]; cbn [andb] in E.
  1:{ injection E as <- <-. destruct (KS s1 I2). split; auto. split; auto. split; auto. intros _. split; [now constructor|]. split; [now destruct (tod s1)|].
      intros [Q|Q]; auto. exfalso. change (toff s1) with (toff s) in TF. destruct (TO (log s1)) as [NE _]. apply NE. apply length_zero_iff_nil. congruence. }
  all: clear TF; set (tr := o_trail O (log s1)) in *; set (ls := skipn (toff s1) tr) in *.
  all: destruct (kinv_inner s1 I2 L1) as (IN1 & FC1 & C1); assert (SI1 := h_inv _ _ _ _ (ki_hist _ _ _ _ _ _ _ _ I2)).
  all: destruct (solver_propagate O cfg ls s1) as [ok s2] eqn:P; unfold solver_propagate, push_level in P; rewrite L1, C1 in P; cbn [Nat.ltb Nat.leb] in P.
  all: assert (TR : Forall (fun l => l <> 0 /\ o_true O (log s1) l = true) ls) by (destruct (TO (log s1)) as [_ F]; rewrite Forall_forall in *; intros l Hl; apply F; unfold ls in Hl; change (In l tr); rewrite <- (firstn_skipn (toff s1) tr); apply in_or_app; now right).
  all: rewrite Forall_forall in TR.
  all: destruct (lits_keep O cfg Base n0 BO CO CA false SO (map (pair 0%nat) ls) [] ls s1 ok s2) as (A1 & A2 & A3 & A4 & A5);
    [exact SI1|now apply (ki_wf _ _ _ _ _ _ _ _ I2)|pose proof (ki_nxt _ _ _ _ _ _ _ _ I2); lia|lia|intros; lia|apply Forall_forall; intros l Hl; now apply TR|intros l Hl; now apply TR|intros l Hl; rewrite C1; now apply in_map|apply just_zero, SI1|exact P|].
  all: destruct (tg_propagate_lits O cfg ls s1 ok s2 P) as (T & _).
  all: assert (SI2 : sinv [] s2) by (pose proof (propagate_lits_sinv O cfg [] ls s1 SI1) as Q; now rewrite P in Q).
  all: assert (ST2 : step (D (mbound s2)) T2 s0 s2) by (apply (ki_later srt O cfg chk sol Base false SO s0 PD W SD [] true [] s1 s2 I2); [rewrite A5; apply mb_le_refl|now apply step_any]).
  all: destruct ok; cbn [negb] in E; [|injection E as <- <-; split; [exact A1|split; [exact ST2|split; [exact A5|discriminate]]]].
  all: destruct (A3 eq_refl) as [W2 LA2].
  all: assert (I3 : kinv [] true [] s2) by (apply kinv_next with s1; auto; [pose proof (dinv_propagate_lits O cfg [] ls s1 (ki_dinv _ _ _ _ _ _ _ _ I2)) as Q; now rewrite P in Q|pose proof (cons_propagate_lits O cfg ls s1) as Q; now rewrite P in Q|now apply step_any]).
  all: assert (D3 : dd O None s2) by (apply (dd_queues O Base CO None s1 s2); auto; [exact (tg_tight _ _ _ T)|pose proof (queues_lits O cfg ls s1) as Q; now rewrite P in Q]).
  all: assert (WG : wgrow s1 s2) by (pose proof (wgrow_propagate O cfg ls s1) as Q; unfold solver_propagate, push_level in Q; rewrite L1, C1 in Q; cbn [Nat.ltb Nat.leb] in Q; now rewrite P in Q).
  all: assert (ST3 := stays_grow O _ _ WG ST1); assert (OU2 : out s2) by (now apply (tg_out _ _ _ T)).
  all: clear A1 A2 A3 A4 P TR; assert (F6 := fixed6_toff (length tr) s2); set (s3 := set_toff (length tr) s2) in *.
  all: assert (I4 : kinv [] true [] s3) by (apply kinv_next with s2; auto; [now apply stays_dlevel|now apply tg_fixed6|now apply only_sinv_toff|now apply dinv_fields with s2; [..|apply I3]|now apply fixed6_wf with s2|now apply cons_css|now apply fixed6_step]).
  all: assert (ST4 : stays_top O s3) by exact ST3; assert (OU3 : out s3) by (now apply out_ext with s2; [..|exact OU2]); assert (D4 : dd O None s3) by exact D3; assert (M3 : mbound s3 = mbound s) by exact A5; clearbody s3.
  all: assert (L3 := stays_dlevel O _ ST4); destruct (kinv_inner s3 I4 L3) as (IN3 & FC3 & C3); assert (SI3 := h_inv _ _ _ _ (ki_hist _ _ _ _ _ _ _ _ I4)).
  all: destruct (solver_check srt O cfg chk (S n) s3) as [[o4 s4]|] eqn:C; [|discriminate].
  all: assert (WG4 := wgrow_check srt O cfg chk _ _ _ _ C); unfold solver_check in C; rewrite L3, C3 in C; cbn [Nat.eqb negb andb] in C.
  all: assert (NX : forall b4, o4 = Ok b4 -> wf_core s4 /\ step (D (mbound s4)) T2 s0 s4 /\ mbound s4 = mbound s /\ (b4 = true -> init_inv s4 /\ fmap s4 = [])).
  1,3: intros b4 ->; destruct (loop_keep srt SP SS O cfg chk Base n0 BO CO U CA false SO s0 PD (DV srt O cfg chk sol s0 W SD) [] (S n) s3 b4 s4 SI3 IN3 FC3 C) as [[K1 K2 K3 K4] MB];
    destruct (tg_loop srt O cfg chk _ _ _ _ C) as (T4 & _ & FM4); destruct (proj2 (check_loop_sinv srt O cfg chk [] (S n) s3 (Ok b4) s4 SI3 C) b4 eq_refl) as [SI4 SE4];
    (split; [exact K1|]); (split; [apply (ki_later srt O cfg chk sol Base false SO s0 PD W SD [] true [] s3 s4 I4 K4 K2)|]); (split; [congruence|]); intros ->;
    (split; [|now apply FM4]); (constructor;
      [|now apply (stays_grow O) with (2 := ST4)|apply (dd_loop srt SP SS O cfg chk Base n0 BO CO U CA false SO s0 PD (DV srt O cfg chk sol s0 W SD) [] (S n) s3 s4 SI3 IN3 FC3 D4 C)|now apply (tg_out _ _ _ T4)|now apply SE4]);
    (apply kinv_next with s3; auto;
      [apply (dinv_check_loop srt O cfg chk [] (S n) s3 (Ok true) s4 SI3 (ki_dinv _ _ _ _ _ _ _ _ I4) C)| |apply (cons_check_loop srt SP O cfg chk _ _ _ _ C)|now rewrite <- MB]);
    (apply (hist_wf O false SO W [] [] s4); auto; apply (hist_tg O CA W [] [] s3); auto; [lia|apply I4]).
  all: destruct o4 as [b4|e|]; [|discriminate..]; destruct (NX b4 eq_refl) as (N1 & N2 & N3 & N4).
  all: destruct b4; [|injection E as <- <-; split; [exact N1|split; [exact N2|split; [exact N3|discriminate]]]].
  all: destruct (N4 eq_refl) as [I5 F5]; destruct (IH s4 b s' I5 E) as (R1 & R2 & R3 & R4); (split; [exact R1|split; [exact R2|split; [congruence|]]]); intros Hb; destruct (R4 Hb) as (R5 & R6 & R7); auto.
Qed.
End Simplify.
