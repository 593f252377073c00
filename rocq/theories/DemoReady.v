(** Concrete states for the examples. *)
From Verif Require Import Base Util IntervalSet VarState VarStateProofs Terms TermsSpec Solver OrderSpec OrderProofs1 OrderProofs2 OrderProofs5 OrderProofs6 OrderProofs7
  Orders OrderProofs8 Demo Sum PropProofs ConSpec SumProofs SumProofs2 Translate TranslateProofs.
Open Scope Z_scope.

Definition just_b (O : oracle) (s : state) (x : var) : bool :=
  let v := vst s x in
  (minb v <=? lb v) && (lb v <=? ub v) && (ub v <=? maxb v) &&
  (negb (minb v <? lb v) || existsb (fun p => (fst p =? lb v - 1) && is_false O s (snd p)) (lits v)) &&
  (negb (ub v <? maxb v) || existsb (fun p => (fst p =? ub v) && is_true O s (snd p)) (lits v)).
Definition ready_b (O : oracle) (s : state) : bool := forallb (just_b O s) (seq 0 (nvars s)) && (2 <=? nxt s).
Lemma ready_b_ok O s : wf s -> ready_b O s = true -> ready O 2 s.
Proof.
  intros W H. apply andb_true_iff in H as (H & N). rewrite forallb_forall in H.
  assert (J : forall x, (x < nvars s)%nat -> just_b O s x = true) by (intros x Hx; apply H, in_seq; lia). clear H.
  constructor; [easy| | |lia].
  - intros x Hx. specialize (J x Hx). unfold just_b in J. apply andb_true_iff in J as (J & J2). apply andb_true_iff in J as (_ & J1). split; intros Hb.
    + replace (minb (vst s x) <? lb (vst s x)) with true in J1 by lia. cbn [negb orb] in J1. apply existsb_exists in J1 as ((w & l) & A & B).
      apply andb_true_iff in B as (B & C). cbn [fst snd] in *. exists l. split; [|easy]. now replace (lb (vst s x) - 1) with w by lia.
    + replace (ub (vst s x) <? maxb (vst s x)) with true in J2 by lia. cbn [negb orb] in J2. apply existsb_exists in J2 as ((w & l) & A & B).
      apply andb_true_iff in B as (B & C). cbn [fst snd] in *. exists l. split; [|easy]. now replace (ub (vst s x)) with w by lia.
  - intros x Hx. specialize (J x Hx). unfold just_b in J. lia.
Qed.
Definition top_b (O : oracle) (s : state) : bool :=
  forallb (fun x => lb (vst s x) <=? ub (vst s x)) (seq 0 (nvars s)) && (2 <=? nxt s) && Nat.eqb (cur_level s) 0 && Nat.eqb (dlevel O s) 0.
Lemma top_b_ok O s : wf s -> top_b O s = true -> top_ready O 2 s.
Proof.
  intros W H. apply andb_true_iff in H as (H & H4). apply andb_true_iff in H as (H & H3). apply andb_true_iff in H as (H & H2). rewrite forallb_forall in H.
  constructor; [easy|lia|now apply Nat.eqb_eq|now apply Nat.eqb_eq|]. intros x Hx. specialize (H x). rewrite in_seq in H. lia.
Qed.

(** The state after operations on the top level, then operations on level [n] where clasp has decided [D]. *)
Section State.
Context (n : nat) (D : list Z) (ops ops2 : list oop) (C : cid -> option cst).
Definition demo_mid : state := push_level n (snd (orun (demo n D) demo_cfg ops init_state)).
Definition demo_state : state := set_css C (snd (orun (demo n D) demo_cfg ops2 demo_mid)).
Lemma demo_clasp : forallb (fun l => negb (existsb (Z.eqb (- l)) (1 :: D))) (1 :: D) = true -> (n = 0%nat -> D = []) -> clasp_ok (demo n D) (fun _ => True).
Proof.
  intros H H0. apply demo_ok; [|easy]. rewrite forallb_forall in H. intros l A B. apply H in A. apply negb_true_iff in A.
  assert (existsb (Z.eqb (- l)) (1 :: D) = true); [|congruence]. apply existsb_exists. exists (- l). split; [easy|apply Z.eqb_refl].
Qed.
Lemma demo_wf : clasp_ok (demo n D) (fun _ => True) -> olegals (demo n D) demo_cfg ops init_state -> fst (orun (demo n D) demo_cfg ops init_state) = true ->
  olegals (demo n D) demo_cfg ops2 demo_mid -> fst (orun (demo n D) demo_cfg ops2 demo_mid) = true -> wf demo_state.
Proof.
  intros CO L1 F1 L2 F2. apply wf_set_css.
  destruct (orun (demo n D) demo_cfg ops init_state) as [ok s] eqn:E. cbn [fst] in F1.
  destruct (orun_ok (demo n D) demo_cfg (fun _ => True) 2 demo_base CO ops init_state ok s init_wf ltac:(cbn; lia) L1 E) as (_ & A & N & _).
  specialize (A F1). apply wf_push with (n := n) in A. assert (N1 : 2 <= nxt (push_level n s)) by (cbn in N; unfold push_level; destruct (_ <? _)%nat; cbn; lia).
  assert (M : demo_mid = push_level n s) by (unfold demo_mid; now rewrite E). rewrite <- M in *. clear M E L1. generalize dependent demo_mid. intros m L2 F2 A N1.
  destruct (orun (demo n D) demo_cfg ops2 m) as [ok2 s2] eqn:E. cbn [fst snd] in *.
  destruct (orun_ok (demo n D) demo_cfg (fun _ => True) 2 demo_base CO ops2 m ok2 s2 A N1 L2 E) as (_ & B & _). now apply B.
Qed.
End State.
(** A table with one constraint. *)
Definition one (k : cst) (c : cid) : option cst := if Nat.eqb c 0 then Some k else None.
