(** A concrete clasp: it has decided the literals [D] on level [n], derives what a clause leaves
    as its only literal and reports a conflict if a clause is false.  Used in the examples to show that the assumptions about clasp can be met. *)
From Verif Require Import Base Util VarState Terms TermsSpec Solver OrderSpec OrderProofs1 OrderProofs2 OrderProofs8.
Open Scope Z_scope.

Section Demo.
Context (n : nat) (D : list lit).
Definition d_in (T : list lit) (l : lit) : bool := existsb (Z.eqb l) T.
(** The literals of a clause that are not false; there is no literal 0. *)
Definition d_open (T c : list lit) : list lit := if d_in c 0 then [] else filter (fun l => negb (d_in T (- l))) c.
Fixpoint d_true (lg : list event) : list lit :=
  match lg with
  | [] => 1 :: D
  | EClause _ c :: lg =>
      let T := d_true lg in
      match d_open T c with
      | l :: r => if forallb (Z.eqb l) r then l :: T else T
      | [] => T
      end
  | _ :: lg => d_true lg
  end.
Definition d_answer (lg : list event) : bool :=
  match lg with
  | EClause _ c :: lg => match d_open (d_true lg) c with [] => false | _ => true end
  | _ => true
  end.
Definition demo : oracle :=
  mko (fun lg l => d_in (d_true lg) l) (fun lg l => (Z.abs l =? 1) || (Nat.eqb n 0 && (d_in (d_true lg) l || d_in (d_true lg) (- l))))
      (fun lg l => if Z.abs l =? 1 then 0%nat else n) (fun _ => n) d_answer (fun lg => rev (d_true lg)) (fun _ => false).

Lemma d_in_spec T l : d_in T l = true <-> In l T.
Proof. unfold d_in. rewrite existsb_exists. split; [intros (k & H & E); apply Z.eqb_eq in E; now subst|intros H; exists l; split; [easy|apply Z.eqb_refl]]. Qed.
Lemma d_open_spec T c l : In l (d_open T c) <-> In l c /\ ~ In (- l) T /\ ~ In 0 c.
Proof.
  pose proof (d_in_spec T (- l)) as A. pose proof (d_in_spec c 0) as B.
  unfold d_open. destruct (d_in c 0); [split; [easy|intuition congruence]|].
  rewrite filter_In. destruct (d_in T (- l)); intuition congruence.
Qed.
Lemma d_mono lg e l : In l (d_true lg) -> In l (d_true (e :: lg)).
Proof. intros H. destruct e; cbn; auto. destruct (d_open _ _) as [|k r]; [easy|]. destruct (forallb _ _); [now right|easy]. Qed.

Context (DC : forall l, In l (1 :: D) -> In (- l) (1 :: D) -> False) (D0 : n = 0%nat -> D = []).

Lemma d_cons lg : forall l, In l (d_true lg) -> In (- l) (d_true lg) -> False.
Proof.
  induction lg as [|e lg IH]; [exact DC|]. destruct e; auto. cbn. intros l.
  destruct (d_open (d_true lg) c) as [|k r] eqn:E; [apply IH|]. destruct (forallb _ r); [|apply IH].
  assert (K : In k (d_open (d_true lg) c)) by (rewrite E; now left). apply d_open_spec in K as (K0 & K1 & K2). assert (k <> 0) by (intros ->; tauto).
  intros [<-|A] [B|B]; [lia|easy| |now apply (IH l)]. rewrite B in K1. now rewrite Z.opp_involutive in K1.
Qed.
Lemma d_top lg I l : n = 0%nat -> In l (d_true lg) -> I 1 = true -> Forall (ev_true I) lg -> lit_true I l.
Proof.
  intros N. revert l. induction lg as [|e lg IH]; intros l H I1 F.
  - cbn in H. rewrite (D0 N) in H. destruct H as [<-|[]]. exact I1.
  - inversion F as [|? ? F1 F2]; subst. destruct e; auto. cbn in H. destruct (d_open (d_true lg) c) as [|k r] eqn:E; [now apply IH|].
    destruct (forallb (Z.eqb k) r) eqn:FB; [|now apply IH]. destruct H as [<-|H]; [|now apply IH].
    cbn in F1. destruct F1 as (q & Q1 & Q2). destruct (Z.eq_dec q k) as [->|Nq]; [easy|]. exfalso.
    assert (K : ~ In q (k :: r)).
    { intros [A|A]; [now subst|]. rewrite forallb_forall in FB. apply FB in A. apply Z.eqb_eq in A. congruence. }
    assert (K0 : In k (d_open (d_true lg) c)) by (rewrite E; now left). apply d_open_spec in K0 as (_ & _ & K0).
    assert (Nz : q <> 0) by (intros ->; tauto).
    rewrite <- E, d_open_spec in K.
    destruct (in_dec Z.eq_dec (- q) (d_true lg)) as [A|A]; [|tauto]. apply IH in A; auto. apply lit_true_neg in A; [tauto|easy].
Qed.

Lemma demo_ok : clasp_ok demo (fun _ => True).
Proof.
  constructor; cbn [demo o_true o_fixed o_level o_answer].
  - intros lg. apply d_in_spec. induction lg; [now left|now apply d_mono].
  - intros lg l A B. apply d_in_spec in A, B. now apply (d_cons lg l).
  - intros lg l I A H _ I1 F. apply d_in_spec in A. destruct H as [H|H].
    + now apply d_top with lg.
    + apply Bool.orb_true_iff in H as [H|H]; [|apply Bool.andb_true_iff in H as (H & _); apply Nat.eqb_eq in H; now apply d_top with lg].
      apply Z.eqb_eq in H. assert (l = 1 \/ l = - (1)) as [->| ->] by lia; [exact I1|]. exfalso. apply (d_cons lg (- (1))); [easy|].
      clear. induction lg; [now left|now apply d_mono].
  - easy.
  - intros lg e l _ H. apply d_in_spec. apply d_mono. now apply d_in_spec.
  - intros lg e l _ H. apply Bool.orb_true_iff in H as [->|H]; [easy|]. apply Bool.andb_true_iff in H as (-> & H).
    apply Bool.orb_true_iff. right. cbn [andb]. apply Bool.orb_true_iff in H. apply Bool.orb_true_iff.
    rewrite !d_in_spec in *. destruct H as [H|H]; [left|right]; now apply d_mono.
  - intros lg l H. rewrite Z.abs_opp, Z.opp_involutive. now rewrite (Bool.orb_comm (d_in _ (- l))).
Qed.

Lemma demo_units : units demo.
Proof.
  intros lg t c l A H F. cbn in *. apply d_in_spec.
  destruct (d_open (d_true lg) c) as [|k r] eqn:E; [discriminate|].
  assert (K : forall q, In q (k :: r) -> q = l).
  { intros q Q. rewrite <- E, d_open_spec in Q. destruct Q as (Q1 & Q2 & Q3). destruct (Z.eq_dec q l) as [|N]; [easy|].
    specialize (F q Q1 N). apply d_in_spec in F. easy. }
  rewrite (K k (or_introl eq_refl)) in *.
  replace (forallb (Z.eqb l) r) with true; [now left|]. symmetry. apply forallb_forall. intros q Q. rewrite (K q (or_intror Q)). apply Z.eqb_refl.
Qed.
End Demo.

Lemma demo_base : base_ok (fun _ => True) 2.
Proof. easy. Qed.
Definition demo_cfg : config := mkcfg 0 false true true true true.
