(** Proofs about reading of terms and simplification. *)
From Coq Require Import String Permutation.
From Verif Require Import Base Util UtilProofs Terms TermsSpec.
Open Scope Z_scope.

(** ** Monad helpers *)
Lemma bind_ok {A B} (m : outcome A) (f : A -> outcome B) b :
  bind m f = Ok b -> exists a, m = Ok a /\ f a = Ok b.
Proof. destruct m; cbn; try discriminate. eauto. Qed.
Lemma sbind_ok {S A B} (m : SM S A) (f : A -> SM S B) s b s2 :
  sbind m f s = Ok (b, s2) -> exists a s1, m s = Ok (a, s1) /\ f a s1 = Ok (b, s2).
Proof. unfold sbind. destruct (m s) as [[a s1]| |]; try discriminate. eauto. Qed.
Lemma slift_ok {S A} (m : outcome A) (s : S) a s2 : slift m s = Ok (a, s2) -> m = Ok a /\ s2 = s.
Proof. unfold slift. destruct m; try discriminate. intros H. injection H as <- <-. auto. Qed.
Lemma sret_ok {S A} (a : A) (s : S) b s2 : sret a s = Ok (b, s2) -> b = a /\ s2 = s.
Proof. unfold sret. intros H. injection H as <- <-. auto. Qed.

Ltac inv_ok := repeat match goal with
  | H : bind _ _ = Ok _ |- _ => apply bind_ok in H; let a := fresh "a" in let Ha := fresh "H" in destruct H as (a & Ha & H)
  | H : sbind _ _ _ = Ok (_, _) |- _ => apply sbind_ok in H; let a := fresh "a" in let s := fresh "s" in let Ha := fresh "H" in destruct H as (a & s & Ha & H)
  | H : slift _ _ = Ok (_, _) |- _ => apply slift_ok in H; destruct H as [H ?]; subst
  | H : sret _ _ = Ok (_, _) |- _ => apply sret_ok in H; destruct H as [? ?]; subst
  | H : Ok _ = Ok _ |- _ => injection H as H; try subst
  | H : Throw _ = Ok _ |- _ => discriminate H
  | H : UB = Ok _ |- _ => discriminate H
  end.

(** ** Results of checked operations *)
Lemma safe_add_val t a b r : safe_add t a b = Ok r -> r = a + b.
Proof. unfold safe_add, iadd, isub, ck, bind. repeat (destruct (_ : bool); try discriminate); congruence. Qed.
Lemma safe_sub_val t a b r : safe_sub t a b = Ok r -> r = a - b.
Proof. unfold safe_sub, iadd, isub, ck, bind. repeat (destruct (_ : bool); try discriminate); congruence. Qed.
Lemma safe_mul_val t a b r : safe_mul t a b = Ok r -> r = a * b.
Proof. unfold safe_mul, imul, idiv, ck, bind. repeat (destruct (_ : bool); try discriminate); congruence. Qed.
Lemma safe_inv_val t a r : safe_inv t a = Ok r -> r = - a.
Proof. unfold safe_inv, ineg, ck. repeat (destruct (_ : bool); try discriminate); congruence. Qed.
Lemma safe_div_val t a b r : safe_div t a b = Ok r -> b <> 0 /\ r = Z.quot a b.
Proof. unfold safe_div, idiv, ck. destruct (_ && _); try discriminate. destruct (b =? 0) eqn:E.
  - destruct (a <? 0); discriminate.
  - destruct (in_range _ _); try discriminate. intros H. injection H as <-. split; [lia|reflexivity]. Qed.
Lemma safe_mod_val t a b r : safe_mod t a b = Ok r -> b <> 0 /\ r = Z.rem a b.
Proof. unfold safe_mod, irem, ck. destruct (_ && _); try discriminate. destruct (b =? 0) eqn:E.
  - destruct (a <? 0); discriminate.
  - destruct (in_range _ _); try discriminate. intros H. injection H as <-. split; [lia|reflexivity]. Qed.
Lemma ck_fits t z r : ck t z = Ok r -> fits t r.
Proof. unfold ck. destruct (in_range t z) eqn:E; [|discriminate]. intros H. injection H as <-. apply in_range_fits, E. Qed.
Lemma safe_add_fits t a b r : safe_add t a b = Ok r -> fits t r.
Proof. unfold safe_add, iadd, isub. intros H. destruct (0 <? b); [|destruct (b <? 0)]; inv_ok; try destruct (_ <? _); try discriminate; eapply ck_fits; eassumption. Qed.
Lemma safe_sub_fits t a b r : safe_sub t a b = Ok r -> fits t r.
Proof. unfold safe_sub, iadd, isub. intros H. destruct (0 <? b); [|destruct (b <? 0)]; inv_ok; try destruct (_ <? _); try discriminate; eapply ck_fits; eassumption. Qed.
Lemma safe_mul_fits t a b r : safe_mul t a b = Ok r -> fits t r.
Proof. unfold safe_mul, imul. intros H. destruct (0 <? a), (0 <? b); [| |  |destruct (a <? 0)]; inv_ok; try destruct (_ <? _); try discriminate; eapply ck_fits; eassumption. Qed.
Lemma safe_inv_fits t a r : safe_inv t a = Ok r -> fits t r.
Proof. unfold safe_inv, ineg. intros H. destruct (_ =? _); try discriminate; eapply ck_fits; eassumption. Qed.

Lemma safe_pow_val a b r : safe_pow a b = Ok r -> spec_bin "**" a b = Some r.
Proof.
  unfold safe_pow. cbn [spec_bin String.eqb Ascii.eqb Bool.eqb].
  change (spec_bin "**" a b) with (if 0 <=? b then Some (a ^ b) else if a =? 0 then None else Some (Z.quot 1 (a ^ (- b)))).
  destruct (a =? 0) eqn:E0; [discriminate|].
  destruct (imax int32 <? _); try discriminate. destruct (_ <? imin int32); try discriminate.
  intros H. injection H as <-. destruct (0 <=? b) eqn:Eb; [reflexivity|]. f_equal.
  destruct (a =? 1) eqn:E1.
  - assert (a = 1) by lia. subst a. rewrite Z.pow_1_l by lia. reflexivity.
  - destruct (a =? -1) eqn:E2.
    + assert (a = -1) by lia. subst a.
      destruct (Z.even b) eqn:Ev.
      * rewrite <- Z.even_opp in Ev. apply Z.even_spec in Ev. destruct Ev as [k Hk]. rewrite Hk, Z.pow_mul_r by lia.
        change ((-1)^2) with 1. rewrite Z.pow_1_l by lia. reflexivity.
      * assert (Od : Z.odd (- b) = true) by (rewrite Z.odd_opp, <- Z.negb_even, Ev; reflexivity).
        apply Z.odd_spec in Od. destruct Od as [k Hk]. rewrite Hk.
        rewrite Z.pow_add_r, Z.pow_mul_r by lia. change ((-1)^2) with 1. rewrite Z.pow_1_l by lia. reflexivity.
    + assert (N : a ^ (- b) <> 0) by (apply Z.pow_nonzero; lia). apply (proj2 (Z.quot_small_iff 1 (a ^ (- b)) N)).
      rewrite Z.abs_pow.
      assert (2 <= Z.abs a) by lia.
      assert (2 ^ (- b) <= Z.abs a ^ (- b)) by (apply Z.pow_le_mono_l; lia).
      assert (2 ^ 1 <= 2 ^ (- b)) by (apply Z.pow_le_mono_r; lia).
      lia.
Qed.

Lemma bin_op_val name f a b r : bin_op name = Some f -> f a b = Ok r -> spec_bin name a b = Some r.
Proof.
  unfold bin_op, spec_bin. intros H Hf.
  destruct (String.eqb name "+"); [injection H as <-; apply safe_add_val in Hf; congruence|].
  destruct (String.eqb name "-"); [injection H as <-; apply safe_sub_val in Hf; congruence|].
  destruct (String.eqb name "*"); [injection H as <-; apply safe_mul_val in Hf; congruence|].
  destruct (String.eqb name "/"); [injection H as <-; apply safe_div_val in Hf; destruct Hf; destruct (b =? 0) eqn:E; [lia|congruence]|].
  destruct (String.eqb name "\"); [injection H as <-; apply safe_mod_val in Hf; destruct Hf; destruct (b =? 0) eqn:E; [lia|congruence]|].
  destruct (String.eqb name "**"); [injection H as <-; apply safe_pow_val in Hf; exact Hf|discriminate].
Qed.

Lemma bin_op_is_bin name : bin_op name = None <-> is_bin name = false.
Proof. unfold bin_op, is_bin.
  destruct (String.eqb name "+"), (String.eqb name "-"), (String.eqb name "*"), (String.eqb name "/"), (String.eqb name "\"), (String.eqb name "**"); cbn; split; congruence. Qed.

(** ** Terms: induction principle *)
Fixpoint tterm_ind' (P : tterm -> Prop)
  (Hn : forall n, P (TNum n)) (Hs : forall s, P (TSym s))
  (Hf : forall n args, Forall P args -> P (TFun n args))
  (Ht : forall args, Forall P args -> P (TTup args))
  (Ho : forall args, Forall P args -> P (TOther args)) (t : tterm) : P t :=
  let go := fix go (l : list tterm) : Forall P l :=
    match l with [] => Forall_nil P | a :: r => Forall_cons a (tterm_ind' P Hn Hs Hf Ht Ho a) (go r) end in
  match t with
  | TNum n => Hn n | TSym s => Hs s | TFun n args => Hf n args (go args)
  | TTup args => Ht args (go args) | TOther args => Ho args (go args)
  end.

Definition eval_args := fix go (l : list tterm) : outcome (list sym) :=
    match l with [] => Ok [] | a :: r => s <- evaluate a ;; ss <- go r ;; Ok (s :: ss) end.

Lemma unquote_decodes : forall str r, unquote str false = Ok r -> decodes str r.
Proof.
  assert (G : forall n str, (String.length str <= n)%nat -> forall r, unquote str false = Ok r -> decodes str r).
  { induction n as [|n IH]; intros str Hn r H.
    - destruct str; [|cbn in Hn; lia]. cbn in H. injection H as <-. constructor.
    - destruct str as [|c s]; [cbn in H; injection H as <-; constructor|].
      cbn [unquote] in H. cbn [String.length] in Hn.
      destruct (Ascii.eqb c "\") eqn:E.
      + apply Ascii.eqb_eq in E. subst c. destruct s as [|c2 s]; [cbn in H|].
        * (* a trailing backslash is dropped *) injection H as <-. constructor.
        * cbn [unquote] in H. cbn [String.length] in Hn.
          destruct (Ascii.eqb c2 "n") eqn:E1; [|destruct (Ascii.eqb c2 "\") eqn:E2; [|destruct (Ascii.eqb c2 """") eqn:E3]]; try discriminate;
          inv_ok; [apply Ascii.eqb_eq in E1|apply Ascii.eqb_eq in E2|apply Ascii.eqb_eq in E3]; subst c2; constructor; apply IH; auto; lia.
      + inv_ok. constructor; [intros ->; discriminate E|]. apply IH; auto; lia. }
  intros str. apply (G (String.length str)). lia.
Qed.

Lemma append_snoc s c : forall n, (n = String.length s)%nat -> substring 0 n (s ++ c) = s.
Proof. induction s as [|a s IH]; cbn; intros n Hn; subst n; cbn; [destruct c; reflexivity|]. f_equal. apply IH. reflexivity. Qed.

Lemma last_char_snoc s c : last_char s = Some c -> exists p, s = (p ++ String c EmptyString)%string.
Proof.
  induction s as [|a s IH]; cbn; [discriminate|]. destruct s as [|b s].
  - intros H. injection H as ->. exists EmptyString. reflexivity.
  - intros H. destruct (IH H) as [p Hp]. exists (String a p). cbn. f_equal. exact Hp.
Qed.
Lemma last_char_app s c : last_char (s ++ String c EmptyString) = Some c.
Proof. induction s as [|a s IH]; cbn; [reflexivity|]. destruct s; [reflexivity|exact IH]. Qed.
Lemma str_app_length s t : String.length (s ++ t) = (String.length s + String.length t)%nat.
Proof. induction s; cbn; auto. Qed.

Lemma quoted_form name i : is_quoted name = true -> inner name = Ok i -> name = String """" (i ++ """").
Proof.
  unfold is_quoted, inner. destruct name as [|c s]; cbn [first_char]; [discriminate|].
  destruct (last_char (String c s)) as [d|] eqn:L; [|discriminate].
  intros H. apply andb_true_iff in H. destruct H as [H1 H2].
  apply Ascii.eqb_eq in H1, H2. subst c d.
  destruct (Nat.ltb (String.length (String """" s)) 2) eqn:Len; [discriminate|].
  intros H. injection H as <-. cbn [String.length] in *.
  destruct s as [|c s]; [cbn in Len; discriminate|].
  cbn [last_char] in L. change (last_char (String c s) = Some """"%char) in L.
  apply last_char_snoc in L. destruct L as [p Hp]. rewrite Hp. f_equal.
  cbn [substring]. rewrite append_snoc; [reflexivity|]. rewrite str_app_length. cbn. lia.
Qed.

Lemma not_quoted name : is_quoted name = false -> forall i, name <> String """" (i ++ """") /\ name <> """"%string.
Proof.
  intros H i. split; intros ->; unfold is_quoted in H.
  - cbn [first_char] in H.
    change (String """" (i ++ """")) with ((String """" i) ++ """")%string in H.
    rewrite last_char_app in H. cbn in H. discriminate.
  - cbn in H. discriminate.
Qed.

Lemma eval_args_ground args : Forall (fun t => forall s, evaluate t = Ok s -> ground t s) args ->
  forall ss, eval_args args = Ok ss -> grounds args ss.
Proof.
  induction args as [|a r IH]; intros F ss H; cbn [eval_args] in H.
  - inv_ok. constructor.
  - inversion_clear F. inv_ok. constructor; auto.
Qed.

Lemma evaluate_fun2 name a b : evaluate (TFun name [a; b]) =
  match bin_op name with
  | Some f => ev2 (evaluate a) (evaluate b) f
  | None => if String.eqb name ".." then Throw Syntax else ss <- eval_args [a; b] ;; Ok (SFun name ss true)
  end.
Proof. reflexivity. Qed.

Lemma evaluate_ground : forall t s, evaluate t = Ok s -> ground t s.
Proof.
  induction t as [n|name|name args IH|args IH|args IH] using tterm_ind'; intros s H.
  - cbn in H. inv_ok. constructor.
  - cbn [evaluate] in H. destruct (is_quoted name) eqn:Q.
    + inv_ok. rewrite (quoted_form _ _ Q H0). constructor. apply unquote_decodes; assumption.
    + inv_ok. constructor. intros i. apply not_quoted; exact Q.
  - assert (EA := eval_args_ground args IH).
    destruct args as [|a [|b [|c r]]].
    + change (evaluate (TFun name [])) with (ss <- eval_args [] ;; Ok (SFun name ss true)) in H.
      inv_ok. constructor; cbn; try discriminate. apply EA; assumption.
    + change (evaluate (TFun name [a])) with
        (if String.eqb name "-" then
          s <- evaluate a ;;
          match s with
          | SNum n => r <- safe_inv int32 n ;; Ok (SNum r)
          | SFun n args pos => if Nat.ltb 0 (String.length n) then Ok (SFun n args (negb pos)) else Throw Syntax
          | SStr _ => Throw Syntax
          end
        else ss <- eval_args [a] ;; Ok (SFun name ss true)) in H.
      destruct (String.eqb_spec name "-") as [->|Hne].
      * inversion_clear IH. inv_ok. apply H0 in H2. destruct a0 as [n|str|n args pos]; [| |]; inv_ok.
        -- apply safe_inv_val in H3. subst. constructor. exact H2.
        -- destruct (Nat.ltb 0 (String.length n)) eqn:L; inv_ok. constructor; [exact H2|]. intros ->. discriminate L.
      * inv_ok. constructor; cbn; try discriminate; auto.
    + rewrite evaluate_fun2 in H. destruct (bin_op name) as [f|] eqn:B.
      * unfold ev2 in H. inversion_clear IH. inversion_clear H1. inv_ok.
        apply H0 in H1. apply H2 in H5. destruct a0; try discriminate. destruct a2; try discriminate.
        cbn [num_of] in *. inv_ok. eapply g_bin; eauto. eapply bin_op_val; eauto.
      * destruct (String.eqb_spec name "..") as [->|Hne]; [discriminate|]. inv_ok.
        constructor; cbn; try discriminate; auto. intros _. split; [apply bin_op_is_bin, B|exact Hne].
    + change (evaluate (TFun name (a :: b :: c :: r))) with (ss <- eval_args (a :: b :: c :: r) ;; Ok (SFun name ss true)) in H.
      inv_ok. constructor; cbn; try discriminate. apply EA; assumption.
  - change (evaluate (TTup args)) with (ss <- eval_args args ;; Ok (SFun EmptyString ss true)) in H.
    inv_ok. constructor. apply eval_args_ground; assumption.
  - discriminate.
Qed.
