From Coq Require Import String Ascii Permutation.
From Verif Require Import Base Util Options OptionsSpec.
Open Scope Z_scope.

Local Ltac num H := match type of H with ?x = _ => let y := eval vm_compute in x in change x with y in H end.

(** ** Numbers *)
Lemma digit_of_spec a d : digit_of a = Some d <-> digit a d.
Proof.
  unfold digit_of, digit. destruct (_ && _) eqn:E; split; intros H; try discriminate.
  - injection H as <-. lia.
  - f_equal. lia.
  - lia.
Qed.
Lemma app_one s a r : ((s ++ String a "") ++ r)%string = (s ++ String a r)%string.
Proof. induction s as [|b s IH]; cbn; [reflexivity|]. now rewrite IH. Qed.
Lemma app_empty s : (s ++ "")%string = s.
Proof. induction s as [|b s IH]; cbn; [reflexivity|]. now rewrite IH. Qed.
Lemma read_digits_dec r : forall s acc z, dec s acc -> read_digits r acc = Some z -> dec (s ++ r) z.
Proof.
  induction r as [|a r IH]; cbn [read_digits]; intros s acc z D H.
  - injection H as <-. rewrite app_empty. exact D.
  - destruct (digit_of a) as [d|] eqn:E; [|discriminate]. apply digit_of_spec in E. rewrite <- app_one. eapply IH; [|exact H]. constructor; assumption.
Qed.
Lemma read_digits_app s a d : forall acc z, digit a d -> read_digits s acc = Some z -> read_digits (s ++ String a "") acc = Some (10 * z + d).
Proof.
  induction s as [|b s IH]; cbn [read_digits String.append]; intros acc z D H.
  - injection H as <-. apply digit_of_spec in D. rewrite D. reflexivity.
  - destruct (digit_of b); [|discriminate]. apply IH; assumption.
Qed.
Lemma read_number_spec s z : read_number s = Some z <-> dec s z.
Proof.
  split.
  - destruct s as [|a r]; cbn; [discriminate|]. destruct (digit_of a) as [d|] eqn:E; [|discriminate]. apply digit_of_spec in E. intros H.
    apply (read_digits_dec r (String a "") d); [constructor; exact E|exact H].
  - induction 1 as [a d D|s z a d D IH Da].
    + cbn. apply digit_of_spec in D. rewrite D. reflexivity.
    + destruct s as [|b s]; [discriminate|]. cbn [read_number String.append] in *. destruct (digit_of b) as [e|]; [|discriminate]. apply read_digits_app; assumption.
Qed.
Lemma dec_digit s z : dec s z -> exists a r d, s = String a r /\ digit a d.
Proof. induction 1 as [a d D|s z a d D (b & r & e & -> & E) Da]; [exists a, ""%string, d; auto|]. exists b, (r ++ String a "")%string, e. auto. Qed.
Lemma dec_nonneg s z : dec s z -> 0 <= z.
Proof. induction 1 as [a d [D _]|s z a d D IH [Da _]]; lia. Qed.
Lemma dec_sign s z a r : dec s z -> s = String a r -> a <> "-"%char /\ a <> "+"%char.
Proof. intros D ->. destruct (dec_digit _ _ D) as (b & q & d & E & [D1 D2]). injection E as <- <-. split; intros ->; num D2; lia. Qed.

(** The three forms of a number. *)
Definition signed_form (s : string) (neg : bool) (n : Z) : Prop :=
  (neg = false /\ dec s n) \/ (neg = false /\ exists r, s = String "+" r /\ dec r n) \/ (neg = true /\ exists r, s = String "-" r /\ dec r n).
Lemma strtonum_cases t s : exists neg ds,
  strtonum t s = (match read_number ds with
  | None => Throw Syntax
  | Some n =>
      if nt_signed t then
        let v := if neg : bool then - n else n in
        if (nt_min t <=? v) && (v <=? nt_max t) then Ok v else Throw Syntax
      else if n <=? nt_max t then Ok (if neg then (- n) mod (nt_max t + 1) else n)
      else Throw Syntax
  end) /\ forall b n, signed_form s b n <-> b = neg /\ dec ds n.
Proof.
  assert (K : forall a r, a <> "-"%char -> a <> "+"%char -> forall b n, signed_form (String a r) b n <-> b = false /\ dec (String a r) n).
  { intros a r N1 N2 b n. unfold signed_form. split; [|auto]. intros [H|[(-> & q & E & D)|(-> & q & E & D)]]; [exact H|congruence|congruence]. }
  assert (K0 : forall b n, signed_form "" b n <-> b = false /\ dec "" n).
  { intros b n. unfold signed_form. split; [|auto]. intros [H|[(-> & q & E & D)|(-> & q & E & D)]]; [exact H|discriminate|discriminate]. }
  unfold strtonum. destruct s as [|a r]; [exists false, ""%string; split; [reflexivity|exact K0]|].
  destruct (ascii_dec a "-") as [->|N1]; [exists true, r|destruct (ascii_dec a "+") as [->|N2]; [exists false, r|exists false, (String a r)]].
  - split; [reflexivity|]. intros b n. split.
    + intros [(-> & D)|[(-> & q & E & D)|(-> & q & E & D)]]; [|discriminate|injection E as <-; auto]. destruct (dec_sign _ _ _ _ D eq_refl). congruence.
    + intros [-> D]. right. right. eauto.
  - split; [reflexivity|]. intros b n. split.
    + intros [(-> & D)|[(-> & q & E & D)|(-> & q & E & D)]]; [|injection E as <-; auto|discriminate]. destruct (dec_sign _ _ _ _ D eq_refl). congruence.
    + intros [-> D]. right. left. eauto.
  - split; [|apply K; assumption].
    destruct a as [[] [] [] [] [] [] [] []]; try reflexivity; congruence.
Qed.

Lemma numeral_form s z : numeral s z <-> exists neg n, signed_form s neg n /\ z = if neg : bool then - n else n.
Proof.
  split.
  - intros H. inversion H; subst; [exists false, z|exists false, z|exists true, z0]; (split; [|reflexivity]); unfold signed_form; eauto 10.
  - intros (neg & n & [(-> & D)|[(-> & q & -> & D)|(-> & q & -> & D)]] & ->); constructor; exact D.
Qed.

Lemma strtonum_signed s z : strtonum t_val s = Ok z <-> numeral s z /\ -(2^31) <= z <= 2^31 - 1.
Proof.
  destruct (strtonum_cases t_val s) as (neg & ds & -> & F). cbn [nt_signed t_val nt_min nt_max]. rewrite numeral_form. split.
  - destruct (read_number ds) as [n|] eqn:E; [|discriminate]. apply read_number_spec in E. cbn zeta. destruct (_ && _) eqn:B; [|discriminate].
    intros H. injection H as <-. split; [|lia]. exists neg, n. split; [apply F; auto|reflexivity].
  - intros ((b & n & S & ->) & R). apply F in S. destruct S as [-> D]. apply read_number_spec in D. rewrite D. cbn zeta.
    destruct (_ && _) eqn:B; [reflexivity|]. lia.
Qed.
Lemma strtonum_unsigned s z : strtonum t_uint32 s = Ok z <->
  exists n, 0 <= n < 2^32 /\ (numeral s n /\ z = n \/ (exists r, s = String "-" r /\ dec r n) /\ z = (- n) mod 2^32).
Proof.
  destruct (strtonum_cases t_uint32 s) as (neg & ds & -> & F). cbn [nt_signed t_uint32 nt_min nt_max]. split.
  - destruct (read_number ds) as [n|] eqn:E; [|discriminate]. apply read_number_spec in E. destruct (n <=? 2^32 - 1) eqn:B; [|discriminate].
    pose proof (dec_nonneg _ _ E). intros H1. injection H1 as <-. exists n. split; [lia|]. assert (S : signed_form s neg n) by (apply F; auto). destruct neg.
    + right. split; [|reflexivity]. destruct S as [(? & _)|[(? & _)|(_ & S)]]; [discriminate|discriminate|exact S].
    + left. split; [|reflexivity]. apply numeral_form. exists false, n. auto.
  - intros (n & R & [(N & ->)|((r & -> & D) & ->)]).
    + apply numeral_form in N. destruct N as (b & m & S & ->). pose proof S as S'. apply F in S. destruct S as [-> D]. pose proof D as D'. apply read_number_spec in D. rewrite D.
      pose proof (dec_nonneg _ _ D'). destruct (m <=? 2^32 - 1) eqn:B; [|destruct neg; lia]. destruct neg; [|reflexivity]. assert (m = 0) by lia. subst m. reflexivity.
    + assert (S : signed_form (String "-" r) true n) by (right; right; eauto). apply F in S. destruct S as [<- D']. apply read_number_spec in D'. rewrite D'.
      destruct (n <=? 2^32 - 1) eqn:B; [reflexivity|lia].
Qed.

(** ** Words *)
Lemma strneq_abbrev s : forall w, strneq s w (String.length s) = true <-> abbrev s w.
Proof.
  unfold abbrev. induction s as [|a s IH]; intros w; cbn [String.length strneq].
  - split; [intros _; exists w; reflexivity|reflexivity].
  - destruct w as [|b w].
    + split; [discriminate|]. intros (r & H). discriminate.
    + rewrite andb_true_iff, IH. split.
      * intros [E (r & <-)]. apply Ascii.eqb_eq in E. subst b. exists r. reflexivity.
      * intros (r & H). cbn in H. injection H as -> <-. split; [apply Ascii.eqb_refl|exists r; reflexivity].
Qed.
Lemma strneq_app s r : forall w, strneq (s ++ r) w (String.length s) = strneq s w (String.length s).
Proof. induction s as [|a s IH]; intros w; cbn [String.length strneq String.append]; [destruct r; reflexivity|]. destruct w as [|b w]; [reflexivity|]. now rewrite IH. Qed.
Lemma upto_app s r : upto (s ++ r) (Some (String.length s)) = s.
Proof. cbn [upto]. induction s as [|a s IH]; cbn [String.length String.append substring]; [destruct r; reflexivity|]. now rewrite IH. Qed.
Lemma find_str_app s r : no_comma s -> find_str (s ++ String "," r) "," = String.length s.
Proof. induction s as [|a s IH]; cbn; [reflexivity|]. intros [N H]. destruct (Ascii.eqb a ",") eqn:E; [apply Ascii.eqb_eq in E; congruence|]. now rewrite IH. Qed.
Lemma find_str_none s : no_comma s -> find_str s "," = String.length s.
Proof. induction s as [|a s IH]; cbn; [reflexivity|]. intros [N H]. destruct (Ascii.eqb a ",") eqn:E; [apply Ascii.eqb_eq in E; congruence|]. now rewrite IH. Qed.
Lemma length_app s r : String.length (s ++ r) = (String.length s + String.length r)%nat.
Proof. induction s as [|a s IH]; cbn; [reflexivity|]. now rewrite IH. Qed.
Lemma substring_all s n : (String.length s <= n)%nat -> substring 0 n s = s.
Proof. revert n. induction s as [|a s IH]; intros [|n] H; cbn in *; try reflexivity; [lia|]. rewrite IH by lia. reflexivity. Qed.
Lemma substring_skip s r m n : substring (String.length s + m) n (s ++ r) = substring m n r.
Proof. induction s as [|a s IH]; cbn; [reflexivity|]. exact IH. Qed.
Lemma after_app s r : after (s ++ String "," r) (String.length s) = r.
Proof.
  unfold after. replace (S (String.length s)) with (String.length s + 1)%nat by lia. rewrite substring_skip. cbn [substring]. apply substring_all. rewrite length_app. cbn. lia.
Qed.

Lemma parse_num_signed s lo hi z : - (2^31) <= lo -> hi <= 2^31 - 1 -> lo <= hi ->
  (parse_num t_val s lo hi = Ok z <-> (s = "min"%string /\ z = lo) \/ (s = "max"%string /\ z = hi) \/ (numeral s z /\ lo <= z <= hi)).
Proof.
  intros L H R. unfold parse_num, parse_range_num. cbn [strneq_opt upto].
  assert (NN : forall w, numeral w z -> w <> "min"%string /\ w <> "max"%string).
  { intros w N. split; intros ->; inversion N; subst; match goal with D : dec _ _ |- _ => apply read_number_spec in D; discriminate end. }
  destruct (String.eqb_spec s "min") as [->|N1]; [|destruct (String.eqb_spec s "max") as [->|N2]].
  - split; [intros E; injection E as <-; auto|]. intros [(_ & ->)|[(? & _)|(N & _)]]; [reflexivity|discriminate|]. destruct (NN _ N); congruence.
  - split; [intros E; injection E as <-; auto|]. intros [(? & _)|[(_ & ->)|(N & _)]]; [discriminate|reflexivity|]. destruct (NN _ N); congruence.
  - unfold bind. split.
    + destruct (strtonum t_val s) as [r| |] eqn:E; try discriminate. apply strtonum_signed in E. destruct (_ && _) eqn:B; [|discriminate]. intros Q. injection Q as <-.
      right. right. split; [apply E|lia].
    + intros [(? & _)|[(? & _)|(N & B)]]; [congruence|congruence|]. assert (E : strtonum t_val s = Ok z) by (apply strtonum_signed; split; [exact N|lia]).
      rewrite E. destruct (_ && _) eqn:B'; [reflexivity|lia].
Qed.
Lemma parse_num_unsigned s lo hi z : 0 <= lo -> hi <= 2^32 - 1 -> lo <= hi ->
  (parse_num t_uint32 s lo hi = Ok z <-> (s = "min"%string /\ z = lo) \/ (s = "max"%string /\ z = hi) \/
     (numeral s z /\ lo <= z <= hi) \/ (exists r n, s = String "-" r /\ dec r n /\ n < 2^32 /\ z = (- n) mod 2^32 /\ lo <= z <= hi)).
Proof.
  intros L H R. unfold parse_num, parse_range_num. cbn [strneq_opt upto].
  assert (NN : forall w z, numeral w z -> w <> "min"%string /\ w <> "max"%string).
  { intros w x N. split; intros ->; inversion N; subst; match goal with D : dec _ _ |- _ => apply read_number_spec in D; discriminate end. }
  destruct (String.eqb_spec s "min") as [->|N1]; [|destruct (String.eqb_spec s "max") as [->|N2]].
  - split; [intros E; injection E as <-; auto|]. intros [(_ & ->)|[(? & _)|[(N & _)|(r & n & ? & _)]]]; [reflexivity|discriminate| |discriminate]. destruct (NN _ _ N); congruence.
  - split; [intros E; injection E as <-; auto|]. intros [(? & _)|[(_ & ->)|[(N & _)|(r & n & ? & _)]]]; [discriminate|reflexivity| |discriminate]. destruct (NN _ _ N); congruence.
  - unfold bind. split.
    + destruct (strtonum t_uint32 s) as [r| |] eqn:E; try discriminate. apply strtonum_unsigned in E. destruct (_ && _) eqn:B; [|discriminate]. intros Q. injection Q as <-.
      destruct E as (n & Rn & [(N & ->)|((q & -> & D) & ->)]); [right; right; left; split; [exact N|lia]|].
      right. right. right. exists q, n. split; [reflexivity|]. split; [exact D|]. split; [lia|]. split; [reflexivity|lia].
    + intros [(? & _)|[(? & _)|[(N & B)|(r & n & -> & D & Rn & -> & B)]]]; [congruence|congruence| |].
      * assert (E : strtonum t_uint32 s = Ok z) by (apply strtonum_unsigned; exists z; split; [lia|]; left; auto). rewrite E. destruct (_ && _) eqn:B'; [reflexivity|lia].
      * assert (E : strtonum t_uint32 (String "-" r) = Ok ((- n) mod 2^32)).
        { apply strtonum_unsigned. exists n. pose proof (dec_nonneg _ _ D). split; [lia|]. right. split; [|reflexivity]. exists r. auto. }
        rewrite E. destruct (_ && _) eqn:B'; [reflexivity|lia].
Qed.

Lemma parse_bool_spec s b : parse_bool s None = Ok b <->
  let yes := abbrev s "true" \/ abbrev s "yes" \/ abbrev s "1" in
  let no := abbrev s "false" \/ abbrev s "no" \/ abbrev s "0" in
  (b = true /\ yes) \/ (b = false /\ no /\ ~ yes).
Proof.
  cbn zeta. unfold parse_bool. rewrite <- !strneq_abbrev. set (n := String.length s).
  destruct (strneq s "true" n), (strneq s "yes" n), (strneq s "1" n), (strneq s "false" n), (strneq s "no" n), (strneq s "0" n); cbn [orb];
    split; try discriminate; try (intros H; injection H as <-); intuition (congruence || auto).
Qed.
Lemma parse_bool_field s r : parse_bool (s ++ r) (Some (String.length s)) = parse_bool s None.
Proof. unfold parse_bool. rewrite !strneq_app. reflexivity. Qed.

(** ** Settings *)
Lemma parse_thread_none s : no_comma s -> parse_thread s = Ok None.
Proof. intros N. unfold parse_thread. rewrite find_str_none, Nat.ltb_irrefl by exact N. reflexivity. Qed.
Lemma parse_thread_some s r : no_comma s -> parse_thread (s ++ String "," r) = (t <- parse_num t_uint32 r 0 (MAX_THREADS - 1) ;; Ok (Some t)).
Proof.
  intros N. unfold parse_thread. rewrite find_str_app by exact N. rewrite after_app.
  assert (E : (String.length s <? String.length (s ++ String "," r))%nat = true) by (apply Nat.ltb_lt; rewrite length_app; cbn; lia).
  rewrite E. reflexivity.
Qed.
Lemma bool_thread_split s r : no_comma s ->
  parse_bool_thread s = (b <- parse_bool s None ;; Ok (Z.b2z b, None)) /\
  parse_bool_thread (s ++ String "," r) = (t <- parse_num t_uint32 r 0 63 ;; b <- parse_bool s None ;; Ok (Z.b2z b, Some t)).
Proof.
  intros N. unfold parse_bool_thread. split.
  - rewrite parse_thread_none, find_str_none by exact N. cbn [bind]. unfold parse_bool. destruct (_ || _); [reflexivity|]. destruct (_ || _); reflexivity.
  - rewrite parse_thread_some, find_str_app, parse_bool_field by exact N. destruct (parse_num _ _ _ _); cbn [bind]; [|reflexivity..]. destruct (parse_bool s None) as [[]| |]; reflexivity.
Qed.
Lemma sign_value_split s r : no_comma s ->
  parse_sign_value (s ++ String "," r) = (t <- parse_num t_uint32 r 0 63 ;; vt <- parse_sign_value s ;; Ok (fst vt, Some t)).
Proof.
  intros N. unfold parse_sign_value. rewrite parse_thread_some, parse_thread_none, find_str_app, find_str_none by exact N.
  destruct (parse_num _ _ _ _); cbn [bind]; [|reflexivity..]. rewrite !strneq_app. destruct (strneq s "+" _); [reflexivity|]. destruct (strneq s "-" _); [reflexivity|].
  unfold parse_range_num. cbn [strneq_opt]. rewrite !strneq_app, upto_app. pose proof (upto_app s "") as U. rewrite app_empty in U. rewrite U.
  destruct (strneq s "min" _); [reflexivity|]. destruct (strneq s "max" _); [reflexivity|]. destruct (strtonum _ _); cbn [bind]; [|reflexivity..]. destruct (_ && _); reflexivity.
Qed.
Lemma heuristic_split s r : no_comma s ->
  parse_heuristic (s ++ String "," r) = (t <- parse_num t_uint32 r 0 63 ;; vt <- parse_heuristic s ;; Ok (fst vt, Some t)).
Proof.
  intros N. unfold parse_heuristic. rewrite parse_thread_some, parse_thread_none, find_str_app, find_str_none by exact N.
  destruct (parse_num _ _ _ _); cbn [bind]; [|reflexivity..]. rewrite !strneq_app. destruct (strneq s "none" _); [reflexivity|]. destruct (strneq s "max-chain" _); reflexivity.
Qed.

Lemma sign_value_spec s v t : no_comma s ->
  (parse_sign_value s = Ok (v, t) <-> t = None /\
    ((abbrev s "+" /\ v = 2^31 - 1) \/
     (s = "-"%string /\ v = - 2^31) \/
     (s <> ""%string /\ abbrev s "min" /\ v = - 2^31) \/
     (s <> ""%string /\ abbrev s "max" /\ ~ abbrev s "min" /\ v = 2^31 - 1) \/
     (numeral s v /\ - 2^31 <= v <= 2^31 - 1))).
Proof.
  intros N. unfold parse_sign_value. rewrite parse_thread_none, find_str_none by exact N. cbn [bind].
  assert (AE : forall w, abbrev "" w) by (intros w; exists w; reflexivity).
  assert (A1 : forall a, abbrev s (String a "") <-> s = ""%string \/ s = String a "").
  { intros a. split; [|intros [-> | ->]; [apply AE|exists ""%string; reflexivity]]. intros (r & H). destruct s as [|b s]; [auto|]. right. cbn in H. injection H as -> H. destruct s; [reflexivity|discriminate]. }
  assert (NN : forall w, abbrev s w -> (w = "min" \/ w = "max" \/ w = "+" \/ w = "-")%string -> numeral s v -> False).
  { intros w (r & <-) W Nu. inversion Nu; subst; match goal with D : dec _ _ |- _ => destruct (dec_digit _ _ D) as (a & q & d & -> & [D1 D2]) end; cbn in W;
      destruct W as [W|[W|[W|W]]]; try discriminate W; injection W; intros; subst a; num D2; lia. }
  destruct (strneq s "+" (String.length s)) eqn:E1.
  { apply strneq_abbrev in E1. split; [intros H; injection H as <- <-; split; [reflexivity|left; split; [exact E1|reflexivity]]|].
    intros (-> & [(_ & ->)|[(E & _)|[(E & (r & F) & _)|[(E & (r & F) & _)|(Nu & _)]]]]); [reflexivity|..]; try (apply A1 in E1; destruct E1; congruence).
    - apply A1 in E1. destruct E1; [congruence|subst; discriminate].
    - apply A1 in E1. destruct E1; [congruence|subst; discriminate].
    - destruct (NN _ E1 ltac:(auto) Nu). }
  destruct (strneq s "-" (String.length s)) eqn:E2.
  { apply strneq_abbrev in E2. pose proof E2 as E3. apply A1 in E2. destruct E2 as [-> | ->]; [discriminate|].
    split; [intros H; injection H as <- <-; split; [reflexivity|right; left; split; reflexivity]|].
    intros (-> & [(E & _)|[(_ & ->)|[(E & (r & F) & _)|[(E & (r & F) & _)|(Nu & _)]]]]); [|reflexivity|discriminate|discriminate|].
    - apply A1 in E. destruct E; discriminate.
    - destruct (NN _ E3 ltac:(auto) Nu). }
  assert (NE : s <> ""%string) by (intros ->; discriminate).
  assert (N1 : ~ abbrev s "+") by (rewrite <- strneq_abbrev; congruence). assert (N2 : s <> "-"%string) by (intros ->; discriminate).
  unfold parse_range_num. cbn [strneq_opt]. replace (upto s (Some (String.length s))) with s by (pose proof (upto_app s "") as U; rewrite app_empty in U; congruence).
  destruct (strneq s "min" (String.length s)) eqn:E3.
  { apply strneq_abbrev in E3. cbn [bind]. split; [intros H; injection H as <- <-; split; [reflexivity|right; right; left; split; [exact NE|split; [exact E3|reflexivity]]]|].
    intros (-> & [(E & _)|[(E & _)|[(_ & _ & ->)|[(_ & _ & E & _)|(Nu & _)]]]]); [tauto|tauto|reflexivity|tauto|]. destruct (NN _ E3 ltac:(auto) Nu). }
  assert (N3 : ~ abbrev s "min") by (rewrite <- strneq_abbrev; congruence).
  destruct (strneq s "max" (String.length s)) eqn:E4.
  { apply strneq_abbrev in E4. cbn [bind]. split; [intros H; injection H as <- <-; split; [reflexivity|right; right; right; left; split; [exact NE|split; [exact E4|split; [exact N3|reflexivity]]]]|].
    intros (-> & [(E & _)|[(E & _)|[(_ & E & _)|[(_ & _ & _ & ->)|(Nu & _)]]]]); [tauto|tauto|tauto|reflexivity|]. destruct (NN _ E4 ltac:(auto) Nu). }
  assert (N4 : ~ abbrev s "max") by (rewrite <- strneq_abbrev; congruence).
  unfold bind. split.
  - destruct (strtonum t_val s) as [z| |] eqn:E; try discriminate. apply strtonum_signed in E. destruct (_ && _) eqn:B; [|discriminate]. intros H. injection H as <- <-.
    split; [reflexivity|]. right. right. right. right. exact E.
  - intros (-> & [(E & _)|[(E & _)|[(_ & E & _)|[(_ & E & _)|(Nu & R)]]]]); try tauto. assert (E : strtonum t_val s = Ok v) by (apply strtonum_signed; auto). rewrite E.
    cbn [imin imax int32]. destruct (_ && _) eqn:B; [reflexivity|lia].
Qed.

(** ** Precedence *)
Lemma target_index_inj a b : target_index a = target_index b -> a = b.
Proof. destruct a, b; cbn; congruence. Qed.
Lemma dkey_compare_eq a b : dkey_compare a b = Eq <-> a = b.
Proof.
  destruct a as [t o], b as [u p]. unfold dkey_compare. cbn [fst snd]. destruct (Z.compare_spec (target_index t) (target_index u)) as [E|E|E].
  - apply target_index_inj in E. subst u. destruct o as [x|], p as [y|]; cbn; try (split; congruence).
    destruct (Z.compare_spec x y); split; try congruence; intros H0; injection H0; lia.
  - split; [discriminate|]. intros H. injection H as -> _. lia.
  - split; [discriminate|]. intros H. injection H as -> _. lia.
Qed.
Definition keys (m : list (dkey * Z)) := map fst m.
Lemma emplace_spec m k v : let (m', ok) := emplace m k v in
  (ok = false -> m' = m /\ In k (keys m)) /\ (ok = true -> Permutation m' ((k, v) :: m)).
Proof.
  induction m as [|[k' v'] r IH]; cbn [emplace]; [split; [discriminate|reflexivity]|].
  destruct (dkey_compare k k') eqn:E.
  - apply dkey_compare_eq in E. subst k'. split; [intros _; cbn; auto|discriminate].
  - split; [discriminate|reflexivity].
  - destruct (emplace r k v) as [r' b]. destruct IH as [I1 I2]. split.
    + intros H. destruct (I1 H) as [-> I]. split; [reflexivity|]. cbn. auto.
    + intros H. rewrite (I2 H). apply perm_swap.
Qed.

(** Sorted maps have no duplicates. *)
Definition dlt (a b : dkey) := dkey_compare a b = Lt.
Lemma dlt_trans a b c : dlt a b -> dlt b c -> dlt a c.
Proof.
  unfold dlt, dkey_compare. destruct a as [t o], b as [u p], c as [w q]. cbn [fst snd].
  destruct (Z.compare_spec (target_index t) (target_index u)), (Z.compare_spec (target_index u) (target_index w)), (Z.compare_spec (target_index t) (target_index w));
    try discriminate; try lia; auto. destruct o, p, q; cbn; try discriminate; auto. rewrite !Z.compare_lt_iff. lia.
Qed.
Lemma dlt_gt a b : dkey_compare a b = Gt -> dlt b a.
Proof.
  unfold dlt, dkey_compare. destruct a as [t o], b as [u p]. cbn [fst snd].
  destruct (Z.compare_spec (target_index t) (target_index u)), (Z.compare_spec (target_index u) (target_index t)); try discriminate; try lia; auto.
  destruct o, p; cbn; try discriminate; auto. rewrite Z.compare_gt_iff, Z.compare_lt_iff. auto.
Qed.
Lemma dlt_irrefl a : ~ dlt a a.
Proof. unfold dlt. rewrite (proj2 (dkey_compare_eq a a) eq_refl). discriminate. Qed.
Fixpoint sorted (m : list (dkey * Z)) : Prop := match m with [] => True | kv :: r => Forall (fun kv' => dlt (fst kv) (fst kv')) r /\ sorted r end.
Lemma emplace_in m k v x : In x (fst (emplace m k v)) -> x = (k, v) \/ In x m.
Proof.
  pose proof (emplace_spec m k v) as H. destruct (emplace m k v) as [m' []]; cbn [fst]; intros I; destruct H as [H1 H2].
  - apply (Permutation_in _ (H2 eq_refl)) in I. destruct I; auto.
  - destruct (H1 eq_refl) as [-> _]. auto.
Qed.
Lemma emplace_sorted m k v : sorted m -> sorted (fst (emplace m k v)).
Proof.
  induction m as [|[k' v'] r IH]; cbn [emplace sorted]; [cbn; auto|]. intros [F S]. destruct (dkey_compare k k') eqn:E; cbn [fst sorted].
  - split; assumption.
  - split; [|split; assumption]. constructor; [exact E|]. eapply Forall_impl; [|exact F]. intros x. apply dlt_trans, E.
  - specialize (IH S). pose proof (fun x => emplace_in r k v x) as EI. destruct (emplace r k v) as [r' b]. cbn [fst sorted] in *. split; [|exact IH].
    apply Forall_forall. intros x X. destruct (EI _ X) as [->|X']; [apply dlt_gt, E|]. rewrite Forall_forall in F. auto.
Qed.
Lemma sorted_nodup m : sorted m -> NoDup (keys m).
Proof.
  induction m as [|kv r IH]; cbn; [constructor|]. intros [F S]. constructor; [|auto]. intros H. apply in_map_iff in H. destruct H as (x & E & X).
  rewrite Forall_forall in F. specialize (F _ X). rewrite E in F. exact (dlt_irrefl _ F).
Qed.

Lemma read_options_spec l : forall m m', sorted m -> read_options l m = Some m' -> sorted m' /\ Permutation m' (map (fun g => (fst g, snd g)) l ++ m).
Proof.
  induction l as [|[[t th] v] r IH]; cbn [read_options map app]; intros m m' S H.
  - injection H as <-. split; [exact S|reflexivity].
  - pose proof (emplace_sorted m (t, th) v S) as S'. pose proof (emplace_spec m (t, th) v) as P. destruct (emplace m (t, th) v) as [m1 b]. destruct P as [_ P]. destruct b; [|discriminate].
    cbn [fst] in S'. destruct (IH _ _ S' H) as [A B]. split; [exact A|]. rewrite B, (P eq_refl). cbn [fst snd]. symmetry. apply Permutation_middle.
Qed.

Lemma setting_set t u c v : setting t (set_one u c v) = if Z.eqb (target_index t) (target_index u) then truth t v else setting t c.
Proof. destruct t, u; reflexivity. Qed.

Lemma nth_solver_config d t f : forall l i, nth i (solver_config d l t f) d = if Nat.eqb i t then f (nth i l d) else nth i l d.
Proof.
  induction t as [|t IH]; intros [|x l] [|i]; cbn [solver_config nth Nat.eqb]; try reflexivity.
  - destruct i; reflexivity.
  - rewrite IH. destruct i; cbn [nth]; reflexivity.
  - apply IH.
Qed.

(** One setting changes the configuration of a solver iff it is for that solver or for all. *)
Lemma set_value_solver t c v th i : (forall j, th = Some j -> 0 <= j) ->
  solver_conf (set_value t c (v, th)) i =
  if match th with None => true | Some j => Z.of_nat i =? j end then set_one t (solver_conf c i) v else solver_conf c i.
Proof.
  intros P. unfold solver_conf, set_value. destruct th as [j|]; cbn [set_solvers cf_solvers cf_default].
  - rewrite nth_solver_config. specialize (P j eq_refl). destruct (Nat.eqb_spec i (Z.to_nat j)), (Z.eqb_spec (Z.of_nat i) j); try reflexivity; lia.
  - exact (map_nth (fun s => set_one t s v) _ _ _).
Qed.

Definition applies (t : target) (i : nat) (g : given) : bool :=
  let '(u, th, _) := g in (target_index t =? target_index u) && match th with None => true | Some j => Z.of_nat i =? j end.
Lemma set_value_setting t c u v th i : (forall j, th = Some j -> 0 <= j) ->
  setting t (solver_conf (set_value u c (v, th)) i) = if applies t i (u, th, v) then truth t v else setting t (solver_conf c i).
Proof.
  intros P. rewrite set_value_solver by exact P. unfold applies. destruct (match th with None => true | Some j => _ end).
  - rewrite setting_set. destruct (_ =? _); reflexivity.
  - rewrite andb_false_r. reflexivity.
Qed.

Definition threads_ok (l : list given) : Prop := Forall (fun g => forall j, snd (fst g) = Some j -> 0 <= j) l.

(** Configure: the last applicable setting wins. *)
Fixpoint last_of (t : target) (i : nat) (l : list given) (old : Z) : Z :=
  match l with [] => old | g :: r => last_of t i r (if applies t i g then truth t (snd g) else old) end.
Lemma configure_last l : forall c t i, threads_ok l -> setting t (solver_conf (configure_all l c) i) = last_of t i l (setting t (solver_conf c i)).
Proof.
  unfold configure_all. induction l as [|[[u th] v] r IH]; intros c t i T; cbn [fold_left last_of]; [reflexivity|]. inversion_clear T as [|? ? T1 T2].
  rewrite IH by exact T2. rewrite set_value_setting by exact T1. reflexivity.
Qed.
Lemma last_of_app t i l m old : last_of t i (l ++ m) old = last_of t i m (last_of t i l old).
Proof. revert old. induction l as [|g l IH]; intros old; cbn; [reflexivity|apply IH]. Qed.
Lemma last_of_none t i l old : (forall g, In g l -> applies t i g = false) -> last_of t i l old = old.
Proof. revert old. induction l as [|g l IH]; intros old H; cbn; [reflexivity|]. rewrite (H g) by (cbn; auto). apply IH. intros x X. apply H. cbn. auto. Qed.

Definition part (has : bool) (m : list (dkey * Z)) : list given :=
  map (fun kv => (fst kv, snd kv)) (filter (fun kv => Bool.eqb has (match snd (fst kv) with Some _ => true | None => false end)) m).
Lemma apply_deferred_all has m : forall c, apply_deferred has m c = configure_all (part has m) c.
Proof.
  unfold apply_deferred, configure_all, part. induction m as [|[[t th] v] r IH]; intros c; cbn [fold_left filter map]; [reflexivity|].
  cbn [fst snd]. destruct (Bool.eqb has _); cbn [map fold_left fst snd]; apply IH.
Qed.

Lemma last_unique t i l old v g : In g l -> applies t i g = true -> snd g = v ->
  (forall g', In g' l -> applies t i g' = true -> snd g' = v) -> last_of t i l old = truth t v.
Proof.
  revert old g. induction l as [|x l IH]; intros old g I A E U; [destruct I|]. cbn [last_of].
  destruct (existsb (applies t i) l) eqn:Ex.
  - apply existsb_exists in Ex. destruct Ex as (y & Y1 & Y2). destruct (applies t i x); (eapply IH; [|exact Y2|apply U; [right; exact Y1|exact Y2]|intros; apply U; [right; assumption|assumption]]); exact Y1.
  - assert (N : forall g', In g' l -> applies t i g' = false).
    { intros g' G. destruct (applies t i g') eqn:Q; [|reflexivity]. assert (existsb (applies t i) l = true) by (apply existsb_exists; eauto). congruence. }
    destruct I as [->|I]; [|rewrite (N _ I) in A; discriminate]. rewrite A, E. apply last_of_none, N.
Qed.

Lemma applies_true t i u th v : applies t i (u, th, v) = true <-> u = t /\ (th = None \/ th = Some (Z.of_nat i)).
Proof.
  unfold applies. rewrite andb_true_iff, Z.eqb_eq. split.
  - intros [E H]. apply target_index_inj in E. split; [congruence|]. destruct th as [j|]; [|auto]. apply Z.eqb_eq in H. subst. auto.
  - intros [-> [-> | ->]]; split; try reflexivity. apply Z.eqb_refl.
Qed.

Theorem validate_wanted l m c c' : read_options l [] = Some m -> threads_ok l -> validate_options m c = Ok c' ->
  forall t i, wanted l t (Z.of_nat i) (setting t (solver_conf c i)) (setting t (solver_conf c' i)).
Proof.
  intros R T V t i. destruct (read_options_spec _ _ _ (Logic.I : sorted []) R) as [S P]. rewrite app_nil_r in P. apply sorted_nodup in S.
  assert (IN : forall u th v, In ((u, th), v) m <-> given_for u th v l).
  { intros u th v. unfold given_for. split; intros H.
    - apply (Permutation_in _ P) in H. apply in_map_iff in H. destruct H as ([[a b] w] & E & H). cbn in E. injection E as -> -> ->. exact H.
    - apply (Permutation_in _ (Permutation_sym P)). apply in_map_iff. exists (u, th, v). auto. }
  assert (FU : forall k v w, In (k, v) m -> In (k, w) m -> v = w).
  { clear - S. induction m as [|[k' u] r IH]; intros k v w A B; [destruct A|]; destruct A as [A|A], B as [B|B]; cbn in S; inversion_clear S as [|? ? S1 S2]; [congruence| | |eauto].
    - injection A as -> ->. destruct S1. apply in_map_iff. exists (k, w). auto.
    - injection B as -> ->. destruct S1. apply in_map_iff. exists (k, v). auto. }
  unfold validate_options in V. destruct (_ <? _); [discriminate|]. injection V as <-. rewrite !apply_deferred_all.
  assert (TP : forall has, threads_ok (part has m)).
  { intros has. apply Forall_forall. intros [[u th] v] H. unfold part in H. apply in_map_iff in H. destruct H as ([[a b] w] & E & H). cbn in E. injection E as -> -> ->.
    apply filter_In in H. destruct H as [H _]. apply IN in H. unfold threads_ok in T. rewrite Forall_forall in T. apply (T _ H). }
  assert (PI : forall has u th v, In (u, th, v) (part has m) <-> given_for u th v l /\ has = match th with Some _ => true | None => false end).
  { intros has u th v. unfold part. rewrite in_map_iff. split.
    - intros ([[a b] w] & E & H). cbn in E. injection E as -> -> ->. apply filter_In in H. destruct H as [H1 H2]. cbn [fst snd] in H2. apply Bool.eqb_prop in H2. split; [apply IN, H1|exact H2].
    - intros [H1 H2]. exists ((u, th), v). split; [reflexivity|]. apply filter_In. split; [apply IN, H1|]. cbn [fst snd]. rewrite H2. apply Bool.eqb_reflx. }
  rewrite !configure_last by apply TP. unfold wanted.
  destruct (existsb (fun kv => match dkey_compare (fst kv) (t, Some (Z.of_nat i)) with Eq => true | _ => false end) m) eqn:E1.
  - apply existsb_exists in E1. destruct E1 as ([k v] & K1 & K2). cbn [fst] in K2. destruct (dkey_compare k _) eqn:K3; try discriminate. apply dkey_compare_eq in K3. subst k.
    left. exists v. split; [apply IN, K1|]. apply last_unique with (g := (t, Some (Z.of_nat i), v)); [apply PI; split; [apply IN, K1|reflexivity]|apply applies_true; auto|reflexivity|].
    intros [[u th] w] G A. apply applies_true in A. destruct A as [-> A]. apply PI in G. destruct G as [G1 G2]. destruct A as [-> | ->]; [discriminate|]. apply IN in G1. cbn. eapply FU; eauto.
  - assert (N1 : forall v, ~ given_for t (Some (Z.of_nat i)) v l).
    { intros v H. apply IN in H. assert (X : existsb (fun kv => match dkey_compare (fst kv) (t, Some (Z.of_nat i)) with Eq => true | _ => false end) m = true);
      [|congruence]. apply existsb_exists. exists ((t, Some (Z.of_nat i)), v). split; [exact H|]. cbn [fst]. rewrite (proj2 (dkey_compare_eq _ _) eq_refl). reflexivity. }
    assert (N1' : forall old, last_of t i (part true m) old = old).
    { intros old. apply last_of_none. intros [[u th] v] G. destruct (applies t i (u, th, v)) eqn:A; [|reflexivity]. apply applies_true in A. destruct A as [-> A]. apply PI in G. destruct G as [G1 G2].
      destruct A as [-> | ->]; [discriminate|]. destruct (N1 _ G1). }
    rewrite N1'. right.
    destruct (existsb (fun kv => match dkey_compare (fst kv) (t, None) with Eq => true | _ => false end) m) eqn:E2.
    + apply existsb_exists in E2. destruct E2 as ([k v] & K1 & K2). cbn [fst] in K2. destruct (dkey_compare k _) eqn:K3; try discriminate. apply dkey_compare_eq in K3. subst k.
      left. split; [exact N1|]. exists v. split; [apply IN, K1|]. apply last_unique with (g := (t, None, v)); [apply PI; split; [apply IN, K1|reflexivity]|apply applies_true; auto|reflexivity|].
      intros [[u th] w] G A. apply applies_true in A. destruct A as [-> A]. apply PI in G. destruct G as [G1 G2]. destruct A as [-> | ->]; [|discriminate]. apply IN in G1. cbn. eapply FU; eauto.
    + right. split; [exact N1|]. assert (N2 : forall v, ~ given_for t None v l).
      { intros v H. apply IN in H. assert (X : existsb (fun kv => match dkey_compare (fst kv) (t, None) with Eq => true | _ => false end) m = true);
        [|congruence]. apply existsb_exists. exists ((t, None), v). split; [exact H|]. cbn [fst]. rewrite (proj2 (dkey_compare_eq _ _) eq_refl). reflexivity. }
      split; [exact N2|]. apply last_of_none. intros [[u th] v] G. destruct (applies t i (u, th, v)) eqn:A; [|reflexivity]. apply applies_true in A. destruct A as [-> A]. apply PI in G. destruct G as [G1 G2].
      destruct A as [-> | ->]; [|discriminate]. destruct (N2 _ G1).
Qed.

(** Distinct keys are never rejected, a repeated one is. *)
Lemma read_options_total l : NoDup (map fst l) <-> exists m, read_options l [] = Some m.
Proof.
  assert (G : forall l m, sorted m -> (NoDup (map fst l ++ keys m) <-> exists m', read_options l m = Some m')).
  { clear l. induction l as [|[[t th] v] r IH]; cbn [map app read_options fst]; intros m S.
    - split; [eauto|]. intros _. apply sorted_nodup, S.
    - pose proof (emplace_sorted m (t, th) v S) as S'. pose proof (emplace_spec m (t, th) v) as P0. destruct (emplace m (t, th) v) as [m1 b]. destruct P0 as [P1 P2]. destruct b.
      + cbn [fst] in S'. rewrite <- (IH m1 S'). specialize (P2 eq_refl). apply (Permutation_map fst) in P2. cbn [map fst] in P2.
        assert (Q : Permutation (map fst r ++ keys m1) ((t, th) :: map fst r ++ keys m)) by (unfold keys; rewrite P2; symmetry; apply Permutation_middle).
        split; intros H; [apply (Permutation_NoDup (Permutation_sym Q)), H|apply (Permutation_NoDup Q), H].
      + destruct (P1 eq_refl) as [_ I]. split; [|intros (m' & H); discriminate]. intros H. inversion_clear H as [|? ? H1 H2]. destruct H1. apply in_or_app. auto. }
  specialize (G l [] Logic.I). cbn [keys map] in G. rewrite app_nil_r in G. exact G.
Qed.

(** ** Command lines *)
Lemma parse_thread_pos s th j : parse_thread s = Ok th -> th = Some j -> 0 <= j < 64.
Proof.
  unfold parse_thread. destruct (_ <? _)%nat; [|congruence]. destruct (parse_num _ _ _ _) as [z| |] eqn:E; cbn [bind]; try discriminate. intros H. injection H as <-. intros H. injection H as <-.
  apply parse_num_unsigned in E; [|unfold MAX_THREADS; lia..]. unfold MAX_THREADS in E. destruct E as [(_ & ->)|[(_ & ->)|[(_ & E)|(r & n & _ & _ & _ & _ & E)]]]; lia.
Qed.
Lemma reads_pos l g : reads l g -> forall j, snd (fst g) = Some j -> 0 <= j < 64.
Proof.
  destruct l as [t s], g as [[t' th] v]. intros [-> H] j. cbn [fst snd].
  assert (P : exists th', parse_thread s = Ok th' /\ th' = th).
  { destruct t; unfold parse_heuristic, parse_sign_value, parse_bool_thread in H; destruct (parse_thread s) as [th'| |]; cbn [bind] in H; try discriminate; exists th'; (split; [reflexivity|]);
      repeat match type of H with (if ?c then _ else _) = _ => destruct c end; try discriminate; unfold bind in H;
      try match type of H with context [match ?m with Ok _ => _ | _ => _ end] => destruct m; try discriminate end; congruence. }
  destruct P as (th' & P & <-). apply parse_thread_pos with (1 := P).
Qed.
Lemma read_lines_spec l : forall m m', read_lines l m = Ok m' -> exists gs, Forall2 reads l gs /\ read_options gs m = Some m'.
Proof.
  induction l as [|[t s] l IH]; cbn [read_lines]; intros m m' H.
  - injection H as <-. exists []. split; [constructor|reflexivity].
  - unfold read_option in H.
    assert (Q : exists v th, reads (t, s) (t, th, v) /\ bind (Ok (emplace m (t, th) v)) (fun '(m, ok) => if ok : bool then read_lines l m else Throw Syntax) = Ok m').
    { destruct t; [destruct (parse_heuristic s) as [[v th]| |] eqn:E|destruct (parse_sign_value s) as [[v th]| |] eqn:E|destruct (parse_bool_thread s) as [[v th]| |] eqn:E..]; cbn [bind] in H; try discriminate; exists v, th; (split; [split; [reflexivity|exact E]|exact H]). }
    destruct Q as (v & th & R & Q). cbn [bind] in Q. destruct (emplace m (t, th) v) as [m1 []] eqn:E; [|discriminate]. destruct (IH _ _ Q) as (gs & F & G).
    exists ((t, th, v) :: gs). split; [constructor; assumption|]. cbn [read_options]. rewrite E. exact G.
Qed.
Lemma read_lines_reads gs : forall l m m', Forall2 reads l gs -> read_options gs m = Some m' -> read_lines l m = Ok m'.
Proof.
  induction gs as [|[[t' th] v] gs IH]; intros l m m' F; inversion F as [|[t s] ? l' ? R F']; subst; cbn [read_options read_lines]; [congruence|].
  destruct (emplace m (t', th) v) as [m1 []] eqn:E; [|discriminate]. intros H. destruct R as [-> R].
  assert (Q : read_option t s m = Ok (m1, true)) by (unfold read_option; destruct t; rewrite R; cbn [bind]; rewrite E; reflexivity). rewrite Q. cbn [bind]. apply IH; assumption.
Qed.
Theorem lines_wanted l gs c : Forall2 reads l gs -> NoDup (map fst gs) -> cf_min c <= cf_max c -> exists m c',
  read_lines l [] = Ok m /\ validate_options m c = Ok c' /\ forall t i, wanted gs t (Z.of_nat i) (setting t (solver_conf c i)) (setting t (solver_conf c' i)).
Proof.
  intros F N R. apply read_options_total in N. destruct N as (m & M). exists m.
  assert (V : exists c', validate_options m c = Ok c').
  { unfold validate_options. rewrite !apply_deferred_all. assert (G : forall gs c, cf_max (configure_all gs c) = cf_max c /\ cf_min (configure_all gs c) = cf_min c).
    { clear. unfold configure_all. induction gs as [|[[t th] v] gs IH]; intros c; cbn [fold_left]; [auto|]. destruct (IH (set_value t c (v, th))) as [-> ->]. unfold set_value. destruct th; cbn; auto. }
    destruct (G (part true m) (configure_all (part false m) c)) as [-> ->], (G (part false m) c) as [-> ->]. destruct (Z.ltb_spec (cf_max c) (cf_min c)); [lia|]. eauto. }
  destruct V as (c' & V). exists c'. split; [eapply read_lines_reads; eauto|]. split; [exact V|]. eapply validate_wanted; eauto.
  apply Forall_forall. intros g G. destruct (In_nth_error _ _ G) as (k & K). assert (X : exists x, reads x g).
  { clear - F G. induction F as [|x y l gs R F IH]; [destruct G|]. destruct G as [->|G]; eauto. }
  destruct X as (x & X). intros j J. pose proof (reads_pos _ _ X j J). lia.
Qed.
