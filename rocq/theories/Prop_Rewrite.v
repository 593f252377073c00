(** Theorems about the rewriting of statements (C37, C38). *)
From Coq Require Import String.
From Verif Require Import Base Terms Rewrite RewriteSpec RewriteProofs.
Open Scope Z_scope.

(** C37: shifting preserves what a rule allows, whatever the signs, the relation and the remaining body. *)
Theorem C37_meaning : forall st st' w, proper w -> shift_rule st = Ok st' -> (allows w st <-> allows w st').
Proof. exact shift_meaning. Qed.
Print Assumptions C37_meaning.

(** Other statements are not changed. *)
Theorem C37_unchanged : forall st, ~ (integrity st /\ shiftable st) -> shift_rule st = Ok st.
Proof. exact shift_same. Qed.
Print Assumptions C37_unchanged.

(** Integrity constraints with such literals are: the first one becomes the head and disappears from the body. *)
Theorem C37_shifted : forall st, integrity st -> shiftable st ->
  (forall a, In a (atoms_of st) -> is_sum (ra_name a) -> exists op t, ra_guard a = Some (op, t) /\ forall x y, compares op x y <> None) ->
  exists r h b1 sg a b2, st = SRule r /\ r_body r = b1 ++ LTheory sg a :: b2 /\ is_sum (ra_name a) /\
    (forall s' a', In (LTheory s' a') b1 -> ~ is_sum (ra_name a')) /\
    shift_rule st = Ok (SRule (mkrrule (HTheory h) (b1 ++ b2))) /\ ra_name h = ra_name a /\ ra_elems h = ra_elems a.
Proof. exact shift_done. Qed.
Print Assumptions C37_shifted.

(** [:- not q, &sum{x;y} < 7, &sum{z} = 1.] *)
Definition ex_x := mkrelem [RFun "x" []] [].
Definition ex_y := mkrelem [RFun "y" []] [].
Definition ex_lt := mkratom (NFun "sum" [] false) [ex_x; ex_y] (Some ("<"%string, RSym (SNum 7))).
Definition ex_ge := mkratom (NFun "sum" [] false) [ex_x; ex_y] (Some (">="%string, RSym (SNum 7))).
Definition ex_eq := mkratom (NFun "sum" [] false) [mkrelem [RFun "z" []] []] (Some ("="%string, RSym (SNum 1))).
Definition ex_rule := SRule (mkrrule (HBool SPos false) [LOther 1; LTheory SPos ex_lt; LTheory SPos ex_eq]).
Example C37_demo : integrity ex_rule /\ shiftable ex_rule /\
  shift_rule ex_rule = Ok (SRule (mkrrule (HTheory ex_ge) [LOther 1; LTheory SPos ex_eq])).
Proof.
  split; [|split; [|reflexivity]].
  - eexists _, _, _. split; [reflexivity|]. split; [reflexivity|]. intros w. cbn. discriminate.
  - eexists _, SPos, ex_lt. split; [reflexivity|]. split; [cbn; auto|]. exists "sum"%string. split; [reflexivity|now left].
Qed.
Example C37_double_negated : shift_rule (SRule (mkrrule (HBool SPos false) [LTheory SDouble ex_lt])) = Ok (SRule (mkrrule (HTheory ex_ge) [])).
Proof. reflexivity. Qed.
(** A state of affairs in which the theory atoms have their meaning. *)
Example C37_proper : exists w, proper w /\ ~ allows w ex_rule.
Proof.
  set (cmp := fun op (x y : Z) => if String.eqb op "=" then x =? y else if String.eqb op "!=" then negb (x =? y)
    else if String.eqb op "<" then x <? y else if String.eqb op "<=" then x <=? y else if String.eqb op ">" then y <? x else y <=? x).
  exists {| w_elems := fun _ _ => 1; w_guard := fun t => match t with RSym (SNum n) => n | _ => 0 end; w_other := fun _ => true;
    w_atom := fun a => match ra_guard a with Some (op, RSym (SNum n)) => cmp op 1 n | Some (op, _) => cmp op 1 0 | None => true end |}.
  split.
  - intros a op t p _ G C. cbn [w_atom w_elems w_guard] in C |- *. rewrite G. assert (K : forall y, compares op 1 y = Some p -> (cmp op 1 y = true <-> p)).
    { intros y K. subst cmp. cbv beta. unfold compares in K.
      repeat match type of K with (if String.eqb op ?o then _ else _) = _ =>
        destruct (String.eqb op o); [apply (f_equal (fun z => match z with Some q => q | None => True end)) in K; cbn in K; rewrite <- K; lia|] end; discriminate. }
    destruct t as [x|[| |]|]; now apply K.
  - cbn. intros H. discriminate H. intros l [<-|[<-|[<-|[]]]]; reflexivity.
Qed.

(** Constraints with [&diff] in the body that the theory accepts are turned into
    rules it rejects: the head gets the relation [>] but only [<=] is allowed there. *)
Theorem C37_diff_refuted : exists st plain shifted,
  transform false st = Ok plain /\ transform true st = Ok shifted /\
  (forall a, In a (atoms_of plain) -> well_guarded a) /\ ~ (forall a, In a (atoms_of shifted) -> well_guarded a).
Proof.
  exists (SRule (mkrrule (HBool SPos false) [LTheory SPos (mkratom (NFun "diff" [] false) [ex_x] (Some ("<="%string, RSym (SNum 3))))])).
  eexists _, _. split; [reflexivity|]. split; [reflexivity|]. split.
  - intros a [<-|[]] x op t A B. cbn in A, B. injection A as <-. injection B as <- _. cbn. auto.
  - intros H. specialize (H _ (or_introl eq_refl) _ _ _ eq_refl eq_refl). cbn in H. destruct H as [H|[]]. discriminate.
Qed.
Print Assumptions C37_diff_refuted.

(** C38: among the ground instances of the rewritten elements of an atom, equal
    tuples come from the same element with the same values for its variables. *)
Theorem C38_merge : forall sh st st', transform sh st = Ok st' ->
  exists mid, (if sh then shift_rule st = Ok mid else mid = st) /\
    Forall2 (fun a a' => rewritten (ra_name a) ->
      List.length (ra_elems a') = List.length (ra_elems a) /\
      forall i j e f e' f' sg tau, nth_error (ra_elems a) i = Some e -> nth_error (ra_elems a) j = Some f ->
        nth_error (ra_elems a') i = Some e' -> nth_error (ra_elems a') j = Some f' ->
        ground_tuple sg e' = ground_tuple tau f' -> i = j /\ forall x, var_of e x -> sg x = tau x) (atoms_of mid) (atoms_of st').
Proof.
  intros sh st st' H. destruct (transform_pairs _ _ _ H) as [mid [A B]]. exists mid. split; [exact A|].
  clear - B. induction B as [|a a' l l' [il E] B IH]; constructor; [|exact IH].
  intros R. split; [exact (proj1 (kept_term _ _ _ R E))|].
  intros i j e f e' f' sg tau I1 I2 I3 I4 G. apply (ground_merge _ _ _ R E i j e f e' f' sg tau I1 I2 I3 I4) in G.
  destruct G as [G1 G2]. split; [exact G1|]. intros x V. apply G2. now left.
Qed.
Print Assumptions C38_merge.

(** Tuples do not depend on anything else, and the weighted term, the condition and the guard are kept. *)
Theorem C38_kept : forall sh st st', transform sh st = Ok st' ->
  exists mid, (if sh then shift_rule st = Ok mid else mid = st) /\
    Forall2 (fun a a' => rewritten (ra_name a) -> ra_guard a' = ra_guard a /\
      forall i e e', nth_error (ra_elems a) i = Some e -> nth_error (ra_elems a') i = Some e' ->
        e_cond e' = e_cond e /\ (exists t r, e_tuple e = [t] /\ e_tuple e' = t :: r) /\
        forall sg tau, (forall x, (exists t, In t (e_tuple e ++ e_cond e) /\ occurs x t) -> sg x = tau x) -> ground_tuple sg e' = ground_tuple tau e')
      (atoms_of mid) (atoms_of st').
Proof.
  intros sh st st' H. destruct (transform_pairs _ _ _ H) as [mid [A B]]. exists mid. split; [exact A|].
  clear - B. induction B as [|a a' l l' [il E] B IH]; constructor; [|exact IH].
  intros R. destruct (kept_term _ _ _ R E) as [K1 [K2 K3]]. split; [exact K2|]. intros i e e' I1 I2.
  destruct (K3 i e e' I1 I2) as [K4 K5]. split; [exact K4|]. split; [exact K5|]. intros sg tau V.
  apply (ground_merge _ _ _ R E i i e e e' e' sg tau I1 I1 I2 I2). split; [reflexivity|].
  intros x [[_ [t [T1 T2]]]|[t [T1 T2]]]; apply V; exists t; split; try easy. apply in_or_app. now left.
Qed.
Print Assumptions C38_kept.

(** Sums in heads and bodies get different names, so that they can be told apart when read back. *)
Theorem C38_names : forall sh st st', transform sh st = Ok st' ->
  exists mid, (if sh then shift_rule st = Ok mid else mid = st) /\
    forall r, mid = SRule r -> exists r', st' = SRule r' /\
      (forall a x, r_head r = HTheory a -> ra_name a = NFun x [] false -> In x ["sum"; "nsum"; "diff"]%string ->
         exists a', r_head r' = HTheory a' /\ ra_name a' = NFun ("__" ++ x ++ "_h") [] false) /\
      (forall i s a x, nth_error (r_body r) i = Some (LTheory s a) -> ra_name a = NFun x [] false -> In x ["sum"; "nsum"; "diff"]%string ->
         exists a', nth_error (r_body r') i = Some (LTheory s a') /\ ra_name a' = NFun ("__" ++ x ++ "_b") [] false).
Proof.
  intros sh st st' H. destruct (transform_atoms _ _ _ H) as [mid [A B]]. exists mid. split; [exact A|].
  intros r ->. destruct st' as [r'|n]; [|discriminate]. exists r'. split; [reflexivity|]. destruct B as [B C]. split.
  - intros a x E N I. rewrite E in B. destruct (r_head r') as [| a' |]; try discriminate. exists a'. split; [reflexivity|].
    rewrite (tag_ok _ _ _ _ N B). apply existsb_eqb in I. now rewrite I.
  - intros i s a x E N I. revert i E. induction C as [|l l' b b' C1 C2 IH]; intros [|i] E; cbn in E; try discriminate.
    + injection E as ->. destruct l' as [s' a'|]; [|easy]. destruct C1 as [-> C1]. exists a'. split; [reflexivity|].
      rewrite (tag_ok _ _ _ _ N C1). apply existsb_eqb in I. now rewrite I.
    + apply IH. exact E.
Qed.
Print Assumptions C38_names.

(** [&sum{ X,.. : p(X,Y); X : p(X,Y) } <= 3] in a head: the tuples get the position and [Y]. *)
Definition ex_elem := mkrelem [RVar "X"] [RFun "p" [RVar "X"; RVar "Y"]; RFun "q" [RVar "_"]].
Definition ex_head := mkratom (NFun "sum" [] false) [ex_elem; ex_elem] (Some ("<="%string, RSym (SNum 3))).
Example C38_demo :
  transform true (SRule (mkrrule (HTheory ex_head) [])) =
  Ok (SRule (mkrrule (HTheory (mkratom (NFun "__sum_h" [] false)
    [mkrelem [RVar "X"; RSym (SNum 0); RVar "Y"] (e_cond ex_elem); mkrelem [RVar "X"; RSym (SNum 1); RVar "Y"] (e_cond ex_elem)]
    (Some ("<="%string, RSym (SNum 3))))) [])).
Proof. reflexivity. Qed.
(** Without the rewriting the two elements would be merged. *)
Example C38_needed : forall sg, ground_tuple sg ex_elem = ground_tuple sg ex_elem /\ rewritten (ra_name ex_head).
Proof. intros sg. split; [reflexivity|]. exists "sum"%string. split; [reflexivity|now left]. Qed.
