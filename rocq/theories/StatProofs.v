From Coq Require Import String Sorting.
From Verif Require Import Base Util Terms TermsSpec TermsProofs2 Statements Interface InterfaceSpec InterfaceProofs.
Open Scope Z_scope.

(** ** Iteration *)
Definition bound (t : symtab) : nat := list_max (map (fun sv => S (snd sv)) (st_map t)).
Lemma next_spec t i : assignment_next t i = if (i <? bound t)%nat then Some (S i) else None.
Proof.
  unfold assignment_next, bound. induction (st_map t) as [|[s v] r IH]; [destruct i; reflexivity|]. cbn [existsb map snd list_max fold_right].
  unfold list_max in *. revert IH.
  match goal with |- (if existsb ?f _ then _ else _) = (if (_ <? ?m)%nat then _ else _) -> _ => generalize m; intros M; generalize (existsb f r); intros b IH end.
  destruct b, (Nat.leb_spec i v), (Nat.ltb_spec i M), (Nat.ltb_spec i (Nat.max (S v) M)); cbn [orb] in *; try discriminate; try reflexivity; lia.
Qed.
Lemma bound_in t s v : In (s, v) (st_map t) -> (v < bound t)%nat.
Proof.
  unfold bound. intros H. assert (S v <= list_max (map (fun sv => S (snd sv)) (st_map t)))%nat; [|lia].
  pose proof (proj1 (list_max_le (map (fun sv => S (snd sv)) (st_map t)) _) (le_n _)) as F. rewrite Forall_forall in F. apply F. apply in_map_iff. exists (s, v). auto.
Qed.
Lemma iterates_seq t n : forall i, (i + n = bound t)%nat -> iterates (assignment_next t) i (seq (S i) n).
Proof.
  induction n as [|n IH]; intros i E.
  - constructor. rewrite next_spec. destruct (Nat.ltb_spec i (bound t)); [lia|reflexivity].
  - cbn [seq]. econstructor; [|apply IH; lia]. rewrite next_spec. destruct (Nat.ltb_spec i (bound t)); [reflexivity|lia].
Qed.
Lemma iterates_fun next i l : iterates next i l -> forall l', iterates next i l' -> l = l'.
Proof. induction 1 as [i E|i j l E H IH]; intros l' H'; inversion H'; subst; try congruence. f_equal; [congruence|]. apply IH. replace j with j0 by congruence. assumption. Qed.

Lemma seq_sorted n : forall i, StronglySorted lt (seq i n).
Proof. induction n as [|n IH]; intros i; cbn; constructor; [apply IH|]. apply Forall_forall. intros x H. apply in_seq in H. lia. Qed.

Theorem iteration t : tab_wf t ->
  exists l, iterates (assignment_next t) assignment_begin l /\ StronglySorted lt l /\
    (forall l', iterates (assignment_next t) assignment_begin l' -> l' = l) /\
    (forall i, In i (filter (has_value t) l) <-> exists s v, In (s, v) (st_map t) /\ lookup_symbol t s = Some i) /\
    (forall i s, In i l -> c_get_symbol t i = Ok s -> lookup_symbol t s = Some i) /\
    (forall i, In i l -> (has_value t i = true <-> exists s, c_get_symbol t i = Ok s)) /\
    (forall s i, lookup_symbol t s = Some i -> In i (filter (has_value t) l)).
Proof.
  intros (W1 & W2 & W3). exists (seq 1 (bound t)).
  assert (L : forall s i, lookup_symbol t s = Some i -> exists v, i = S v /\ In (s, v) (st_map t)).
  { intros s i. unfold lookup_symbol, get_index. destruct (sym_find s (st_map t)) as [v|] eqn:E; [|discriminate]. intros H. injection H as <-. exists v. split; [reflexivity|]. apply sym_find_in, E. }
  assert (L' : forall s v, In (s, v) (st_map t) -> lookup_symbol t s = Some (S v)).
  { intros s v H. unfold lookup_symbol, get_index. rewrite (proj2 (sym_find_iff s v _ W1) H). reflexivity. }
  assert (Hv : forall s v, In (s, v) (st_map t) -> In (S v) (filter (has_value t) (seq 1 (bound t)))).
  { intros s v H. apply filter_In. split; [apply in_seq; apply bound_in in H; lia|]. unfold has_value. cbn [index_symbol]. unfold get_symbol.
    rewrite (proj2 (var_find_in v _ s W2) H). reflexivity. }
  split; [apply (iterates_seq t (bound t) 0); lia|]. split; [apply seq_sorted|].
  split; [intros l' H; symmetry; eapply iterates_fun; [apply (iterates_seq t (bound t) 0); lia|exact H]|].
  split; [|split; [|split]].
  - intros i. split.
    + intros H. apply filter_In in H. destruct H as [H1 H2]. unfold has_value in H2. destruct i as [|v]; [discriminate|]. cbn [index_symbol] in H2. unfold get_symbol in H2.
      destruct (var_find v (st_map t)) as [s|] eqn:E; [|discriminate]. apply var_find_in in E; [|exact W2]. exists s, v. auto.
    + intros (s & v & H1 & H2). rewrite (L' _ _ H1) in H2. injection H2 as <-. eapply Hv; eauto.
  - intros i s Hi H. unfold c_get_symbol in H. destruct (index_symbol t i) as [s'|] eqn:E; [|discriminate]. injection H as ->.
    destruct i as [|v]; [discriminate|]. cbn [index_symbol] in E. unfold get_symbol in E. apply var_find_in in E; [|exact W2]. auto.
  - intros i Hi. unfold has_value, c_get_symbol. destruct (index_symbol t i); split; eauto; try discriminate. intros (s & H). discriminate.
  - intros s i H. destruct (L _ _ H) as (v & -> & H'). eapply Hv; eauto.
Qed.

(** ** Statistics *)
Definition thread_amount (g n : string) (s : sstat) : Z := amount (KThread 0 g n) (thread_entries 0 s).
Lemma key_thread i j g n g' n' : key_eqb (KThread i g n) (KThread j g' n') = Nat.eqb i j && key_eqb (KThread 0 g n) (KThread 0 g' n').
Proof. cbn [key_eqb]. rewrite Nat.eqb_refl. cbn [andb]. apply eq_sym, andb_assoc. Qed.

Lemma published_app k a b : published k (a ++ b) = match published k a with Some z => Some z | None => published k b end.
Proof. induction a as [|[k' z] r IH]; cbn; [reflexivity|]. destruct (key_eqb k k'); auto. Qed.
Lemma published_thread i g n s : published (KThread i g n) (thread_entries i s) = published (KThread 0 g n) (thread_entries 0 s).
Proof. unfold thread_entries. cbn [published]. rewrite !(key_thread i i), Nat.eqb_refl. cbn [andb]. reflexivity. Qed.
Lemma published_other i j g n s : i <> j -> published (KThread i g n) (thread_entries j s) = None.
Proof. intros N. unfold thread_entries. cbn [published]. rewrite !(key_thread i j). apply Nat.eqb_neq in N. rewrite N. reflexivity. Qed.
Lemma published_before i j g n l : (i < j)%nat -> published (KThread i g n) (threads_entries j l) = None.
Proof. revert j. induction l as [|s l IH]; intros j L; [reflexivity|]. cbn [threads_entries]. rewrite published_app, published_other by lia. apply IH. lia. Qed.
Lemma published_threads i g n l : forall j, published (KThread (i + j) g n) (threads_entries j l) =
  match nth_error l i with Some s => published (KThread 0 g n) (thread_entries 0 s) | None => None end.
Proof.
  revert l. induction i as [|i IH]; intros [|s l] j; try reflexivity.
  - cbn [threads_entries nth_error Nat.add]. rewrite published_app, published_thread. destruct (published _ _) eqn:E; [reflexivity|]. apply published_before. lia.
  - cbn [threads_entries nth_error]. rewrite published_app, published_other by lia. replace (S i + j)%nat with (i + S j)%nat by lia. apply IH.
Qed.
Lemma published_key g n l : forall j, published (KKey g n) (threads_entries j l) = None.
Proof. induction l as [|s l IH]; intros j; [reflexivity|]. cbn [threads_entries]. rewrite published_app. unfold thread_entries at 1. cbn [published key_eqb]. apply IH. Qed.
Lemma published_cost l : forall j, published KCost (threads_entries j l) = None.
Proof. induction l as [|s l IH]; intros j; [reflexivity|]. cbn [threads_entries]. rewrite published_app. unfold thread_entries at 1. cbn [published key_eqb]. apply IH. Qed.

Definition sumof (k : skey) (x y : Z) : Z := if is_time k then x + y else uadd x y.

Lemma uadd_0 x : counter x -> uadd x 0 = x.
Proof. unfold counter, uadd. intros. rewrite Z.add_0_r. apply Z.mod_small. lia. Qed.
Lemma uadd_0l x : counter x -> uadd 0 x = x.
Proof. unfold counter, uadd. intros. apply Z.mod_small. lia. Qed.
Lemma uadd_counter x y : counter (uadd x y).
Proof. unfold counter, uadd. apply Z.mod_pos_bound. lia. Qed.

Definition solver_at (l : list sstat) (i : nat) : sstat := nth i l sstat0.
Lemma saccu_0l y : sstat_ok y -> saccu sstat0 y = y.
Proof. intros (A & B & C). destruct y. unfold saccu. cbn in *. rewrite !uadd_0l by assumption. reflexivity. Qed.
Lemma saccu_0r y : sstat_ok y -> saccu y sstat0 = y.
Proof. intros (A & B & C). destruct y. unfold saccu. cbn in *. rewrite !uadd_0, !Z.add_0_r by assumption. reflexivity. Qed.
Lemma sstat0_ok : sstat_ok sstat0.
Proof. repeat split; cbn; lia. Qed.
Lemma solver_ok l i : Forall sstat_ok l -> sstat_ok (solver_at l i).
Proof. intros F. unfold solver_at. destruct (nth_in_or_default i l sstat0) as [H|H]; [rewrite Forall_forall in F; auto|rewrite H; apply sstat0_ok]. Qed.
Lemma saccu_ok x y : sstat_ok (saccu x y).
Proof. repeat split; cbn; apply uadd_counter. Qed.
Lemma accu_at b : forall a i, Forall sstat_ok a -> Forall sstat_ok b -> solver_at (accu_solvers a b) i = saccu (solver_at a i) (solver_at b i).
Proof.
  induction b as [|y b IH]; intros a i Fa Fb.
  - cbn [accu_solvers]. unfold solver_at at 3. destruct i; cbn [nth]; rewrite saccu_0r; auto using solver_ok.
  - inversion_clear Fb as [|? ? Y Fb']. destruct a as [|x a]; cbn [accu_solvers].
    + destruct i as [|i]; unfold solver_at; cbn [nth]; [rewrite saccu_0l; auto|]. change (nth i (accu_solvers [] b) sstat0) with (solver_at (accu_solvers [] b) i).
      rewrite IH by auto. unfold solver_at. destruct i; reflexivity.
    + inversion_clear Fa as [|? ? X Fa']. destruct i as [|i]; unfold solver_at; cbn [nth]; [reflexivity|]. apply (IH a i); assumption.
Qed.
Lemma accu_len b : forall a, List.length (accu_solvers a b) = Nat.max (List.length a) (List.length b).
Proof. induction b as [|y b IH]; intros [|x a]; cbn [accu_solvers List.length]; rewrite ?IH; cbn [List.length]; lia. Qed.
Lemma accu_ok b : forall a, Forall sstat_ok a -> Forall sstat_ok b -> Forall sstat_ok (accu_solvers a b).
Proof.
  induction b as [|y b IH]; intros a Fa Fb; [exact Fa|]. inversion_clear Fb. destruct a; cbn [accu_solvers]; [constructor; auto|].
  inversion_clear Fa. constructor; [apply saccu_ok|auto].
Qed.
Lemma stat_accu_ok a b : stat_ok a -> stat_ok b -> stat_ok (stat_accu a b).
Proof. intros [_ A] [_ B]. split; [repeat constructor; apply Z.mod_pos_bound; lia|]. apply accu_ok; assumption. Qed.


Lemma thread_amount_0 g n : thread_amount g n sstat0 = 0.
Proof.
  unfold thread_amount, amount, thread_entries. cbn [published s_prop s_check s_undo s_refined s_introduced s_literals sstat0 Z.add].
  repeat match goal with |- context[if ?b then _ else _] => destruct b end; reflexivity.
Qed.
Lemma amount_thread i g n s : amount (KThread i g n) (add_statistics s) = thread_amount g n (solver_at (st_solvers s) i).
Proof.
  unfold add_statistics, amount. rewrite published_app.
  replace (published (KThread i g n) match st_cost s with Some c => [(KCost, c)] | None => [] end) with (@None Z) by (destruct (st_cost s); reflexivity).
  rewrite published_app. cbn [published key_eqb]. pose proof (published_threads i g n (st_solvers s) 0) as H. rewrite Nat.add_0_r in H. rewrite H.
  destruct (nth_error (st_solvers s) i) as [x|] eqn:E.
  - unfold solver_at. rewrite (nth_error_nth _ _ _ E). reflexivity.
  - unfold solver_at. rewrite nth_overflow by (apply nth_error_None; exact E). symmetry. apply thread_amount_0.
Qed.
Lemma thread_sum i g n x y : thread_amount g n (saccu x y) = sumof (KThread i g n) (thread_amount g n x) (thread_amount g n y).
Proof.
  unfold thread_amount, amount, thread_entries, sumof. cbn [published is_time].
  destruct (key_eqb (KThread 0 g n) (KThread 0 "Time in seconds" "Total")) eqn:E1;
  [cbn in E1; apply andb_prop in E1; destruct E1 as [-> _]; cbn; lia|].
  destruct (key_eqb (KThread 0 g n) (KThread 0 "Time in seconds" "Propagation")) eqn:E2;
  [cbn in E2; apply andb_prop in E2; destruct E2 as [-> _]; reflexivity|].
  destruct (key_eqb (KThread 0 g n) (KThread 0 "Time in seconds" "Check")) eqn:E3;
  [cbn in E3; apply andb_prop in E3; destruct E3 as [-> _]; reflexivity|].
  destruct (key_eqb (KThread 0 g n) (KThread 0 "Time in seconds" "Undo")) eqn:E4;
  [cbn in E4; apply andb_prop in E4; destruct E4 as [-> _]; reflexivity|].
  destruct (key_eqb (KThread 0 g n) (KThread 0 "" "Refined reason")) eqn:E5;
  [cbn in E5; apply andb_prop in E5; destruct E5 as [E5 _]; apply String.eqb_eq in E5; subst g; reflexivity|].
  destruct (key_eqb (KThread 0 g n) (KThread 0 "" "Introduced reason")) eqn:E6;
  [cbn in E6; apply andb_prop in E6; destruct E6 as [E6 _]; apply String.eqb_eq in E6; subst g; reflexivity|].
  destruct (key_eqb (KThread 0 g n) (KThread 0 "" "Literals introduced")) eqn:E7;
  [cbn in E7; apply andb_prop in E7; destruct E7 as [E7 _]; apply String.eqb_eq in E7; subst g; reflexivity|].
  destruct (_ =? _)%string; reflexivity.
Qed.

Lemma key_sum g n a b : amount (KKey g n) (add_statistics (stat_accu a b)) =
  sumof (KKey g n) (amount (KKey g n) (add_statistics a)) (amount (KKey g n) (add_statistics b)).
Proof.
  unfold add_statistics, amount. rewrite !published_app, !published_key.
  replace (published (KKey g n) match st_cost a with Some c => [(KCost, c)] | None => [] end) with (@None Z) by (destruct (st_cost a); reflexivity).
  replace (published (KKey g n) match st_cost b with Some c => [(KCost, c)] | None => [] end) with (@None Z) by (destruct (st_cost b); reflexivity).
  replace (published (KKey g n) match st_cost (stat_accu a b) with Some c => [(KCost, c)] | None => [] end) with (@None Z) by (destruct (st_cost (stat_accu a b)); reflexivity).
  unfold sumof. cbn [published is_time].
  repeat (match goal with |- context[if key_eqb ?x ?y then _ else _] => let E := fresh "E" in destruct (key_eqb x y) eqn:E;
    [cbn [key_eqb] in E; apply andb_prop in E; destruct E as [E _]; apply String.eqb_eq in E; subst g; reflexivity|] end).
  destruct (_ =? _)%string; reflexivity.
Qed.

Lemma amount_sum k a b : k <> KCost -> stat_ok a -> stat_ok b ->
  amount k (add_statistics (stat_accu a b)) = sumof k (amount k (add_statistics a)) (amount k (add_statistics b)).
Proof.
  intros N A B. destruct k as [|g n|i g n]; [congruence|apply key_sum|].
  rewrite !amount_thread. cbn [stat_accu st_solvers]. rewrite accu_at by (apply A || apply B). apply thread_sum.
Qed.

Definition pubs (r : list (list (skey * Z) * list (skey * Z)) * stat) := fst r.
Lemma merge_fst steps : forall accu, map fst (fst (merge_steps accu steps)) = map add_statistics steps.
Proof.
  induction steps as [|s r IH]; intros accu; [reflexivity|]. cbn [merge_steps on_statistics]. specialize (IH (stat_accu accu s)).
  destruct (merge_steps (stat_accu accu s) r) as [p a]. cbn [fst map] in *. f_equal. exact IH.
Qed.
Lemma merge_last steps : forall accu s, map snd (fst (merge_steps accu (steps ++ [s]))) <> [] /\
  last (map snd (fst (merge_steps accu (steps ++ [s])))) [] = add_statistics (snd (merge_steps accu (steps ++ [s]))).
Proof.
  induction steps as [|x r IH]; intros accu s; [split; [discriminate|reflexivity]|]. cbn [app merge_steps on_statistics].
  specialize (IH (stat_accu accu x) s). destruct (merge_steps (stat_accu accu x) (r ++ [s])) as [p a]. cbn [fst snd map] in *. destruct IH as [I1 I2].
  split; [discriminate|]. rewrite <- I2. destruct (map snd p); [congruence|reflexivity].
Qed.
Lemma merge_total k steps : forall accu, k <> KCost -> stat_ok accu -> Forall stat_ok steps ->
  amount k (add_statistics (snd (merge_steps accu steps))) =
  if is_time k then amount k (add_statistics accu) + total k (map add_statistics steps)
  else if steps then amount k (add_statistics accu) else (amount k (add_statistics accu) + total k (map add_statistics steps)) mod 2^64.
Proof.
  induction steps as [|s r IH]; intros accu N A F; cbn [merge_steps snd map total].
  - destruct (is_time k); lia.
  - inversion_clear F as [|? ? S F']. cbn [on_statistics]. specialize (IH (stat_accu accu s) N (stat_accu_ok _ _ A S) F').
    cbn [on_statistics]. destruct (merge_steps (stat_accu accu s) r) as [p a]. cbn [snd] in *. rewrite IH, amount_sum by assumption. unfold sumof.
    destruct (is_time k); [lia|]. unfold uadd. destruct r as [|x r].
    + cbn [map total]. rewrite Z.add_0_r. reflexivity.
    + rewrite Zplus_mod_idemp_l. f_equal. lia.
Qed.

Lemma merge_cost steps s : forall accu, published KCost (add_statistics (snd (merge_steps accu (steps ++ [s])))) = st_cost s.
Proof.
  induction steps as [|x r IH]; intros accu; cbn [app merge_steps on_statistics].
  - cbn [snd]. unfold add_statistics. rewrite !published_app, published_cost. cbn [stat_accu st_cost]. destruct (st_cost s); reflexivity.
  - specialize (IH (stat_accu accu x)). destruct (merge_steps (stat_accu accu x) (r ++ [s])) as [p a]. exact IH.
Qed.
Lemma stat0_ok : stat_ok stat0.
Proof. split; [cbn; repeat (constructor; [split; [lia|reflexivity]|]); constructor|constructor]. Qed.
Lemma amount_0 k : amount k (add_statistics stat0) = 0.
Proof.
  destruct k as [|g n|i g n]; [reflexivity| |].
  - unfold amount, add_statistics. cbn -[key_eqb]. repeat match goal with |- context[if ?b then _ else _] => destruct b end; reflexivity.
  - rewrite amount_thread. cbn [st_solvers stat0]. unfold solver_at. destruct i; apply thread_amount_0.
Qed.
Lemma amount_reset s k : amount k (add_statistics (stat_reset s)) = 0.
Proof.
  destruct k as [|g n|i g n].
  - unfold amount, add_statistics. rewrite !published_app, published_cost. reflexivity.
  - unfold amount, add_statistics. rewrite !published_app, published_key. cbn [stat_reset st_cost published]. cbn -[key_eqb].
    repeat match goal with |- context[if ?b then _ else _] => destruct b end; reflexivity.
  - rewrite amount_thread. cbn [st_solvers stat_reset]. unfold solver_at.
    replace (nth i (map (fun _ => sstat0) (st_solvers s)) sstat0) with sstat0; [apply thread_amount_0|].
    destruct (nth_in_or_default i (map (fun _ => sstat0) (st_solvers s)) sstat0) as [H|H]; [|symmetry; exact H].
    apply in_map_iff in H. destruct H as (x & <- & _). reflexivity.
Qed.

(** All steps: every key of the accumulated statistics is the sum of that key over
    the published step statistics (modulo 2^64 for counters). *)
Theorem statistics_sum steps s : Forall stat_ok (steps ++ [s]) ->
  let (pub, accu) := merge_steps stat0 (steps ++ [s]) in
  last (map snd pub) [] = add_statistics accu /\
  (forall k, k <> KCost -> let sum := total k (map fst pub) in
     amount k (add_statistics accu) = if is_time k then sum else sum mod 2^64) /\
  (published KCost (add_statistics accu) = published KCost (add_statistics s)).
Proof.
  intros F. pose proof (merge_fst (steps ++ [s]) stat0) as A. pose proof (merge_last steps stat0 s) as [_ B].
  pose proof (fun k => merge_total k (steps ++ [s]) stat0) as C. pose proof (merge_cost steps s stat0) as D.
  destruct (merge_steps stat0 (steps ++ [s])) as [pub accu]. cbn [fst snd] in *. split; [exact B|]. split.
  - intros k N. cbn zeta. rewrite (C k N stat0_ok F), amount_0, A. destruct (is_time k); [lia|]. destruct (steps ++ [s]) eqn:E; [destruct steps; discriminate|]. reflexivity.
  - rewrite D. unfold add_statistics. rewrite !published_app, published_cost. destruct (st_cost s); reflexivity.
Qed.
