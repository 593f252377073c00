(** Shown variables, iteration, options, statistics and queued clauses: C32, C33, C34, C35, C36, C43. *)
From Coq Require Import String Ascii Sorted.
From Verif Require Import Base Util Terms TermsSpec TermsProofs2 Statements Interface InterfaceSpec InterfaceProofs StatProofs
  Options OptionsSpec OptionsProofs Creator CreatorSpec CreatorProofs.
Open Scope Z_scope.

(** ** C32 *)

(** After any number of steps, what is reported in a model is exactly the named variables that are to be shown
    with their values, each once. *)
Theorem C32_shown atoms t b value : session atoms (t, b) -> wf_shows atoms ->
  (forall name args p v, In (SFun name args p, v) (st_map t) -> Z.of_nat (List.length args) < 2^31) ->
  NoDup (map fst (reported t (shows_of (b_log b)) value)) /\
  forall s z, In (s, z) (reported t (shows_of (b_log b)) value) <->
    exists v, get_index t s = Some v /\ z = value v /\ to_show atoms s.
Proof. exact (reported_session atoms t b value). Qed.
Print Assumptions C32_shown.

(** [&show { x; p/1 }], then in a second step [&sum { x; y; p(1); p(2,3) } <= 10]. *)
Definition show_ex : list tatom :=
  [mkatom KShow [([TSym "x"], true); ([TFun "/" [TSym "p"; TNum 1]], true)] None 1;
   mkatom (KSum false) [([TSym "x"], true); ([TSym "y"], true); ([TFun "p" [TNum 1]], true); ([TFun "p" [TNum 2; TNum 3]], true)] (Some (RLe, TNum 10)) 1].
Definition show_run : outcome (bool * pst) :=
  match parse (fun _ => true) (fun _ => true) (firstn 1 show_ex) (mksymtab [] 0, mkbst 2 []) with
  | Ok (_, st) => parse (fun _ => true) (fun _ => true) (skipn 1 show_ex) (mksymtab (st_map (fst st)) (S (st_next (fst st))), mkbst 7 (b_log (snd st)))
  | o => o
  end.
Definition show_st : pst := match show_run with Ok (_, st) => st | _ => (mksymtab [] 0, mkbst 0 []) end.
Example C32_demo : session show_ex show_st /\ wf_shows show_ex /\
  map fst (reported (fst show_st) (shows_of (b_log (snd show_st))) Z.of_nat) = [SFun "p" [SNum 1] true; SFun "x" [] true].
Proof.
  split; [|split].
  - change show_ex with (([] ++ firstn 1 show_ex) ++ skipn 1 show_ex). eapply se_step with (n := 2%nat) (k := 7) (is_true := fun _ => true) (ret := fun _ => true).
    + eapply se_step with (n := 0%nat) (k := 2) (is_true := fun _ => true) (ret := fun _ => true); [apply (se_nil 0 2)|cbn; lia|vm_compute; reflexivity].
    + cbn. lia.
    + vm_compute. reflexivity.
  - intros a e [<-|[<-|[]]] K; [|discriminate]. intros [<-|[<-|[]]]; repeat constructor; cbn; try lia; discriminate.
  - vm_compute. reflexivity.
Qed.

(** ** C33 *)

(** Iteration terminates with a unique list of indices in increasing order; the indices that have a value
    are exactly those of the named variables, and symbols and indices correspond. *)
Theorem C33_iteration t : tab_wf t ->
  exists l, iterates (assignment_next t) assignment_begin l /\ StronglySorted lt l /\
    (forall l', iterates (assignment_next t) assignment_begin l' -> l' = l) /\
    (forall i, In i (filter (has_value t) l) <-> exists s v, In (s, v) (st_map t) /\ lookup_symbol t s = Some i) /\
    (forall i s, In i l -> c_get_symbol t i = Ok s -> lookup_symbol t s = Some i) /\
    (forall i, In i l -> (has_value t i = true <-> exists s, c_get_symbol t i = Ok s)) /\
    (forall s i, lookup_symbol t s = Some i -> In i (filter (has_value t) l)).
Proof. exact (iteration t). Qed.
Print Assumptions C33_iteration.

(** Every table that arises is well formed. *)
Theorem C33_reachable atoms t b : session atoms (t, b) -> tab_wf t.
Proof. intros S. exact (iv_wf _ _ _ (inv_session _ _ S)). Qed.
Print Assumptions C33_reachable.

(** Not every visited index has a symbol: with an auxiliary variable between two named ones
    iteration visits its index, for which clingcon_get_symbol is undefined. *)
Theorem C33_gap_refuted : exists atoms t b l i, session atoms (t, b) /\
  iterates (assignment_next t) assignment_begin l /\ In i l /\ c_get_symbol t i = UB.
Proof.
  exists show_ex, (fst show_st), (snd show_st), [1; 2; 3; 4; 5]%nat, 2%nat. split; [exact (proj1 C32_demo)|]. split; [|split].
  - repeat (eapply it_next; [vm_compute; reflexivity|]). apply it_end. vm_compute. reflexivity.
  - right. left. reflexivity.
  - vm_compute. reflexivity.
Qed.
Print Assumptions C33_gap_refuted.
Example C33_demo : tab_wf (fst show_st) /\ iterates (assignment_next (fst show_st)) assignment_begin [1; 2; 3; 4; 5]%nat /\
  filter (has_value (fst show_st)) [1; 2; 3; 4; 5]%nat = [1; 3; 4; 5]%nat.
Proof.
  split; [|split].
  - refine (C33_reachable show_ex _ (snd show_st) _). rewrite <- surjective_pairing. exact (proj1 C32_demo).
  - repeat (eapply it_next; [vm_compute; reflexivity|]). apply it_end. vm_compute. reflexivity.
  - vm_compute. reflexivity.
Qed.

(** ** C34 *)

(** Signed numbers, used for min-int and max-int: accepted are exactly "min", "max" and numerals in range. *)
Theorem C34_signed s lo hi z : - (2^31) <= lo -> hi <= 2^31 - 1 -> lo <= hi ->
  (parse_num t_val s lo hi = Ok z <-> (s = "min"%string /\ z = lo) \/ (s = "max"%string /\ z = hi) \/ (numeral s z /\ lo <= z <= hi)).
Proof. exact (parse_num_signed s lo hi z). Qed.
Print Assumptions C34_signed.
Theorem C34_bounds c s : let legal z := (s = "min"%string /\ z = - (2^30 - 1)) \/ (s = "max"%string /\ z = 2^30 - 1) \/ (numeral s z /\ - (2^30 - 1) <= z <= 2^30 - 1) in
  (forall c', configure c "min-int" s = Ok c' -> legal (cf_min c') /\ cf_max c' = cf_max c) /\
  (forall c', configure c "max-int" s = Ok c' -> legal (cf_max c') /\ cf_min c' = cf_min c) /\
  (forall z, legal z -> (exists c', configure c "min-int" s = Ok c' /\ cf_min c' = z) /\ (exists c', configure c "max-int" s = Ok c' /\ cf_max c' = z)) /\
  ((forall z, ~ legal z) -> configure c "min-int" s = Throw Syntax /\ configure c "max-int" s = Throw Syntax).
Proof.
  cbn zeta.
  assert (P : forall z, parse_num t_val s MIN_VAL MAX_VAL = Ok z <-> (s = "min"%string /\ z = - (2^30 - 1)) \/ (s = "max"%string /\ z = 2^30 - 1) \/ (numeral s z /\ - (2^30 - 1) <= z <= 2^30 - 1)).
  { intros z. rewrite parse_num_signed by (unfold MIN_VAL, MAX_VAL; lia). reflexivity. }
  change (configure c "min-int" s) with (n <- parse_num t_val s MIN_VAL MAX_VAL ;;
    Ok (mkconf (cf_solvers c) (cf_default c) (cf_total c) (cf_limit c) (cf_distinct c) (cf_minimize c) n (cf_max c)
      (cf_sort c) (cf_litonly c) (cf_order c) (cf_checksol c) (cf_checkstate c) (cf_shift c))).
  change (configure c "max-int" s) with (n <- parse_num t_val s MIN_VAL MAX_VAL ;;
    Ok (mkconf (cf_solvers c) (cf_default c) (cf_total c) (cf_limit c) (cf_distinct c) (cf_minimize c) (cf_min c) n
      (cf_sort c) (cf_litonly c) (cf_order c) (cf_checksol c) (cf_checkstate c) (cf_shift c))).
  assert (T : (exists z, parse_num t_val s MIN_VAL MAX_VAL = Ok z) \/ parse_num t_val s MIN_VAL MAX_VAL = Throw Syntax).
  { unfold parse_num, parse_range_num. repeat match goal with |- context [if ?x then Ok _ else _] => destruct x; [left; eexists; reflexivity|] end.
    destruct (strtonum_cases t_val (upto s None)) as (neg & ds & -> & _). destruct (read_number ds); [|right; reflexivity]. cbn [nt_signed t_val]. cbn zeta.
    destruct (_ && _); cbn [bind]; [|right; reflexivity]. destruct (_ && _); [left; eexists; reflexivity|right; reflexivity]. }
  split; [|split; [|split]].
  - intros c'. destruct (parse_num _ _ _ _) as [z| |]; cbn [bind]; try discriminate. intros H. injection H as <-. cbn. split; [apply P; reflexivity|reflexivity].
  - intros c'. destruct (parse_num _ _ _ _) as [z| |]; cbn [bind]; try discriminate. intros H. injection H as <-. cbn. split; [apply P; reflexivity|reflexivity].
  - intros z L. apply P in L. rewrite L. cbn [bind]. split; eexists; split; reflexivity.
  - intros N. destruct T as [(z & T)|T]; [apply P in T; destruct (N z T)|]. rewrite T. split; reflexivity.
Qed.
Print Assumptions C34_bounds.
Example C34_signed_demo : numeral "-12" (-12) /\ exists c', configure conf0 "min-int" "-12" = Ok c' /\ cf_min c' = -12.
Proof. split; [|eexists; split; reflexivity]. apply (nu_minus "12" 12). apply (dec_more "1" 1 "2" 2); [constructor|]; split; (reflexivity || lia). Qed.

(** Unsigned numbers, used for translate-distinct, translate-opt and thread numbers: besides the
    well-formed ones also negative numerals are accepted if they are in range modulo 2^32. *)
Theorem C34_unsigned s lo hi z : 0 <= lo -> hi <= 2^32 - 1 -> lo <= hi ->
  (parse_num t_uint32 s lo hi = Ok z <-> (s = "min"%string /\ z = lo) \/ (s = "max"%string /\ z = hi) \/
     (numeral s z /\ lo <= z <= hi) \/ (exists r n, s = String "-" r /\ dec r n /\ n < 2^32 /\ z = (- n) mod 2^32 /\ lo <= z <= hi)).
Proof. exact (parse_num_unsigned s lo hi z). Qed.
Print Assumptions C34_unsigned.
(** So a negative number is accepted for an option that must not be negative, and the value is another one. *)
Theorem C34_unsigned_refuted : exists s n c, numeral s n /\ n < 0 /\ configure conf0 "translate-distinct" s = Ok c /\ cf_distinct c = 4294967295 /\
  exists c', configure conf0 "split-all" "true,-4294967295" = Ok c' /\ setting TSplitAll (solver_conf c' 1) = 1.
Proof.
  exists "-1"%string, (-1). eexists. split; [apply (nu_minus "1" 1); constructor; split; (reflexivity || lia)|]. split; [lia|]. split; [vm_compute; reflexivity|]. split; [reflexivity|].
  eexists. split; vm_compute; reflexivity.
Qed.
Print Assumptions C34_unsigned_refuted.

(** Booleans: accepted are the abbreviations of "true", "yes", "1", "false", "no", "0". *)
Theorem C34_bool s b : parse_bool s None = Ok b <->
  let yes := abbrev s "true" \/ abbrev s "yes" \/ abbrev s "1" in
  let no := abbrev s "false" \/ abbrev s "no" \/ abbrev s "0" in
  (b = true /\ yes) \/ (b = false /\ no /\ ~ yes).
Proof. exact (parse_bool_spec s b). Qed.
Print Assumptions C34_bool.
(** So also the empty string and incomplete words are accepted. *)
Theorem C34_bool_refuted : exists c c', configure conf0 "check-state" "" = Ok c /\ cf_checkstate c = true /\ configure conf0 "check-solution" "fal" = Ok c' /\ cf_checksol c' = false.
Proof. do 2 eexists. split; [vm_compute; reflexivity|]. split; [reflexivity|]. split; [vm_compute; reflexivity|reflexivity]. Qed.
Print Assumptions C34_bool_refuted.

(** Sign values: the empty string counts as "+" and abbreviations of "min" and "max" are accepted. *)
Theorem C34_sign s v t : no_comma s ->
  (parse_sign_value s = Ok (v, t) <-> t = None /\
    ((abbrev s "+" /\ v = 2^31 - 1) \/
     (s = "-"%string /\ v = - 2^31) \/
     (s <> ""%string /\ abbrev s "min" /\ v = - 2^31) \/
     (s <> ""%string /\ abbrev s "max" /\ ~ abbrev s "min" /\ v = 2^31 - 1) \/
     (numeral s v /\ - 2^31 <= v <= 2^31 - 1))).
Proof. exact (sign_value_spec s v t). Qed.
Print Assumptions C34_sign.
(** A value with a thread is read as the part before the first comma and the thread after it. *)
Theorem C34_thread s r : no_comma s ->
  parse_bool_thread s = (b <- parse_bool s None ;; Ok (Z.b2z b, None)) /\
  parse_bool_thread (s ++ String "," r) = (t <- parse_num t_uint32 r 0 63 ;; b <- parse_bool s None ;; Ok (Z.b2z b, Some t)) /\
  parse_sign_value (s ++ String "," r) = (t <- parse_num t_uint32 r 0 63 ;; vt <- parse_sign_value s ;; Ok (fst vt, Some t)) /\
  parse_heuristic (s ++ String "," r) = (t <- parse_num t_uint32 r 0 63 ;; vt <- parse_heuristic s ;; Ok (fst vt, Some t)).
Proof. intros N. split; [apply (bool_thread_split s r N)|]. split; [apply (bool_thread_split s r N)|]. split; [apply (sign_value_split s r N)|apply (heuristic_split s r N)]. Qed.
Print Assumptions C34_thread.
Example C34_thread_demo : no_comma "yes" /\ parse_bool_thread "yes,3" = Ok (1, Some 3) /\ parse_sign_value "-7,0" = Ok (-7, Some 0).
Proof. split; [repeat split; discriminate|]. split; vm_compute; reflexivity. Qed.
(** The second number of translate-clauses may be negative and wraps around. *)
Theorem C34_total_refuted : exists c, configure conf0 "translate-clauses" "5,-1" = Ok c /\ cf_limit c = 5 /\ cf_total c = 2^64 - 1.
Proof. eexists. split; [vm_compute; reflexivity|]. split; reflexivity. Qed.
Print Assumptions C34_total_refuted.

(** ** C35 *)

(** Options given on the command line, in any order, no option twice for the same threads: every thread gets the value given for it,
    else the one given for all threads, else what was configured before. *)
Theorem C35_options l gs c : Forall2 reads l gs -> NoDup (map fst gs) -> cf_min c <= cf_max c -> exists m c',
  read_lines l [] = Ok m /\ validate_options m c = Ok c' /\ forall t i, wanted gs t (Z.of_nat i) (setting t (solver_conf c i)) (setting t (solver_conf c' i)).
Proof. exact (lines_wanted l gs c). Qed.
Print Assumptions C35_options.
(** Giving an option twice for the same threads is an error. *)
Theorem C35_repeated l gs : Forall2 reads l gs -> ~ NoDup (map fst gs) -> read_lines l [] = Throw Syntax.
Proof.
  intros F N. assert (T : forall l gs m, Forall2 reads l gs -> (exists m', read_lines l m = Ok m') \/ read_lines l m = Throw Syntax).
  { clear. intros l gs m F. revert m. induction F as [|[t s] [[t' th] v] l gs R F IH]; intros m; cbn [read_lines]; [eauto|]. destruct R as [-> R].
    assert (Q : read_option t s m = Ok (emplace m (t, th) v)) by (unfold read_option; destruct t; rewrite R; reflexivity). rewrite Q. cbn [bind]. destruct (emplace m (t, th) v) as [m1 []]; auto. }
  destruct (T l gs [] F) as [(m & E)|E]; [|exact E]. destruct N. apply read_options_total. destruct (read_lines_spec _ _ _ E) as (gs' & F' & M).
  exists m. replace gs with gs'; [exact M|]. clear - F F'. revert gs' F'. induction F as [|[t s] [[t' th] v] l gs R F IH]; intros gs' F'; inversion F' as [|? [[t2 th2] v2] ? gs2 R2 F2]; subst; [reflexivity|].
  f_equal; [|apply IH; exact F2]. destruct R as [-> R], R2 as [-> R2]. destruct t; rewrite R in R2; congruence.
Qed.
Print Assumptions C35_repeated.
Example C35_demo : let l := [(TSignValue, "5,2"); (TSplitAll, "yes"); (TSignValue, "-3"); (TSplitAll, "no,0")]%string in
  exists gs, Forall2 reads l gs /\ NoDup (map fst gs) /\
  exists m c, read_lines l [] = Ok m /\ validate_options m conf0 = Ok c /\
    map (fun i => (sc_sign (solver_conf c i), sc_split (solver_conf c i))) [0; 1; 2; 3]%nat = [(-3, false); (-3, true); (5, true); (-3, true)].
Proof.
  exists [(TSignValue, Some 2, 5); (TSplitAll, None, 1); (TSignValue, None, -3); (TSplitAll, Some 0, 0)]. split; [|split].
  - repeat constructor; vm_compute; reflexivity.
  - repeat constructor; cbn; intuition discriminate.
  - do 2 eexists. split; [vm_compute; reflexivity|]. split; vm_compute; reflexivity.
Qed.

(** With clingcon_configure the last setting that concerns a thread counts. *)
Theorem C35_configure c t th v i : (forall j, th = Some j -> 0 <= j) -> forall u,
  (u = t -> (th = None \/ th = Some (Z.of_nat i)) -> setting u (solver_conf (set_value t c (v, th)) i) = truth t v) /\
  (u <> t \/ (th <> None /\ th <> Some (Z.of_nat i)) -> setting u (solver_conf (set_value t c (v, th)) i) = setting u (solver_conf c i)).
Proof.
  intros P u. rewrite set_value_setting by exact P. split.
  - intros -> H. rewrite (proj2 (applies_true _ _ _ _ _)); [reflexivity|]. auto.
  - intros H. destruct (applies u i (t, th, v)) eqn:E; [|reflexivity]. apply applies_true in E. destruct E as [-> E]. destruct H as [H|[H1 H2]]; [congruence|]. destruct E; contradiction.
Qed.
Print Assumptions C35_configure.
(** So there the order matters: a value for all threads given later replaces the one given for a thread. *)
Theorem C35_configure_refuted : exists a b c1 c2 d1 d2,
  configure conf0 "sign-value" a = Ok c1 /\ configure c1 "sign-value" b = Ok c2 /\
  configure conf0 "sign-value" b = Ok d1 /\ configure d1 "sign-value" a = Ok d2 /\
  reads (TSignValue, a) (TSignValue, Some 0, 5) /\
  setting TSignValue (solver_conf c2 0) = 3 /\ setting TSignValue (solver_conf d2 0) = 5.
Proof. exists "5,0"%string, "3"%string. do 4 eexists. repeat (split; [vm_compute; reflexivity|]). split; [split; vm_compute; reflexivity|]. split; vm_compute; reflexivity. Qed.
Print Assumptions C35_configure_refuted.

(** ** C36 *)

(** What is published as accumulated after the last step is the sum of what was published for the
    steps (counters modulo 2^64); the cost is that of the last step. *)
Theorem C36_sum steps s : Forall stat_ok (steps ++ [s]) ->
  let (pub, accu) := merge_steps stat0 (steps ++ [s]) in
  last (map snd pub) [] = add_statistics accu /\
  (forall k, k <> KCost -> let sum := total k (map fst pub) in
     amount k (add_statistics accu) = if is_time k then sum else sum mod 2^64) /\
  (published KCost (add_statistics accu) = published KCost (add_statistics s)).
Proof. exact (statistics_sum steps s). Qed.
Print Assumptions C36_sum.
Theorem C36_reset accu s k : let '(_, _, _, s') := on_statistics accu s in amount k (add_statistics s') = 0.
Proof. exact (amount_reset s k). Qed.
Print Assumptions C36_reset.
Example C36_demo : let a := mkstat 1 2 3 4 5 6 7 8 9 10 11 12 (Some 4) [mksstat 1 1 1 1 1 1] in
  let b := mkstat 1 2 3 4 5 6 7 8 9 10 11 12 None [mksstat 1 1 1 1 1 1; mksstat 2 2 2 2 2 2] in
  Forall stat_ok ([a] ++ [b]) /\ amount (KThread 0 "Time in seconds" "Propagation") (add_statistics (snd (merge_steps stat0 [a; b]))) <> 0.
Proof. split; [repeat constructor; cbn; unfold counter; lia|]. vm_compute. discriminate. Qed.

(** ** C43 *)

(** If the queues were committed last and no operation failed, the solver has received
    the clauses, the minimize literals and the weight constraints that were added, in order; of the weight constraints
    only such were left out whose literal decided them. *)
Theorem C43_delivered S ops s : Forall wf_op ops -> (exists pre op, ops = pre ++ [op] /\ is_commit op) -> run_ops S creator0 ops = Ok (s, true) ->
  clauses_sent (cr_out s) = clauses_added ops /\
  minimize_sent (cr_out s) = minimize_added ops /\
  kept (dropped_at S (cr_out s)) (weights_sent (cr_out s)) (weights_added ops) /\
  cr_nclauses s = Z.of_nat (List.length (clauses_added ops)).
Proof. exact (delivered S ops s). Qed.
Print Assumptions C43_delivered.
(** The calls that reached the solver mean the same as what was added. *)
Theorem C43_meaning S ops s I : Forall wf_op ops -> (exists pre op, ops = pre ++ [op] /\ is_commit op) -> run_ops S creator0 ops = Ok (s, true) ->
  respects S I (cr_out s) ->
  ((forall c, In c (cr_out s) -> called I c) <-> (forall op, In op ops -> added I op)).
Proof. exact (delivered_meaning S ops s I). Qed.
Print Assumptions C43_meaning.
(** An operation fails only if the solver rejected the last call; what was sent until then is a prefix of what was added. *)
Theorem C43_failed S ops s : Forall wf_op ops -> run_ops S creator0 ops = Ok (s, false) ->
  is_ans S (cr_out s) = false /\ exists pre post, ops = pre ++ post /\
    (exists rest, clauses_sent (cr_out s) ++ rest = clauses_added pre) /\
    (exists rest, kept (dropped_at S (cr_out s)) (weights_sent (cr_out s) ++ rest) (weights_added pre)).
Proof. exact (delivery_failed S ops s). Qed.
Print Assumptions C43_failed.
(** During search clauses are passed on at once. *)
Theorem C43_control S o c : let (o', ok) := ct_add_clause S o c in
  (exists more, o' = o ++ IClause c :: more) /\ (ok = false -> is_ans S o' = false) /\ (ok = true -> is_ans S (o ++ [IClause c]) = true /\ is_ans S o' = true /\ last o' ILit = IProp).
Proof.
  unfold ct_add_clause. destruct (is_ans S (o ++ [IClause c])) eqn:A.
  - split; [exists [IProp]; rewrite <- app_assoc; reflexivity|]. split; [auto|]. intros H. split; [reflexivity|]. split; [exact H|]. apply last_last.
  - split; [exists []; reflexivity|]. split; [auto|discriminate].
Qed.
Print Assumptions C43_control.

(** Literal 2 is true: the second weight constraint is dropped. *)
Definition solver_ex : isolver := {| is_ans := fun o => (List.length o <? 5)%nat; is_lit := fun o => Z.of_nat (List.length o) + 2; is_true := fun _ l => l =? 2 |}.
Definition ops_ex : list cop :=
  [OLit; OClause [3; -4]; OWeight 3 [(4, 2); (5, 3)] 4 0; OWeight 2 [(4, 1)] 0 (-1); OClause []; OMin 4 7 0; OClause [2]; OCommit].
Example C43_demo : Forall wf_op ops_ex /\ (exists s, run_ops solver_ex creator0 ops_ex = Ok (s, false)) /\
  let S := {| is_ans := fun _ => true; is_lit := is_lit solver_ex; is_true := is_true solver_ex |} in
  exists s, run_ops S creator0 ops_ex = Ok (s, true) /\
    cr_out s = [ILit; IClause [3; -4]; IClause []; IClause [2]; IWeight (-3) [(4, 2); (5, 3)] 5 0; IMin 4 7 0].
Proof.
  split; [|split].
  - repeat first [constructor | discriminate | (cbn; lia)].
  - eexists. vm_compute. reflexivity.
  - eexists. split; vm_compute; reflexivity.
Qed.
