(** Property theorems C05-C09 and the reading of all theory atoms. *)
From Coq Require Import String.
From Verif Require Import Base Util UtilProofs IntervalSet IntervalSetProofs Terms TermsSpec TermsProofs TermsProofs2 TermsProofs3 TermsProofs4
  Statements StatementsSpec StatementsProofs StatementsMain.
Open Scope Z_scope.

(** ** C05 Collecting like terms preserves the expression *)
Theorem C05_simplify : forall dz ts vec rhs, simplify dz ts = Ok (vec, rhs) ->
  (forall nu, terms_val (key_val nu) ts = terms_val (key_val nu) vec - rhs) /\
  NoDup (map snd vec) /\ Forall (fun k => k <> None) (map snd vec) /\
  (dz = true -> Forall (fun t => fst t <> 0) vec) /\
  valid rhs /\ Forall (fun t => valid (fst t)) vec /\
  fits int64 (rhs - abs_sum vec * MAX_VAL) /\ fits int64 (rhs + abs_sum vec * MAX_VAL).
Proof. exact simplify_spec. Qed.
Print Assumptions C05_simplify.

Example C05_simplify_ex :
  simplify true [(2, Some 0%nat); (7, None); (3, Some 1%nat); (-2, Some 0%nat); (4, Some 1%nat)] = Ok ([(7, Some 1%nat)], -7).
Proof. reflexivity. Qed.

(** 32-bit coefficients never lead to undefined behaviour: the result above or an exception. *)
Theorem C05_no_overflow : forall dz ts, Forall (fun t => fits int32 (fst t)) ts -> simplify dz ts <> UB.
Proof. exact simplify_no_ub. Qed.
Print Assumptions C05_no_overflow.

(** No exception as long as the absolute values of all numbers add up to at most [MAX_VAL]. *)
Theorem C05_accepts : forall dz ts, abs_sum ts <= MAX_VAL -> exists r, simplify dz ts = Ok r.
Proof. exact simplify_small. Qed.
Print Assumptions C05_accepts.

Example C05_rejects_ex : exists e, simplify true [(MAX_VAL, Some 0%nat); (1, Some 0%nat)] = Throw e.
Proof. eexists. vm_compute. reflexivity. Qed.

Theorem C05_simplify_nonlinear : forall dz ts vec rhs, simplify_n dz ts = Ok (vec, rhs) ->
  (forall nu, terms_val (prod_val nu) ts = terms_val (prod_val nu) vec - rhs) /\
  NoDup (map snd vec) /\ Forall (fun k => k <> []) (map snd vec) /\
  (dz = true -> Forall (fun t => fst t <> 0) vec) /\
  valid rhs /\ Forall (fun t => valid (fst t)) vec.
Proof. exact simplify_n_spec. Qed.
Print Assumptions C05_simplify_nonlinear.

Example C05_simplify_nonlinear_ex :
  simplify_n true [(2, [1%nat; 0%nat]); (7, []); (3, [0%nat; 1%nat]); (1, [2%nat])] = Ok ([(5, [0%nat; 1%nat]); (1, [2%nat])], -7).
Proof. reflexivity. Qed.

Theorem C05_nonlinear_no_overflow : forall dz ts, Forall (fun t => fits int32 (fst t)) ts -> simplify_n dz ts <> UB.
Proof. exact simplify_n_no_ub. Qed.
Print Assumptions C05_nonlinear_no_overflow.

(** Dividing by the greatest common divisor keeps every relation. *)
Theorem C05_gcd : forall (K : Type) (ts : list (Z * K)) rhs ts' rhs', gcd_reduce ts rhs = (ts', rhs') ->
  map snd ts' = map snd ts /\
  (forall kv op, holds op (terms_val kv ts') rhs' <-> holds op (terms_val kv ts) rhs) /\
  (Forall (fun t => valid (fst t)) ts -> Forall (fun t => valid (fst t)) ts') /\ (valid rhs -> valid rhs') /\
  abs_sum ts' <= abs_sum ts /\ (Forall (fun t => fst t <> 0) ts -> Forall (fun t => fst t <> 0) ts').
Proof. intros K. exact gcd_reduce_spec. Qed.
Print Assumptions C05_gcd.

Example C05_gcd_ex : gcd_reduce [(6, 0%nat); (-9, 1%nat)] 12 = ([(2, 0%nat); (-3, 1%nat)], 4).
Proof. reflexivity. Qed.

(** ** C06 Sum elements mean what they say *)

(** [den] is the value of the written expression; [tab_agrees] says that the
    variables carry the values of their names. *)
Theorem C06_sum : forall nu es guard t ts t', parse_elems_sum lkey es guard t = Ok (ts, t') ->
  extends t t' /\ (tab_wf t -> tab_wf t') /\
  forall rho, tab_agrees rho nu t' ->
    exists x y, den_elems (den rho) es x /\ (match guard with Some g => den rho g y | None => y = 0 end) /\
                terms_val (key_val nu) ts = x - y.
Proof. intros nu es guard t ts t'. exact (parse_elems_sum_spec lkey (key_val nu) nu es guard t ts t' (lkey_compat nu)). Qed.
Print Assumptions C06_sum.

(** [2*x - (3+y) <= 1], [y] being variable 0 already. *)
Example C06_sum_ex :
  parse_elems_sum lkey [([TFun "-" [TFun "*" [TNum 2; TSym "x"]; TFun "+" [TNum 3; TSym "y"]]], true)] (Some (TNum 1))
    (mksymtab [(SFun "y" [] true, 0%nat)] 1)
  = Ok ([(2, Some 1%nat); (-3, None); (-1, Some 0%nat); (-1, None)],
        mksymtab [(SFun "x" [] true, 1%nat); (SFun "y" [] true, 0%nat)] 2).
Proof. reflexivity. Qed.
Example C06_sum_ex_den : forall rho,
  den_elems (den rho) [([TFun "-" [TFun "*" [TNum 2; TSym "x"]; TFun "+" [TNum 3; TSym "y"]]], true)]
    (2 * rho (SFun "x" [] true) - (3 + rho (SFun "y" [] true))).
Proof.
  intros rho. replace (2 * rho (SFun "x" [] true) - (3 + rho (SFun "y" [] true))) with
    ((2 * rho (SFun "x" [] true) - (3 + rho (SFun "y" [] true))) + 0) by lia.
  constructor; [|constructor]. repeat constructor; try discriminate; intros; try discriminate; intros [A _]; discriminate.
Qed.

Theorem C06_sum_nonlinear : forall nu es guard t ts t', parse_elems_sum nkey es guard t = Ok (ts, t') ->
  extends t t' /\ (tab_wf t -> tab_wf t') /\
  forall rho, tab_agrees rho nu t' ->
    exists x y, den_elems (den rho) es x /\ (match guard with Some g => den rho g y | None => y = 0 end) /\
                terms_val (prod_val nu) ts = x - y.
Proof. intros nu es guard t ts t'. exact (parse_elems_sum_spec nkey (prod_val nu) nu es guard t ts t' (nkey_compat nu)). Qed.
Print Assumptions C06_sum_nonlinear.

Theorem C06_diff : forall nu es guard t ts t', parse_elems_diff lkey es guard t = Ok (ts, t') ->
  extends t t' /\ (tab_wf t -> tab_wf t') /\
  forall rho, tab_agrees rho nu t' ->
    exists x y, den_elems (den_diff rho) es x /\ (match guard with Some g => ground g (SNum y) | None => y = 0 end) /\
                terms_val (key_val nu) ts = x - y.
Proof. intros nu es guard t ts t'. exact (parse_elems_diff_spec lkey (key_val nu) nu es guard t ts t' (lkey_compat nu)). Qed.
Print Assumptions C06_diff.

Example C06_diff_ex :
  parse_elems_diff lkey [([TFun "-" [TSym "x"; TFun "f" [TNum 1]]], true)] (Some (TFun "-" [TNum 4])) (mksymtab [] 0)
  = Ok ([(1, Some 0%nat); (-1, Some 1%nat); (4, None)], mksymtab [(SFun "f" [SNum 1] true, 1%nat); (SFun "x" [] true, 0%nat)] 2).
Proof. reflexivity. Qed.

(** The value of a written expression is unique, so the theorems above fix it. *)
Theorem C06_value_unique : forall rho es x y, den_elems (den rho) es x -> den_elems (den rho) es y -> x = y.
Proof. exact den_elems_unique. Qed.
Print Assumptions C06_value_unique.

(** Reading never runs into undefined behaviour: it succeeds as above or raises.
    [wf_term]: numbers of the term are 32-bit and quoted strings are decodable. *)
Theorem C06_sum_no_overflow : forall es guard t, Forall wf_telem es -> (forall g, guard = Some g -> wf_term g) ->
  parse_elems_sum lkey es guard t <> UB /\ parse_elems_sum nkey es guard t <> UB /\ parse_elems_diff lkey es guard t <> UB.
Proof. exact parse_elems_no_ub. Qed.
Print Assumptions C06_sum_no_overflow.

Example C06_rejects_product : exists e,
  parse_elems_sum lkey [([TFun "*" [TSym "x"; TSym "y"]], true)] (Some (TNum 1)) (mksymtab [] 0) = Throw e.
Proof. eexists. reflexivity. Qed.
Example C06_rejects_overflow : exists e,
  parse_elems_sum lkey [([TFun "*" [TNum 65536; TFun "*" [TNum 65536; TSym "x"]]], true)] (Some (TNum 1)) (mksymtab [] 0) = Throw e.
Proof. eexists. vm_compute. reflexivity. Qed.

(** ** C07 Head atoms imply their relation, C08 body atoms are equivalent to it *)

(** [s] and [s'] are the builder before and after; [new] are the clauses and
    constraints posted in between; [b_next s] is the first literal not yet in use. *)
Theorem C07_head : forall is_true ret nu l ts op s s',
  constrain_l is_true ret l ts op false s = Ok (true, s') -> below (b_next s) l -> bounded_by is_true (b_next s) ->
  exists new, b_log s' = b_log s ++ new /\
  forall I, okI is_true I ->
    (realizable is_true (b_next s) I nu new <-> (lit_true I l -> holds op (terms_val (key_val nu) ts) 0)).
Proof. exact head_realizable. Qed.
Print Assumptions C07_head.

Example C07_head_ex : exists s',
  constrain_l (fun l => l =? 1) (fun _ => true) 2 [(2, Some 0%nat); (3, Some 1%nat); (-5, None)] RNe false (mkbst 3 []) = Ok (true, s').
Proof. eexists. vm_compute. reflexivity. Qed.

Theorem C08_body : forall is_true ret nu l ts op s s',
  constrain_l is_true ret l ts op true s = Ok (true, s') -> below (b_next s) l -> bounded_by is_true (b_next s) ->
  exists new, b_log s' = b_log s ++ new /\
  forall I, okI is_true I ->
    (realizable is_true (b_next s) I nu new <-> (lit_true I l <-> holds op (terms_val (key_val nu) ts) 0)).
Proof. exact body_realizable. Qed.
Print Assumptions C08_body.

Example C08_body_ex : exists s',
  constrain_l (fun l => l =? 1) (fun _ => true) 2 [(2, Some 0%nat); (3, Some 1%nat); (-5, None)] REq true (mkbst 3 []) = Ok (true, s').
Proof. eexists. vm_compute. reflexivity. Qed.

(** Once collecting the terms succeeds, nothing is lost: the atom is posted completely. *)
Theorem C08_total : forall is_true ret l ts op strict s, (forall log, ret log = true) -> Forall (fun t => fits int32 (fst t)) ts ->
  (exists e, simplify true ts = Throw e /\ constrain_l is_true ret l ts op strict s = Throw e) \/
  (exists s', constrain_l is_true ret l ts op strict s = Ok (true, s')).
Proof. exact constrain_l_total. Qed.
Print Assumptions C08_total.

(** Atoms as written. [atom_means] is the meaning of the atom in terms of the
    values [rho] of the names. *)
Theorem C08_atom : forall is_true ret nu a st st', parse_atom is_true ret a st = Ok (true, st') ->
  below (b_next (snd st)) (a_lit a) -> bounded_by is_true (b_next (snd st)) -> atom_fine a (fst st) ->
  extends (fst st) (fst st') /\ (tab_wf (fst st) -> tab_wf (fst st')) /\
  exists new, b_log (snd st') = b_log (snd st) ++ new /\
    forall rho, tab_agrees rho nu (fst st') -> forall I, okI is_true I ->
      (realizable is_true (b_next (snd st)) I nu new <-> atom_means rho a I).
Proof. exact atom_realizable. Qed.
Print Assumptions C08_atom.

Example C08_atom_ex :
  let a := mkatom (KSum true) [([TFun "*" [TNum 2; TSym "x"]], true); ([TSym "y"], true)] (Some (RLt, TSym "z")) 2 in
  (exists st', parse_atom (fun l => l =? 1) (fun _ => true) a (mksymtab [] 0, mkbst 3 []) = Ok (true, st')) /\ atom_fine a (mksymtab [] 0).
Proof. split; [eexists; vm_compute; reflexivity|exact Logic.I]. Qed.

(** Whole programs: the posted constraints can be met iff every atom has its meaning. *)
Theorem C08_program : forall is_true ret nu atoms st st', parse is_true ret atoms st = Ok (true, st') ->
  Forall (fun a => below (b_next (snd st)) (a_lit a)) atoms -> bounded_by is_true (b_next (snd st)) ->
  program_fine is_true ret atoms st ->
  extends (fst st) (fst st') /\ (tab_wf (fst st) -> tab_wf (fst st')) /\
  exists new, b_log (snd st') = b_log (snd st) ++ new /\
    forall rho, tab_agrees rho nu (fst st') -> forall I, okI is_true I ->
      (realizable is_true (b_next (snd st)) I nu new <-> Forall (fun a => atom_means rho a I) atoms).
Proof. exact program_realizable. Qed.
Print Assumptions C08_program.

Definition ex_program : list tatom :=
  [ mkatom (KSum true) [([TFun "*" [TNum 2; TSym "x"]], true); ([TSym "y"], true)] (Some (RLt, TSym "z")) 2;
    mkatom KDistinct [([TSym "x"], true); ([TFun "+" [TSym "y"; TNum 1]], true)] None 3;
    mkatom KDom [([TFun ".." [TNum 1; TNum 5]], true); ([TNum 8], true)] (Some (REq, TSym "x")) 1;
    mkatom KDisjoint [([TFun "@" [TSym "x"; TNum 2]], true); ([TFun "@" [TSym "y"; TNum 3]], true)] None (-3);
    mkatom (KDiff false) [([TFun "-" [TSym "x"; TSym "y"]], true)] (Some (RLe, TNum 3)) 2;
    mkatom KMinimize [([TSym "x"], true); ([TSym "y"; TNum 1], true)] None 1 ].
Example C08_program_ex :
  (exists st', parse (fun l => l =? 1) (fun _ => true) ex_program (mksymtab [] 0, mkbst 4 []) = Ok (true, st')) /\
  Forall (fun a => below 4 (a_lit a)) ex_program /\ program_fine (fun l => l =? 1) (fun _ => true) ex_program (mksymtab [] 0, mkbst 4 []).
Proof.
  split; [eexists; vm_compute; reflexivity|]. split.
  - unfold below. repeat constructor; cbn; lia.
  - cbn [program_fine ex_program]. repeat (split; [exact Logic.I|]; intros ? ?). exact Logic.I.
Qed.

(** Every assignment to the names comes from one to the variables and conversely. *)
Theorem C08_names : forall t, tab_wf t -> forall nu, exists rho, tab_agrees rho nu t.
Proof. exact names_of_vars. Qed.
Print Assumptions C08_names.
Theorem C08_vars : forall t, tab_wf t -> forall rho, exists nu, tab_agrees rho nu t.
Proof. exact vars_of_names. Qed.
Print Assumptions C08_vars.

(** ** C09 Non-linear sums *)

(** Complete as long as the collected sum has at most one product. *)
Theorem C09_nonlinear_partial : forall is_true ret nu a strict st st',
  parse_atom is_true ret a st = Ok (true, st') -> a_kind a = KNsum strict ->
  below (b_next (snd st)) (a_lit a) -> bounded_by is_true (b_next (snd st)) -> one_product_atom a (fst st) ->
  exists new, b_log (snd st') = b_log (snd st) ++ new /\
    forall rho, tab_agrees rho nu (fst st') -> forall I, okI is_true I ->
      (realizable is_true (b_next (snd st)) I nu new <->
       exists op g x y, a_guard a = Some (op, g) /\ den_elems (den rho) (a_elems a) x /\ den rho g y /\
         reified I (a_lit a) strict (holds op x y)).
Proof. exact nonlinear_realizable. Qed.
Print Assumptions C09_nonlinear_partial.

Definition ex_nsum : tatom :=
  mkatom (KNsum false) [([TFun "*" [TSym "x"; TSym "y"]], true); ([TFun "*" [TNum 3; TSym "z"]], true)] (Some (RLe, TNum 7)) 2.
Example C09_nonlinear_ex :
  (exists st', parse_atom (fun l => l =? 1) (fun _ => true) ex_nsum (mksymtab [] 0, mkbst 3 []) = Ok (true, st')) /\
  one_product_atom ex_nsum (mksymtab [] 0).
Proof.
  split; [eexists; vm_compute; reflexivity|]. intros op g ts t' es rhs G P S. cbn in G. injection G as <- <-.
  vm_compute in P. injection P as <- <-. vm_compute in S. injection S as <- <-. vm_compute. lia.
Qed.

(** With two products the first one is dropped without an error: parsing.cc
    480-481 tests co_c instead of co_ab. *)
Theorem C09_complete_refuted :
  exists a st st' new rho nu I,
    a_kind a = KNsum false /\
    parse_atom (fun l => l =? 1) (fun _ => true) a st = Ok (true, st') /\
    b_log (snd st') = b_log (snd st) ++ new /\
    tab_wf (fst st) /\ tab_agrees rho nu (fst st') /\ okI (fun l => l =? 1) I /\
    Forall (call_holds I nu) new /\ lit_true I (a_lit a) /\
    ~ atom_means rho a I.
Proof. exact two_products_dropped. Qed.
Print Assumptions C09_complete_refuted.

(** A linear summand in front of the product is rejected although the same sum
    written the other way round is accepted. *)
Theorem C09_order_refuted : exists a b st, a_elems a = rev (a_elems b) /\
  a_kind a = a_kind b /\ a_guard a = a_guard b /\ a_lit a = a_lit b /\
  (exists st', parse_atom (fun l => l =? 1) (fun _ => true) a st = Ok (true, st')) /\
  (exists e, parse_atom (fun l => l =? 1) (fun _ => true) b st = Throw e).
Proof. exact order_matters. Qed.
Print Assumptions C09_order_refuted.

(** ** Objectives as read (C30, C31) *)
Theorem C31_objective_read : forall is_true ret nu atoms st st', parse is_true ret atoms st = Ok (true, st') ->
  Forall (fun a => below (b_next (snd st)) (a_lit a)) atoms -> bounded_by is_true (b_next (snd st)) ->
  program_fine is_true ret atoms st ->
  exists new, b_log (snd st') = b_log (snd st) ++ new /\
    forall rho, tab_agrees rho nu (fst st') -> objective rho atoms (obj_val nu new).
Proof. exact parse_obj. Qed.
Print Assumptions C31_objective_read.

(** ** Domains as read (C10) *)
Theorem C10_domain_read : forall es dom, parse_dom_elems es [] = Ok dom ->
  wf dom /\ (forall z, mem dom z <-> exists t, In ([t], true) es /\ dom_lists t z) /\ (forall z, mem dom z -> valid z).
Proof. exact domain_read. Qed.
Print Assumptions C10_domain_read.

Example C10_domain_read_ex :
  parse_dom_elems [([TFun ".." [TNum 1; TNum 5]], true); ([TNum 8], true); ([TFun ".." [TNum 5; TNum 7]], true)] [] = Ok [(1, 9)].
Proof. reflexivity. Qed.
