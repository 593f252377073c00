(** What the builder has to achieve. *)
From Verif Require Import Base Util IntervalSet IntervalSetProofs VarState Terms TermsSpec Solver OrderSpec Sum ConSpec Search SearchSpec SearchFrame Builder.
Open Scope Z_scope.

(** Solutions of what is known to clasp, the order literals and the constraints of the propagator. *)
Definition models (Base : interp -> Prop) (b : bld) (I : interp) (nu : var -> Z) : Prop :=
  good Base (b_s b) I /\ order_ok (b_s b) I nu /\ Forall (fun p => csem None (snd p) I nu) (b_cs b).

(** A constraint over known literals and variables. *)
Definition con_ok (n : Z) (m : nat) (d : constr) : Prop := below n (c_lit d) /\ Forall (fun x => x < m)%nat (cvars d).

(** The solver has a state for exactly the constraints of the propagator, which are listed once. *)
Record bld_ok (b : bld) : Prop := {
  bo_wf : OrderSpec.wf (b_s b);
  bo_cons : Forall (fun p => con_ok (nxt (b_s b)) (nvars (b_s b)) (snd p)) (b_cs b);
  bo_ids : forall c, css (b_s b) c <> None -> (c < b_id b)%nat;
  bo_reg : forall c d, In (c, d) (b_cs b) <-> exists k, css (b_s b) c = Some k /\ c_def k = d;
  bo_nodup : NoDup (map fst (b_cs b)) }.

(** On the top level of clasp and of the solver, with nothing queued. *)
Record top (O : oracle) (n0 : Z) (b : bld) : Prop := {
  t_ok : bld_ok b; t_n0 : n0 <= nxt (b_s b); t_lv : cur_level (b_s b) = 0%nat; t_st : settled (b_s b); t_top : stays_top O (b_s b) }.
Arguments t_ok {O n0} b. Arguments t_n0 {O n0} b. Arguments t_lv {O n0} b. Arguments t_st {O n0} b. Arguments t_top {O n0} b.

(** The solutions of [b'] are those of [b] that satisfy [P], up to the values of new literals; if the builder
    reports a conflict ([ok] is false) no solution satisfying [P] is lost. *)
Record built (Base : interp -> Prop) (P : interp -> (var -> Z) -> Prop) (b b' : bld) (ok : bool) : Prop := {
  bu_ok : bld_ok b';
  bu_nxt : nxt (b_s b) <= nxt (b_s b');
  bu_nv : nvars (b_s b') = nvars (b_s b);
  bu_fwd : forall I nu, models Base b I nu -> P I nu -> exists J, agree_below (nxt (b_s b)) I J /\ models Base b' J nu;
  bu_bwd : forall I nu, models Base b' I nu -> models Base b I nu /\ (ok = true -> P I nu) }.

(** Calls that mention known literals and variables and have the form the parser produces: coefficients are
    not zero, intervals are not empty, products have variables.  Calls for strict non-linear constraints are
    left out. *)
Definition call_ok (K : Z -> Prop) (m : nat) (c : bcall) : Prop :=
  match c with
  | BClause c => Forall (fun l => K (Z.abs l)) c
  | BSum l es _ _ => K (Z.abs l) /\ Forall (fun e => fst e <> 0 /\ (snd e < m)%nat) es
  | BNonlin l co_ab va vb co_c vc _ strict =>
      K (Z.abs l) /\ (forall x, va = Some x \/ vb = Some x \/ vc = Some x -> (x < m)%nat) /\
      (co_ab <> 0 -> va <> None /\ vb <> None) /\ (vc = None -> co_c = 0) /\ (co_ab <> 0 -> strict = false)
  | BDistinct l es => K (Z.abs l) /\ Forall (fun e => Forall (fun t => snd t < m)%nat (fst e)) es
  | BDisjoint l es => K (Z.abs l) /\ Forall (fun e => 0 < fst e /\ (snd e < m)%nat) es
  | BDom l x dom => K (Z.abs l) /\ (x < m)%nat /\ IntervalSetProofs.wf dom /\ dom <> []
  | BMin _ _ | BShow | BShowSig _ _ | BShowVar _ => True
  end.

(** Coefficients, constants and widths within the range of values, as the parser checks them. *)
Definition valid_num (z : Z) : Prop := - MAX_VAL <= z <= MAX_VAL.
Definition nums_ok (c : bcall) : Prop :=
  match c with
  | BSum _ es rhs _ => Forall (fun e => valid_num (fst e)) es /\ valid_num rhs
  | BDistinct _ es => Forall (fun e => Forall (fun t => valid_num (fst t)) (fst e) /\ valid_num (snd e)) es
  | BDisjoint _ es => Forall (fun e => valid_num (fst e)) es
  | BNonlin _ ca _ _ cc _ rhs _ => valid_num ca /\ valid_num cc /\ valid_num rhs
  | _ => True
  end.

(** What the parser does during a run: the literals it knows at the end, what it may do, and what it has asked
    for.  [K] are the literals known at the start. *)
Section Run.
Context (O : oracle) (cfg : config) (srt : list (Z * var) -> list (Z * var)).
Definition knows (o : bop) (b : bld) (K : Z -> Prop) : Z -> Prop :=
  match o with PLit => fun i => K i \/ i = nxt (b_s b) | _ => K end.
Definition op_ok (K : Z -> Prop) (b : bld) (o : bop) : Prop :=
  match o with POp c => call_ok K (nvars (b_s b)) c | PLit => True | PVar mn mx => mn <= mx end.
Definition op_holds (b : bld) (o : bop) (I : interp) (nu : var -> Z) : Prop :=
  match o with POp c => call_holds I nu c | PLit => True | PVar mn mx => mn <= nu (nvars (b_s b)) <= mx end.
Inductive run : (Z -> Prop) -> bld -> list bop -> (Z -> Prop) -> bld -> (interp -> (var -> Z) -> Prop) -> Prop :=
| run_nil K b : run K b [] K b (fun _ _ => True)
| run_cons K b o ops b1 K' b' P : op_ok K b o -> build O cfg srt [o] b = Ok (true, b1) -> run (knows o b K) b1 ops K' b' P ->
    run K b (o :: ops) K' b' (fun I nu => op_holds b o I nu /\ P I nu).
End Run.
