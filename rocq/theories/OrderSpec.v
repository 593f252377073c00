(** Specification of what solver states and the clauses sent to clasp mean. *)
From Verif Require Import Base Util VarState Terms TermsSpec Solver.
Open Scope Z_scope.

(** Sum of the weights of the true literals. *)
Fixpoint wsum (I : interp) (wl : list (lit * Z)) : Z :=
  match wl with [] => 0 | (l, w) :: r => (if 0 <? l then if I l then w else 0 else if I (- l) then 0 else w) + wsum I r end.

(** Truth of what was sent to clasp. *)
Definition ev_true (I : interp) (e : event) : Prop :=
  match e with
  | EClause _ c => clause_true I c
  | EWeight l wl b => lit_true I l -> wsum I wl <= b
  | _ => True
  end.
Definition ev_below (n : Z) (e : event) : Prop :=
  match e with
  | EClause _ c => Forall (below n) c
  | EWeight l wl _ => below n l /\ Forall (fun p => below n (fst p)) wl
  | _ => True
  end.

(** A value [n] agrees with the bounds and the order literals of a variable. *)
Definition means (v : vstate) (I : interp) (n : Z) : Prop :=
  minb v <= n <= maxb v /\ forall w l, In (w, l) (lits v) -> (lit_true I l <-> n <= w).
(** Integer assignments agreeing with all variables. *)
Definition order_ok (s : state) (I : interp) (nu : var -> Z) : Prop :=
  forall x, (x < nvars s)%nat -> means (vst s x) I (nu x).

Definition ext_nu (n : nat) (nu nu' : var -> Z) : Prop := forall x, (x < n)%nat -> nu' x = nu x.

Section Spec.
(** Everything clasp knows apart from what this solver sends: the program, clauses of other
    propagators; it does not mention solver variables from [n0] on. *)
Context (O : oracle) (Base : interp -> Prop) (n0 : Z).

Definition base_ok : Prop := forall I J, agree_below n0 I J -> Base I -> Base J.

(** The interpretations clasp still considers. *)
Definition good (s : state) (I : interp) : Prop := Base I /\ I 1 = true /\ Forall (ev_true I) (log s).

(** Communication after which the current callback goes on: everything but clauses and calls
    of propagate answered negatively, and the start of another callback. *)
Definition quiet (lg : list event) (e : event) : Prop :=
  match e with ECall _ => False | EClause _ _ | EProp => o_answer O (e :: lg) = true | _ => True end.
Inductive later (lg : list event) : list event -> Prop :=
| later_refl : later lg lg
| later_step : forall lg' e, later lg lg' -> quiet lg' e -> later lg (e :: lg').

(** What is assumed about clasp's assignment:
    - the literal TRUE_LIT is true and no literal is true together with its complement;
    - what is true on the top level, or fixed, follows from what clasp knows; being fixed
      is a matter of the solver variable (is_fixed does not depend on the sign);
    - during a callback the decision level stays the same and assigned literals stay
      assigned, unless clasp reports a conflict. *)
Record clasp_ok : Prop := {
  cl_one : forall lg, o_true O lg 1 = true;
  cl_cons : forall lg l, o_true O lg l = true -> o_true O lg (- l) = true -> False;
  cl_top : forall lg l I, o_true O lg l = true -> o_level O lg = 0%nat \/ o_fixed O lg l = true ->
    Base I -> I 1 = true -> Forall (ev_true I) lg -> lit_true I l;
  cl_level : forall lg e, quiet lg e -> o_level O (e :: lg) = o_level O lg;
  cl_mono : forall lg e l, quiet lg e -> o_true O lg l = true -> o_true O (e :: lg) l = true;
  cl_fixed : forall lg e l, quiet lg e -> o_fixed O lg l = true -> o_fixed O (e :: lg) l = true;
  cl_fixneg : forall lg l, o_fixed O lg l = true -> o_fixed O lg (- l) = true }.

(** The transition from [s] to [s'] keeps all solutions satisfying [P] (up to new literals and
    variables), adds no solutions, and all solutions left satisfy [Q]. *)
Record step (P Q : interp -> (var -> Z) -> Prop) (s s' : state) : Prop := {
  st_nxt : nxt s <= nxt s';
  st_nv : (nvars s <= nvars s')%nat;
  st_log : exists es, log s' = es ++ log s;
  st_fwd : forall I nu, good s I -> order_ok s I nu -> P I nu ->
    exists J nu', agree_below (nxt s) I J /\ ext_nu (nvars s) nu nu' /\ good s' J /\ order_ok s' J nu';
  st_bwd : forall I nu, good s' I -> order_ok s' I nu -> good s I /\ order_ok s I nu /\ Q I nu }.

(** Conditions that only depend on known literals and variables. *)
Definition dep (n : Z) (m : nat) (P : interp -> (var -> Z) -> Prop) : Prop :=
  forall I J nu nu', agree_below n I J -> ext_nu m nu nu' -> P I nu -> P J nu'.

End Spec.

(** ** Well-formed states *)

(** [l] is the literal of the greatest value of [m] below [w] ([d] if there is none), or of
    the smallest value above. *)
Definition nearest_below (m : list (Z * Z)) (w : Z) (d l : Z) : Prop :=
  (exists u, In (u, l) m /\ u < w /\ forall u' l', In (u', l') m -> u' < w -> u' <= u) \/
  (l = d /\ forall u' l', In (u', l') m -> w <= u').
Definition nearest_above (m : list (Z * Z)) (w : Z) (d l : Z) : Prop :=
  (exists u, In (u, l) m /\ w < u /\ forall u' l', In (u', l') m -> w < u' -> u <= u') \/
  (l = d /\ forall u' l', In (u', l') m -> u' <= w).

(** The literal an entry of the table of order literals stands for. *)
Definition elit (k : Z) (e : entry) : lit := if e_pos e then k else - k.

(** The table of order literals: every literal that is not true or false has exactly one
    entry, with its variable, value and neighbours. *)
Record wf_core (s : state) : Prop := {
  wf_nxt : 1 < nxt s;
  wf_sorted : forall x, (x < nvars s)%nat -> sorted (lits (vst s x));
  wf_lits : forall x w l, (x < nvars s)%nat -> In (w, l) (lits (vst s x)) ->
    below (nxt s) l /\
    (Z.abs l <> 1 -> exists e, lmap s (Z.abs l) = Some e /\ e_var e = x /\ e_val e = w /\ e_pos e = (0 <? l));
  wf_lmap : forall k e, lmap s k = Some e ->
    1 < k < nxt s /\ (e_var e < nvars s)%nat /\ In (e_val e, elit k e) (lits (vst s (e_var e))) /\
    nearest_below (lits (vst s (e_var e))) (e_val e) (- TRUE_LIT) (e_prev e) /\
    nearest_above (lits (vst s (e_var e))) (e_val e) TRUE_LIT (e_succ e);
  wf_log : Forall (ev_below (nxt s)) (log s);
  wf_top : cur_level s = 0%nat -> forall x, (x < nvars s)%nat -> lbs (vst s x) = [] /\ ubs (vst s x) = [] }.

(** The facts not yet integrated are exactly the order literals stored as true or false. *)
Record wf_facts (fs : list fact) (s : state) : Prop := {
  wff_in : forall f, In f fs -> (f_lit f = TRUE_LIT \/ f_lit f = - TRUE_LIT) /\ (f_var f < nvars s)%nat /\
    In (f_val f, f_lit f) (lits (vst s (f_var f)));
  wff_nodup : NoDup (map (fun f => (f_var f, f_val f)) fs);
  wff_all : forall x w l, (x < nvars s)%nat -> In (w, l) (lits (vst s x)) -> Z.abs l = 1 ->
    exists f, In f fs /\ f_lit f = l /\ f_var f = x /\ f_val f = w }.

Definition wf (s : state) : Prop := wf_core s /\ wf_facts (fmap s) s.
