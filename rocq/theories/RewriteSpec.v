(** Meaning of rules and ground tuples. *)
From Coq Require Import String.
From Verif Require Import Base Terms Rewrite.
Open Scope Z_scope.

(** ** Rules *)

(** The relations. *)
Definition compares (op : string) (x y : Z) : option Prop :=
  if String.eqb op "=" then Some (x = y)
  else if String.eqb op "!=" then Some (x <> y)
  else if String.eqb op "<" then Some (x < y)
  else if String.eqb op "<=" then Some (x <= y)
  else if String.eqb op ">" then Some (x > y)
  else if String.eqb op ">=" then Some (x >= y)
  else None.

(** What the parts of a rule mean in a given state of affairs: the value of the
    elements and of the guard of a theory atom (that is, under some integer assignment), and the truth of everything else. *)
Record world := { w_elems : tname -> list relem -> Z; w_guard : rterm -> Z; w_other : nat -> bool; w_atom : ratom -> bool }.
Definition is_sum (n : tname) : Prop := exists x, n = NFun x [] false /\ (x = "sum" \/ x = "diff")%string.
(** Theory atoms [&sum] and [&diff] with a guard hold iff the comparison does. *)
Definition proper (w : world) : Prop :=
  forall a op t p, is_sum (ra_name a) -> ra_guard a = Some (op, t) -> compares op (w_elems w (ra_name a) (ra_elems a)) (w_guard w t) = Some p ->
    (w_atom w a = true <-> p).
Definition lit_holds (w : world) (l : rlit) : Prop :=
  match l with LTheory SNeg a => w_atom w a = false | LTheory _ a => w_atom w a = true | LOther n => w_other w n = true end.
Definition head_holds (w : world) (h : rhead) : Prop :=
  match h with
  | HBool SNeg v => v = false
  | HBool _ v => v = true
  | HTheory a => w_atom w a = true
  | HOther n => w_other w n = true
  end.
(** A rule allows a state of affairs if its head holds whenever its body does. *)
Definition allows (w : world) (st : rstmt) : Prop :=
  match st with SRule r => (forall l, In l (r_body r) -> lit_holds w l) -> head_holds w (r_head r) | SOther n => w_other w n = true end.

(** Integrity constraints: the head is never true. *)
Definition integrity (st : rstmt) : Prop :=
  exists r s v, st = SRule r /\ r_head r = HBool s v /\ forall w, ~ head_holds w (r_head r).
Definition shiftable (st : rstmt) : Prop :=
  exists r s a, st = SRule r /\ In (LTheory s a) (r_body r) /\ is_sum (ra_name a).

(** The relations allowed by the theory definition (parsing.hh 71-76) for the atoms after rewriting. *)
Definition allowed_guards (name : string) : list string :=
  if String.eqb name "__diff_h" || String.eqb name "__diff_b" then ["<="]%string
  else ["<="; "="; "!="; "<"; ">"; ">="]%string.
Definition well_guarded (a : ratom) : Prop :=
  forall x op t, ra_name a = NFun x [] false -> ra_guard a = Some (op, t) -> In op (allowed_guards x).
Definition atoms_of (st : rstmt) : list ratom :=
  match st with
  | SRule r => match r_head r with HTheory a => [a] | _ => [] end ++ flat_map (fun l => match l with LTheory _ a => [a] | _ => [] end) (r_body r)
  | SOther _ => []
  end.

(** ** Ground tuples *)

(** Theory terms are not evaluated by the grounder: variables are replaced and nothing else happens. *)
Inductive gterm := GSym (s : sym) | GFun (name : string) (args : list gterm).
Fixpoint gsubst (sg : string -> gterm) (t : rterm) : gterm :=
  match t with RVar x => sg x | RSym s => GSym s | RFun n args => GFun n (map (gsubst sg) args) end.
Inductive occurs (x : string) : rterm -> Prop :=
| oc_var : occurs x (RVar x)
| oc_fun n args t : In t args -> occurs x t -> occurs x (RFun n args).
(** The named variables of an element; [_] is anonymous. *)
Definition var_of (e : relem) (x : string) : Prop := x <> "_"%string /\ exists t, In t (e_tuple e ++ e_cond e) /\ occurs x t.
Definition ground_tuple (sg : string -> gterm) (e : relem) : list gterm := map (gsubst sg) (e_tuple e).
Definition rewritten (n : tname) : Prop :=
  exists x, n = NFun x [] false /\ In x ["sum"; "nsum"; "diff"; "distinct"; "disjoint"; "minimize"; "maximize"]%string.
