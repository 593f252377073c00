(** From the theory atoms of a program to its answers: what is asked for. *)
From Coq Require Import String.
From Verif Require Import Base Terms TermsSpec Statements StatementsSpec.
Open Scope Z_scope.

(** Atoms that are covered: sums and differences, sums with at most one product in the head, distinct, disjoint, domains that are not
    empty, objective functions and show statements.  (Sums with more than one product and with products in the body are not handled
    correctly by the code, see C09.) *)
Definition covered (a : tatom) : Prop :=
  match a_kind a with
  | KNsum body => body = false /\ forall t, one_product_atom a t
  | KDom => exists t z, In ([t], true) (a_elems a) /\ dom_lists t z
  | _ => True
  end.
(** The same atom as a fact. *)
Definition as_fact (a : tatom) : tatom := mkatom (a_kind a) (a_elems a) (a_guard a) TRUE_LIT.
(** Distinct and disjoint statements over more than two elements and sums with products hold whether or not they are conditional; sums
    with products do not use [!=], which is translated with conditions (see C47). *)
Definition holds_firmly (rho : sym -> Z) (a : tatom) (I : interp) : Prop :=
  match a_kind a with
  | KDistinct | KDisjoint => (length (a_elems a) <= 2)%nat \/ atom_means rho (as_fact a) I
  | KNsum _ => (forall g, a_guard a <> Some (RNe, g)) /\ atom_means rho (as_fact a) I
  | _ => True
  end.
(** An answer: the values [rho] of the names in [t] are between [mn] and [mx], and all atoms mean what they should. *)
Definition in_range (mn mx : Z) (t : symtab) (rho : sym -> Z) : Prop := forall s v, In (s, v) (st_map t) -> mn <= rho s <= mx.
Definition answers (mn mx : Z) (t : symtab) (atoms : list tatom) (rho : sym -> Z) (I : interp) : Prop :=
  in_range mn mx t rho /\ Forall (fun a => atom_means rho a I) atoms.

(** A simple way to see that there is at most one product: the number of constants, of summands with one variable and of products of two or
    more variables in a term, multiplied out. *)
Fixpoint summands (t : tterm) : nat * nat * nat :=
  match t with
  | TNum _ => (1, 0, 0)%nat
  | TFun f [a; b] =>
      if String.eqb f "+" || String.eqb f "-" then
        let '(i, j, k) := summands a in let '(i', j', k') := summands b in (i + i', j + j', k + k')%nat
      else if String.eqb f "*" then
        let '(i, j, k) := summands a in let '(i', j', k') := summands b in
        (i * i', i * j' + j * i', i * k' + j * (j' + k') + k * (i' + j' + k'))%nat
      else if String.eqb f "**" || String.eqb f "/" || String.eqb f "\" then (1, 0, 0)%nat
      else (0, 1, 0)%nat
  | TFun f [a] => if String.eqb f "-" || String.eqb f "+" then summands a else (0, 1, 0)%nat
  | _ => (0, 1, 0)%nat
  end.
Definition products (t : tterm) : nat := snd (summands t).
Definition written_products (a : tatom) : nat :=
  list_sum (map (fun e => match fst e with t :: _ => products t | [] => 0%nat end) (a_elems a)) + match a_guard a with Some (_, g) => products g | None => 0%nat end.
