(** Meaning of constraints under an assignment of integers to variables. *)
From Verif Require Import Base Terms TermsSpec Solver.
Open Scope Z_scope.

(** Value of a linear expression. *)
Fixpoint lval (nu : var -> Z) (es : list (Z * var)) : Z :=
  match es with [] => 0 | (co, x) :: r => co * nu x + lval nu r end.
(** Intervals [a, a + v) and [b, b + w) have no point in common. *)
Definition apart (a v b w : Z) : Prop := forall p, ~ (a <= p < a + v /\ b <= p < b + w).

Definition csem (mb : option Z) (d : constr) (I : interp) (nu : var -> Z) : Prop :=
  match d with
  | CSum l rhs es => lit_true I l -> lval nu es <= rhs
  | CMin _ es => match mb with Some b => lval nu es <= b | None => True end
  | CDistinct l es => lit_true I l -> ForallOrdPairs (fun e f => fst e + lval nu (snd e) <> fst f + lval nu (snd f)) es
  | CDisjoint l es => lit_true I l -> ForallOrdPairs (fun e f => apart (nu (snd e)) (fst e) (nu (snd f)) (fst f)) es
  | CNonlin l coa x y cob z rhs => lit_true I l -> coa * nu x * nu y + (match z with Some z => cob * nu z | None => 0 end) <= rhs
  end.

(** The variables of a constraint exist. *)
Definition cvars (d : constr) : list var :=
  match d with
  | CSum _ _ es | CMin _ es | CDisjoint _ es => map snd es
  | CDistinct _ es => concat (map (fun e => map snd (snd e)) es)
  | CNonlin _ _ x y _ z _ => x :: y :: match z with Some z => [z] | None => [] end
  end.
