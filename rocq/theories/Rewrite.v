(** Model of the rewriting of statements before grounding: shifting of integrity
    constraints, tagging of theory atoms and extension of element tuples
    (parsing.cc 49-243, 886-893). *)
From Coq Require Import String.
From Verif Require Import Base Util Terms.
Open Scope Z_scope.

(** ** Syntax trees *)

(** Theory terms with variables; [RFun] stands for functions, sequences and
    unparsed terms, which only differ in their name here. *)
Inductive rterm := RVar (name : string) | RSym (s : sym) | RFun (name : string) (args : list rterm).
(** An element: its tuple and its condition, a list of literals of which only
    the terms matter. *)
Record relem := mkrelem { e_tuple : list rterm; e_cond : list rterm }.
(** Names of theory atoms: function nodes, possibly with arguments.  The parser
    builds no other nodes here, so the branches of the code for symbolic terms are left out. *)
Inductive tname := NFun (name : string) (args : list rterm) (external : bool) | NOther.
Record ratom := mkratom { ra_name : tname; ra_elems : list relem; ra_guard : option (string * rterm) }.
Inductive sign := SPos | SNeg | SDouble.
(** Body literals and heads; nodes of other kinds are given by a number. *)
Inductive rlit := LTheory (s : sign) (a : ratom) | LOther (n : nat).
Inductive rhead := HBool (s : sign) (value : bool) | HTheory (a : ratom) | HOther (n : nat).
Record rrule := mkrrule { r_head : rhead; r_body : list rlit }.
Inductive rstmt := SRule (r : rrule) | SOther (n : nat).

(** ** Shifting *)

(** negate_relation (parsing.cc 49-69). *)
Definition negate_relation (op : string) : outcome string :=
  if String.eqb op "=" then Ok "!="%string
  else if String.eqb op "!=" then Ok "="%string
  else if String.eqb op "<" then Ok ">="%string
  else if String.eqb op "<=" then Ok ">"%string
  else if String.eqb op ">" then Ok "<="%string
  else if String.eqb op ">=" then Ok "<"%string
  else Throw Logic.

(** match (parsing.cc 73-90). *)
Definition matches (n : tname) (names : list string) : bool :=
  match n with
  | NFun x [] false => existsb (String.eqb x) names
  | _ => false
  end.

(** The loop of shift_rule (parsing.cc 111-137): [pre] are the literals before
    the current one; the result is the new head and body. *)
Fixpoint shift_body (pre body : list rlit) : outcome (option (ratom * list rlit)) :=
  match body with
  | [] => Ok None
  | LTheory s a :: post =>
      if matches (ra_name a) ["sum"; "diff"]%string then
        match ra_guard a with
        | None => Throw Syntax
        | Some (op, t) =>
            match s with
            | SNeg => Ok (Some (a, pre ++ post))
            | _ => op' <- negate_relation op ;; Ok (Some (mkratom (ra_name a) (ra_elems a) (Some (op', t)), pre ++ post))
            end
        end
      else shift_body (pre ++ [LTheory s a]) post
  | l :: post => shift_body (pre ++ [l]) post
  end.
(** shift_rule (parsing.cc 92-139). *)
Definition shift_rule (st : rstmt) : outcome rstmt :=
  match st with
  | SRule (mkrrule (HBool s v) body) =>
      if (negb v && match s with SNeg => true | _ => false end) || (v && match s with SNeg => false | _ => true end) then Ok st
      else
        r <- shift_body [] body ;;
        match r with
        | Some (a, body') => Ok (SRule (mkrrule (HTheory a) body'))
        | None => Ok st
        end
  | _ => Ok st
  end.

(** ** Tagging and tuples *)

(** tag_terms (parsing.cc 141-163). *)
Definition tag_terms (n : tname) (tag : string) : outcome tname :=
  match n with
  | NFun x args e => Ok (NFun ("__" ++ x ++ tag) args e)
  | NOther => Throw Syntax
  end.

(** A std::set of names ordered by strcmp (parsing.cc 165-169). *)
Fixpoint vinsert (x : string) (l : list string) : list string :=
  match l with
  | [] => [x]
  | y :: r => match String.compare x y with Eq => l | Lt => x :: l | Gt => y :: vinsert x r end
  end.
Definition verase (x : string) (l : list string) : list string := filter (fun y => negb (String.eqb x y)) l.
(** collect_variables (parsing.cc 171-186). *)
Fixpoint collect (t : rterm) (vars : list string) : list string :=
  match t with
  | RVar x => vinsert x vars
  | RSym _ => vars
  | RFun _ args => fold_left (fun v a => collect a v) args vars
  end.
Definition collect_all (ts : list rterm) : list string := fold_left (fun v a => collect a v) ts [].

(** rewrite_tuple (parsing.cc 190-211). *)
Definition rewrite_tuple (e : relem) (number : Z) : outcome relem :=
  match e_tuple e with
  | [t] =>
      let vars := collect_all (e_cond e) in
      let vars := fold_left (fun v x => verase x v) (collect_all (e_tuple e)) vars in
      let vars := verase "_" vars in
      let tuple := if 0 <=? number then [t; RSym (SNum number)] else [t] in
      Ok (mkrelem (tuple ++ map RVar vars) (e_cond e))
  | _ => Throw Syntax
  end.
(** The loop over the elements (parsing.cc 226-229); the number is an int and
    does not overflow for less than 2^31 elements. *)
Fixpoint rewrite_elems (es : list relem) (number : Z) : outcome (list relem) :=
  match es with
  | [] => Ok []
  | e :: r => e' <- rewrite_tuple e number ;; r' <- rewrite_elems r (number + 1) ;; Ok (e' :: r')
  end.
(** TheoryRewriter::operator() for theory atoms (parsing.cc 221-237). *)
Definition rewrite_atom (in_literal : bool) (a : ratom) : outcome ratom :=
  if matches (ra_name a) ["sum"; "nsum"; "diff"; "distinct"; "disjoint"; "minimize"; "maximize"]%string then
    es <- rewrite_elems (ra_elems a) (if (1 <? Z.of_nat (List.length (ra_elems a))) then 0 else -1) ;;
    if matches (ra_name a) ["sum"; "nsum"; "diff"]%string then
      n <- tag_terms (ra_name a) (if in_literal then "_b" else "_h") ;;
      Ok (mkratom n es (ra_guard a))
    else Ok (mkratom (ra_name a) es (ra_guard a))
  else Ok a.
(** The traversal (parsing.cc 213-220, 240): theory atoms in bodies are within
    literals, those in heads are not. *)
Definition rewrite_head (h : rhead) : outcome rhead :=
  match h with HTheory a => a' <- rewrite_atom false a ;; Ok (HTheory a') | _ => Ok h end.
Fixpoint rewrite_body (b : list rlit) : outcome (list rlit) :=
  match b with
  | [] => Ok []
  | LTheory s a :: r => a' <- rewrite_atom true a ;; r' <- rewrite_body r ;; Ok (LTheory s a' :: r')
  | l :: r => r' <- rewrite_body r ;; Ok (l :: r')
  end.
(** transform (parsing.cc 886-893) for a statement without pools. *)
Definition transform (shift : bool) (st : rstmt) : outcome rstmt :=
  st <- (if shift then shift_rule st else Ok st) ;;
  match st with
  | SRule (mkrrule h b) => h' <- rewrite_head h ;; b' <- rewrite_body b ;; Ok (SRule (mkrrule h' b'))
  | SOther _ => Ok st
  end.
