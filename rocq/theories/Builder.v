(** Model of the constraint builder (propagator.cc 52-246): it turns what the parser reads into
    clauses, order literals and constraints of the master solver. *)
From Verif Require Import Base Util VarState Terms Solver Sum Search.
Open Scope Z_scope.

(** The master solver, the constraints of the propagator (constraints_) and the number of the
    next constraint; numbers stand for the addresses of constraints. *)
Record bld := mkb { b_s : state; b_cs : list (cid * constr); b_id : cid }.

(** Propagator::add_constraint (propagator.cc 384-388); statistics are left out. *)
Definition post (d : constr) (b : bld) : bld :=
  mkb (add_constraint (b_id b) d (b_s b)) (b_cs b ++ [(b_id b, d)]) (S (b_id b)).

(** The loop inverting coefficients (propagator.cc 64-68). *)
Fixpoint inv_terms (es : list (Z * var)) : outcome (list (Z * var)) :=
  match es with
  | [] => Ok []
  | (co, x) :: r => co <- safe_inv int32 co ;; r <- inv_terms r ;; Ok ((co, x) :: r)
  end.
(** Negation without check (propagator.cc 118-120, 151-153). *)
Fixpoint neg_terms (es : list (Z * var)) : outcome (list (Z * var)) :=
  match es with
  | [] => Ok []
  | (co, x) :: r => co <- ineg int32 co ;; r <- neg_terms r ;; Ok ((co, x) :: r)
  end.

Section Builder.
(** [srt] is the sorting of the terms of a constraint by coefficients, or the identity
    (option sort-constraints; constraints.hh 88-94, constraints.cc 1909-1915). *)
Context (O : oracle) (cfg : config) (srt : list (Z * var) -> list (Z * var)).

Definition on_s {A} (f : state -> A * state) (b : bld) : A * bld :=
  let '(a, s) := f (b_s b) in (a, mkb s (b_cs b) (b_id b)).
Definition b_clause (c : clause) (b : bld) : bool * bld := on_s (add_clause O Learnt c) b.
Definition b_literal (b : bld) : lit * bld := on_s add_literal b.

(** add_constraint (propagator.cc 52-73). *)
Definition b_sum (l : lit) (es : list (Z * var)) (rhs : Z) (strict : bool) (b : bld) : outcome (bool * bld) :=
  if negb strict && is_false O (b_s b) l then Ok (true, b)
  else
    match es with
    | [(co, x)] => Ok (on_s (add_simple O cfg l co x rhs strict) b)
    | _ =>
        let b := post (CSum l rhs (srt es)) b in
        if strict then
          ies <- inv_terms es ;;
          r <- safe_add int32 rhs 1 ;; r <- safe_inv int32 r ;;
          Ok (true, post (CSum (- l) r (srt ies)) b)
        else Ok (true, b)
    end.

(** add_nonlinear (propagator.cc 75-90).  The variables of a product exist; [None] is
    INVALID_VAR, for which the solver has no state. *)
Definition b_nonlinear (l : lit) (co_ab : Z) (va vb : option var) (co_c : Z) (vc : option var) (rhs : Z) (strict : bool) (b : bld) : outcome (bool * bld) :=
  if co_ab =? 0 then
    if co_c =? 0 then b_sum l [] rhs strict b
    else match vc with Some z => b_sum l [(co_c, z)] rhs strict b | None => UB end
  else
    match va, vb with
    | Some x, Some y =>
        let b := post (CNonlin l co_ab x y co_c vc rhs) b in
        if strict then
          r <- safe_add int32 rhs 1 ;; r <- safe_inv int32 r ;;
          ca <- safe_inv int32 co_ab ;; cc <- safe_inv int32 co_c ;;
          Ok (true, post (CNonlin l ca x y cc vc r) b)
        else Ok (true, b)
    | _, _ => UB
    end.

(** The body of the loops of add_distinct (propagator.cc 116-156); [fixed] says whether the
    literal was true when add_distinct was called. *)
Definition b_differ (l : lit) (fixed : bool) (e1 e2 : list (Z * var) * Z) (b : bld) : outcome (bool * bld) :=
  rhs <- isub int32 (snd e2) (snd e1) ;;
  ns <- neg_terms (fst e2) ;;
  '(vec, r) <- simplify true (map (fun t => (fst t, Some (snd t))) (fst e1 ++ ns)) ;;
  es <- Terms.strip vec ;;
  rhs <- iadd int32 rhs r ;;
  match es with
  | [] => if rhs =? 0 then Ok (b_clause [- l] b) else Ok (true, b)
  | _ =>
      let '(x, b) := b_literal b in
      let '(ok, (y, b)) :=
        if fixed then (true, (- x, b))
        else
          let '(y, b) := b_literal b in
          let '(ok, b) := b_clause [x; y; - l] b in
          if negb ok then (false, (y, b))
          else
            let '(ok, b) := b_clause [- x; - y] b in
            if negb ok then (false, (y, b))
            else
              let '(ok, b) := b_clause [l; - x] b in
              if negb ok then (false, (y, b)) else let '(ok, b) := b_clause [l; - y] b in (ok, (y, b)) in
      if negb ok then Ok (false, b)
      else
        r1 <- isub int32 rhs 1 ;; r1 <- check_valid_value r1 ;;
        '(ok, b) <- b_sum x es r1 false b ;;
        if negb ok then Ok (false, b)
        else
          ns <- neg_terms es ;;
          r2 <- ineg int32 rhs ;; r2 <- isub int32 r2 1 ;; r2 <- check_valid_value r2 ;;
          b_sum y ns r2 false b
  end.
(** add_distinct (propagator.cc 97-161); with at most two elements there is at most one pair. *)
Definition b_distinct (l : lit) (es : list (list (Z * var) * Z)) (b : bld) : outcome (bool * bld) :=
  if is_false O (b_s b) l then Ok (true, b)
  else if (2 <? length es)%nat then Ok (true, post (CDistinct l (map (fun e => (snd e, srt (fst e))) es)) b)
  else match es with
       | [e1; e2] => b_differ l (is_true O (b_s b) l) e1 e2 b
       | _ => Ok (true, b)
       end.

(** The first translate_disjoint_ (propagator.cc 163-173); the literal is 0 if none is known. *)
Definition dj_terms (i j : var) (rhs : Z) : outcome (lit * (list (Z * var) * Z)) :=
  '(vec, r) <- simplify true [(1, Some i); (-1, Some j)] ;;
  es <- Terms.strip vec ;;
  rhs <- iadd int32 rhs r ;;
  Ok (match es with [] => if 0 <=? rhs then TRUE_LIT else - TRUE_LIT | _ => 0 end, (es, rhs)).
(** The second translate_disjoint_ (propagator.cc 175-183). *)
Definition dj_lit (l : lit) (es : list (Z * var)) (rhs : Z) (b : bld) : outcome (bool * (lit * bld)) :=
  if l =? 0 then
    let '(l, b) := b_literal b in
    '(ok, b) <- b_sum l es rhs true b ;; Ok (ok, (l, b))
  else Ok (true, (l, b)).
(** The third translate_disjoint_ (propagator.cc 185-207). *)
Definition b_disjoint1 (l : lit) (i j : Z * var) (b : bld) : outcome (bool * bld) :=
  '(la, (ea, ra)) <- dj_terms (snd j) (snd i) 0 ;;
  if la =? - TRUE_LIT then Ok (true, b)
  else
    w <- isub int32 (fst j) 1 ;;
    '(lb, (eb, rb)) <- dj_terms (snd i) (snd j) w ;;
    if lb =? - TRUE_LIT then Ok (true, b)
    else
      '(ok, (la, b)) <- dj_lit la ea ra b ;;
      if negb ok then Ok (false, b)
      else
        '(ok, (lb, b)) <- dj_lit lb eb rb b ;;
        if negb ok then Ok (false, b) else Ok (b_clause [- l; - la; - lb] b).
(** add_disjoint (propagator.cc 209-242); with at most two elements there is at most one pair. *)
Definition b_disjoint (l : lit) (es : list (Z * var)) (b : bld) : outcome (bool * bld) :=
  if is_false O (b_s b) l then Ok (true, b)
  else if (2 <? length es)%nat then Ok (true, post (CDisjoint l es) b)
  else match es with
       | [i; j] =>
           '(ok, b) <- b_disjoint1 l i j b ;;
           if negb ok then Ok (false, b) else b_disjoint1 l j i b
       | _ => Ok (true, b)
       end.
(** add_dom (propagator.cc 244-246). *)
Definition b_dom (l : lit) (x : var) (dom : list (Z * Z)) (b : bld) : bool * bld :=
  if is_false O (b_s b) l then (true, b) else on_s (add_dom O cfg l x dom) b.

(** A call of the parser; those for the objective function (Objective.v) and for showing
    (Interface.v) do not change the solver. *)
Definition build1 (c : bcall) (b : bld) : outcome (bool * bld) :=
  match c with
  | BClause c => Ok (b_clause c b)
  | BSum l es rhs strict => b_sum l es rhs strict b
  | BNonlin l co_ab va vb co_c vc rhs strict => b_nonlinear l co_ab va vb co_c vc rhs strict b
  | BDistinct l es => b_distinct l es b
  | BDisjoint l es => b_disjoint l es b
  | BDom l x dom => Ok (b_dom l x dom b)
  | BMin _ _ | BShow | BShowSig _ _ | BShowVar _ => Ok (true, b)
  end.

(** What the parser does: calls, asking for a new literal, adding a variable (Propagator::add_variable,
    propagator.cc 357-367).  It stops at the first call that fails. *)
Inductive bop := POp (c : bcall) | PLit | PVar (mn mx : Z).
Fixpoint build (ops : list bop) (b : bld) : outcome (bool * bld) :=
  match ops with
  | [] => Ok (true, b)
  | POp c :: ops => '(ok, b) <- build1 c b ;; if negb ok then Ok (false, b) else build ops b
  | PLit :: ops => build ops (snd (b_literal b))
  | PVar mn mx :: ops => build ops (snd (on_s (add_variable mn mx) b))
  end.
End Builder.
