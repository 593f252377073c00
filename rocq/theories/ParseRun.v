(** Model of parsing.cc on the real builder: the parser reads the theory atoms of a program and drives the
    constraint builder of the propagator (Builder.v).  In Statements.v the builder is abstract; here it is the
    one of propagator.cc, so that the literals the builder makes itself, the facts clasp derives while
    parsing and the results of the calls are those of the program. *)
From Coq Require Import String.
From Verif Require Import Base Util IntervalSet VarState Terms Statements Solver Sum Search Builder.
Open Scope Z_scope.

(** The names of the variables (sym_map_, propagator.hh 202), the builder and what was done so far. *)
Record pr := mkpr { p_tab : symtab; p_b : bld; p_ops : list bop }.

Section Run.
(** [mn] and [mx] are the options min-int and max-int. *)
Context (O : oracle) (cfg : config) (srt : list (Z * var) -> list (Z * var)) (mn mx : Z).

(** A call of the builder (propagator.cc 52-262). *)
Definition p_call (c : bcall) : SM pr bool := fun s =>
  match build1 O cfg srt c (p_b s) with
  | Ok (ok, b) => Ok (ok, mkpr (p_tab s) b (p_ops s ++ [POp c]))
  | Throw e => Throw e
  | UB => UB
  end.
(** add_literal (propagator.cc 45). *)
Definition p_lit : SM pr lit := fun s =>
  let '(x, b) := b_literal (p_b s) in Ok (x, mkpr (p_tab s) b (p_ops s ++ [PLit])).
(** is_true (propagator.cc 46), on the top level of clasp. *)
Definition p_true (l : lit) : SM pr bool := fun s => Ok (is_true O (b_s (p_b s)) l, s).
(** Propagator::add_variable (propagator.cc 357-367) for each new name. *)
Fixpoint p_vars (n : nat) (s : pr) : pr :=
  match n with
  | 0%nat => s
  | S n => p_vars n (mkpr (p_tab s) (snd (on_s (Solver.add_variable mn mx) (p_b s))) (p_ops s ++ [PVar mn mx]))
  end.
(** Reading terms; the variables for new names are added in the order in which the names occur, and
    nothing else happens in between. *)
Definition p_read {A} (m : SM symtab A) : SM pr A := fun s =>
  match m (p_tab s) with
  | Ok (a, t) => Ok (a, p_vars (st_next t - st_next (p_tab s)) (mkpr t (p_b s) (p_ops s)))
  | Throw e => Throw e
  | UB => UB
  end.
(** "if (!m) return false; k" *)
Definition p_and (m : SM pr bool) (k : SM pr bool) : SM pr bool :=
  b <~ m ;; if b : bool then k else sret false.

(** normalize_constraint (parsing.cc 580-691), see [normalize]. *)
Fixpoint p_normalize {K} (addc : lit -> list (Z * K) -> Z -> bool -> SM pr bool) (fuel : nat)
    (l : lit) (elements : list (Z * K)) (op : rel) (rhs : Z) (strict : bool) : SM pr bool :=
  match fuel with
  | 0%nat => fun _ => UB
  | S fuel =>
      '(op, rhs) <~ slift (match op with
                           | RGt => r <- safe_add int32 rhs 1 ;; Ok (RGe, r)
                           | RLt => r <- safe_sub int32 rhs 1 ;; Ok (RLe, r)
                           | _ => Ok (op, rhs)
                           end) ;;
      '(op, rhs, elems) <~ slift (match op with
                                  | RGe => r <- safe_inv int32 rhs ;; es <- inv_all elements ;; Ok (RLe, r, es)
                                  | _ => Ok (op, rhs, elements)
                                  end) ;;
      let tail := fun op' =>
        (* parsing.cc 676-690 *)
        if strict then
          p_normalize addc fuel (- l) elems (match op' with RLe => RGt | RNe => REq | o => o end) rhs false
        else sret true in
      match op with
      | RLe =>
          if strict && Nat.eqb (List.length elems) 1 then addc l elems rhs true
          else
            f <~ p_true (- l) ;;
            if f : bool then tail RLe else p_and (addc l elems rhs false) (tail RLe)
      | REq =>
          if strict then
            f <~ p_true l ;;
            '(a, b) <~ (if f : bool then sret (TRUE_LIT, TRUE_LIT)
                        else a <~ p_lit ;; b <~ p_lit ;; sret (a, b)) ;;
            p_and (p_call (BClause [- l; a]))
            (p_and (p_call (BClause [- l; b]))
            (p_and (p_call (BClause [- a; - b; l]))
            (p_and (p_normalize addc fuel a elems RLe rhs strict)
            (p_and (p_normalize addc fuel b elems RGe rhs strict)
            (sret true)))))
          else
            p_and (p_normalize addc fuel l elems RLe rhs strict)
            (p_and (p_normalize addc fuel l elems RGe rhs strict)
            (tail REq))
      | RNe =>
          if strict then p_normalize addc fuel (- l) elems REq rhs true
          else
            a <~ p_lit ;; b <~ p_lit ;;
            p_and (p_call (BClause [a; b; - l]))
            (p_and (p_call (BClause [- a; - b]))
            (p_and (p_call (BClause [l; - a]))
            (p_and (p_call (BClause [l; - b]))
            (p_and (p_normalize addc fuel a elems RLt rhs false)
            (p_and (p_normalize addc fuel b elems RGt rhs false)
            (tail RNe))))))
      | _ => tail op
      end
  end.

(** add_constraint for linear and for non-linear terms (parsing.cc 461-488). *)
Definition p_addc_l (l : lit) (es : list lterm) (rhs : Z) (strict : bool) : SM pr bool :=
  es' <~ slift (Terms.strip es) ;; p_call (BSum l es' rhs strict).
Definition p_addc_n (l : lit) (es : list nterm) (rhs : Z) (strict : bool) : SM pr bool :=
  '(co_ab, va, vb, co_c, vc) <~ slift (nonlin_scan es (0, None, None, 0, None)) ;;
  p_call (BNonlin l co_ab va vb co_c vc rhs strict).

(** parse_constraint (parsing.cc 700-727) for linear and for non-linear terms. *)
Definition p_constraint_l (is_sum : bool) (a : tatom) (strict : bool) : SM pr bool :=
  match a_guard a with
  | None => slift (Throw Syntax)
  | Some (op, g) =>
      ts <~ p_read (if is_sum then parse_elems_sum lkey (a_elems a) (Some g)
                    else parse_elems_diff lkey (a_elems a) (Some g)) ;;
      '(es, rhs) <~ slift (simplify true ts) ;;
      let '(es, rhs) := gcd_reduce es rhs in
      p_normalize p_addc_l NORM_FUEL (a_lit a) es op rhs strict
  end.
Definition p_constraint_n (a : tatom) (strict : bool) : SM pr bool :=
  match a_guard a with
  | None => slift (Throw Syntax)
  | Some (op, g) =>
      ts <~ p_read (parse_elems_sum nkey (a_elems a) (Some g)) ;;
      '(es, rhs) <~ slift (simplify_n true ts) ;;
      let '(es, rhs) := gcd_reduce es rhs in
      p_normalize p_addc_n NORM_FUEL (a_lit a) es op rhs strict
  end.

(** parse_objective (parsing.cc 730-736). *)
Fixpoint p_add_min (factor : Z) (ts : list lterm) : SM pr unit :=
  match ts with
  | [] => sret tt
  | (co, v) :: r => c <~ slift (safe_mul int32 factor co) ;; _ <~ p_call (BMin c v) ;; p_add_min factor r
  end.
Definition p_objective (a : tatom) (factor : Z) : SM pr unit :=
  ts <~ p_read (parse_elems_sum lkey (a_elems a) None) ;; p_add_min factor ts.

(** parse_show_elem (parsing.cc 738-756) and parse_show (757-764). *)
Definition p_show_elem (t : tterm) : SM pr unit :=
  match op2 t "/" with
  | Some (x, y) =>
      sx <~ slift (evaluate x) ;;
      match sx with
      | SFun name [] _ =>
          sy <~ slift (evaluate y) ;; n <~ slift (num_of sy) ;;
          _ <~ p_call (BShowSig name n) ;; sret tt
      | _ => slift (Throw Syntax)
      end
  | None =>
      s <~ slift (evaluate t) ;;
      match s with
      | SNum _ => slift (Throw Syntax)
      | _ => v <~ p_read (Terms.add_variable s) ;; _ <~ p_call (BShowVar v) ;; sret tt
      end
  end.
Fixpoint p_show_elems (es : list telem) : SM pr unit :=
  match es with
  | [] => sret tt
  | ([t], true) :: r => _ <~ p_show_elem t ;; p_show_elems r
  | _ :: _ => slift (Throw Syntax)
  end.
Definition p_show (a : tatom) : SM pr unit := _ <~ p_call BShow ;; p_show_elems (a_elems a).

(** parse_dom (parsing.cc 785-804), parse_distinct (806-819), parse_disjoint (821-839). *)
Definition p_dom (a : tatom) : SM pr bool :=
  dom <~ slift (parse_dom_elems (a_elems a) []) ;;
  match a_guard a with
  | None => slift (Throw Syntax)
  | Some (_, g) =>
      s <~ slift (evaluate g) ;; v <~ p_read (Terms.add_variable s) ;;
      p_call (BDom (a_lit a) v dom)
  end.
Definition p_distinct (a : tatom) : SM pr bool :=
  es <~ p_read (parse_distinct_elems (a_elems a)) ;; p_call (BDistinct (a_lit a) es).
Definition p_disjoint (a : tatom) : SM pr bool :=
  es <~ p_read (parse_disjoint_elems (a_elems a)) ;; p_call (BDisjoint (a_lit a) es).

(** parse (parsing.cc 895-938). *)
Definition p_atom (a : tatom) : SM pr bool :=
  match a_kind a with
  | KSum body => p_constraint_l true a body
  | KDiff body => p_constraint_l false a body
  | KNsum body => p_constraint_n a body
  | KDistinct => p_distinct a
  | KDisjoint => p_disjoint a
  | KShow => _ <~ p_show a ;; sret true
  | KDom => p_dom a
  | KMinimize => _ <~ p_objective a 1 ;; sret true
  | KMaximize => _ <~ p_objective a (-1) ;; sret true
  | KOther => sret true
  end.
Fixpoint p_parse (atoms : list tatom) : SM pr bool :=
  match atoms with
  | [] => sret true
  | a :: r => b <~ p_atom a ;; if b : bool then p_parse r else sret false
  end.
End Run.
