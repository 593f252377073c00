(** Model of parsing.cc: theory atoms of all kinds (parse_constraint,
    parse_objective, parse_show, parse_dom, parse_distinct, parse_disjoint, parse). *)
From Coq Require Import String.
From Verif Require Import Base Util IntervalSet Terms.
Open Scope Z_scope.

(** The names matched in parse (parsing.cc 895-938); [KOther] is any other name,
    which is skipped. *)
Inductive kind := KSum (body : bool) | KDiff (body : bool) | KNsum (body : bool)
| KDistinct | KDisjoint | KShow | KDom | KMinimize | KMaximize | KOther.

(** A theory atom: kind, elements, optional guard and solver literal (the result
    of [builder.solver_literal(atom.literal())]). *)
Record tatom := mkatom { a_kind : kind; a_elems : list telem; a_guard : option (rel * tterm); a_lit : lit }.

(** Parser state: the variable table and the builder. *)
Definition pst := (symtab * bst)%type.
Definition on_tab {A} (m : SM symtab A) : SM pst A := fun s =>
  match m (fst s) with Ok (a, t) => Ok (a, (t, snd s)) | Throw e => Throw e | UB => UB end.
Definition on_bld {A} (m : SM bst A) : SM pst A := fun s =>
  match m (snd s) with Ok (a, b) => Ok (a, (fst s, b)) | Throw e => Throw e | UB => UB end.

Section Parse.
Variable is_true : lit -> bool.
Variable ret : list bcall -> bool.

(** parse_constraint (parsing.cc 700-727), linear, sums and differences. *)
Definition parse_constraint_l (is_sum : bool) (a : tatom) (strict : bool) : SM pst bool :=
  match a_guard a with
  | None => slift (Throw Syntax)
  | Some (op, g) =>
      ts <~ on_tab (if is_sum then parse_elems_sum lkey (a_elems a) (Some g)
                    else parse_elems_diff lkey (a_elems a) (Some g)) ;;
      on_bld (constrain_l is_true ret (a_lit a) ts op strict)
  end.
(** parse_constraint<NonlinearTermVec>. *)
Definition parse_constraint_n (a : tatom) (strict : bool) : SM pst bool :=
  match a_guard a with
  | None => slift (Throw Syntax)
  | Some (op, g) =>
      ts <~ on_tab (parse_elems_sum nkey (a_elems a) (Some g)) ;;
      on_bld (constrain_n is_true ret (a_lit a) ts op strict)
  end.

(** parse_objective (parsing.cc 730-736). *)
Fixpoint add_min (factor : Z) (ts : list lterm) : SM pst unit :=
  match ts with
  | [] => sret tt
  | (co, v) :: r =>
      c <~ slift (safe_mul int32 factor co) ;;
      _ <~ on_bld (call ret (BMin c v)) ;;
      add_min factor r
  end.
Definition parse_objective (a : tatom) (factor : Z) : SM pst unit :=
  ts <~ on_tab (parse_elems_sum lkey (a_elems a) None) ;; add_min factor ts.

(** parse_show_elem (parsing.cc 738-756); the string of a symbol that is not a
    function is never used because of the checks. *)
Definition parse_show_elem (t : tterm) : SM pst unit :=
  match op2 t "/" with
  | Some (x, y) =>
      sx <~ slift (evaluate x) ;;
      match sx with
      | SFun name [] _ =>
          sy <~ slift (evaluate y) ;; n <~ slift (num_of sy) ;;
          _ <~ on_bld (call ret (BShowSig name n)) ;; sret tt
      | _ => slift (Throw Syntax)
      end
  | None =>
      s <~ slift (evaluate t) ;;
      match s with
      | SNum _ => slift (Throw Syntax)
      | _ => v <~ on_tab (add_variable s) ;; _ <~ on_bld (call ret (BShowVar v)) ;; sret tt
      end
  end.
Fixpoint parse_show_elems (es : list telem) : SM pst unit :=
  match es with
  | [] => sret tt
  | ([t], true) :: r => _ <~ parse_show_elem t ;; parse_show_elems r
  | _ :: _ => slift (Throw Syntax)
  end.
(** parse_show (parsing.cc 757-764). *)
Definition parse_show (a : tatom) : SM pst unit :=
  _ <~ on_bld (call ret BShow) ;; parse_show_elems (a_elems a).

(** parse_dom_elem (parsing.cc 766-783). *)
Definition parse_dom_elem (t : tterm) : outcome (Z * Z) :=
  match op2 t ".." with
  | Some (x, y) =>
      sx <- evaluate x ;; a <- num_of sx ;; sy <- evaluate y ;; b <- num_of sy ;;
      r <- safe_add int32 b 1 ;; Ok (a, r)
  | None => s <- evaluate t ;; a <- num_of s ;; r <- safe_add int32 a 1 ;; Ok (a, r)
  end.
Fixpoint parse_dom_elems (es : list telem) (dom : iset) : outcome iset :=
  match es with
  | [] => Ok dom
  | ([t], true) :: rest =>
      '(l, r) <- parse_dom_elem t ;;
      if l <? r then
        _ <- check_valid_value l ;; r' <- safe_sub int32 r 1 ;; _ <- check_valid_value r' ;;
        parse_dom_elems rest (add dom l r)
      else parse_dom_elems rest dom
  | _ :: _ => Throw Syntax
  end.
(** parse_dom (parsing.cc 785-804). *)
Definition parse_dom (a : tatom) : SM pst bool :=
  dom <~ slift (parse_dom_elems (a_elems a) []) ;;
  match a_guard a with
  | None => slift (Throw Syntax)
  | Some (_, g) =>
      s <~ slift (evaluate g) ;; v <~ on_tab (add_variable s) ;;
      on_bld (call ret (BDom (a_lit a) v dom))
  end.

(** parse_distinct (parsing.cc 806-819); [drop_zero] defaults to true (parsing.hh 132). *)
Fixpoint parse_distinct_elems (es : list telem) : SM symtab (list (list (Z * var) * Z)) :=
  match es with
  | [] => sret []
  | (t :: _, true) :: rest =>
      ts <~ parse_elem lkey t ;;
      '(vec, rhs) <~ slift (simplify true ts) ;;
      c <~ slift (safe_inv int32 rhs) ;;
      vec' <~ slift (strip vec) ;;
      r <~ parse_distinct_elems rest ;;
      sret ((vec', c) :: r)
  | _ :: _ => slift (Throw Syntax)
  end.
Definition parse_distinct (a : tatom) : SM pst bool :=
  es <~ on_tab (parse_distinct_elems (a_elems a)) ;; on_bld (call ret (BDistinct (a_lit a) es)).

(** parse_disjoint (parsing.cc 821-839). *)
Fixpoint parse_disjoint_elems (es : list telem) : SM symtab (list (Z * var)) :=
  match es with
  | [] => sret []
  | (t :: _, true) :: rest =>
      match op2 t "@" with
      | None => slift (Throw Syntax)
      | Some (x, y) =>
          sx <~ slift (evaluate x) ;; sy <~ slift (evaluate y) ;;
          _ <~ slift (check_syntax (negb (is_num sx))) ;; n <~ slift (num_of sy) ;;
          if 0 <? n then
            n' <~ slift (check_valid_value n) ;; v <~ add_variable sx ;;
            r <~ parse_disjoint_elems rest ;; sret ((n', v) :: r)
          else parse_disjoint_elems rest
      end
  | _ :: _ => slift (Throw Syntax)
  end.
Definition parse_disjoint (a : tatom) : SM pst bool :=
  es <~ on_tab (parse_disjoint_elems (a_elems a)) ;; on_bld (call ret (BDisjoint (a_lit a) es)).

(** One round of the loop in parse (parsing.cc 897-936). *)
Definition parse_atom (a : tatom) : SM pst bool :=
  match a_kind a with
  | KSum body => parse_constraint_l true a body
  | KDiff body => parse_constraint_l false a body
  | KNsum body => parse_constraint_n a body
  | KDistinct => parse_distinct a
  | KDisjoint => parse_disjoint a
  | KShow => _ <~ parse_show a ;; sret true
  | KDom => parse_dom a
  | KMinimize => _ <~ parse_objective a 1 ;; sret true
  | KMaximize => _ <~ parse_objective a (-1) ;; sret true
  | KOther => sret true
  end.
(** parse (parsing.cc 895-938). *)
Fixpoint parse (atoms : list tatom) : SM pst bool :=
  match atoms with
  | [] => sret true
  | a :: r => b <~ parse_atom a ;; if b : bool then parse r else sret false
  end.
End Parse.
