(** Model of parsing.cc: theory terms, evaluation, reading of sums,
    simplification and normalisation of constraints. *)
From Coq Require Import String Ascii.
From Verif Require Import Base Util.
From Coq Require Export Ascii.
Import StringSyntax.
Open Scope Z_scope.

(** ** State and exceptions *)
Definition SM (S A : Type) := S -> outcome (A * S).
Definition sret {S A} (a : A) : SM S A := fun s => Ok (a, s).
Definition sbind {S A B} (m : SM S A) (f : A -> SM S B) : SM S B :=
  fun s => match m s with Ok (a, s') => f a s' | Throw e => Throw e | UB => UB end.
Definition slift {S A} (m : outcome A) : SM S A :=
  fun s => match m with Ok a => Ok (a, s) | Throw e => Throw e | UB => UB end.
Notation "x <~ m ;; k" := (sbind m (fun x => k)) (at level 61, m at next level, right associativity).
Notation "' p <~ m ;; k" := (sbind m (fun x => let 'p := x in k))
  (at level 61, p pattern, m at next level, right associativity).

(** throw_syntax_error / check_syntax (parsing.cc 39-47). *)
Definition syntax_error {A} : outcome A := Throw Syntax.
Definition check_syntax (b : bool) : outcome unit := if b then Ok tt else Throw Syntax.

(** ** Symbols and theory terms (clingo's Symbol and TheoryTerm) *)

(** Clingo symbols: numbers, strings, functions (name, arguments, sign);
    tuples are functions with empty name.  #inf/#sup cannot be produced by evaluate. *)
Inductive sym := SNum (n : Z) | SStr (s : string) | SFun (name : string) (args : list sym) (pos : bool).

(** Theory terms: number, symbol, function (operators are functions), tuple;
    lists and sets are other compounds. *)
Inductive tterm :=
| TNum (n : Z) | TSym (name : string) | TFun (name : string) (args : list tterm)
| TTup (args : list tterm) | TOther (args : list tterm).

Definition is_num (s : sym) : bool := match s with SNum _ => true | _ => false end.

(** safe_pow (parsing.cc 255-267).  Simplification: [std::pow] on doubles is
    taken to be exact when the exact result fits 32 bits and to compare
    correctly with the 32 bit limits otherwise; a negative exponent gives a
    quotient that the cast truncates. *)
Definition safe_pow (a b : Z) : outcome Z :=
  if a =? 0 then Throw Overflow else
  let r := if 0 <=? b then a ^ b
           else if a =? 1 then 1
           else if a =? -1 then (if Z.even b then 1 else -1)
           else 0 in
  if imax int32 <? r then Throw Overflow
  else if r <? imin int32 then Throw Underflow
  else Ok r.

(** unquote (parsing.cc 269-300); an unknown escape violates the assertion. *)
Fixpoint unquote (str : string) (slash : bool) : outcome string :=
  match str with
  | EmptyString => Ok EmptyString
  | String c r =>
      if slash then
        (if Ascii.eqb c "n" then s <- unquote r false ;; Ok (String "010" s)
         else if Ascii.eqb c "\" then s <- unquote r false ;; Ok (String "\" s)
         else if Ascii.eqb c """" then s <- unquote r false ;; Ok (String """" s)
         else UB)
      else if Ascii.eqb c "\" then unquote r true
      else s <- unquote r false ;; Ok (String c s)
  end.

(** First and last character are quotes (parsing.cc 306). *)
Definition first_char (s : string) : option ascii := match s with EmptyString => None | String c _ => Some c end.
Fixpoint last_char (s : string) : option ascii :=
  match s with EmptyString => None | String c EmptyString => Some c | String _ r => last_char r end.
Definition is_quoted (s : string) : bool :=
  match first_char s, last_char s with
  | Some a, Some b => Ascii.eqb a """" && Ascii.eqb b """"
  | _, _ => false
  end.
(** The characters between the quotes.  For the one character string [""""] the
    C++ range would be reversed (begin+1 > end-1); clingo's lexer never produces it. *)
Definition inner (s : string) : outcome string :=
  if Nat.ltb (String.length s) 2 then UB else Ok (substring 1 (String.length s - 2) s).

(** match(term, name, arity) (parsing.cc 940-944) on operator applications. *)
Definition op2 (t : tterm) (name : string) : option (tterm * tterm) :=
  match t with
  | TFun n [a; b] => if String.eqb n name then Some (a, b) else None
  | _ => None
  end.
Definition op1 (t : tterm) (name : string) : option tterm :=
  match t with
  | TFun n [a] => if String.eqb n name then Some a else None
  | _ => None
  end.

Definition num_of (s : sym) : outcome Z := match s with SNum n => Ok n | _ => Throw Syntax end.

(** Binary arithmetic on evaluated arguments (parsing.cc 246-253). *)
Definition ev2 (ea eb : outcome sym) (f : Z -> Z -> outcome Z) : outcome sym :=
  sa <- ea ;; a <- num_of sa ;; sb <- eb ;; b <- num_of sb ;; r <- f a b ;; Ok (SNum r).

(** Does [match(term, name, 2)] succeed for one of the binary operators? *)
Definition bin_op (name : string) : option (Z -> Z -> outcome Z) :=
  if String.eqb name "+" then Some (safe_add int32)
  else if String.eqb name "-" then Some (safe_sub int32)
  else if String.eqb name "*" then Some (safe_mul int32)
  else if String.eqb name "/" then Some (safe_div int32)
  else if String.eqb name "\" then Some (safe_mod int32)
  else if String.eqb name "**" then Some safe_pow
  else None.

(** evaluate (parsing.cc 302-358). *)
Fixpoint evaluate (t : tterm) : outcome sym :=
  let eval_args := fix go (l : list tterm) : outcome (list sym) :=
    match l with [] => Ok [] | a :: r => s <- evaluate a ;; ss <- go r ;; Ok (s :: ss) end in
  match t with
  | TSym name =>
      if is_quoted name then i <- inner name ;; s <- unquote i false ;; Ok (SStr s)
      else Ok (SFun name [] true)
  | TNum n => Ok (SNum n)
  | TFun name [a; b] =>
      match bin_op name with
      | Some f => ev2 (evaluate a) (evaluate b) f
      | None =>
          if String.eqb name ".." then Throw Syntax
          else ss <- eval_args [a; b] ;; Ok (SFun name ss true)
      end
  | TFun name [a] =>
      if String.eqb name "-" then
        s <- evaluate a ;;
        match s with
        | SNum n => r <- safe_inv int32 n ;; Ok (SNum r)
        | SFun n args pos => if Nat.ltb 0 (String.length n) then Ok (SFun n args (negb pos)) else Throw Syntax
        | SStr _ => Throw Syntax
        end
      else ss <- eval_args [a] ;; Ok (SFun name ss true)
  | TFun name args => ss <- eval_args args ;; Ok (SFun name ss true)
  | TTup args => ss <- eval_args args ;; Ok (SFun EmptyString ss true)
  | TOther _ => Throw Syntax
  end.

Fixpoint sym_eqb (a b : sym) : bool :=
  match a, b with
  | SNum x, SNum y => x =? y
  | SStr x, SStr y => String.eqb x y
  | SFun n xs p, SFun m ys q =>
      String.eqb n m && Bool.eqb p q &&
      (fix go (l1 l2 : list sym) : bool :=
         match l1, l2 with
         | [], [] => true
         | x :: r, y :: s => sym_eqb x y && go r s
         | _, _ => false
         end) xs ys
  | _, _ => false
  end.

(** ** Variables *)

(** sym_map_/var_map_ and the number of solver variables (propagator.hh 202-203,
    solver.cc 407-416).  Auxiliary variables have no symbol. *)
Record symtab := mksymtab { st_map : list (sym * var); st_next : nat }.

Fixpoint sym_find (s : sym) (m : list (sym * var)) : option var :=
  match m with [] => None | (s', v) :: r => if sym_eqb s s' then Some v else sym_find s r end.

(** Propagator::add_variable (propagator.cc 357-367). *)
Definition add_variable (s : sym) : SM symtab var := fun st =>
  match sym_find s (st_map st) with
  | Some v => Ok (v, st)
  | None => Ok (st_next st, mksymtab ((s, st_next st) :: st_map st) (S (st_next st)))
  end.

(** ** Linear and non-linear term vectors *)

(** Linear terms: coefficient and variable, [None] for INVALID_VAR (a constant).
    Non-linear terms: coefficient and list of variables. *)
Definition lterm := (Z * option var)%type.
Definition nterm := (Z * list var)%type.

(** The overloads push_co, push_co_var, push_co_vars (parsing.cc 375-397) for
    linear and non-linear term vectors: how a key for a constant, for a
    variable and for the product of two keys looks. *)
Record keyops (K : Type) := mkkeyops {
  k_one : K;
  k_var : var -> K;
  k_mul : K -> K -> outcome K }.
Arguments k_one {K}. Arguments k_var {K}. Arguments k_mul {K}.

(** push_co_vars for linear terms (parsing.cc 383-391). *)
Definition lkey : keyops (option var) :=
  mkkeyops _ None Some
    (fun l r => match l, r with
                | None, _ => Ok r
                | Some _, None => Ok l
                | Some _, Some _ => Throw Syntax
                end).
(** push_co_vars for non-linear terms (parsing.cc 393-397). *)
Definition nkey : keyops (list var) := mkkeyops _ [] (fun v => [v]) (fun l r => Ok (l ++ r)).

Definition inv_all {K} (ts : list (Z * K)) : outcome (list (Z * K)) :=
  fold_right (fun t acc => c <- safe_inv int32 (fst t) ;; r <- acc ;; Ok ((c, snd t) :: r)) (Ok []) ts.

(** The double loop over the products (parsing.cc 539-543). *)
Fixpoint mul_row {K} (ko : keyops K) (l : Z * K) (rs : list (Z * K)) : outcome (list (Z * K)) :=
  match rs with
  | [] => Ok []
  | r :: rest =>
      c <- safe_mul int32 (fst l) (fst r) ;; k <- k_mul ko (snd l) (snd r) ;;
      t <- mul_row ko l rest ;; Ok ((c, k) :: t)
  end.
Fixpoint mul_all {K} (ko : keyops K) (ls rs : list (Z * K)) : outcome (list (Z * K)) :=
  match ls with
  | [] => Ok []
  | l :: rest => a <- mul_row ko l rs ;; b <- mul_all ko rest rs ;; Ok (a ++ b)
  end.

(** parse_constraint_elem for sums (parsing.cc 512-551).  The result is the list
    of terms appended to [res]. *)
Fixpoint parse_elem {K} (ko : keyops K) (t : tterm) : SM symtab (list (Z * K)) :=
  match t with
  | TNum n => sret [(n, k_one ko)]
  | TFun name [a; b] =>
      if String.eqb name "+" then
        ra <~ parse_elem ko a ;; rb <~ parse_elem ko b ;; sret (ra ++ rb)
      else if String.eqb name "-" then
        ra <~ parse_elem ko a ;; rb <~ parse_elem ko b ;; rb' <~ slift (inv_all rb) ;; sret (ra ++ rb')
      else if String.eqb name "*" then
        ra <~ parse_elem ko a ;; rb <~ parse_elem ko b ;; slift (mul_all ko ra rb)
      else if String.eqb name "**" || String.eqb name "/" || String.eqb name "\" then
        s <~ slift (evaluate t) ;; n <~ slift (num_of s) ;; sret [(n, k_one ko)]
      else
        s <~ slift (evaluate t) ;; v <~ add_variable s ;; sret [(1, k_var ko v)]
  | TFun name [a] =>
      if String.eqb name "-" then ra <~ parse_elem ko a ;; slift (inv_all ra)
      else if String.eqb name "+" then parse_elem ko a
      else s <~ slift (evaluate t) ;; v <~ add_variable s ;; sret [(1, k_var ko v)]
  | TSym _ | TFun _ _ | TTup _ =>
      s <~ slift (evaluate t) ;; v <~ add_variable s ;; sret [(1, k_var ko v)]
  | TOther _ => slift (Throw Syntax)
  end.

(** One side of a difference (parsing.cc 496-508). *)
Definition parse_diff_side {K} (ko : keyops K) (sign : Z) (t : tterm) : SM symtab (list (Z * K)) :=
  s <~ slift (evaluate t) ;;
  match s with
  | SNum n => n' <~ slift (if sign =? 1 then Ok n else safe_inv int32 n) ;; sret [(n', k_one ko)]
  | _ => v <~ add_variable s ;; sret [(sign, k_var ko v)]
  end.

(** parse_constraint_elem for differences (parsing.cc 492-511). *)
Definition parse_diff {K} (ko : keyops K) (t : tterm) : SM symtab (list (Z * K)) :=
  match op2 t "-" with
  | Some (a, b) => ra <~ parse_diff_side ko 1 a ;; rb <~ parse_diff_side ko (-1) b ;; sret (ra ++ rb)
  | None => slift (Throw Syntax)
  end.

(** A theory element: tuple and whether its condition is empty. *)
Definition telem := (list tterm * bool)%type.

Fixpoint parse_elem_list {K} (f : tterm -> SM symtab (list (Z * K))) (es : list telem) : SM symtab (list (Z * K)) :=
  match es with
  | [] => sret []
  | (tuple, cond_empty) :: rest =>
      match tuple with
      | t :: _ =>
          _ <~ slift (check_syntax cond_empty) ;;
          r <~ f t ;; rs <~ parse_elem_list f rest ;; sret (r ++ rs)
      | [] => slift (Throw Syntax)
      end
  end.

(** parse_constraint_elems (parsing.cc 554-578) for sums; the guard, if any, is
    moved to the left with inverted coefficients. *)
Definition parse_elems_sum {K} (ko : keyops K) (es : list telem) (guard : option tterm) : SM symtab (list (Z * K)) :=
  r <~ parse_elem_list (parse_elem ko) es ;;
  match guard with
  | None => sret r
  | Some g => rg <~ parse_elem ko g ;; rg' <~ slift (inv_all rg) ;; sret (r ++ rg')
  end.

(** parse_constraint_elems (parsing.cc 554-578) for differences. *)
Definition parse_elems_diff {K} (ko : keyops K) (es : list telem) (guard : option tterm) : SM symtab (list (Z * K)) :=
  _ <~ slift (check_syntax (Nat.eqb (List.length es) 1)) ;;
  r <~ parse_elem_list (parse_diff ko) es ;;
  match guard with
  | None => sret r
  | Some g =>
      s <~ slift (evaluate g) ;; n <~ slift (num_of s) ;; n' <~ slift (safe_inv int32 n) ;;
      sret (r ++ [(n', k_one ko)])
  end.

(** ** Simplification *)

(** Addition to an already seen key ([kt->second->first = safe_add(...)]), or
    [None] if the key is new. *)
Fixpoint add_seen {K} (eqb : K -> K -> bool) (co : Z) (k : K) (acc : list (Z * K)) : option (outcome (list (Z * K))) :=
  match acc with
  | [] => None
  | (c, k') :: r =>
      if eqb k k' then Some (c' <- safe_add int32 c co ;; Ok ((c', k') :: r))
      else match add_seen eqb co k r with
           | None => None
           | Some o => Some (r' <- o ;; Ok ((c, k') :: r'))
           end
  end.

(** The collecting loop (parsing.cc 849-865, 416-433): [acc] is the part of the
    vector written so far, [rhs] the collected constant. *)
Fixpoint collect {K} (eqb : K -> K -> bool) (is_const : K -> bool) (drop_zero : bool)
    (ts : list (Z * K)) (acc : list (Z * K)) (rhs : Z) : outcome (list (Z * K) * Z) :=
  match ts with
  | [] => Ok (acc, rhs)
  | (co, k) :: rest =>
      if drop_zero && (co =? 0) then collect eqb is_const drop_zero rest acc rhs
      else if is_const k then r <- safe_sub int32 rhs co ;; collect eqb is_const drop_zero rest acc r
      else match add_seen eqb co k acc with
           | Some o => acc' <- o ;; collect eqb is_const drop_zero rest acc' rhs
           | None => collect eqb is_const drop_zero rest (acc ++ [(co, k)]) rhs
           end
  end.

(** remove_if (parsing.cc 867-869). *)
Definition drop_zeros {K} (drop_zero : bool) (ts : list (Z * K)) : list (Z * K) :=
  if drop_zero then filter (fun t => negb (fst t =? 0)) ts else ts.

(** The overflow test (parsing.cc 876-881 in int64, 445-454 in int128); [use]
    says whether the term takes part in the range computation. *)
Fixpoint check_bounds {K} (t : ity) (use : K -> bool) (ts : list (Z * K)) (mn mx : Z) : outcome (Z * Z) :=
  match ts with
  | [] => Ok (mn, mx)
  | (co, k) :: rest =>
      _ <- check_valid_value co ;;
      if use k then
        a <- safe_mul t co (if 0 <? co then MIN_VAL else MAX_VAL) ;; mn' <- safe_add t mn a ;;
        b <- safe_mul t co (if 0 <? co then MAX_VAL else MIN_VAL) ;; mx' <- safe_add t mx b ;;
        check_bounds t use rest mn' mx'
      else check_bounds t use rest mn mx
  end.

Definition ovar_eqb (a b : option var) : bool :=
  match a, b with None, None => true | Some x, Some y => Nat.eqb x y | _, _ => false end.
Definition is_const_l (k : option var) : bool := match k with None => true | Some _ => false end.

(** simplify for linear terms (parsing.cc 843-884). *)
Definition simplify (drop_zero : bool) (ts : list lterm) : outcome (list lterm * Z) :=
  '(acc, rhs) <- collect ovar_eqb is_const_l drop_zero ts [] 0 ;;
  let vec := drop_zeros drop_zero acc in
  _ <- check_valid_value rhs ;;
  _ <- check_bounds int64 (fun _ => true) vec rhs rhs ;;
  Ok (vec, rhs).

(** std::sort on variable indices. *)
Fixpoint insert_var (v : var) (l : list var) : list var :=
  match l with [] => [v] | x :: r => if Nat.leb v x then v :: l else x :: insert_var v r end.
Definition sort_vars (l : list var) : list var := fold_right insert_var [] l.

Fixpoint vars_eqb (a b : list var) : bool :=
  match a, b with
  | [], [] => true
  | x :: r, y :: s => Nat.eqb x y && vars_eqb r s
  | _, _ => false
  end.
Definition is_const_n (k : list var) : bool := match k with [] => true | _ => false end.

(** simplify for non-linear terms (parsing.cc 410-459). *)
Definition simplify_n (drop_zero : bool) (ts : list nterm) : outcome (list nterm * Z) :=
  '(acc, rhs) <- collect vars_eqb is_const_n drop_zero (map (fun t => (fst t, sort_vars (snd t))) ts) [] 0 ;;
  let vec := drop_zeros drop_zero acc in
  _ <- check_valid_value rhs ;;
  '(mn, mx) <- check_bounds int128 (fun k => Nat.eqb (List.length k) 1) vec rhs rhs ;;
  _ <- safe_inv int128 mn ;; _ <- safe_inv int128 mx ;;
  Ok (vec, rhs).

(** Division by the gcd (parsing.cc 715-724); [std::gcd] is non-negative but [d]
    starts as [rhs], which is kept if there are no elements. *)
Definition gcd_reduce {K} (ts : list (Z * K)) (rhs : Z) : list (Z * K) * Z :=
  let d := fold_left (fun d t => Z.gcd d (fst t)) ts rhs in
  if 1 <? d then (map (fun t => (Z.quot (fst t) d, snd t)) ts, Z.quot rhs d) else (ts, rhs).

(** ** Normalisation *)

Inductive rel := RLe | RLt | RGe | RGt | REq | RNe.

(** negate_relation (parsing.cc 49-69). *)
Definition negate_relation (r : rel) : rel :=
  match r with REq => RNe | RNe => REq | RLt => RGe | RLe => RGt | RGt => RLe | RGe => RLt end.

(** Calls made on the AbstractConstraintBuilder (parsing.hh 87-126), in order. *)
Inductive bcall :=
| BClause (c : clause)
| BSum (l : lit) (es : list (Z * var)) (rhs : Z) (strict : bool)
| BNonlin (l : lit) (co_ab : Z) (va vb : option var) (co_c : Z) (vc : option var) (rhs : Z) (strict : bool)
| BDistinct (l : lit) (es : list (list (Z * var) * Z))
| BDisjoint (l : lit) (es : list (Z * var))
| BDom (l : lit) (v : var) (dom : list (Z * Z))
| BMin (co : Z) (v : option var)
| BShow | BShowSig (name : string) (arity : Z) | BShowVar (v : var).

(** Builder state: next fresh solver literal and the log of calls. *)
Record bst := mkbst { b_next : Z; b_log : list bcall }.

Section Builder.
(** The assignment during initialisation ([true] for literals true at level 0)
    and the results of the builder's calls as a function of the log. *)
Variable is_true : lit -> bool.
Variable ret : list bcall -> bool.

Definition call (c : bcall) : SM bst bool := fun s =>
  let log := b_log s ++ [c] in Ok (ret log, mkbst (b_next s) log).
Definition new_lit : SM bst lit := fun s => Ok (b_next s, mkbst (b_next s + 1) (b_log s)).

(** "if (!m) return false; k" *)
Definition andthen (m : SM bst bool) (k : SM bst bool) : SM bst bool :=
  b <~ m ;; if b : bool then k else sret false.

Definition flip_all {K} (ts : list (Z * K)) : outcome (list (Z * K)) := inv_all ts.

(** normalize_constraint (parsing.cc 580-691).  The recursion is on [fuel]
    (running out is [UB]); [addc] is add_constraint for the kind of terms. *)
Fixpoint normalize {K} (addc : lit -> list (Z * K) -> Z -> bool -> SM bst bool) (fuel : nat)
    (l : lit) (elements : list (Z * K)) (op : rel) (rhs : Z) (strict : bool) : SM bst bool :=
  match fuel with
  | O => fun _ => UB
  | S fuel =>
      '(op, rhs) <~ slift (match op with
                           | RGt => r <- safe_add int32 rhs 1 ;; Ok (RGe, r)
                           | RLt => r <- safe_sub int32 rhs 1 ;; Ok (RLe, r)
                           | _ => Ok (op, rhs)
                           end) ;;
      '(op, rhs, elems) <~ slift (match op with
                                  | RGe => r <- safe_inv int32 rhs ;; es <- inv_all elements ;; Ok (RLe, r, es)
                                  | _ => Ok (op, rhs, elements)
                                  end) ;;
      let tail := fun op' =>
        (* parsing.cc 676-690 *)
        if strict then
          normalize addc fuel (- l) elems (match op' with RLe => RGt | RNe => REq | o => o end) rhs false
        else sret true in
      match op with
      | RLe =>
          if strict && Nat.eqb (List.length elems) 1 then addc l elems rhs true
          else if is_true (- l) then tail RLe
          else andthen (addc l elems rhs false) (tail RLe)
      | REq =>
          if strict then
            '(a, b) <~ (if is_true l then sret (TRUE_LIT, TRUE_LIT)
                        else a <~ new_lit ;; b <~ new_lit ;; sret (a, b)) ;;
            andthen (call (BClause [- l; a]))
            (andthen (call (BClause [- l; b]))
            (andthen (call (BClause [- a; - b; l]))
            (andthen (normalize addc fuel a elems RLe rhs strict)
            (andthen (normalize addc fuel b elems RGe rhs strict)
            (sret true)))))
          else
            andthen (normalize addc fuel l elems RLe rhs strict)
            (andthen (normalize addc fuel l elems RGe rhs strict)
            (tail REq))
      | RNe =>
          if strict then normalize addc fuel (- l) elems REq rhs true
          else
            a <~ new_lit ;; b <~ new_lit ;;
            andthen (call (BClause [a; b; - l]))
            (andthen (call (BClause [- a; - b]))
            (andthen (call (BClause [l; - a]))
            (andthen (call (BClause [l; - b]))
            (andthen (normalize addc fuel a elems RLt rhs false)
            (andthen (normalize addc fuel b elems RGt rhs false)
            (tail RNe))))))
      | _ => tail op
      end
  end.

(** Linear terms after simplify contain no constants. *)
Fixpoint strip (ts : list lterm) : outcome (list (Z * var)) :=
  match ts with
  | [] => Ok []
  | (c, Some v) :: r => r' <- strip r ;; Ok ((c, v) :: r')
  | (_, None) :: _ => UB
  end.

(** add_constraint for linear terms (parsing.cc 461-464).  A constant left in the
    vector (INVALID_VAR used as an index) would be undefined behaviour. *)
Definition addc_l (l : lit) (es : list lterm) (rhs : Z) (strict : bool) : SM bst bool :=
  es' <~ slift (strip es) ;; call (BSum l es' rhs strict).

(** The loop of add_constraint for non-linear terms (parsing.cc 473-486):
    state is (co_ab, var_a, var_b, co_c, var_c). *)
Fixpoint nonlin_scan (es : list nterm) (st : Z * option var * option var * Z * option var)
  : outcome (Z * option var * option var * Z * option var) :=
  match es with
  | [] => Ok st
  | (co, vars) :: r =>
      let '(co_ab, va, vb, co_c, vc) := st in
      match vars with
      | [] => nonlin_scan r st
      | [v] => if co_c =? 0 then nonlin_scan r (co_ab, va, vb, co, Some v) else Throw Syntax
      | [v; w] => if co_c =? 0 then nonlin_scan r (co, Some v, Some w, co_c, vc) else Throw Syntax
      | _ => Throw Syntax
      end
  end.

(** add_constraint for non-linear terms (parsing.cc 466-488). *)
Definition addc_n (l : lit) (es : list nterm) (rhs : Z) (strict : bool) : SM bst bool :=
  '(co_ab, va, vb, co_c, vc) <~ slift (nonlin_scan es (0, None, None, 0, None)) ;;
  call (BNonlin l co_ab va vb co_c vc rhs strict).

(** Enough fuel for every start of normalize. *)
Definition NORM_FUEL : nat := 5.

(** parse_constraint after the elements were read (parsing.cc 712-726), linear. *)
Definition constrain_l (l : lit) (terms : list lterm) (op : rel) (strict : bool) : SM bst bool :=
  '(es, rhs) <~ slift (simplify true terms) ;;
  let '(es, rhs) := gcd_reduce es rhs in
  normalize addc_l NORM_FUEL l es op rhs strict.

(** The same for non-linear terms. *)
Definition constrain_n (l : lit) (terms : list nterm) (op : rel) (strict : bool) : SM bst bool :=
  '(es, rhs) <~ slift (simplify_n true terms) ;;
  let '(es, rhs) := gcd_reduce es rhs in
  normalize addc_n NORM_FUEL l es op rhs strict.

End Builder.
