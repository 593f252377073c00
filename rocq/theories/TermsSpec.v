(** Specification for reading terms and constraints: what a written expression
    and a relation mean.  Independent of the reading functions in [Terms.v]
    (only the syntax of terms and symbols is shared). *)
From Coq Require Import String.
From Verif Require Import Base Terms.
Open Scope Z_scope.

(** Exact (unbounded) arithmetic on constants. *)
Definition spec_bin (name : string) (a b : Z) : option Z :=
  if String.eqb name "+" then Some (a + b)
  else if String.eqb name "-" then Some (a - b)
  else if String.eqb name "*" then Some (a * b)
  else if String.eqb name "/" then (if b =? 0 then None else Some (Z.quot a b))
  else if String.eqb name "\" then (if b =? 0 then None else Some (Z.rem a b))
  else if String.eqb name "**" then
    (if 0 <=? b then Some (a ^ b) else if a =? 0 then None else Some (Z.quot 1 (a ^ (- b))))
  else None.
Definition is_bin (name : string) : bool :=
  String.eqb name "+" || String.eqb name "-" || String.eqb name "*" ||
  String.eqb name "/" || String.eqb name "\" || String.eqb name "**".

(** Decoding of the three escapes (newline, backslash, quote) in a quoted string. *)
Inductive decodes : string -> string -> Prop :=
| dec_nil : decodes EmptyString EmptyString
| dec_end : decodes (String "\" EmptyString) EmptyString (* not produced by clingo's lexer; the backslash is dropped *)
| dec_n s r : decodes s r -> decodes (String "\" (String "n" s)) (String "010" r)
| dec_b s r : decodes s r -> decodes (String "\" (String "\" s)) (String "\" r)
| dec_q s r : decodes s r -> decodes (String "\" (String """" s)) (String """" r)
| dec_c c s r : c <> "\"%char -> decodes s r -> decodes (String c s) (String c r).

(** [ground t s]: the variable-free term [t] denotes symbol [s]. *)
Inductive ground : tterm -> sym -> Prop :=
| g_num n : ground (TNum n) (SNum n)
| g_str i s : decodes i s -> ground (TSym (String """" (i ++ """"))) (SStr s)
| g_const n : (forall i, n <> String """" (i ++ """") /\ n <> """"%string) -> ground (TSym n) (SFun n [] true)
| g_bin name a b x y z : ground a (SNum x) -> ground b (SNum y) -> spec_bin name x y = Some z ->
    ground (TFun name [a; b]) (SNum z)
| g_neg a x : ground a (SNum x) -> ground (TFun "-" [a]) (SNum (- x))
| g_cneg a n args p : ground a (SFun n args p) -> n <> EmptyString ->
    ground (TFun "-" [a]) (SFun n args (negb p))
| g_fun name args ss :
    (List.length args = 2%nat -> is_bin name = false /\ name <> ".."%string) ->
    (List.length args = 1%nat -> name <> "-"%string) ->
    grounds args ss -> ground (TFun name args) (SFun name ss true)
| g_tup args ss : grounds args ss -> ground (TTup args) (SFun EmptyString ss true)
with grounds : list tterm -> list sym -> Prop :=
| gs_nil : grounds [] []
| gs_cons t s ts ss : ground t s -> grounds ts ss -> grounds (t :: ts) (s :: ss).

(** [den rho t z]: under the assignment [rho] of integers to variable names, the
    written expression [t] has value [z]. *)
Inductive den (rho : sym -> Z) : tterm -> Z -> Prop :=
| d_num n : den rho (TNum n) n
| d_add a b x y : den rho a x -> den rho b y -> den rho (TFun "+" [a; b]) (x + y)
| d_sub a b x y : den rho a x -> den rho b y -> den rho (TFun "-" [a; b]) (x - y)
| d_mul a b x y : den rho a x -> den rho b y -> den rho (TFun "*" [a; b]) (x * y)
| d_neg a x : den rho a x -> den rho (TFun "-" [a]) (- x)
| d_pos a x : den rho a x -> den rho (TFun "+" [a]) x
| d_arith name a b z : (name = "**" \/ name = "/" \/ name = "\")%string ->
    ground (TFun name [a; b]) (SNum z) -> den rho (TFun name [a; b]) z
| d_var t s : (forall n, t <> TNum n) ->
    (forall name a b, t = TFun name [a; b] -> is_bin name = false) ->
    (forall a, t <> TFun "-" [a] /\ t <> TFun "+" [a]) ->
    ground t s -> den rho t (rho s).

(** A difference [a - b]: each side is a number or a variable name. *)
Inductive den_side (rho : sym -> Z) : tterm -> Z -> Prop :=
| ds_num t n : ground t (SNum n) -> den_side rho t n
| ds_var t s : (forall n, s <> SNum n) -> ground t s -> den_side rho t (rho s).
Inductive den_diff (rho : sym -> Z) : tterm -> Z -> Prop :=
| dd a b x y : den_side rho a x -> den_side rho b y -> den_diff rho (TFun "-" [a; b]) (x - y).

(** The value of the element list: the sum of the first tuple entries. *)
Inductive den_elems (D : tterm -> Z -> Prop) : list telem -> Z -> Prop :=
| de_nil : den_elems D [] 0
| de_cons t ts es x y : D t x -> den_elems D es y -> den_elems D ((t :: ts, true) :: es) (x + y).

(** Relations. *)
Definition holds (r : rel) (x y : Z) : Prop :=
  match r with
  | RLe => x <= y | RLt => x < y | RGe => x >= y | RGt => x > y | REq => x = y | RNe => x <> y
  end.

(** Boolean interpretations of solver literals. *)
Definition interp := Z -> bool.
Definition lit_true (I : interp) (l : lit) : Prop := if 0 <? l then I l = true else I (- l) = false.
Definition clause_true (I : interp) (c : clause) : Prop := exists l, In l c /\ lit_true I l.

(** Values of linear and non-linear term lists. *)
Fixpoint lin_val (nu : var -> Z) (es : list (Z * var)) : Z :=
  match es with [] => 0 | (c, v) :: r => c * nu v + lin_val nu r end.
Fixpoint prod_val (nu : var -> Z) (vs : list var) : Z :=
  match vs with [] => 1 | v :: r => nu v * prod_val nu r end.
Definition key_val (nu : var -> Z) (k : option var) : Z := match k with None => 1 | Some v => nu v end.
Fixpoint terms_val {K} (kv : K -> Z) (ts : list (Z * K)) : Z :=
  match ts with [] => 0 | (c, k) :: r => c * kv k + terms_val kv r end.

(** Meaning of the calls made on the builder. *)
Definition ov (nu : var -> Z) (v : option var) : Z := match v with Some v => nu v | None => 1 end.
Definition nonlin_val (nu : var -> Z) (co_ab : Z) (va vb : option var) (co_c : Z) (vc : option var) : Z :=
  co_ab * (ov nu va * ov nu vb) + co_c * ov nu vc.
Definition call_holds (I : interp) (nu : var -> Z) (c : bcall) : Prop :=
  match c with
  | BClause c => clause_true I c
  | BSum l es rhs strict =>
      (lit_true I l -> lin_val nu es <= rhs) /\ (strict = true -> lin_val nu es <= rhs -> lit_true I l)
  | BNonlin l co_ab va vb co_c vc rhs strict =>
      (lit_true I l -> nonlin_val nu co_ab va vb co_c vc <= rhs) /\
      (strict = true -> nonlin_val nu co_ab va vb co_c vc <= rhs -> lit_true I l)
  | BDistinct l es =>
      lit_true I l ->
      forall i j e1 e2, (i < j)%nat -> nth_error es i = Some e1 -> nth_error es j = Some e2 ->
        lin_val nu (fst e1) + snd e1 <> lin_val nu (fst e2) + snd e2
  | BDisjoint l es =>
      lit_true I l ->
      forall i j e1 e2, (i < j)%nat -> nth_error es i = Some e1 -> nth_error es j = Some e2 ->
        nu (snd e1) + fst e1 <= nu (snd e2) \/ nu (snd e2) + fst e2 <= nu (snd e1)
  | BDom l v dom => lit_true I l -> exists x y, In (x, y) dom /\ x <= nu v < y
  | BMin _ _ | BShow | BShowSig _ _ | BShowVar _ => True
  end.

(** Interpretations that agree below a given literal. *)
Definition agree_below (n : Z) (I J : interp) : Prop := forall i, i < n -> I i = J i.

(** Literals whose variable comes before [n]. *)
Definition below (n : Z) (l : lit) : Prop := l <> 0 /\ Z.abs l < n.
(** Interpretations compatible with the literals that are already true. *)
Definition okI (is_true : lit -> bool) (I : interp) : Prop := I 1 = true /\ forall l, is_true l = true -> lit_true I l.
Definition bounded_by (is_true : lit -> bool) (n : Z) : Prop := 1 < n /\ forall l, is_true l = true -> below n l.
(** The interpretation [I] of the literals before [n] can be extended to the
    literals introduced later so that all [calls] hold under [nu]. *)
Definition realizable (is_true : lit -> bool) (n : Z) (I : interp) (nu : var -> Z) (calls : list bcall) : Prop :=
  exists J, agree_below n I J /\ okI is_true J /\ Forall (call_holds J nu) calls.
