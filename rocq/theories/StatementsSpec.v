(** What each theory atom means, in terms of the written terms, an assignment
    [rho] of integers to variable names and the truth of the atom. *)
From Coq Require Import String.
From Verif Require Import Base Terms TermsSpec Statements.
Open Scope Z_scope.

(** One listed range or value of a domain contains [z]. *)
Inductive dom_lists : tterm -> Z -> Prop :=
| dl_range a b x y z : ground a (SNum x) -> ground b (SNum y) -> x <= z <= y -> dom_lists (TFun ".." [a; b]) z
| dl_value t z : ground t (SNum z) -> dom_lists t z.

(** [start@length] *)
Inductive interval_den (rho : sym -> Z) : telem -> Z * Z -> Prop :=
| id_at a b s w ts : (forall n, s <> SNum n) -> ground a s -> ground b (SNum w) ->
    interval_den rho (TFun "@" [a; b] :: ts, true) (rho s, w).

(** Two half open intervals, given by start and length, have a common point. *)
Definition overlap (i j : Z * Z) : Prop := exists z, fst i <= z < fst i + snd i /\ fst j <= z < fst j + snd j.

Inductive expr_den (rho : sym -> Z) : telem -> Z -> Prop :=
| ed t ts x : den rho t x -> expr_den rho (t :: ts, true) x.

Definition reified (I : interp) (l : lit) (body : bool) (R : Prop) : Prop :=
  (lit_true I l -> R) /\ (body = true -> R -> lit_true I l).

Definition atom_means (rho : sym -> Z) (a : tatom) (I : interp) : Prop :=
  match a_kind a with
  | KSum body | KNsum body =>
      exists op g x y, a_guard a = Some (op, g) /\ den_elems (den rho) (a_elems a) x /\ den rho g y /\
        reified I (a_lit a) body (holds op x y)
  | KDiff body =>
      exists op g x y, a_guard a = Some (op, g) /\ den_elems (den_diff rho) (a_elems a) x /\ ground g (SNum y) /\
        reified I (a_lit a) body (holds op x y)
  | KDistinct =>
      exists xs, Forall2 (expr_den rho) (a_elems a) xs /\ (lit_true I (a_lit a) -> NoDup xs)
  | KDisjoint =>
      exists ivs, Forall2 (interval_den rho) (a_elems a) ivs /\
        (lit_true I (a_lit a) -> forall i j p q, (i < j)%nat -> nth_error ivs i = Some p -> nth_error ivs j = Some q -> ~ overlap p q)
  | KDom =>
      exists op g s, a_guard a = Some (op, g) /\ ground g s /\
        (lit_true I (a_lit a) -> exists t, In ([t], true) (a_elems a) /\ dom_lists t (rho s))
  | KShow | KMinimize | KMaximize | KOther => True
  end.

(** What the calls extending the objective add up to. *)
Fixpoint obj_val (nu : var -> Z) (log : list bcall) : Z :=
  match log with
  | [] => 0
  | BMin c v :: r => c * ov nu v + obj_val nu r
  | _ :: r => obj_val nu r
  end.
(** The objective written in a program: minimize statements count positively,
    maximize statements negatively. *)
Inductive objective (rho : sym -> Z) : list tatom -> Z -> Prop :=
| o_nil : objective rho [] 0
| o_min a r x y : a_kind a = KMinimize -> den_elems (den rho) (a_elems a) x -> objective rho r y -> objective rho (a :: r) (x + y)
| o_max a r x y : a_kind a = KMaximize -> den_elems (den rho) (a_elems a) x -> objective rho r y -> objective rho (a :: r) (- x + y)
| o_skip a r y : a_kind a <> KMinimize -> a_kind a <> KMaximize -> objective rho r y -> objective rho (a :: r) y.

(** ** Non-linear atoms *)
(** At most one product of two variables among the summands (the condition
    announced by the error message in parsing.cc 481). *)
Definition one_product (ks : list (list var)) : Prop := (List.length (filter (fun k => Nat.eqb (List.length k) 2) ks) <= 1)%nat.
(** The summands of a non-linear atom, like terms collected, contain at most one product. *)
Definition one_product_atom (a : tatom) (t : symtab) : Prop :=
  forall op g ts t' es rhs, a_guard a = Some (op, g) -> parse_elems_sum nkey (a_elems a) (Some g) t = Ok (ts, t') ->
    simplify_n true ts = Ok (es, rhs) -> one_product (map snd es).
Definition atom_fine (a : tatom) (t : symtab) : Prop := match a_kind a with KNsum _ => one_product_atom a t | _ => True end.
(** Every non-linear atom reached has at most one product. *)
Fixpoint program_fine (is_true : lit -> bool) (ret : list bcall -> bool) (atoms : list tatom) (st : pst) : Prop :=
  match atoms with
  | [] => True
  | a :: r => atom_fine a (fst st) /\ forall st', parse_atom is_true ret a st = Ok (true, st') -> program_fine is_true ret r st'
  end.
