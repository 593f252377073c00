(** What option values should mean. *)
From Coq Require Import String Ascii.
From Verif Require Import Base Options.
Open Scope Z_scope.

(** [dec s z]: [s] is a non-empty string of decimal digits with value [z]. *)
Definition digit (a : ascii) (d : Z) : Prop := 0 <= d <= 9 /\ Z.of_nat (nat_of_ascii a) = 48 + d.
Inductive dec : string -> Z -> Prop :=
| dec_one a d : digit a d -> dec (String a "") d
| dec_more s z a d : dec s z -> digit a d -> dec (s ++ String a "") (10 * z + d).
(** Decimal numbers with an optional sign. *)
Inductive numeral : string -> Z -> Prop :=
| nu_dec s z : dec s z -> numeral s z
| nu_plus s z : dec s z -> numeral (String "+" s) z
| nu_minus s z : dec s z -> numeral (String "-" s) (- z).

(** [s] is an abbreviation of [w]: possibly empty, possibly all of it. *)
Definition abbrev (s w : string) : Prop := exists r, (s ++ r)%string = w.

Fixpoint no_comma (s : string) : Prop :=
  match s with EmptyString => True | String a r => a <> ","%char /\ no_comma r end.

(** The value of a per-solver setting. *)
Definition setting (t : target) (c : sconf) : Z :=
  match t with
  | THeuristic => sc_heu c
  | TSignValue => sc_sign c
  | TRefineReasons => Z.b2z (sc_refine c)
  | TRefineIntroduce => Z.b2z (sc_intro c)
  | TPropagateChain => Z.b2z (sc_chain c)
  | TSplitAll => Z.b2z (sc_split c)
  end.
Definition truth (t : target) (v : Z) : Z :=
  match t with THeuristic | TSignValue => v | _ => Z.b2z (negb (v =? 0)) end.

(** Settings given: target, thread (none for all threads) and value. *)
Definition given := (target * option Z * Z)%type.
Definition given_for (t : target) (th : option Z) (v : Z) (l : list given) : Prop := In (t, th, v) l.
(** The value for thread [i] (below [MAX_THREADS]) if options do not depend on their order. *)
Definition wanted (l : list given) (t : target) (i : Z) (old z : Z) : Prop :=
  (exists v, given_for t (Some i) v l /\ z = truth t v) \/
  ((forall v, ~ given_for t (Some i) v l) /\ exists v, given_for t None v l /\ z = truth t v) \/
  ((forall v, ~ given_for t (Some i) v l) /\ (forall v, ~ given_for t None v l) /\ z = old).

(** Options given in a sequence to the option parser. *)
Fixpoint read_options (l : list given) (m : list (dkey * Z)) : option (list (dkey * Z)) :=
  match l with
  | [] => Some m
  | (t, th, v) :: r => let (m', ok) := emplace m (t, th) v in if ok then read_options r m' else None
  end.
(** Settings made one after the other with clingcon_configure. *)
Definition configure_all (l : list given) (c : conf) : conf :=
  fold_left (fun c g => let '(t, th, v) := g in set_value t c (v, th)) l c.

(** A target and the value given for it on the command line. *)
Definition reads (l : target * string) (g : given) : Prop :=
  let '(t, s) := l in let '(t', th, v) := g in t' = t /\
  match t with
  | THeuristic => parse_heuristic s = Ok (v, th)
  | TSignValue => parse_sign_value s = Ok (v, th)
  | _ => parse_bool_thread s = Ok (v, th)
  end.
(** Reading command line options; a repeated option is an error. *)
Fixpoint read_lines (l : list (target * string)) (m : list (dkey * Z)) : outcome (list (dkey * Z)) :=
  match l with
  | [] => Ok m
  | (t, s) :: r => '(m, ok) <- read_option t s m ;; if ok : bool then read_lines r m else Throw Syntax
  end.
