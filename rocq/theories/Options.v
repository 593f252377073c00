(** Model of the options of the library (clingcon.cc 123-317, 390-441, 559-578).
    C strings are Coq strings; they contain no NUL character.  Any exception is
    [Throw Syntax]: the C functions catch it and return false. *)
From Coq Require Import String Ascii.
From Verif Require Import Base.
Open Scope Z_scope.

(** strncmp(s, t, n) == 0; [None] stands for the length computed from a null
    [end] (clingcon.cc 144, 147): formally undefined, in practice larger than any string. *)
Fixpoint strneq (s t : string) (n : nat) : bool :=
  match n with
  | O => true
  | S n =>
      match s, t with
      | EmptyString, EmptyString => true
      | String a s', String b t' => Ascii.eqb a b && strneq s' t' n
      | _, _ => false
      end
  end.
Definition strneq_opt (s t : string) (n : option nat) : bool :=
  match n with Some n => strneq s t n | None => String.eqb s t end.

(** An integer type as seen by [istream >> val] in the classic locale. *)
Record numty := mknumty { nt_signed : bool; nt_min : Z; nt_max : Z }.
Definition t_val : numty := mknumty true (-(2^31)) (2^31 - 1).
Definition t_uint32 : numty := mknumty false 0 (2^32 - 1).

Definition digit_of (a : ascii) : option Z :=
  let n := Z.of_nat (nat_of_ascii a) - 48 in if (0 <=? n) && (n <=? 9) then Some n else None.
Fixpoint read_digits (s : string) (acc : Z) : option Z :=
  match s with
  | EmptyString => Some acc
  | String a r => match digit_of a with Some d => read_digits r (10 * acc + d) | None => None end
  end.
Definition read_number (s : string) : option Z :=
  match s with
  | EmptyString => None
  | String a r => match digit_of a with Some d => read_digits r d | None => None end
  end.

(** strtonum (clingcon.cc 123-137): the whole string must be read without
    failure.  Signed numbers out of range fail; unsigned numbers with a minus
    sign are negated modulo 2^n if the digits are in range. *)
Definition strtonum (t : numty) (s : string) : outcome Z :=
  let '(neg, ds) := match s with
                    | String "-" r => (true, r)
                    | String "+" r => (false, r)
                    | _ => (false, s)
                    end in
  match read_number ds with
  | None => Throw Syntax
  | Some n =>
      if nt_signed t then
        let v := if neg : bool then - n else n in
        if (nt_min t <=? v) && (v <=? nt_max t) then Ok v else Throw Syntax
      else if n <=? nt_max t then Ok (if neg then (- n) mod (nt_max t + 1) else n)
      else Throw Syntax
  end.

Definition upto (s : string) (n : option nat) : string :=
  match n with Some n => substring 0 n s | None => s end.

(** parse_range_num (clingcon.cc 139-156). *)
Definition parse_range_num (t : numty) (s : string) (len : option nat) (lo hi : Z) : outcome Z :=
  if strneq_opt s "min" len then Ok lo
  else if strneq_opt s "max" len then Ok hi
  else
    r <- strtonum t (upto s len) ;;
    if (lo <=? r) && (r <=? hi) then Ok r else Throw Syntax.
(** parse_num (clingcon.cc 158-162). *)
Definition parse_num (t : numty) (s : string) (lo hi : Z) : outcome Z := parse_range_num t s None lo hi.

(** parse_bool (clingcon.cc 213-224). *)
Definition parse_bool (s : string) (len : option nat) : outcome bool :=
  let n := match len with Some n => n | None => String.length s end in
  if strneq s "true" n || strneq s "yes" n || strneq s "1" n then Ok true
  else if strneq s "false" n || strneq s "no" n || strneq s "0" n then Ok false
  else Throw Syntax.

(** find_str (clingcon.cc 226-231): offset of the first [c] or of the end. *)
Fixpoint find_str (s : string) (c : ascii) : nat :=
  match s with
  | EmptyString => O
  | String a r => if Ascii.eqb a c then O else S (find_str r c)
  end.
Definition after (s : string) (n : nat) : string := substring (S n) (String.length s) s.

Definition MAX_THREADS : Z := 64.
(** The thread number after the comma (clingcon.cc 234-238 and again in 251, 275). *)
Definition parse_thread (s : string) : outcome (option Z) :=
  let comma := find_str s "," in
  if Nat.ltb comma (String.length s) then t <- parse_num t_uint32 (after s comma) 0 (MAX_THREADS - 1) ;; Ok (Some t)
  else Ok None.

(** parse_bool_thread (clingcon.cc 233-241). *)
Definition parse_bool_thread (s : string) : outcome (Z * option Z) :=
  t <- parse_thread s ;; b <- parse_bool s (Some (find_str s ",")) ;; Ok ((if b : bool then 1 else 0), t).
(** parse_sign_value (clingcon.cc 243-257). *)
Definition parse_sign_value (s : string) : outcome (Z * option Z) :=
  t <- parse_thread s ;;
  let n := find_str s "," in
  if strneq s "+" n then Ok (imax int32, t)
  else if strneq s "-" n then Ok (imin int32, t)
  else v <- parse_range_num t_val s (Some n) (imin int32) (imax int32) ;; Ok (v, t).
(** parse_translate_clause (clingcon.cc 259-266): the total is read as val_t and
    converted to uint64_t. *)
Definition parse_translate_clause (s : string) : outcome (Z * option Z) :=
  let comma := find_str s "," in
  total <- (if Nat.ltb comma (String.length s) then
              t <- parse_num t_val (after s comma) (imin int32) (imax int32) ;; Ok (Some (t mod 2^64))
            else Ok None) ;;
  n <- parse_range_num t_uint32 s (Some comma) 0 (2^32 - 1) ;; Ok (n, total).
(** parse_heuristic (clingcon.cc 268-282); Heuristic::None is 0, MaxChain 1 (base.hh 49). *)
Definition parse_heuristic (s : string) : outcome (Z * option Z) :=
  t <- parse_thread s ;;
  let n := find_str s "," in
  if strneq s "none" n then Ok (0, t)
  else if strneq s "max-chain" n then Ok (1, t)
  else Throw Syntax.

(** ** Configuration *)

(** Target (clingcon.cc 51). *)
Inductive target := THeuristic | TSignValue | TRefineReasons | TRefineIntroduce | TPropagateChain | TSplitAll.

(** SolverConfig (base.hh 203-210). *)
Record sconf := mksconf { sc_heu : Z; sc_sign : Z; sc_split : bool; sc_chain : bool; sc_refine : bool; sc_intro : bool }.
Definition sconf0 : sconf := mksconf 0 0 false true true true.

(** Config (base.hh 213-242) and shift_constraints (clingcon.cc 59); the
    weight_constraint_ratio, a double, is left out. *)
Record conf := mkconf {
  cf_solvers : list sconf; cf_default : sconf;
  cf_total : Z; cf_limit : Z; cf_distinct : Z; cf_minimize : Z; cf_min : Z; cf_max : Z;
  cf_sort : bool; cf_litonly : bool; cf_order : bool; cf_checksol : bool; cf_checkstate : bool; cf_shift : bool }.
Definition conf0 : conf := mkconf [] sconf0 1000000 1000 1000 0 MIN_VAL MAX_VAL true false false true false true.

(** set_value for one solver (clingcon.cc 172-199). *)
Definition set_one (t : target) (c : sconf) (v : Z) : sconf :=
  let b := negb (v =? 0) in
  match t with
  | TSignValue => mksconf (sc_heu c) v (sc_split c) (sc_chain c) (sc_refine c) (sc_intro c)
  | THeuristic => mksconf v (sc_sign c) (sc_split c) (sc_chain c) (sc_refine c) (sc_intro c)
  | TRefineReasons => mksconf (sc_heu c) (sc_sign c) (sc_split c) (sc_chain c) b (sc_intro c)
  | TRefineIntroduce => mksconf (sc_heu c) (sc_sign c) (sc_split c) (sc_chain c) (sc_refine c) b
  | TPropagateChain => mksconf (sc_heu c) (sc_sign c) (sc_split c) b (sc_refine c) (sc_intro c)
  | TSplitAll => mksconf (sc_heu c) (sc_sign c) b (sc_chain c) (sc_refine c) (sc_intro c)
  end.
(** Config::solver_config (base.hh 215-226): the list with an entry for the
    thread, and its update. *)
Fixpoint solver_config (d : sconf) (l : list sconf) (t : nat) (f : sconf -> sconf) : list sconf :=
  match t, l with
  | O, [] => [f d]
  | O, x :: r => f x :: r
  | S t, [] => d :: solver_config d [] t f
  | S t, x :: r => x :: solver_config d r t f
  end.
Definition set_solvers (c : conf) (d : sconf) (l : list sconf) : conf :=
  mkconf l d (cf_total c) (cf_limit c) (cf_distinct c) (cf_minimize c) (cf_min c) (cf_max c)
    (cf_sort c) (cf_litonly c) (cf_order c) (cf_checksol c) (cf_checkstate c) (cf_shift c).
(** set_value for the configuration (clingcon.cc 201-211). *)
Definition set_value (t : target) (c : conf) (value : Z * option Z) : conf :=
  let '(v, thread) := value in
  match thread with
  | Some i => set_solvers c (cf_default c) (solver_config (cf_default c) (cf_solvers c) (Z.to_nat i) (fun s => set_one t s v))
  | None => set_solvers c (set_one t (cf_default c) v) (map (fun s => set_one t s v) (cf_solvers c))
  end.

(** The configuration solver [i] is created with (propagator.hh 166-171, propagator.cc 442, base.hh 215-226). *)
Definition solver_conf (c : conf) (i : nat) : sconf := nth i (cf_solvers c) (cf_default c).

(** std::map<std::pair<Target, std::optional<uint32_t>>, val_t> (clingcon.cc 58). *)
Definition dkey := (target * option Z)%type.
Definition target_index (t : target) : Z :=
  match t with THeuristic => 0 | TSignValue => 1 | TRefineReasons => 2 | TRefineIntroduce => 3 | TPropagateChain => 4 | TSplitAll => 5 end.
Definition opt_compare (a b : option Z) : comparison :=
  match a, b with None, None => Eq | None, Some _ => Lt | Some _, None => Gt | Some x, Some y => x ?= y end.
Definition dkey_compare (a b : dkey) : comparison :=
  match target_index (fst a) ?= target_index (fst b) with Eq => opt_compare (snd a) (snd b) | c => c end.
(** map::emplace: the flag tells whether the key was new. *)
Fixpoint emplace (m : list (dkey * Z)) (k : dkey) (v : Z) : list (dkey * Z) * bool :=
  match m with
  | [] => ([(k, v)], true)
  | (k', v') :: r =>
      match dkey_compare k k' with
      | Lt => ((k, v) :: m, true)
      | Eq => (m, false)
      | Gt => let (r', b) := emplace r k v in ((k', v') :: r', b)
      end
  end.

(** parser_bool_thread, parser_sign_value, parser_heuristic (clingcon.cc 284-303):
    reading an option given on the command line. *)
Definition read_option (t : target) (s : string) (m : list (dkey * Z)) : outcome (list (dkey * Z) * bool) :=
  '(v, thread) <- (match t with
                   | THeuristic => parse_heuristic s
                   | TSignValue => parse_sign_value s
                   | _ => parse_bool_thread s
                   end) ;;
  Ok (emplace m (t, thread) v).

(** clingcon_validate_options (clingcon.cc 559-578). *)
Definition apply_deferred (has_value : bool) (m : list (dkey * Z)) (c : conf) : conf :=
  fold_left (fun c kv => let '((t, thread), v) := kv in
                         if Bool.eqb has_value (match thread with Some _ => true | None => false end) then set_value t c (v, thread) else c)
    m c.
Definition validate_options (m : list (dkey * Z)) (c : conf) : outcome conf :=
  let c' := apply_deferred true m (apply_deferred false m c) in
  if cf_max c' <? cf_min c' then Throw Syntax else Ok c'.

(** clingcon_configure (clingcon.cc 390-441).  The option translate-pb is left
    out; unknown keys are ignored. *)
Definition configure (c : conf) (key value : string) : outcome conf :=
  let is := String.eqb key in
  if is "shift-constraints"%string then b <- parse_bool value None ;;
    Ok (mkconf (cf_solvers c) (cf_default c) (cf_total c) (cf_limit c) (cf_distinct c) (cf_minimize c) (cf_min c) (cf_max c)
      (cf_sort c) (cf_litonly c) (cf_order c) (cf_checksol c) (cf_checkstate c) b)
  else if is "sort-constraints"%string then b <- parse_bool value None ;;
    Ok (mkconf (cf_solvers c) (cf_default c) (cf_total c) (cf_limit c) (cf_distinct c) (cf_minimize c) (cf_min c) (cf_max c)
      b (cf_litonly c) (cf_order c) (cf_checksol c) (cf_checkstate c) (cf_shift c))
  else if is "translate-clauses"%string then '(n, total) <- parse_translate_clause value ;;
    Ok (mkconf (cf_solvers c) (cf_default c) (match total with Some t => t | None => cf_total c end) n (cf_distinct c) (cf_minimize c) (cf_min c) (cf_max c)
      (cf_sort c) (cf_litonly c) (cf_order c) (cf_checksol c) (cf_checkstate c) (cf_shift c))
  else if is "literals-only"%string then b <- parse_bool value None ;;
    Ok (mkconf (cf_solvers c) (cf_default c) (cf_total c) (cf_limit c) (cf_distinct c) (cf_minimize c) (cf_min c) (cf_max c)
      (cf_sort c) b (cf_order c) (cf_checksol c) (cf_checkstate c) (cf_shift c))
  else if is "translate-distinct"%string then n <- parse_num t_uint32 value 0 (2^32 - 1) ;;
    Ok (mkconf (cf_solvers c) (cf_default c) (cf_total c) (cf_limit c) n (cf_minimize c) (cf_min c) (cf_max c)
      (cf_sort c) (cf_litonly c) (cf_order c) (cf_checksol c) (cf_checkstate c) (cf_shift c))
  else if is "translate-opt"%string then n <- parse_num t_uint32 value 0 (2^32 - 1) ;;
    Ok (mkconf (cf_solvers c) (cf_default c) (cf_total c) (cf_limit c) (cf_distinct c) n (cf_min c) (cf_max c)
      (cf_sort c) (cf_litonly c) (cf_order c) (cf_checksol c) (cf_checkstate c) (cf_shift c))
  else if is "add-order-clauses"%string then b <- parse_bool value None ;;
    Ok (mkconf (cf_solvers c) (cf_default c) (cf_total c) (cf_limit c) (cf_distinct c) (cf_minimize c) (cf_min c) (cf_max c)
      (cf_sort c) (cf_litonly c) b (cf_checksol c) (cf_checkstate c) (cf_shift c))
  else if is "min-int"%string then n <- parse_num t_val value MIN_VAL MAX_VAL ;;
    Ok (mkconf (cf_solvers c) (cf_default c) (cf_total c) (cf_limit c) (cf_distinct c) (cf_minimize c) n (cf_max c)
      (cf_sort c) (cf_litonly c) (cf_order c) (cf_checksol c) (cf_checkstate c) (cf_shift c))
  else if is "max-int"%string then n <- parse_num t_val value MIN_VAL MAX_VAL ;;
    Ok (mkconf (cf_solvers c) (cf_default c) (cf_total c) (cf_limit c) (cf_distinct c) (cf_minimize c) (cf_min c) n
      (cf_sort c) (cf_litonly c) (cf_order c) (cf_checksol c) (cf_checkstate c) (cf_shift c))
  else if is "check-solution"%string then b <- parse_bool value None ;;
    Ok (mkconf (cf_solvers c) (cf_default c) (cf_total c) (cf_limit c) (cf_distinct c) (cf_minimize c) (cf_min c) (cf_max c)
      (cf_sort c) (cf_litonly c) (cf_order c) b (cf_checkstate c) (cf_shift c))
  else if is "check-state"%string then b <- parse_bool value None ;;
    Ok (mkconf (cf_solvers c) (cf_default c) (cf_total c) (cf_limit c) (cf_distinct c) (cf_minimize c) (cf_min c) (cf_max c)
      (cf_sort c) (cf_litonly c) (cf_order c) (cf_checksol c) b (cf_shift c))
  else if is "order-heuristic"%string then v <- parse_heuristic value ;; Ok (set_value THeuristic c v)
  else if is "sign-value"%string then v <- parse_sign_value value ;; Ok (set_value TSignValue c v)
  else if is "refine-reasons"%string then v <- parse_bool_thread value ;; Ok (set_value TRefineReasons c v)
  else if is "refine-introduce"%string then v <- parse_bool_thread value ;; Ok (set_value TRefineIntroduce c v)
  else if is "propagate-chain"%string then v <- parse_bool_thread value ;; Ok (set_value TPropagateChain c v)
  else if is "split-all"%string then v <- parse_bool_thread value ;; Ok (set_value TSplitAll c v)
  else Ok c.
