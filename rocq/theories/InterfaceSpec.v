(** What should be observed: shown variables, iteration, statistics. *)
From Coq Require Import String.
From Verif Require Import Base Util Terms TermsSpec TermsProofs2 Statements.
Open Scope Z_scope.

(** An element of a [&show] statement lists a symbol by name or a signature. *)
Inductive names : telem -> sym -> Prop :=
| nm_intro t s : (forall x y, t <> TFun "/" [x; y]) -> ground t s -> names ([t], true) s.
Inductive signs : telem -> string -> Z -> Prop :=
| sg_intro x y name p n : ground x (SFun name [] p) -> ground y (SNum n) -> signs ([TFun "/" [x; y]], true) name n.

(** Symbol [s] is to be reported given the atoms of the program. *)
Definition to_show (atoms : list tatom) (s : sym) : Prop :=
  (forall a, In a atoms -> a_kind a <> KShow) \/
  exists a e, In a atoms /\ a_kind a = KShow /\ In e (a_elems a) /\
    (names e s \/ exists name args p, s = SFun name args p /\ signs e name (Z.of_nat (List.length args))).

(** The numbers written in [&show] statements fit their type. *)
Definition wf_shows (atoms : list tatom) : Prop := forall a e, In a atoms -> a_kind a = KShow -> In e (a_elems a) -> wf_telem e.

(** Any number of steps: each one reads further atoms; between the steps
    auxiliary variables and solver literals may be added. *)
Inductive session : list tatom -> pst -> Prop :=
| se_nil n k : session [] (mksymtab [] n, mkbst k [])
| se_step atoms st : session atoms st -> forall more is_true ret n k st',
    (st_next (fst st) <= n)%nat ->
    parse is_true ret more (mksymtab (st_map (fst st)) n, mkbst k (b_log (snd st))) = Ok (true, st') ->
    session (atoms ++ more) st'.

(** Repeatedly calling a [next] function until it fails. *)
Inductive iterates (next : nat -> option nat) : nat -> list nat -> Prop :=
| it_end i : next i = None -> iterates next i []
| it_next i j l : next i = Some j -> iterates next j l -> iterates next i (j :: l).

(** ** Statistics *)
From Verif Require Import Interface.

(** The value published under a key; 0 if there is none. *)
Definition key_eqb (a b : skey) : bool :=
  match a, b with
  | KCost, KCost => true
  | KKey g n, KKey g' n' => String.eqb g g' && String.eqb n n'
  | KThread i g n, KThread i' g' n' => Nat.eqb i i' && String.eqb g g' && String.eqb n n'
  | _, _ => false
  end.
Fixpoint published (k : skey) (l : list (skey * Z)) : option Z :=
  match l with [] => None | (k', z) :: r => if key_eqb k k' then Some z else published k r end.
Definition amount (k : skey) (l : list (skey * Z)) : Z := match published k l with Some z => z | None => 0 end.

(** Whether a key is for a time (a floating point number) or a counter. *)
Definition is_time (k : skey) : bool :=
  match k with
  | KCost => false
  | KKey g _ => String.eqb g "Init time in seconds"
  | KThread _ g _ => String.eqb g "Time in seconds"
  end.

(** Counters are 64 bit unsigned numbers. *)
Definition counter (z : Z) : Prop := 0 <= z < 2^64.
Definition sstat_ok (s : sstat) : Prop := counter (s_refined s) /\ counter (s_introduced s) /\ counter (s_literals s).
Definition stat_ok (s : stat) : Prop :=
  Forall counter [n_vars s; n_cons s; n_clauses s; n_lits s; tr_removed s; tr_added s; tr_clauses s; tr_wcs s; tr_lits s] /\
  Forall sstat_ok (st_solvers s).

(** The statistics of the steps are merged one after the other: what is published
    for the last step and for all steps, and the members afterwards. *)
Fixpoint merge_steps (accu : stat) (steps : list stat) : list (list (skey * Z) * list (skey * Z)) * stat :=
  match steps with
  | [] => ([], accu)
  | s :: r => let '(p, q, accu', _) := on_statistics accu s in
              let '(pub, a) := merge_steps accu' r in ((p, q) :: pub, a)
  end.

Fixpoint total (k : skey) (pubs : list (list (skey * Z))) : Z :=
  match pubs with [] => 0 | p :: r => amount k p + total k r end.
