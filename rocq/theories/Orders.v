(** Sequences of operations on order literals, as performed while constraints are added and
    during search (solver.hh 588-700, propagator.cc 357-563), and what a proper use of them is. *)
From Verif Require Import Base Util IntervalSet VarState Terms TermsSpec Solver OrderSpec.
From Verif Require IntervalSetProofs.
Open Scope Z_scope.

Inductive oop :=
| OpVar (mn mx : Z)                                               (* add_variable *)
| OpGet (x : var) (v : Z)                                         (* get_literal *)
| OpSimple (l : lit) (co : Z) (x : var) (rhs : Z) (strict : bool) (* add_simple *)
| OpDom (l : lit) (x : var) (dom : list (Z * Z))                  (* add_dom *)
| OpTrue (l : lit)                                                (* update_domain_ for a literal that became true *)
| OpLit                                                           (* someone else asks clasp for a new literal *)
| OpCall (n : nat).                                               (* clasp starts another callback *)
Arguments OpGet x%nat_scope v%Z_scope.
Arguments OpSimple l%Z_scope co%Z_scope x%nat_scope rhs%Z_scope strict.
Arguments OpDom l%Z_scope x%nat_scope dom.

Section Orders.
Context (O : oracle) (cfg : config).

(** An operation is used properly. *)
Definition olegal (s : state) (o : oop) : Prop :=
  match o with
  | OpVar mn mx => mn <= mx /\ cur_level s = 0%nat
  | OpGet x v => (x < nvars s)%nat
  | OpSimple l co x rhs strict => (x < nvars s)%nat /\ below (nxt s) l /\ co <> 0 /\ dlevel O s = 0%nat
  | OpDom l x dom => (x < nvars s)%nat /\ below (nxt s) l /\ dlevel O s = 0%nat /\ IntervalSetProofs.wf dom /\ dom <> []
  | OpTrue l => l <> 0 /\ is_true O s l = true /\ (cur_level s = 0%nat <-> dlevel O s = 0%nat) /\ (l = TRUE_LIT -> dlevel O s = 0%nat)
  | OpLit | OpCall _ => True
  end.
Definition orun1 (o : oop) (s : state) : bool * state :=
  match o with
  | OpVar mn mx => (true, snd (add_variable mn mx s))
  | OpGet x v => (true, snd (get_literal cfg x v s))
  | OpSimple l co x rhs strict => add_simple O cfg l co x rhs strict s
  | OpDom l x dom => add_dom O cfg l x dom s
  | OpTrue l => update_domain O cfg l s
  | OpLit => (true, snd (add_literal s))
  | OpCall n => (true, emit (ECall n) s)
  end.
(** The sequence stops at the first conflict. *)
Fixpoint orun (os : list oop) (s : state) : bool * state :=
  match os with
  | [] => (true, s)
  | o :: os => let '(ok, s) := orun1 o s in if ok then orun os s else (false, s)
  end.
Fixpoint olegals (os : list oop) (s : state) : Prop :=
  match os with
  | [] => True
  | o :: os => olegal s o /\ (fst (orun1 o s) = true -> olegals os (snd (orun1 o s)))
  end.

(** Operations that add no restriction. *)
Definition oneutral (o : oop) : bool :=
  match o with OpGet _ _ | OpTrue _ | OpLit | OpCall _ | OpVar _ _ => true | _ => false end.
Definition orequest (o : oop) : bool := match o with OpGet _ _ => true | _ => false end.
(** The restriction an operation stands for. *)
Definition osem (o : oop) (I : interp) (nu : var -> Z) : Prop :=
  match o with
  | OpSimple l co x rhs strict => (lit_true I l -> co * nu x <= rhs) /\ (strict = true -> co * nu x <= rhs -> lit_true I l)
  | OpDom l x dom => lit_true I l -> exists a b, In (a, b) dom /\ a <= nu x < b
  | _ => True
  end.
End Orders.

(** The solver before anything was added (solver.hh 572-600): variable 1 of clasp stands for
    TRUE_LIT. *)
Definition init_state : state :=
  mkst 0 (fun _ => mkvs 0 0 [] [] []) (fun _ => None) [] [mkl 0 0 0 0 0] [] [] (fun _ => 0) (fun _ => 0) [] [] (fun _ => [])
    [] [] [] [] (fun _ => None) None 0 0 0 1 false [] 2.
