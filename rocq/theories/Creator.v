(** Model of InitClauseCreator (base.hh 278-398), which queues what is added
    during initialization, and of ControlClauseCreator (base.hh 402-425). *)
From Verif Require Import Base Util.
Open Scope Z_scope.

(** Calls of Clingo::PropagateInit and Clingo::PropagateControl. *)
Inductive icall :=
| IClause (c : list Z)
| IWeight (l : Z) (wl : list (Z * Z)) (bound : Z) (type : Z)
| IMin (l weight level : Z)
| ILit
| IWatch (l : Z)
| IProp.
(** The underlying solver: the return value of the last of the calls made so
    far, the literal it returned and the assignment at that point. *)
Record isolver := { is_ans : list icall -> bool; is_lit : list icall -> Z; is_true : list icall -> Z -> bool }.

(** The members (base.hh 391-397) with the counters of Statistics used here;
    [cr_out] lists the calls made to the underlying solver. *)
Record creator := mkcreator {
  cr_trans : bool;
  cr_clauses : list Z;
  cr_weights : list (Z * list (Z * Z) * Z * Z);
  cr_minimize : list (Z * Z * Z);
  cr_nlits : Z; cr_tlits : Z; cr_nclauses : Z; cr_tclauses : Z; cr_twcs : Z;
  cr_out : list icall }.
Definition creator0 : creator := mkcreator false [] [] [] 0 0 0 0 0 [].

Section Create.
Context (S : isolver).

Definition set_out (s : creator) (o : list icall) : creator :=
  mkcreator (cr_trans s) (cr_clauses s) (cr_weights s) (cr_minimize s) (cr_nlits s) (cr_tlits s) (cr_nclauses s) (cr_tclauses s) (cr_twcs s) o.

(** add_literal (base.hh 297-304). *)
Definition cr_add_literal (s : creator) : creator * Z :=
  let o := cr_out s ++ [ILit] in
  (mkcreator (cr_trans s) (cr_clauses s) (cr_weights s) (cr_minimize s) (cr_nlits s + 1) (if cr_trans s then cr_tlits s + 1 else cr_tlits s)
     (cr_nclauses s) (cr_tclauses s) (cr_twcs s) o, is_lit S o).
(** add_watch (base.hh 306). *)
Definition cr_add_watch (s : creator) (l : Z) : creator := set_out s (cr_out s ++ [IWatch l]).
(** set_state (base.hh 333). *)
Definition cr_set_state (s : creator) (b : bool) : creator :=
  mkcreator b (cr_clauses s) (cr_weights s) (cr_minimize s) (cr_nlits s) (cr_tlits s) (cr_nclauses s) (cr_tclauses s) (cr_twcs s) (cr_out s).
(** add_clause (base.hh 310-327): literals are queued followed by a 0. *)
Definition cr_add_clause (s : creator) (c : list Z) : creator * bool :=
  (mkcreator (cr_trans s) (cr_clauses s ++ c ++ [0]) (cr_weights s) (cr_minimize s) (cr_nlits s) (cr_tlits s)
     (cr_nclauses s + 1) (if cr_trans s then cr_tclauses s + 1 else cr_tclauses s) (cr_twcs s) (cr_out s), true).
(** add_weight_constraint (base.hh 339-358). *)
Definition cr_add_weight (s : creator) (l : Z) (wl : list (Z * Z)) (bound type : Z) : creator * bool :=
  let queue := (mkcreator (cr_trans s) (cr_clauses s) (cr_weights s ++ [(l, wl, bound, type)]) (cr_minimize s) (cr_nlits s) (cr_tlits s)
     (cr_nclauses s) (cr_tclauses s) (if cr_trans s then cr_twcs s + 1 else cr_twcs s) (cr_out s), true) in
  if is_true S (cr_out s) l then (if type <? 0 then (s, true) else queue)
  else if is_true S (cr_out s) (- l) then (if 0 <? type then (s, true) else queue)
  else queue.
(** add_minimize (base.hh 361). *)
Definition cr_add_minimize (s : creator) (l w p : Z) : creator :=
  mkcreator (cr_trans s) (cr_clauses s) (cr_weights s) (cr_minimize s ++ [(l, w, p)]) (cr_nlits s) (cr_tlits s)
    (cr_nclauses s) (cr_tclauses s) (cr_twcs s) (cr_out s).

(** The three loops of commit (base.hh 364-388).  The first one reads from the
    current position up to the next 0; [acc] holds the literals read since the
    last 0.  Reading behind the last element is undefined. *)
Fixpoint send_clauses (q acc : list Z) (o : list icall) : outcome (list icall * bool) :=
  match q with
  | [] => match acc with [] => Ok (o, true) | _ => UB end
  | l :: r =>
      if l =? 0 then
        let o := o ++ [IClause acc] in
        if is_ans S o then send_clauses r [] o else Ok (o, false)
      else send_clauses r (acc ++ [l]) o
  end.
Fixpoint send_weights (q : list (Z * list (Z * Z) * Z * Z)) (o : list icall) : outcome (list icall * bool) :=
  match q with
  | [] => Ok (o, true)
  | (l, wl, bound, type) :: r =>
      b <- iadd int32 bound 1 ;;
      let o := o ++ [IWeight (- l) wl b (- type)] in
      if is_ans S o then send_weights r o else Ok (o, false)
  end.
Definition send_minimize (q : list (Z * Z * Z)) (o : list icall) : list icall :=
  o ++ map (fun '(l, w, p) => IMin l w p) q.
Definition cr_commit (s : creator) : outcome (creator * bool) :=
  '(o, ok) <- send_clauses (cr_clauses s) [] (cr_out s) ;;
  if ok : bool then
    let s := mkcreator (cr_trans s) [] (cr_weights s) (cr_minimize s) (cr_nlits s) (cr_tlits s) (cr_nclauses s) (cr_tclauses s) (cr_twcs s) o in
    '(o, ok) <- send_weights (cr_weights s) (cr_out s) ;;
    if ok : bool then
      Ok (mkcreator (cr_trans s) [] [] [] (cr_nlits s) (cr_tlits s) (cr_nclauses s) (cr_tclauses s) (cr_twcs s) (send_minimize (cr_minimize s) o), true)
    else Ok (set_out s o, false)
  else Ok (set_out s o, false).
(** propagate (base.hh 308). *)
Definition cr_propagate (s : creator) : outcome (creator * bool) :=
  '(s, ok) <- cr_commit s ;;
  if ok : bool then let o := cr_out s ++ [IProp] in Ok (set_out s o, is_ans S o) else Ok (s, false).

(** ControlClauseCreator: add_clause followed by propagate (base.hh 416-418);
    add_literal, add_watch and propagate are passed on (408-414). *)
Definition ct_add_clause (o : list icall) (c : list Z) : list icall * bool :=
  let o := o ++ [IClause c] in
  if is_ans S o then (let o := o ++ [IProp] in (o, is_ans S o)) else (o, false).

(** What can be done with an InitClauseCreator. *)
Inductive cop :=
| OClause (c : list Z)
| OWeight (l : Z) (wl : list (Z * Z)) (bound type : Z)
| OMin (l w p : Z)
| OLit
| OWatch (l : Z)
| OState (b : bool)
| OCommit
| OPropagate.
Definition run_op (s : creator) (op : cop) : outcome (creator * bool) :=
  match op with
  | OClause c => Ok (cr_add_clause s c)
  | OWeight l wl b t => Ok (cr_add_weight s l wl b t)
  | OMin l w p => Ok (cr_add_minimize s l w p, true)
  | OLit => Ok (fst (cr_add_literal s), true)
  | OWatch l => Ok (cr_add_watch s l, true)
  | OState b => Ok (cr_set_state s b, true)
  | OCommit => cr_commit s
  | OPropagate => cr_propagate s
  end.
(** A sequence of operations up to the first one that returns false, as all
    callers do (propagator.cc 393-460, solver.cc). *)
Fixpoint run_ops (s : creator) (ops : list cop) : outcome (creator * bool) :=
  match ops with
  | [] => Ok (s, true)
  | op :: r => '(s, ok) <- run_op s op ;; if ok : bool then run_ops s r else Ok (s, false)
  end.
End Create.
