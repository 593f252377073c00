(** C39: the sparse and the dense storage of order literals behave alike. *)
From Verif Require Import Base VarState VarStateProofs.
Open Scope Z_scope.

(** Starting from a variable without order literals, every sequence of operations the
    solver may perform is free of out-of-range accesses, and every answer is the one of a
    finite map from values to literals, regardless of if and when the storage changes from
    a map to a vector. *)
Theorem C39_storage mn mx os :
  mn <= mx -> legal_run {| s_at := fun _ => None; s_min := mn; s_max := mx |} os ->
  exists l, i_run (SMap [], mn, mx) os = Ok l /\
            s_answers {| s_at := fun _ => None; s_min := mn; s_max := mx |} os l.
Proof. intros H. exact (run_ok _ _ os (refines_empty mn mx H)). Qed.
Print Assumptions C39_storage.

(** A run that changes the storage after its second literal. *)
Definition demo := [OGet 3 7; OGet 5 8; OHas 4; OGet 4 9; ONarrow 1 6; OLt 5; OGe 4; OUnset 4; OSet 3 1; OAll].
Example C39_demo : legal_run {| s_at := fun _ => None; s_min := 0; s_max := 9 |} demo.
Proof. cbn. unfold inside. cbn. repeat split; try lia; try (left; cbn; lia); try (right; cbn; congruence). Qed.
Example C39_demo_run : i_run (SMap [], 0, 9) demo =
  Ok [ALit 7; ALit 8; ABool false; ALit 9; ADone; AWalk [(4, 9); (3, 7)]; AWalk [(4, 9); (5, 8)]; ADone; ADone;
      AWalk [(3, 1); (5, 8)]].
Proof. reflexivity. Qed.
Example C39_demo_switch : mogrify 0 9 [(3, 7)] = Ok (Some (SVec 0 [0; 0; 0; 7; 0; 0; 0; 0; 0])).
Proof. reflexivity. Qed.

(** The nearest stored literals below and above a value, whatever the storage. *)
Theorem C39_nearest_below st s v : refines st s ->
  match order_lit_lt st v with
  | Some (l, w) => w < v /\ s_at s w = Some l /\ forall u, w < u < v -> s_at s u = None
  | None => forall u, u < v -> s_at s u = None
  end.
Proof. exact (first_lt st s v). Qed.
Print Assumptions C39_nearest_below.
Theorem C39_nearest_above st s v : refines st s ->
  match order_lit_gt st v with
  | Some (l, w) => v < w /\ s_at s w = Some l /\ forall u, v < u < w -> s_at s u = None
  | None => forall u, v < u -> s_at s u = None
  end.
Proof. exact (first_gt st s v). Qed.
Print Assumptions C39_nearest_above.
Example C39_nearest_demo :
  order_lit_lt (SVec 2 [5; 0; 0; -6]) 5 = Some (5, 2) /\ order_lit_gt (SVec 2 [5; 0; 0; -6]) 2 = Some (-6, 5).
Proof. split; reflexivity. Qed.
