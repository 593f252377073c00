(** Sessions are searches. *)
From Verif Require Import Base Util VarState Terms TermsSpec Solver OrderSpec Orders Sum Distinct PropProofs ConSpec Objective Search SearchSpec SearchInv SearchInv4 SearchInv5 SearchUndo SearchMain
  CheckSpec CheckFrame CheckProofs KeepSpec InitSpec.
Open Scope Z_scope.

Section Session.
Context (srt : (ival -> Z) -> list ival -> list ival) (O : oracle) (cfg : config) (chk sol : bool) (CA : calm O) (W : lit -> Prop) (s0 : state) (SD : started srt O cfg chk sol W s0).
Notation session := (session srt O cfg chk sol s0).
Notation course := (course srt O cfg chk sol false s0).
Notation search := (search srt O cfg chk sol W).
Lemma session_both K p s : session K p s -> search K s /\
  exists K2 g, course K2 g s /\ match p with Going => K2 = K /\ g = true | Conflict => g = true /\ exists ls, K2 = map (pair (cur_level s)) ls ++ K | Over => True end.
Proof.
  induction 1 as [|n K s _ [IS (K2 & g & IC & -> & ->)]|ls ok K s s' _ [IS (K2 & g & IC & -> & ->)] IO FB TR E|fuel m bound K s s' _ [IS (K2 & g & IC & -> & ->)] IO TR E|p K s s' _ [IS (K2 & g & IC & IP)] NO E].
  - split; [now apply se_start|]. exists [], true. split; [apply co_start|]. auto.
  - split; [now apply se_call|]. exists K, true. split; [now apply co_call|]. auto.
  - split; [now apply (se_propagate srt O cfg chk sol W ls ok K s s')|]. pose proof (co_propagate srt O cfg chk sol false s0 ls ok K s s' IC IO FB TR E) as C.
    destruct ok; cbn [orb] in C; eauto 6. destruct (0 <? cur_level s')%nat; eauto 8.
  - split; [now apply (se_check srt O cfg chk sol W fuel m bound K s s')|]. assert (NG : false = true -> (0 < dlevel O s)%nat) by discriminate.
    pose proof (co_check srt O cfg chk sol false s0 fuel m bound K s s' IC IO TR NG E) as C. exists K, ((0 <? cur_level s')%nat || is_nil (fmap s')). split; auto. now destruct (_ || _).
  - split; [now apply (se_undo srt O cfg chk sol W K s s')|]. destruct (search_hist srt O cfg chk sol CA W K s IS) as (G & H).
    destruct (undo_levels G s s' (proj1 (h_inv _ _ _ _ H)) E) as (s1 & G' & ->). assert (SI := h_inv _ _ _ _ H). destruct (undo_sinv s1 G' s s' SI E) as (V & _).
    assert (LT : (cur_level s' < cur_level s)%nat).
    { destruct SI as [[_ (_ & OP & _)] _]. destruct (o_lvl _ _ OP) as (_ & _ & L). unfold cur_level at 1. now rewrite (v_lvls _ _ V). }
    assert (FL : forall ls, filter (fun q : nat * lit => (fst q <=? cur_level s')%nat) (map (pair (cur_level s)) ls ++ K) = filter (fun q => (fst q <=? cur_level s')%nat) K).
    { induction ls as [|l ls IH]; [reflexivity|]. cbn [map app filter fst]. destruct (Nat.leb_spec (cur_level s) (cur_level s')); [lia|exact IH]. }
    exists (filter (fun q => (fst q <=? cur_level s')%nat) K2), true. destruct p; [destruct IP as [-> ->]|destruct IP as (-> & ls & ->)|easy]; (split; [apply (co_undo srt O cfg chk sol false s0 _ s s' IC E)|]); auto.
Qed.
End Session.
