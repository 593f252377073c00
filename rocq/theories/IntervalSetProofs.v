From Verif Require Import Base IntervalSet.
From Coq Require Import Sorting.Sorted.

(** Abstraction: the set of integers. *)
Definition mem (m : iset) (z : Z) : Prop := exists x y, In (x, y) m /\ x <= z < y.

(** Canonical form: non-empty intervals with a gap between neighbours. [lo] is
    a strict lower bound for the first left end. *)
Fixpoint wf_from (lo : option Z) (m : iset) : Prop :=
  match m with
  | [] => True
  | (x, y) :: r => (match lo with None => True | Some l => l < x end) /\ x < y /\ wf_from (Some y) r
  end.
Definition wf (m : iset) : Prop := wf_from None m.

(** Reversed canonical form (latest first); [hi] strict upper bound of the first right end. *)
Fixpoint rwf (hi : option Z) (m : iset) : Prop :=
  match m with
  | [] => True
  | (x, y) :: r => (match hi with None => True | Some h => y < h end) /\ x < y /\ rwf (Some x) r
  end.

Definition lo_ok (lo : option Z) (z : Z) : Prop := match lo with None => True | Some l => l < z end.
Definition hi_ok (hi : option Z) (z : Z) : Prop := match hi with None => True | Some h => z < h end.

Definition head_left (m : iset) : option Z := match m with [] => None | (x, _) :: _ => Some x end.
Definition head_right (m : iset) : option Z := match m with [] => None | (_, y) :: _ => Some y end.

Lemma wf_from_weaken m lo : wf_from lo m -> wf_from None m.
Proof. destruct m as [|[x y] r]; cbn; tauto. Qed.

(** The whole map is [rev prev ++ next]. *)
Lemma wf_rev_app : forall prev next,
  wf (rev prev ++ next) <->
  rwf (head_left next) prev /\ wf_from (head_right prev) next.
Proof.
  induction prev as [|[x y] r IH]; intros next; cbn [rev app rwf head_right].
  - unfold wf. tauto.
  - rewrite <- app_assoc. cbn [app]. rewrite IH. cbn [head_left head_right wf_from].
    destruct next as [|[x' y'] n]; cbn [head_left wf_from]; destruct r as [|[x2 y2] r2]; cbn [rwf head_right]; tauto.
Qed.

Lemma mem_app m1 m2 z : mem (m1 ++ m2) z <-> mem m1 z \/ mem m2 z.
Proof.
  unfold mem. split.
  - intros (x & y & Hin & H). apply in_app_or in Hin. destruct Hin; [left|right]; exists x, y; auto.
  - intros [(x & y & Hin & H)|(x & y & Hin & H)]; exists x, y; split; auto; apply in_or_app; auto.
Qed.

Lemma mem_rev m z : mem (rev m) z <-> mem m z.
Proof. unfold mem. split; intros (x & y & Hin & H); exists x, y; split; auto; apply in_rev; [exact Hin|]. rewrite rev_involutive. exact Hin. Qed.

Lemma mem_cons x y m z : mem ((x, y) :: m) z <-> x <= z < y \/ mem m z.
Proof.
  unfold mem. split.
  - intros (x' & y' & [E|Hin] & H); [injection E as <- <-; auto|right; eauto].
  - intros [H|(x' & y' & Hin & H)]; [exists x, y|exists x', y']; split; auto; [left|right]; auto.
Qed.

Lemma mem_nil z : ~ mem [] z.
Proof. intros (x & y & [] & _). Qed.

Lemma mem_ge_from m : forall l z, wf_from (Some l) m -> mem m z -> l < z.
Proof.
  induction m as [|[x y] r IH]; cbn [wf_from]; intros l z H Hm.
  - elim (mem_nil z Hm).
  - destruct H as (H1 & H2 & H3). apply mem_cons in Hm. destruct Hm as [Hm|Hm]; [lia|].
    apply (IH y z H3) in Hm. lia.
Qed.

Lemma mem_lt_rwf m : forall h z, rwf (Some h) m -> mem m z -> z < h.
Proof.
  induction m as [|[x y] r IH]; cbn [rwf]; intros h z H Hm.
  - elim (mem_nil z Hm).
  - destruct H as (H1 & H2 & H3). apply mem_cons in Hm. destruct Hm as [Hm|Hm]; [lia|].
    apply (IH x z H3) in Hm. lia.
Qed.

Lemma rwf_hi m : forall h h', rwf h m -> (forall z, hi_ok h z -> hi_ok h' z) -> rwf h' m.
Proof. destruct m as [|[x y] r]; cbn; [tauto|]. intros h h' (H1 & H2 & H3) H. split; [apply (H y H1)|tauto]. Qed.

(** Splitting at an upper bound. *)
Lemma split_le_spec : forall m b acc prev next,
  split_le b acc m = (prev, next) ->
  rev acc ++ m = rev prev ++ next /\
  (forall x y r, next = (x, y) :: r -> b < x) /\
  (exists p, prev = p ++ acc /\ forall x y, In (x, y) p -> x <= b).
Proof.
  induction m as [|[x y] r IH]; cbn [split_le]; intros b acc prev next E.
  - injection E as <- <-. split; [reflexivity|]. split; [discriminate|]. exists []. split; [reflexivity|]. intros ? ? [].
  - destruct (x <=? b) eqn:L.
    + apply IH in E. destruct E as (E1 & E2 & p & E3 & E4). split; [|split].
      * rewrite <- E1. cbn [rev]. rewrite <- app_assoc. reflexivity.
      * exact E2.
      * exists (p ++ [(x, y)]). split; [rewrite <- app_assoc; exact E3|].
        intros x' y' Hin. apply in_app_or in Hin. destruct Hin as [Hin|[E|[]]]; [eauto|].
        injection E as <- <-. lia.
    + injection E as <- <-. split; [reflexivity|]. split.
      * intros ? ? ? E. injection E as <- <- <-. lia.
      * exists []. split; [reflexivity|]. intros ? ? [].
Qed.

Lemma before_lt_split : forall m b acc, before_lt b acc m = fst (split_le (b - 1) acc m).
Proof.
  induction m as [|[x y] r IH]; cbn [split_le before_lt]; intros b acc; [reflexivity|].
  replace (x <=? b - 1) with (x <? b) by lia. destruct (x <? b); [apply IH|reflexivity].
Qed.

(** Insertion. *)
Lemma add_loop_wf : forall prev a b next,
  rwf None prev -> a < b -> wf_from (Some b) next ->
  (forall x y, In (x, y) prev -> x <= b) ->
  (match prev with [] => True | (_, y) :: _ => wf_from (Some y) next end) ->
  wf (add_loop prev a b next).
Proof.
  induction prev as [|[x y] r IH]; cbn [add_loop]; intros a b next Hp Hab Hn Hle Hy.
  - unfold wf. cbn. tauto.
  - destruct Hp as (_ & Hxy & Hr).
    destruct (y <? a) eqn:E1.
    + apply wf_rev_app. cbn [head_left rwf head_right wf_from]. repeat split; auto; lia.
    + assert (Hb : wf_from (Some (if b <? y then y else b)) next) by (destruct (b <? y); auto).
      destruct (x <? a) eqn:E2.
      * apply wf_rev_app. cbn [head_left rwf head_right wf_from]. split; [exact Hr|].
        split; [|split; [destruct (b <? y); lia|exact Hb]].
        destruct r as [|[x2 y2] r2]; cbn [head_right rwf] in *; tauto.
      * apply IH; auto.
        -- apply (rwf_hi r (Some x)); [exact Hr|]. cbn. trivial.
        -- destruct (b <? y); lia.
        -- intros x' y' Hin. assert (x' <= b) by (apply (Hle x' y'); right; exact Hin).
           destruct (b <? y) eqn:E; lia.
        -- destruct r as [|[x2 y2] r2]; [trivial|]. cbn [rwf] in Hr.
           destruct Hr as (H1 & H2 & H3).
           destruct next as [|[x3 y3] n3]; [trivial|]. cbn [wf_from] in *. split; [lia|tauto].
Qed.

Lemma add_loop_mem : forall prev a b next z,
  rwf None prev -> a < b -> (forall x y, In (x, y) prev -> x <= b) ->
  (mem (add_loop prev a b next) z <-> a <= z < b \/ mem prev z \/ mem next z).
Proof.
  induction prev as [|[x y] r IH]; cbn [add_loop]; intros a b next z Hp Hab Hle.
  - rewrite mem_cons. pose proof (mem_nil z). tauto.
  - destruct Hp as (_ & Hxy & Hr).
    assert (Hxb : x <= b) by (apply (Hle x y); left; reflexivity).
    destruct (y <? a) eqn:E1.
    + rewrite mem_app, mem_rev, !mem_cons. tauto.
    + destruct (x <? a) eqn:E2.
      * rewrite mem_app, mem_rev, !mem_cons.
        destruct (b <? y) eqn:E3.
        -- assert ((a <= z < b -> x <= z < y)) by lia. tauto.
        -- assert (x <= z < b <-> a <= z < b \/ x <= z < y) by lia. tauto.
      * assert (Hr' : rwf None r) by (apply (rwf_hi r (Some x)); [exact Hr|cbn; trivial]).
        rewrite IH; [|exact Hr'| |].
        -- rewrite mem_cons. destruct (b <? y) eqn:E3.
           ++ assert (a <= z < y <-> a <= z < b \/ x <= z < y) by lia. tauto.
           ++ assert (x <= z < y -> a <= z < b) by lia. tauto.
        -- destruct (b <? y) eqn:E3; lia.
        -- intros x' y' Hin. assert (x' <= b) by (apply (Hle x' y'); right; exact Hin).
           destruct (b <? y) eqn:E; lia.
Qed.

Lemma split_wf m b prev next : wf m -> split_le b [] m = (prev, next) ->
  rwf None prev /\ wf_from (Some b) next /\ (forall x y, In (x, y) prev -> x <= b) /\
  (match prev with [] => True | (_, y) :: _ => wf_from (Some y) next end) /\
  m = rev prev ++ next.
Proof.
  intros W E. apply split_le_spec in E. destruct E as (E1 & E2 & p & E3 & E4).
  cbn [rev app] in E1. rewrite app_nil_r in E3. subst p.
  pose proof W as W'. rewrite E1 in W'. apply wf_rev_app in W'. destruct W' as [W1 W2].
  split; [apply (rwf_hi prev (head_left next)); [exact W1|cbn; trivial]|].
  split; [|split; [exact E4|split; [|exact E1]]].
  - destruct next as [|[x y] r]; [exact I|]. cbn [wf_from] in *. specialize (E2 x y r eq_refl). tauto.
  - destruct prev as [|[x y] r]; [trivial|]. exact W2.
Qed.

Lemma add_wf m a b : wf m -> wf (add m a b).
Proof.
  intros W. unfold add. destruct (a <? b) eqn:L; cbn [negb]; [|exact W].
  destruct (split_le b [] m) as [prev next] eqn:E.
  destruct (split_wf m b prev next W E) as (S1 & S2 & S3 & S4 & _).
  apply add_loop_wf; auto. lia.
Qed.

Lemma add_mem m a b z : wf m -> (mem (add m a b) z <-> a <= z < b \/ mem m z).
Proof.
  intros W. unfold add. destruct (a <? b) eqn:L; cbn [negb].
  - destruct (split_le b [] m) as [prev next] eqn:E.
    destruct (split_wf m b prev next W E) as (S1 & S2 & S3 & S4 & S5).
    rewrite add_loop_mem; auto; [|lia]. rewrite S5, mem_app, mem_rev. tauto.
  - assert (~ (a <= z < b)) by lia. tauto.
Qed.

Lemma extend_gen : forall other m, wf m ->
  wf (extend m other) /\ forall z, mem (extend m other) z <-> mem m z \/ mem other z.
Proof.
  unfold extend. induction other as [|[x y] r IH]; cbn [fold_left fst snd]; intros m W.
  - split; [exact W|]. intros z. pose proof (mem_nil z). tauto.
  - destruct (IH (add m x y) (add_wf m x y W)) as [H1 H2]. split; [exact H1|].
    intros z. rewrite H2, add_mem, mem_cons by exact W. tauto.
Qed.

(** Queries. *)
Lemma pred_query m b : wf m ->
  match fst (split_le b [] m) with
  | [] => forall z, mem m z -> b < z
  | (x, y) :: _ => x <= b /\ x < y /\ In (x, y) m /\
      (forall z, mem m z -> z < x \/ x <= z < y \/ b < z) /\
      (forall z, mem m z -> x <= z -> b < z \/ z < y) /\ ~ mem m y /\ ~ mem m (x - 1)
  end.
Proof.
  intros W. destruct (split_le b [] m) as [prev next] eqn:E. cbn [fst].
  destruct (split_wf m b prev next W E) as (S1 & S2 & S3 & S4 & S5).
  destruct prev as [|[x y] r].
  - cbn [rev app] in S5. subst m. intros z Hz. apply (mem_ge_from _ _ _ S2 Hz).
  - assert (Hx : x <= b) by (apply (S3 x y); left; reflexivity).
    cbn [rwf] in S1. destruct S1 as (_ & S1 & S1').
    assert (D : forall z, mem m z -> z < x \/ x <= z < y \/ (b < z /\ y < z)).
    { intros z Hz. rewrite S5, mem_app, mem_rev, mem_cons in Hz.
      destruct Hz as [[Hz|Hz]|Hz].
      - right; left; exact Hz.
      - left. apply (mem_lt_rwf _ _ _ S1' Hz).
      - right; right. split; [apply (mem_ge_from _ _ _ S2 Hz)|apply (mem_ge_from _ _ _ S4 Hz)]. }
    split; [exact Hx|]. split; [exact S1|]. split.
    { rewrite S5. apply in_or_app. left. apply in_rev. rewrite rev_involutive. left. reflexivity. }
    split; [intros z Hz; specialize (D z Hz); lia|].
    split; [intros z Hz Hxz; specialize (D z Hz); lia|].
    split; [intros Hz; specialize (D y Hz); lia|].
    intros Hz. rewrite S5, mem_app, mem_rev, mem_cons in Hz.
    destruct Hz as [[Hz|Hz]|Hz]; [lia| |pose proof (mem_ge_from _ _ _ S2 Hz); lia].
    clear - S1' Hz. destruct r as [|[x2 y2] r2]; [elim (mem_nil _ Hz)|].
    cbn [rwf] in S1'. destruct S1' as (A & B & C). apply mem_cons in Hz. destruct Hz as [Hz|Hz]; [lia|].
    pose proof (mem_lt_rwf _ _ _ C Hz). lia.
Qed.

Lemma contains_spec m a : wf m -> (contains m a = true <-> mem m a).
Proof.
  intros W. unfold contains. pose proof (pred_query m a W) as P.
  destruct (fst (split_le a [] m)) as [|[x y] r].
  - split; [discriminate|]. intros H. specialize (P a H). lia.
  - destruct P as (P1 & P2 & P3 & P4 & P5 & _). split.
    + intros H. exists x, y. split; [exact P3|lia].
    + intros H. specialize (P5 a H P1). lia.
Qed.

Lemma intersects_spec m a b : wf m ->
  (intersects m a b = true <-> exists z, a <= z < b /\ mem m z).
Proof.
  intros W. unfold intersects. destruct (b <=? a) eqn:L.
  - split; [discriminate|]. intros (z & H & _). lia.
  - rewrite before_lt_split. pose proof (pred_query m (b - 1) W) as P.
    destruct (fst (split_le (b - 1) [] m)) as [|[x y] r].
    + split; [discriminate|]. intros (z & H1 & H2). specialize (P z H2). lia.
    + destruct P as (P1 & P2 & P3 & P4 & P5 & _). split.
      * intros H. exists (Z.max a x). split; [lia|]. exists x, y. split; [exact P3|lia].
      * intros (z & H1 & H2). specialize (P4 z H2). lia.
Qed.

Lemma contains_range_spec m a b : wf m -> a < b ->
  (contains_range m a b = true <-> forall z, a <= z < b -> mem m z).
Proof.
  intros W L. unfold contains_range. rewrite before_lt_split.
  pose proof (pred_query m (b - 1) W) as P.
  destruct (fst (split_le (b - 1) [] m)) as [|[x y] r].
  - split; [discriminate|]. intros H. specialize (P a (H a ltac:(lia))). lia.
  - destruct P as (P1 & P2 & P3 & P4 & P5 & P6 & P7). split.
    + intros H z Hz. exists x, y. split; [exact P3|lia].
    + intros H.
      assert (~ (a <= y < b)) by (intros Hy; apply P6, H, Hy).
      assert (~ (a <= x - 1 < b)) by (intros Hy; apply P7, H, Hy).
      assert (Hb : mem m (b - 1)) by (apply H; lia).
      specialize (P4 _ Hb). lia.
Qed.

Lemma is_empty_spec m : wf m -> (is_empty m = true <-> forall z, ~ mem m z).
Proof.
  intros W. destruct m as [|[x y] r]; cbn [is_empty].
  - split; [intros _ z; apply mem_nil|reflexivity].
  - split; [discriminate|]. intros H. unfold wf in W. cbn [wf_from] in W.
    elim (H x). apply mem_cons. lia.
Qed.

Lemma zseq_in : forall n x z, In z (zseq x n) <-> x <= z < x + Z.of_nat n.
Proof.
  induction n as [|n IH]; cbn [zseq In]; intros x z; [lia|]. rewrite IH. lia.
Qed.

Lemma zseq_sorted : forall n x l, (forall z, In z l -> x + Z.of_nat n <= z) ->
  StronglySorted Z.lt l -> StronglySorted Z.lt (zseq x n ++ l).
Proof.
  induction n as [|n IH]; cbn [zseq app]; intros x l Hl Hs; [exact Hs|].
  constructor.
  - apply IH; [|exact Hs]. intros z Hz. specialize (Hl z Hz). lia.
  - apply Forall_forall. intros z Hz. apply in_app_or in Hz. destruct Hz as [Hz|Hz].
    + apply zseq_in in Hz. lia.
    + specialize (Hl z Hz). lia.
Qed.

Lemma values_in m z : In z (values m) <-> mem m z.
Proof.
  unfold values, mem. rewrite in_flat_map. split.
  - intros ([x y] & Hin & Hz). cbn [fst snd] in Hz. apply zseq_in in Hz. exists x, y. split; [exact Hin|lia].
  - intros (x & y & Hin & Hz). exists (x, y). split; [exact Hin|]. cbn [fst snd]. apply zseq_in. lia.
Qed.

Lemma values_sorted : forall m lo, wf_from lo m -> StronglySorted Z.lt (values m).
Proof.
  induction m as [|[x y] r IH]; cbn [wf_from]; intros lo W; [constructor|].
  destruct W as (_ & W2 & W3).
  change (values ((x, y) :: r)) with (zseq x (Z.to_nat (y - x)) ++ values r).
  apply zseq_sorted; [|apply (IH _ W3)].
  intros z Hz. apply values_in in Hz. pose proof (mem_ge_from _ _ _ W3 Hz). lia.
Qed.

(** Canonicity. *)
Lemma wf_canonical : forall m1 m2 lo1 lo2, wf_from lo1 m1 -> wf_from lo2 m2 ->
  (forall z, mem m1 z <-> mem m2 z) -> m1 = m2.
Proof.
  induction m1 as [|[x1 y1] r1 IH]; intros m2 lo1 lo2 W1 W2 H.
  - destruct m2 as [|[x2 y2] r2]; [reflexivity|]. cbn [wf_from] in W2.
    elim (mem_nil x2). apply H, mem_cons. lia.
  - destruct m2 as [|[x2 y2] r2].
    + cbn [wf_from] in W1. elim (mem_nil x1). apply H, mem_cons. lia.
    + cbn [wf_from] in *. destruct W1 as (_ & A1 & B1), W2 as (_ & A2 & B2).
      assert (G1 : forall z, mem r1 z -> y1 < z) by (intros z; apply mem_ge_from; exact B1).
      assert (G2 : forall z, mem r2 z -> y2 < z) by (intros z; apply mem_ge_from; exact B2).
      assert (HH : forall z, (x1 <= z < y1 \/ mem r1 z) <-> (x2 <= z < y2 \/ mem r2 z))
        by (intros z; rewrite <- !mem_cons; apply H).
      assert (x1 = x2).
      { destruct (proj1 (HH x1) ltac:(lia)) as [P|P]; [|apply G2 in P];
        destruct (proj2 (HH x2) ltac:(lia)) as [Q|Q]; try apply G1 in Q; lia. }
      assert (y1 = y2).
      { subst x2.
        destruct (Z_lt_ge_dec y1 y2).
        - destruct (proj2 (HH y1) ltac:(lia)) as [P|P]; [lia|apply G1 in P; lia].
        - destruct (Z_lt_ge_dec y2 y1); [|lia].
          destruct (proj1 (HH y2) ltac:(lia)) as [P|P]; [lia|apply G2 in P; lia]. }
      subst. f_equal. apply (IH r2 (Some y2) (Some y2) B1 B2).
      intros z. specialize (HH z). split; intros M; [pose proof (G1 z M)|pose proof (G2 z M)]; 
      destruct HH as [HH1 HH2]; [destruct (HH1 (or_intror M))|destruct (HH2 (or_intror M))]; auto; lia.
Qed.

(** Specification of a sequence of modifications: the set of integers. *)
Definition spec_step (s : Z -> Prop) (o : iop) : Z -> Prop :=
  match o with
  | OpAdd a b => fun z => a <= z < b \/ s z
  | OpExtend other => fun z => s z \/ exists x y, In (x, y) other /\ x <= z < y
  | OpClear => fun _ => False
  end.
Definition spec_run (ops : list iop) : Z -> Prop := fold_left spec_step ops (fun _ => False).

Lemma irun_spec ops : wf (irun ops) /\ forall z, mem (irun ops) z <-> spec_run ops z.
Proof.
  unfold irun, spec_run.
  assert (G : forall ops m s, wf m -> (forall z, mem m z <-> s z) ->
    wf (fold_left istep ops m) /\ forall z, mem (fold_left istep ops m) z <-> fold_left spec_step ops s z).
  { clear ops. induction ops as [|o ops IH]; cbn [fold_left]; intros m s W H; [auto|].
    apply IH; destruct o as [a b|other|]; cbn [istep spec_step].
    - apply add_wf, W.
    - apply extend_gen, W.
    - exact I.
    - intros z. rewrite add_mem by exact W. rewrite H. tauto.
    - intros z. destruct (extend_gen other m W) as [_ E]. rewrite E, H. unfold mem. tauto.
    - intros z. split; [apply mem_nil|tauto]. }
  apply G; [exact I|]. intros z. split; [apply mem_nil|tauto].
Qed.
