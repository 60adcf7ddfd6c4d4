(** Proofs about the bucket minimisation: the result cannot be improved by an operator that is
    still marked as possible. *)
From Coq Require Import List Bool Arith ZArith QArith Lia Lqa.
From Verif Require Import Res Cudd CuddFacts Spec SpecFacts Helpers Metrics Operators Examples AdderFacts Minimize SpecMinimize MinimizeFacts MinimizeFacts2 MinimizeFacts3.
Import ListNotations.
Open Scope nat_scope.

Lemma set_insert_new x s : In x (set_insert x s).
Proof.
  induction s as [|y s IH]; cbn [set_insert]; [now left|]. destruct (lex_lt x y); [now left|].
  destruct (vec_eqb x y) eqn:E; [apply vec_eqb_eq in E; now left|now right].
Qed.
Lemma set_insert_old x s y : In y s -> In y (set_insert x s).
Proof.
  induction s as [|z s IH]; cbn [set_insert]; [intros []|]. intro H. destruct (lex_lt x z); [now right|]. destruct (vec_eqb x z); auto.
  destruct H as [->|H]; [now left|right; auto].
Qed.
Lemma set_erase_other x s y : In y s -> y <> x -> In y (set_erase x s).
Proof.
  intros H N. unfold set_erase. apply filter_In. split; auto. destruct (vec_eqb x y) eqn:E; auto. apply vec_eqb_eq in E. congruence.
Qed.
Lemma map_set_key k v m : forall i, (exists op, In (i, op) (map_set k v m)) -> i = k \/ exists op, In (i, op) m.
Proof. intros i (op & H). apply map_set_in in H. destruct H as [[= -> ->]|H]; eauto. Qed.

Section Fixpoint_.
Variable function : list bdd.
Variable metrics : list MetricDimension.
Variable operators : list OperatorFunction.
Variable pop_all : bool.
Notation grid := (bucket_grid_size metrics).
Hypothesis has_metric : metrics <> [].
Hypothesis grid_pos : Forall (fun b => (0 < b)%Z) grid.
Hypothesis grid_vol : (volume grid < 2 ^ 64)%Z.
Notation T := (Z.to_nat (volume grid)).
Notation at_index := (at_index metrics).
Notation measured := (measured function).
Notation good := (good function metrics operators pop_all).
Notation good_pop := (good_pop function metrics operators pop_all).
Notation good_op := (good_op function metrics operators pop_all).
Notation good_state := (good_state function metrics operators pop_all).

(** some bucket in a cell at or below [idx] has at most [nodes] nodes *)
Definition dominated (buckets : list Bucket) (idx : list Z) (nodes : nat) : Prop :=
  exists k bk xk, nth_error buckets k = Some bk /\ at_index k xk /\ below_all xk idx /\ bdd_size bk <= nodes.
Definition shrinks (buckets buckets' : list Bucket) : Prop := forall k b, nth_error buckets k = Some b ->
  exists b', nth_error buckets' k = Some b' /\ bdd_size b' <= bdd_size b.
Lemma shrinks_refl buckets : shrinks buckets buckets. Proof. intros k b H. eauto. Qed.
Lemma shrinks_trans x y z : shrinks x y -> shrinks y z -> shrinks x z.
Proof. intros H1 H2 k b Hb. destruct (H1 k b Hb) as (b1 & E1 & L1). destruct (H2 k b1 E1) as (b2 & E2 & L2). exists b2. split; auto. lia. Qed.
Lemma dominated_shrinks x y idx nodes : shrinks x y -> dominated x idx nodes -> dominated y idx nodes.
Proof. intros HS (k & bk & xk & H1 & H2 & H3 & H4). destruct (HS k bk H1) as (b' & E & L). exists k, b', xk. repeat split; auto. lia. Qed.

(** an operator leads nowhere from function [g] of size [size] *)
Definition exhausted (buckets : list Bucket) (g : list bdd) (size : nat) (op : OperatorFunction) : Prop :=
  forall g' idx vals, op g = Ok g' -> measured g' metrics idx vals -> size <= nodeCount g' \/ dominated buckets idx (nodeCount g').
Definition settled (buckets : list Bucket) (b : Bucket) : Prop :=
  forall k op, nth_error operators k = Some op -> nth_error (possible_operators b) k = Some true ->
    exhausted buckets (b_function b) (bdd_size b) op.
Lemma exhausted_shrinks x y g size op : shrinks x y -> exhausted x g size op -> exhausted y g size op.
Proof. intros HS H g' idx vals E ME. destruct (H g' idx vals E ME); auto. right. eapply dominated_shrinks; eauto. Qed.
Lemma settled_shrinks x y b : shrinks x y -> settled x b -> settled y b.
Proof. intros HS H k op Hk Hp. eapply exhausted_shrinks; eauto. Qed.

(** the parts of the state [populate] and [op_step] change *)
Definition same_or_test (buckets buckets' : list Bucket) (test' : list (list Z)) : Prop :=
  forall k b xk, nth_error buckets k = Some b -> at_index k xk -> nth_error buckets' k = Some b \/ In xk test'.
Definition grows (test test' : list (list Z)) : Prop := forall x, In x test -> In x test'.
Definition replace_in (replace : list (nat * nat)) (test : list (list Z)) : Prop :=
  forall k op xk, In (k, op) replace -> at_index k xk -> In xk test.
Definition step_ok (st st' : pop_state) : Prop :=
  let '(buckets, replace, test) := st in let '(buckets', replace', test') := st' in
  shrinks buckets buckets' /\ grows test test' /\ same_or_test buckets buckets' test'
  /\ (replace_in replace test -> replace_in replace' test').
Lemma step_refl st : step_ok st st.
Proof.
  destruct st as [[buckets replace] test]. split; [apply shrinks_refl|]. split; [intros x H; auto|]. split; auto. intros k b xk H _. auto.
Qed.
Lemma step_trans s1 s2 s3 : step_ok s1 s2 -> step_ok s2 s3 -> step_ok s1 s3.
Proof.
  destruct s1 as [[b1 r1] t1], s2 as [[b2 r2] t2], s3 as [[b3 r3] t3]. intros (A1 & A2 & A3 & A4) (B1 & B2 & B3 & B4).
  split; [eapply shrinks_trans; eauto|]. split; [intros x H; auto|]. split; auto.
  intros k b xk Hk Ak. destruct (A3 k b xk Hk Ak) as [H|H]; [|right; auto]. eauto.
Qed.
Lemma populate_step opnum nodes modified idx vals indices : forall st st',
  populate metrics indices opnum nodes modified idx vals st = Ok st' -> step_ok st st'.
Proof.
  induction indices as [|i indices IH]; intros [[buckets replace] test] st' H; cbn [populate] in H; [injection H as <-; apply step_refl|].
  destruct (vget buckets i) as [b| | |] eqn:Eb; cbn [bind] in H; try discriminate. apply vget_iff in Eb.
  destruct (bdd_size b <=? nodes) eqn:Es; [now apply IH|]. apply Nat.leb_gt in Es.
  destruct (create_multi_dim_index (Z.of_nat i) grid) as [index| | |] eqn:Ei; cbn [bind] in H; try discriminate.
  destruct (existsb _ _); [now apply IH|]. destruct (vset buckets i _) as [bs| | |] eqn:Ev; cbn [bind] in H; try discriminate.
  apply IH in H. eapply step_trans; [|exact H]. destruct (vset_spec _ _ _ _ Ev) as (L & Hi & NE). split; [|split; [|split]].
  - intros k bk Hk. rewrite NE. destruct (k =? i) eqn:E; [|eauto]. apply Nat.eqb_eq in E. subst k. eexists. split; eauto. cbn [bdd_size].
    assert (bk = b) by congruence. subst bk. lia.
  - intros x. apply set_insert_old.
  - intros k bk xk Hk Ak. rewrite NE. destruct (k =? i) eqn:E; [|auto]. apply Nat.eqb_eq in E. subst k. right.
    unfold MinimizeFacts2.at_index in Ak. assert (xk = index) as -> by congruence. apply set_insert_new.
  - intros HR k op xk Hk Ak. apply map_set_in in Hk. destruct Hk as [[= -> ->]|Hk].
    + unfold MinimizeFacts2.at_index in Ak. assert (xk = index) as -> by congruence. apply set_insert_new.
    + apply set_insert_old. eauto.
Qed.

Lemma reduce_box idx : in_box grid idx -> reduce_multi_dim_index idx grid = Ok (flat idx grid 0).
Proof. intro H. apply reduce_ok; auto. lia. Qed.
Lemma metric_loop_reject buckets nodes modified : forall ms i rest pre vpre r cs vs, metrics = rest ++ ms -> length rest = i ->
  length pre = i -> length vpre = i -> in_box (map grid_size rest) pre -> measured modified ms cs vs ->
  metric_loop function metrics buckets nodes modified ms i (pre ++ repeat 0%Z (length ms)) (vpre ++ repeat 0%Q (length ms)) = Ok (Rejected r) ->
  dominated buckets (pre ++ cs) nodes.
Proof.
  induction ms as [|m ms IH]; intros i rest pre vpre r cs vs E Lr L1 L2 BX ME H; cbn [metric_loop] in H; [discriminate|].
  inversion ME as [|m' ms' c cs' v vs' EM ED LT ME' E1 E2 E3]; subst m' ms' cs vs. rewrite EM in H. cbn [bind] in H. rewrite ED in H. cbn [bind] in H.
  assert ((grid_size m <=? c)%Z = false) as EG by (now apply Z.leb_gt). rewrite EG in H.
  cbn [length repeat] in H. rewrite <- L1, vset_mid in H. cbn [bind] in H.
  assert (C0 : (0 <= c)%Z) by (eapply dimension_nonneg; eauto).
  assert (BX1 : in_box (map grid_size (rest ++ [m])) (pre ++ [c])).
  { rewrite map_app. apply Forall2_app; auto. constructor; [|constructor]. lia. }
  assert (GP : Forall (fun b => (0 < b)%Z) (map grid_size ms)).
  { pose proof grid_pos as GP. unfold bucket_grid_size in GP. rewrite E, map_app in GP. apply Forall_app in GP.
    destruct GP as [_ GP]. cbn [map] in GP. now inversion GP. }
  assert (BX2 : in_box grid (pre ++ c :: repeat 0%Z (length ms))).
  { change (c :: repeat 0%Z (length ms)) with ([c] ++ repeat 0%Z (length ms)). rewrite app_assoc.
    unfold bucket_grid_size. rewrite E. change (m :: ms) with ([m] ++ ms). rewrite app_assoc, map_app. apply Forall2_app; auto.
    clear - GP. induction ms as [|a ms IH]; cbn [map length repeat] in *; constructor; inversion GP; subst; auto. lia. }
  rewrite reduce_box in H by auto. cbn [bind] in H.
  destruct (vget buckets _) as [b| | |] eqn:Eb; cbn [bind] in H; try discriminate. apply vget_iff in Eb.
  destruct (bdd_size b <=? nodes) eqn:Es.
  - apply Nat.leb_le in Es. exists (Z.to_nat (flat (pre ++ c :: repeat 0%Z (length ms)) grid 0)), b, (pre ++ c :: repeat 0%Z (length ms)).
    split; auto. split; [now apply at_flat|]. split; auto. apply Forall2_app; [|constructor; [lia|]].
    + clear. induction pre; constructor; auto. lia.
    + pose proof (measured_box _ _ _ _ _ ME') as BC. clear - BC. revert cs' BC. induction ms as [|a ms IH]; intros cs' BC; cbn [map length repeat] in *.
      * inversion BC. constructor.
      * inversion BC; subst. constructor; [lia|auto].
  - rewrite L1 in H. assert (VS : vset (vpre ++ 0%Q :: repeat 0%Q (length ms)) i v = Ok (vpre ++ v :: repeat 0%Q (length ms))) by (rewrite <- L2; apply vset_mid).
    rewrite VS in H. cbn [bind] in H.
    replace (pre ++ c :: cs') with ((pre ++ [c]) ++ cs') by (rewrite <- app_assoc; reflexivity).
    apply (IH (i + 1) (rest ++ [m]) (pre ++ [c]) (vpre ++ [v]) r cs' vs'); auto; try (rewrite app_length; cbn [length]; lia).
    + rewrite E, <- app_assoc. reflexivity.
    + rewrite <- !app_assoc. exact H.
Qed.

(** ** the operator loop *)
(** [possible]: flags at the start of the round; [b0]: the explored bucket *)
Definition loop_inv (cur : nat) (xcur : list Z) (b0 : Bucket) (start : pop_state) (done : nat) (st : op_state) : Prop :=
  good_op st /\ step_ok start (fst st) /\ replace_in (snd (fst (fst st))) (snd (fst st))
  /\ (forall k, done <= k -> nth_error (snd st) k = nth_error (possible_operators b0) k)
  /\ (In xcur (snd (fst st)) \/ (nth_error (fst (fst (fst st))) cur = Some b0
      /\ forall k op, k < done -> nth_error operators k = Some op -> nth_error (possible_operators b0) k = Some true ->
           exhausted (fst (fst (fst st))) (b_function b0) (bdd_size b0) op)).
Lemma op_step_inv cur xcur b0 start done st st' : at_index cur xcur -> derived operators function (b_function b0) ->
  loop_inv cur xcur b0 start done st -> op_step function metrics operators pop_all cur (b_function b0) done st = Ok st' ->
  loop_inv cur xcur b0 start (S done) st'.
Proof.
  intros AC HD (GO & ST & RI & FL & CU) H.
  pose proof (op_step_good function metrics operators pop_all grid_pos grid_vol cur (b_function b0) done st st' HD GO H) as [GO' _].
  destruct st as [[[buckets replace] test] possible]. cbn [fst snd] in *. unfold op_step in H.
  destruct (vget operators done) as [op| | |] eqn:Eo; cbn [bind] in H; try discriminate. apply vget_iff in Eo.
  destruct (vget possible done) as [p| | |] eqn:Ep; cbn [bind] in H; try discriminate. apply vget_iff in Ep.
  (* the buckets do not change and the operator is exhausted *)
  assert (KEEP : forall possible', (forall k, S done <= k -> nth_error possible' k = nth_error possible k) ->
     good_op ((buckets, replace, test), possible') ->
     (nth_error buckets cur = Some b0 -> p = true -> exhausted buckets (b_function b0) (bdd_size b0) op) ->
     loop_inv cur xcur b0 start (S done) ((buckets, replace, test), possible')).
  { intros possible' FL' GO2 EX. split; auto. cbn [fst snd]. split; auto. split; auto. split.
    - intros k Hk. rewrite FL' by lia. apply FL. lia.
    - destruct CU as [CU|[CU1 CU2]]; [now left|right]. split; auto. intros k o Hk Ho Hp.
      destruct (Nat.eq_dec k done) as [->|Hn]; [|apply (CU2 k); auto; lia].
      assert (o = op) as -> by congruence. apply EX; auto. pose proof (FL done ltac:(lia)) as F. congruence. }
  assert (VS : forall ps k, vset possible done false = Ok ps -> S done <= k -> nth_error ps k = nth_error possible k).
  { intros ps k Hv Hk. destruct (vset_spec _ _ _ _ Hv) as (_ & _ & N). rewrite N.
    assert (k =? done = false) as -> by (apply Nat.eqb_neq; lia). reflexivity. }
  destruct p; cbn [negb] in H; [|injection H as <-; apply KEEP; auto; discriminate].
  destruct (op (b_function b0)) as [modified| | |] eqn:Em; cbn [bind] in H; try discriminate. cbv zeta in H.
  destruct (vget buckets cur) as [c| | |] eqn:Ec; cbn [bind] in H; try discriminate. apply vget_iff in Ec.
  destruct (bdd_size c <=? nodeCount modified) eqn:Es.
  { apply Nat.leb_le in Es.
    assert (EX : nth_error buckets cur = Some b0 -> true = true -> exhausted buckets (b_function b0) (bdd_size b0) op).
    { intros Hc _ g' idx vals Eg _. left. assert (g' = modified) as -> by congruence. assert (c = b0) as -> by congruence. exact Es. }
    destruct (_ <? _); [|injection H as <-; apply KEEP; auto].
    destruct (vset possible done false) as [ps| | |] eqn:Eps; cbn [bind] in H; try discriminate. injection H as <-. apply KEEP; auto. }
  destruct (metric_loop _ _ _ _ _ _ _ _ _) as [v| | |] eqn:Ev; cbn [bind] in H; try discriminate.
  destruct v as [rm|idx vals].
  { assert (EX : nth_error buckets cur = Some b0 -> true = true -> exhausted buckets (b_function b0) (bdd_size b0) op).
    { intros _ _ g' idx vals Eg ME. right. assert (g' = modified) as -> by congruence.
      exact (metric_loop_reject buckets (nodeCount modified) modified metrics 0 [] [] [] rm idx vals eq_refl eq_refl eq_refl eq_refl (Forall2_nil _) ME Ev). }
    destruct rm; [|injection H as <-; apply KEEP; auto].
    destruct (vset possible done false) as [ps| | |] eqn:Eps; cbn [bind] in H; try discriminate. injection H as <-. apply KEEP; auto. }
  apply metric_loop_better in Ev. pose proof (measured_box _ _ _ _ _ Ev) as BX. fold grid in BX.
  rewrite reduce_box in H by auto. cbn [bind] in H.
  destruct (populate _ _ _ _ _ _ _ _) as [[[bs rp] ts]| | |] eqn:EP; cbn [bind] in H; try discriminate. injection H as <-.
  pose proof (populate_step _ _ _ _ _ _ _ _ EP) as PS. destruct PS as (P1 & P2 & P3 & P4).
  split; auto. cbn [fst snd]. split; [eapply step_trans; [exact ST|]; repeat split; auto|]. split; auto. split; [intros k Hk; apply FL; lia|].
  destruct CU as [CU|[CU1 CU2]]; [left; auto|]. destruct (P3 cur b0 xcur CU1 AC) as [Q|Q]; [right|now left]. split; auto.
  intros k o Hk Ho Hp. destruct (Nat.eq_dec k done) as [->|Hn]; [|eapply exhausted_shrinks; [exact P1|]; apply (CU2 k); auto; lia].
  assert (o = op) as -> by congruence. intros g' idx' vals' Eg ME. assert (g' = modified) as -> by congruence. right.
  destruct (measured_fun _ _ _ _ _ _ _ ME Ev) as [-> ->].
  assert (LB : length buckets = T) by apply GO.
  assert (HO : done < length operators) by (apply nth_error_Some; congruence).
  assert (SM : nodeCount modified < nodeCount function).
  { apply Nat.leb_gt in Es. destruct GO as ((GB & _) & _). cbn [fst] in GB. destruct (proj2 GB cur c Ec) as (_ & G2 & _ & G4 & G5).
    destruct (is_empty c) eqn:Ee; [destruct (G4 eq_refl) as [G6 _]; rewrite G2, G6 in Es; lia|destruct (G5 eq_refl); lia]. }
  destruct (populate_sizes function metrics operators grid_pos done (nodeCount modified) modified idx vals HO eq_refl Ev SM _ _ _ _ _ _ _ LB EP) as [LB' SZ].
  set (k0 := Z.to_nat (flat idx grid 0)) in *.
  assert (KT : k0 < T) by (apply (flat_lt metrics); exact BX).
  destruct (nth_error buckets k0) as [bk|] eqn:Ek; [|apply nth_error_None in Ek; lia].
  destruct (SZ k0 bk idx Ek (at_flat metrics idx BX)) as (bk' & Ek' & D). exists k0, bk', idx. split; auto. split; [now apply (at_flat metrics)|].
  assert (RF : below_all idx idx) by (clear; induction idx; constructor; auto; lia). split; auto.
  destruct D as [[D _]|(_ & _ & D)]; [|lia]. exfalso. apply D. split; auto. apply in_seq. rewrite LB in *. destruct pop_all; lia.
Qed.

Lemma loop_all cur xcur b0 start : at_index cur xcur -> derived operators function (b_function b0) -> forall n a st st',
  loop_inv cur xcur b0 start a st -> for_each (seq a n) st (op_step function metrics operators pop_all cur (b_function b0)) = Ok st' ->
  loop_inv cur xcur b0 start (a + n) st'.
Proof.
  intros AC HD. induction n as [|n IH]; intros a st st' I H; cbn [seq for_each] in H; [injection H as <-; now rewrite Nat.add_0_r|].
  destruct (op_step _ _ _ _ _ _ _ _) as [st1| | |] eqn:E; cbn [bind] in H; try discriminate.
  rewrite <- Nat.add_succ_comm. eapply IH; [|exact H]. eapply op_step_inv; eauto.
Qed.

Lemma replace_keeps possible : forall replace buckets buckets', replace_loop replace possible buckets = Ok buckets' ->
  shrinks buckets buckets' /\ shrinks buckets' buckets
  /\ forall k b, nth_error buckets k = Some b -> (exists op, In (k, op) replace) \/ nth_error buckets' k = Some b.
Proof.
  induction replace as [|[i op] replace IH]; intros buckets buckets' H; cbn [replace_loop] in H.
  - injection H as <-. split; [apply shrinks_refl|]. split; [apply shrinks_refl|auto].
  - destruct (vget buckets i) as [b| | |] eqn:Eb; cbn [bind] in H; try discriminate. apply vget_iff in Eb.
    destruct (vset possible op false) as [ops| | |] eqn:Eo; cbn [bind] in H; try discriminate.
    destruct (vset buckets i _) as [bs| | |] eqn:Ev; cbn [bind] in H; try discriminate.
    destruct (vset_spec _ _ _ _ Ev) as (L & Hi & NE). destruct (IH bs buckets' H) as (I1 & I2 & I3).
    split; [|split].
    + eapply shrinks_trans; [|exact I1]. intros k bk Hk. rewrite NE. destruct (k =? i) eqn:E; [|eauto]. apply Nat.eqb_eq in E. subst k.
      eexists. split; eauto. cbn [bdd_size]. assert (bk = b) as -> by congruence. lia.
    + eapply shrinks_trans; [exact I2|]. intros k bk Hk. rewrite NE in Hk. destruct (k =? i) eqn:E; [|eauto]. apply Nat.eqb_eq in E. subst k.
      injection Hk as <-. exists b. split; auto.
    + intros k bk Hk. destruct (Nat.eq_dec k i) as [->|Hn]; [left; exists op; now left|].
      destruct (I3 k bk) as [(o & Ho)|R]; [rewrite NE; assert (k =? i = false) as -> by (now apply Nat.eqb_neq); auto|left; exists o; now right|auto].
Qed.

(** every bucket still waiting or settled *)
Definition fix_inv (buckets : list Bucket) (test : list (list Z)) : Prop :=
  forall k b xk, nth_error buckets k = Some b -> at_index k xk -> is_empty b = false \/ k = 0 -> In xk test \/ settled buckets b.
Lemma explore_fix buckets first rest buckets' test' : good_state buckets (first :: rest) -> fix_inv buckets (first :: rest) ->
  explore function metrics operators pop_all buckets first rest = Ok (buckets', test') -> fix_inv buckets' test'.
Proof.
  intros (G & GT & MO) FI H. unfold explore in H. cbv zeta in H.
  pose proof (min_element_in rest first) as MI. set (pos := min_element first rest) in *.
  assert (BX : in_box grid pos) by (now apply GT). rewrite reduce_box in H by auto. cbn [bind] in H.
  set (cur := Z.to_nat (flat pos grid 0)) in *.
  destruct (vget buckets cur) as [b| | |] eqn:Eb; cbn [bind] in H; try discriminate. apply vget_iff in Eb.
  destruct (for_each _ _ _) as [[[[bs rp] ts] possible]| | |] eqn:EF; cbn [bind] in H; try discriminate.
  destruct (replace_loop rp possible bs) as [bs'| | |] eqn:ER; cbn [bind] in H; try discriminate. injection H as <- <-.
  destruct (proj2 G _ b Eb) as (HD & _ & LP & _). pose proof (at_flat metrics pos BX) as AC. fold cur in AC.
  set (start := (buckets, [] : list (nat * nat), set_erase pos (first :: rest))) in *.
  assert (I0 : loop_inv cur pos b start 0 (start, possible_operators b)).
  { split; [|split; [|split; [|split]]]; cbn [fst snd start].
    - refine (conj (conj G (conj _ _)) (conj LP MO)).
      + intros x Hx. apply GT. eapply set_erase_in; eauto.
      + intros i op [].
    - apply step_refl.
    - intros k op xk [].
    - auto.
    - right. split; auto. intros k op Hk. lia. }
  apply (loop_all cur pos b start AC HD _ _ _ _ I0) in EF. cbn [Nat.add] in EF.
  destruct EF as (((GB & _) & _) & (S1 & S2 & S3 & _) & RI & _ & CU). cbn [fst snd] in *.
  destruct (replace_keeps _ _ _ _ ER) as (R1 & R2 & R3).
  intros k bk xk Hk Ak EMP.
  (* the bucket before *)
  assert (LT : k < length bs) by (destruct (R2 k bk Hk) as (c & Hc & _); apply nth_error_Some; congruence).
  destruct (nth_error bs k) as [c|] eqn:Ec; [|apply nth_error_None in Ec; lia].
  destruct (R3 k c Ec) as [(op & Ho)|E2]; [left; eapply RI; eauto|]. assert (bk = c) as -> by congruence. clear Hk.
  assert (LB : k < length buckets).
  { rewrite (proj1 G). rewrite <- (proj1 GB). exact LT. }
  destruct (nth_error buckets k) as [d|] eqn:Ed; [|apply nth_error_None in Ed; lia].
  destruct (S3 k d xk Ed Ak) as [Q|Q]; [|now left]. assert (d = c) as -> by congruence.
  destruct (Nat.eq_dec k cur) as [->|Hn].
  - assert (xk = pos) as -> by (unfold MinimizeFacts2.at_index in Ak, AC; congruence).
    destruct CU as [CU|[CU1 CU2]]; [now left|right]. assert (c = b) as -> by congruence.
    intros j op Hj Hp. eapply exhausted_shrinks; [exact R1|]. apply (CU2 j); auto. apply nth_error_Some. congruence.
  - destruct (FI k c xk Ed Ak EMP) as [IT|ST].
    + left. apply S2. apply set_erase_other; auto. intro E. subst xk. apply Hn.
      destruct (at_index_box metrics grid_pos k pos) as [_ E]; auto; [rewrite <- (proj1 G); lia|]. unfold cur. rewrite E. now rewrite Nat2Z.id.
    + right. eapply settled_shrinks; [eapply shrinks_trans; [exact S1|exact R1]|]. exact ST.
Qed.
Lemma search_fix fuel : forall buckets test buckets', good_state buckets test -> fix_inv buckets test ->
  search function metrics operators pop_all fuel buckets test = Some (Ok buckets') -> fix_inv buckets' [].
Proof.
  induction fuel as [|fuel IH]; intros buckets test buckets' G FI H; destruct test as [|first rest]; cbn [search] in H; try discriminate;
    try (injection H as <-; exact FI).
  destruct (explore _ _ _ _ _ _ _) as [[bs ts]| | |] eqn:E; try discriminate.
  pose proof (explore_fix _ _ _ _ _ G FI E). apply explore_good in E; auto. destruct E as [E _]. eauto.
Qed.
Lemma minimize_fix fuel buckets : bucket_greedy_minimize function metrics operators pop_all fuel = Some (Ok buckets) -> fix_inv buckets [].
Proof.
  destruct (initial_good function metrics operators pop_all grid_pos) as (first & E & G).
  rewrite (minimize_search _ _ _ _ grid_pos grid_vol fuel first has_metric E).
  apply search_fix; auto. intros k b xk Hk Ak [Ee|Ek].
  - unfold initial in Hk. apply nth_repeat in Hk. subst b. discriminate.
  - subst k. left. unfold MinimizeFacts2.at_index in Ak. cbn [Z.of_nat] in Ak. assert (xk = first) as -> by congruence. now left.
Qed.
End Fixpoint_.

(** ** statement with the cells of the error grid *)
Lemma cell_dimension gs bd v c : (0 < bd)%Q -> (0 <= c < gs)%Z -> (c < 2 ^ 64)%Z ->
  (inject_Z c * bd / inject_Z gs <= v)%Q -> (v < (inject_Z c + 1) * bd / inject_Z gs)%Q -> dimension_index gs (Fin v) bd = Ok c.
Proof.
  intros HB HC HC2 L U. unfold dimension_index.
  assert (Qeq_bool bd 0 = false) as -> by (apply not_true_is_false; intro Hq; apply Qeq_bool_eq in Hq; lra).
  cbv zeta. assert (GQ : (0 < inject_Z gs)%Q) by (change 0%Q with (inject_Z 0); rewrite <- Zlt_Qlt; lia).
  assert (L1 : (inject_Z c <= inject_Z gs * v / bd)%Q).
  { apply Qle_shift_div_l; auto. assert (E : (inject_Z c * bd == (inject_Z c * bd / inject_Z gs) * inject_Z gs)%Q) by (field; lra).
    rewrite E, (Qmult_comm (inject_Z gs)). apply Qmult_le_compat_r; lra. }
  assert (U1 : (inject_Z gs * v / bd < inject_Z c + 1)%Q).
  { apply Qlt_shift_div_r; auto. assert (E : ((inject_Z c + 1) * bd == ((inject_Z c + 1) * bd / inject_Z gs) * inject_Z gs)%Q) by (field; lra).
    rewrite E, (Qmult_comm (inject_Z gs)). apply Qmult_lt_compat_r; auto. }
  set (q := (inject_Z gs * v / bd)%Q) in *. clearbody q. destruct q as [a p]. cbn [Qnum Qden].
  unfold Qle in L1. unfold Qlt in U1. cbn [inject_Z Qnum Qden Qplus] in *. rewrite Z.mul_1_r in L1. change (Z.pos (1 * 1)) with 1%Z in U1.
  assert (Z.quot a (Zpos p) = c) as ->.
  { symmetry. apply Z.quot_unique with (r := (a - Zpos p * c)%Z); nia. }
  assert ((0 <=? c)%Z && (c <? 2 ^ 64)%Z = true) as -> by (apply andb_true_iff; split; [apply Z.leb_le|apply Z.ltb_lt]; lia).
  reflexivity.
Qed.
Lemma volume_ge bounds : Forall (fun b => 0 < b)%Z bounds -> forall b, In b bounds -> (b <= volume bounds)%Z.
Proof.
  induction 1 as [|x bs Hx H IH]; intros b HI; [destruct HI|]. cbn [volume fold_right]. fold (volume bs).
  pose proof (volume_pos bs H). destruct HI as [->|HI]; [nia|]. specialize (IH b HI). nia.
Qed.

Section Optimal.
Variable function : list bdd.
Variable metrics : list MetricDimension.
Variable operators : list OperatorFunction.
Notation grid := (map grid_size metrics).
Hypothesis has_metric : metrics <> [].
Hypothesis grid_pos : Forall (fun m => (0 < grid_size m)%Z) metrics.
Hypothesis grid_vol : (volume grid < 2 ^ 64)%Z.
Hypothesis bound_pos : Forall (fun m => (0 < bound m)%Q) metrics.

Notation in_cell := (in_cell function).
Lemma cell_measured ms g index : (forall m, In m ms -> In m metrics) -> in_cell ms g index -> exists vals, measured function g ms index vals.
Proof.
  intros HI H. induction H as [|m c ms index (HC & v & E & L & U) H IH]; [exists []; constructor|].
  destruct IH as (vals & IH); [intros m' Hm; apply HI; now right|]. exists (v :: vals).
  assert (IM : In m metrics) by (apply HI; now left). rewrite Forall_forall in bound_pos.
  assert (c < 2 ^ 64)%Z.
  { assert (P : Forall (fun b => 0 < b)%Z grid) by (apply Forall_map; exact grid_pos).
    pose proof (volume_ge grid P (grid_size m) (in_map grid_size metrics m IM)). lia. }
  constructor; auto; [|lia]. now apply cell_dimension; auto.
Qed.

Theorem no_improvement pop_all fuel buckets : bucket_greedy_minimize function metrics operators pop_all fuel = Some (Ok buckets) ->
  forall i b k op g' cell, nth_error buckets i = Some b -> is_empty b = false \/ i = 0 ->
    nth_error operators k = Some op -> nth_error (possible_operators b) k = Some true -> op (b_function b) = Ok g' ->
    in_cell metrics g' cell ->
    bdd_size b <= nodeCount g'
    \/ exists j bj index, nth_error buckets j = Some bj /\ in_box grid index /\ row_major grid index = Z.of_nat j
         /\ below_all index cell /\ (pop_all = true -> index = cell) /\ bdd_size bj <= nodeCount g'.
Proof.
  intros H i b k op g' cell Hi EMP Ho Hp Eg HC.
  assert (gp : Forall (fun b => (0 < b)%Z) (bucket_grid_size metrics)) by (apply Forall_map; exact grid_pos).
  pose proof (minimize_fix function metrics operators pop_all has_metric gp grid_vol fuel buckets H) as FI.
  pose proof (minimize_good function metrics operators pop_all has_metric grid_pos grid_vol fuel buckets H) as ((L & _) & _ & MO).
  assert (HT : i < Z.to_nat (volume grid)) by (unfold bucket_grid_size in L; rewrite <- L; apply nth_error_Some; congruence).
  destruct (at_index_ex metrics gp i HT) as (xi & Ai & _).
  destruct (FI i b xi Hi Ai EMP) as [[]|ST].
  destruct (cell_measured metrics g' cell ltac:(auto) HC) as (vals & ME).
  destruct (ST k op Ho Hp g' cell vals Eg ME) as [S1|(j & bj & xj & Hj & Aj & B & LE)]; [now left|right].
  assert (JT : j < Z.to_nat (volume grid)) by (unfold bucket_grid_size in L; rewrite <- L; apply nth_error_Some; congruence).
  destruct (at_index_box metrics gp j xj JT Aj) as [BXj Fj].
  destruct pop_all.
  - pose proof (measured_box _ _ _ _ _ ME) as BC.
    set (c := Z.to_nat (flat cell grid 0)). pose proof (flat_lt metrics cell BC) as CT.
    destruct (nth_error buckets c) as [bc|] eqn:Ec; [|apply nth_error_None in Ec; unfold bucket_grid_size in *; lia].
    exists c, bc, cell. split; auto. split; auto. pose proof (flat_range _ _ BC). split; [rewrite row_major_at by auto; unfold c; lia|].
    split; [clear; induction cell; constructor; auto; lia|]. split; auto.
    pose proof (MO eq_refl j c bj bc xj cell Hj Ec Aj (at_flat metrics cell BC) B). lia.
  - exists j, bj, xj. split; auto. split; auto. split; [rewrite row_major_at by auto; exact Fj|]. split; auto. split; [discriminate|auto].
Qed.
End Optimal.

(** ** misuse of the search *)
Lemma minimize_misuse function metrics operators pop_all fuel :
  (metrics = [] -> bucket_greedy_minimize function metrics operators pop_all fuel = Some Throw)
  /\ (In 0%Z (map grid_size metrics) -> bucket_greedy_minimize function metrics operators pop_all fuel = Some UB).
Proof.
  split; [intros ->; reflexivity|]. intro H. unfold bucket_greedy_minimize, bucket_grid_size. rewrite (create_zero _ H).
  destruct metrics as [|m ms]; [destruct H|reflexivity].
Qed.

(** ** random operators *)
Lemma random_generated M rands function ops count gens : generate_random_operators M rands function ops count = Ok gens ->
  length gens = count /\ forall g, In g gens -> exists op level, In op ops /\ level < terminal_level [function]
    /\ forall f, g f = apply_operator_all M f op level level.
Proof.
  unfold generate_random_operators. set (T := terminal_level [function]). clearbody T. revert rands gens.
  induction count as [|count IH]; intros rands gens H; cbn [random_loop] in H.
  { injection H as <-. split; auto. intros g []. }
  destruct rands as [|r1 [|r2 rands]]; try discriminate.
  destruct (length ops =? 0) eqn:E0; cbn [negb require_ bind] in H; [discriminate|]. apply Nat.eqb_neq in E0.
  destruct (vget ops (r1 mod length ops)) as [op| | |] eqn:Eo; cbn [bind] in H; try discriminate. apply vget_iff in Eo.
  destruct (T =? 0) eqn:ET; cbn [negb require_ bind] in H; [discriminate|]. apply Nat.eqb_neq in ET. cbv zeta in H.
  destruct (random_loop M rands T ops count) as [rest| | |] eqn:ER; cbn [bind] in H; try discriminate. injection H as <-.
  destruct (IH rands rest ER) as [I1 I2]. split; [cbn [length]; lia|]. intros g [<-|Hg]; [|now apply I2].
  exists op, (r2 mod T). split; [eapply nth_error_In; eauto|]. split; [now apply Nat.mod_upper_bound|reflexivity].
Qed.
Lemma random_outcome M rands function ops count : 2 * count <= length rands -> 0 < count ->
  (ops = [] \/ function = [] -> generate_random_operators M rands function ops count = UB)
  /\ (ops <> [] -> function <> [] -> exists gens, generate_random_operators M rands function ops count = Ok gens).
Proof.
  intros L C. unfold generate_random_operators.
  assert (ZT : function = [] -> terminal_level [function] = 0) by (intros ->; reflexivity).
  assert (PT : function <> [] -> 0 < terminal_level [function]).
  { destruct function as [|b f]; [congruence|]. intros _. unfold terminal_level. cbn [fold_left].
    assert (MON : forall l m, m <= fold_left (fun m b => Nat.max m (list_max0 (support b) + 1)) l m).
    { induction l as [|y l IH]; intro m; cbn [fold_left]; [lia|]. eapply Nat.le_trans; [|apply IH]. lia. }
    eapply Nat.lt_le_trans; [|apply MON]. lia. }
  set (T := terminal_level [function]) in *. clearbody T. split.
  - intro D. assert (D' : ops = [] \/ T = 0) by (destruct D; auto). clear D PT ZT. rename D' into D. destruct count as [|count]; [lia|]. destruct rands as [|r1 [|r2 rands]]; cbn [length] in L; try lia. cbn [random_loop].
    destruct D as [D|D]; subst; [reflexivity|]. destruct (length ops =? 0) eqn:E0; cbn [negb require_ bind]; auto. apply Nat.eqb_neq in E0.
    destruct (vget_ok ops (r1 mod length ops)) as (op & Eo & _); [now apply Nat.mod_upper_bound|]. rewrite Eo. reflexivity.
  - intros HO HF. pose proof (PT HF) as HT. clear C PT ZT. revert rands L. induction count as [|count IH]; intros rands L; cbn [random_loop]; [eauto|].
    destruct rands as [|r1 [|r2 rands]]; cbn [length] in L; try lia.
    assert (length ops <> 0) by (destruct ops; [congruence|discriminate]).
    assert (length ops =? 0 = false) as -> by (now apply Nat.eqb_neq). cbn [negb require_ bind].
    destruct (vget_ok ops (r1 mod length ops)) as (op & Eo & _); [now apply Nat.mod_upper_bound|]. rewrite Eo. cbn [bind].
    assert (T =? 0 = false) as -> by (apply Nat.eqb_neq; lia). cbn [negb require_ bind]. cbv zeta.
    destruct (IH rands) as (rest & ER); [lia|]. rewrite ER. cbn [bind]. eauto.
Qed.

(** ** every function is matched in its own cell *)
Section Origin.
Variable function : list bdd.
Variable metrics : list MetricDimension.
Variable operators : list OperatorFunction.
Variable pop_all : bool.
Notation grid := (bucket_grid_size metrics).
Hypothesis has_metric : metrics <> [].
Hypothesis grid_pos : Forall (fun b => (0 < b)%Z) grid.
Hypothesis grid_vol : (volume grid < 2 ^ 64)%Z.
Notation T := (Z.to_nat (volume grid)).
Notation measured := (measured function).
Notation good_op := (good_op function metrics operators pop_all).
Notation good_state := (good_state function metrics operators pop_all).

Definition origin (buckets : list Bucket) : Prop := forall i b idx vals, nth_error buckets i = Some b -> is_empty b = false ->
  measured (b_function b) metrics idx vals -> dominated metrics buckets idx (bdd_size b).
Lemma populate_which opnum nodes modified idx vals indices : forall st st', populate metrics indices opnum nodes modified idx vals st = Ok st' ->
  forall k b, nth_error (fst (fst st')) k = Some b -> nth_error (fst (fst st)) k = Some b \/ (b_function b = modified /\ bdd_size b = nodes).
Proof.
  induction indices as [|i indices IH]; intros [[buckets replace] test] st' H k b Hb; cbn [populate] in H; [injection H as <-; auto|].
  destruct (vget buckets i) as [c| | |] eqn:Eb; cbn [bind] in H; try discriminate.
  destruct (bdd_size c <=? nodes); [now apply (IH _ _ H)|].
  destruct (create_multi_dim_index (Z.of_nat i) grid) as [index| | |]; cbn [bind] in H; try discriminate.
  destruct (existsb _ _); [now apply (IH _ _ H)|]. destruct (vset buckets i _) as [bs| | |] eqn:Ev; cbn [bind] in H; try discriminate.
  destruct (vset_spec _ _ _ _ Ev) as (_ & _ & NE). destruct (IH _ _ H k b Hb) as [Q|Q]; [|auto]. cbn [fst] in *. rewrite NE in Q.
  destruct (k =? i); [|auto]. injection Q as <-. right. auto.
Qed.
Lemma op_step_origin cur bf opnum st st' : derived operators function bf -> good_op st -> origin (fst (fst (fst st))) ->
  op_step function metrics operators pop_all cur bf opnum st = Ok st' -> origin (fst (fst (fst st'))).
Proof.
  intros HD GO OR H. destruct st as [[[buckets replace] test] possible]. cbn [fst snd] in *. unfold op_step in H.
  destruct (vget operators opnum) as [op| | |] eqn:Eo; cbn [bind] in H; try discriminate. apply vget_iff in Eo.
  destruct (vget possible opnum) as [p| | |] eqn:Ep; cbn [bind] in H; try discriminate.
  destruct (negb p); [injection H as <-; exact OR|].
  destruct (op bf) as [modified| | |] eqn:Em; cbn [bind] in H; try discriminate. cbv zeta in H.
  destruct (vget buckets cur) as [c| | |] eqn:Ec; cbn [bind] in H; try discriminate. apply vget_iff in Ec.
  destruct (bdd_size c <=? nodeCount modified) eqn:Es.
  { destruct (_ <? _); [|injection H as <-; exact OR].
    destruct (vset possible opnum false) as [ps| | |]; cbn [bind] in H; try discriminate. injection H as <-. exact OR. }
  destruct (metric_loop _ _ _ _ _ _ _ _ _) as [v| | |] eqn:Ev; cbn [bind] in H; try discriminate.
  destruct v as [rm|idx vals].
  { destruct rm; [|injection H as <-; exact OR].
    destruct (vset possible opnum false) as [ps| | |]; cbn [bind] in H; try discriminate. injection H as <-. exact OR. }
  apply metric_loop_better in Ev. pose proof (measured_box _ _ _ _ _ Ev) as BX. fold grid in BX.
  rewrite (reduce_box metrics grid_vol) in H by auto. cbn [bind] in H.
  destruct (populate _ _ _ _ _ _ _ _) as [[[bs rp] ts]| | |] eqn:EP; cbn [bind] in H; try discriminate. injection H as <-. cbn [fst snd].
  pose proof (populate_step metrics _ _ _ _ _ _ _ _ EP) as (P1 & _).
  assert (LB : length buckets = T) by apply GO.
  assert (HO : opnum < length operators) by (apply nth_error_Some; congruence).
  assert (SM : nodeCount modified < nodeCount function).
  { apply Nat.leb_gt in Es. destruct GO as ((GB & _) & _). cbn [fst] in GB. destruct (proj2 GB cur c Ec) as (_ & G2 & _ & G4 & G5).
    destruct (is_empty c) eqn:Ee; [destruct (G4 eq_refl) as [G6 _]; rewrite G2, G6 in Es; lia|destruct (G5 eq_refl); lia]. }
  assert (DM : dominated metrics bs idx (nodeCount modified)).
  { destruct (populate_sizes function metrics operators grid_pos opnum (nodeCount modified) modified idx vals HO eq_refl Ev SM _ _ _ _ _ _ _ LB EP) as [LB' SZ].
    set (k0 := Z.to_nat (flat idx grid 0)) in *.
    assert (KT : k0 < T) by (apply (flat_lt metrics); exact BX).
    destruct (nth_error buckets k0) as [bk|] eqn:Ek; [|apply nth_error_None in Ek; lia].
    destruct (SZ k0 bk idx Ek (at_flat metrics idx BX)) as (bk' & Ek' & D). exists k0, bk', idx. split; auto. split; [now apply (at_flat metrics)|].
    assert (RF : below_all idx idx) by (clear; induction idx; constructor; auto; lia). split; auto.
    destruct D as [[D _]|(_ & _ & D)]; [|lia]. exfalso. apply D. split; auto. apply in_seq. rewrite LB in *. destruct pop_all; lia. }
  intros i b idx' vals' Hi Ee ME. destruct (populate_which _ _ _ _ _ _ _ _ EP i b Hi) as [Q|[Q1 Q2]].
  - eapply dominated_shrinks; [exact P1|]. exact (OR i b idx' vals' Q Ee ME).
  - rewrite Q2. rewrite Q1 in ME. destruct (measured_fun _ _ _ _ _ _ _ ME Ev) as [-> _]. exact DM.
Qed.
Lemma replace_which possible : forall replace buckets buckets', replace_loop replace possible buckets = Ok buckets' ->
  forall k b, nth_error buckets' k = Some b -> exists c, nth_error buckets k = Some c /\ b_function c = b_function b /\ bdd_size c = bdd_size b /\ is_empty c = is_empty b.
Proof.
  induction replace as [|[i op] replace IH]; intros buckets buckets' H k b Hb; cbn [replace_loop] in H; [injection H as <-; eauto|].
  destruct (vget buckets i) as [d| | |] eqn:Eb; cbn [bind] in H; try discriminate. apply vget_iff in Eb.
  destruct (vset possible op false) as [ops| | |] eqn:Eo; cbn [bind] in H; try discriminate.
  destruct (vset buckets i _) as [bs| | |] eqn:Ev; cbn [bind] in H; try discriminate.
  destruct (vset_spec _ _ _ _ Ev) as (_ & _ & NE). destruct (IH bs buckets' H k b Hb) as (c & Hc & E1 & E2 & E3). rewrite NE in Hc.
  destruct (k =? i) eqn:E; [|eauto]. apply Nat.eqb_eq in E. subst k. injection Hc as <-. exists d. auto.
Qed.
Lemma explore_origin buckets first rest buckets' test' : good_state buckets (first :: rest) -> origin buckets ->
  explore function metrics operators pop_all buckets first rest = Ok (buckets', test') -> origin buckets'.
Proof.
  intros (G & GT & MO) OR H. unfold explore in H. cbv zeta in H.
  pose proof (min_element_in rest first) as MI. set (pos := min_element first rest) in *.
  assert (BX : in_box grid pos) by (now apply GT). rewrite (reduce_box metrics grid_vol) in H by auto. cbn [bind] in H.
  destruct (vget buckets _) as [b| | |] eqn:Eb; cbn [bind] in H; try discriminate. apply vget_iff in Eb.
  destruct (for_each _ _ _) as [[[[bs rp] ts] possible]| | |] eqn:EF; cbn [bind] in H; try discriminate.
  destruct (replace_loop rp possible bs) as [bs'| | |] eqn:ER; cbn [bind] in H; try discriminate. injection H as <- <-.
  destruct (proj2 G _ b Eb) as (HD & _ & LP & _).
  assert (I : good_op ((bs, rp, ts), possible) /\ origin bs).
  { eapply for_each_pc with (I := fun st => good_op st /\ origin (fst (fst (fst st)))); [|split; [split|]|exact EF].
    - intros i st st' Hi [I1 I2] HS. split; [|eapply op_step_origin; eauto]. eapply op_step_good in HS; auto. apply HS.
    - split; auto. split; [|intros i op []]. intros x Hx. apply GT. eapply set_erase_in; eauto.
    - split; auto.
    - exact OR. }
  destruct I as [_ OR']. destruct (replace_keeps _ _ _ _ ER) as (R1 & _).
  intros i c idx vals Hi Ee ME. destruct (replace_which _ _ _ _ ER i c Hi) as (d & Hd & E1 & E2 & E3).
  rewrite <- E1 in ME. rewrite <- E2. eapply dominated_shrinks; [exact R1|]. apply (OR' i d idx vals Hd); auto. congruence.
Qed.
Lemma search_origin fuel : forall buckets test buckets', good_state buckets test -> origin buckets ->
  search function metrics operators pop_all fuel buckets test = Some (Ok buckets') -> origin buckets'.
Proof.
  induction fuel as [|fuel IH]; intros buckets test buckets' G OR H; destruct test as [|first rest]; cbn [search] in H; try discriminate;
    try (injection H as <-; exact OR).
  destruct (explore _ _ _ _ _ _ _) as [[bs ts]| | |] eqn:E; try discriminate.
  pose proof (explore_origin _ _ _ _ _ G OR E). apply explore_good in E; auto. destruct E as [E _]. eauto.
Qed.
Lemma minimize_origin fuel buckets : bucket_greedy_minimize function metrics operators pop_all fuel = Some (Ok buckets) -> origin buckets.
Proof.
  destruct (initial_good function metrics operators pop_all grid_pos) as (first & E & G).
  rewrite (minimize_search _ _ _ _ grid_pos grid_vol fuel first has_metric E).
  apply search_origin; auto. intros k b idx vals Hk Ee. unfold initial in Hk. apply nth_repeat in Hk. subst b. discriminate.
Qed.
End Origin.

Lemma dimension_mono gs bd v w c d : (0 < bd)%Q -> (0 < gs)%Z -> (v <= w)%Q ->
  dimension_index gs (Fin v) bd = Ok c -> dimension_index gs (Fin w) bd = Ok d -> (c <= d)%Z.
Proof.
  intros HB HG L. unfold dimension_index. destruct (Qeq_bool bd 0); [discriminate|]. cbv zeta.
  assert (LE : (inject_Z gs * v / bd <= inject_Z gs * w / bd)%Q).
  { unfold Qdiv. apply Qmult_le_compat_r; [|apply Qinv_le_0_compat; lra]. rewrite !(Qmult_comm (inject_Z gs)). apply Qmult_le_compat_r; auto.
    change 0%Q with (inject_Z 0). rewrite <- Zle_Qle. lia. }
  set (p := (inject_Z gs * v / bd)%Q) in *. set (q := (inject_Z gs * w / bd)%Q) in *. clearbody p q.
  destruct ((0 <=? _)%Z && _) eqn:E1; [|discriminate]. intros [= <-]. destruct ((0 <=? Z.quot (Qnum q) _)%Z && _) eqn:E2; [|discriminate]. intros [= <-].
  destruct p as [a x], q as [b y]. unfold Qle in LE. cbn [Qnum Qden] in *.
  apply andb_true_iff in E1. destruct E1 as [E1 _]. apply Z.leb_le in E1. apply andb_true_iff in E2. destruct E2 as [E2 _]. apply Z.leb_le in E2.
  destruct (Z_lt_le_dec a 0) as [Na|Na]; [|].
  - assert (0 <= Z.quot (- a) (Zpos x))%Z by (apply Z.quot_pos; lia). rewrite Z.quot_opp_l in H by lia. lia.
  - assert (0 <= b)%Z by nia. pose proof (Z.quot_rem' a (Zpos x)) as Q1. pose proof (Z.rem_bound_pos a (Zpos x) ltac:(lia) ltac:(lia)) as R1.
    pose proof (Z.quot_rem' b (Zpos y)) as Q2. pose proof (Z.rem_bound_pos b (Zpos y) ltac:(lia) ltac:(lia)) as R2.
    set (A := Z.quot a (Zpos x)) in *. set (B := Z.quot b (Zpos y)) in *. clearbody A B.
    destruct (Z_le_gt_dec A B) as [|GT]; auto. exfalso.
    assert (Zpos x * A <= a)%Z by lia. assert (b < Zpos y * (B + 1))%Z by lia.
    assert (Zpos x * Zpos y * A <= a * Zpos y)%Z by nia. assert (b * Zpos x < Zpos x * Zpos y * (B + 1))%Z by nia. nia.
Qed.
Lemma measured_mono function metrics x y : Forall (fun m => (0 < bound m)%Q) metrics -> Forall (fun m => (0 < grid_size m)%Z) metrics ->
  forall cx vx cy vy, measured function x metrics cx vx -> measured function y metrics cy vy -> Forall2 Qle vx vy -> below_all cx cy.
Proof.
  intros HB HG cx vx cy vy MX. revert HB HG cy vy. induction MX as [|m ms c cs v vs E1 E2 L MX IH]; intros HB HG cy vy MY F; inversion MY; subst.
  - constructor.
  - inversion F; subst. inversion HB; inversion HG; subst. constructor; [|eapply IH; eauto]. eapply dimension_mono; [| | |exact E2|eassumption]; auto.
Qed.
Lemma below_tr x y z : below_all x y -> below_all y z -> below_all x z.
Proof.
  intro H. revert z. induction H as [|a b x y L H IH]; intros z Hz; inversion Hz; subst; [constructor|]. constructor; [lia|now apply IH].
Qed.
Lemma dominated_same_size function metrics operators fuel buckets :
  metrics <> [] -> Forall (fun m => (0 < grid_size m)%Z) metrics -> (volume (map grid_size metrics) < 2 ^ 64)%Z ->
  Forall (fun m => (0 < bound m)%Q) metrics ->
  bucket_greedy_minimize function metrics operators true fuel = Some (Ok buckets) ->
  forall x y, In x buckets -> In y buckets -> is_empty x = false -> is_empty y = false -> dominates x y -> bdd_size x = bdd_size y.
Proof.
  intros HM GP GV BP H x y Hx Hy Ex Ey (D1 & D2 & _).
  assert (gp : Forall (fun b => (0 < b)%Z) (bucket_grid_size metrics)) by (apply Forall_map; exact GP).
  pose proof (minimize_good function metrics operators true HM GP GV fuel buckets H) as ((L & G) & _ & MO).
  pose proof (minimize_origin function metrics operators true HM gp GV fuel buckets H) as OR.
  apply In_nth_error in Hx. destruct Hx as (i & Hi). apply In_nth_error in Hy. destruct Hy as (j & Hj).
  destruct (G i x Hi) as (_ & _ & _ & _ & GX). destruct (GX Ex) as (_ & xi & cx & _ & MX & _).
  destruct (G j y Hj) as (_ & _ & _ & _ & GY). destruct (GY Ey) as (_ & yj & cy & Ay & MY & BY & _).
  destruct (OR i x cx _ Hi Ex MX) as (k & bk & xk & Hk & Ak & Bk & Sk).
  pose proof (measured_mono function metrics _ _ BP GP _ _ _ _ MX MY D1) as BC.
  pose proof (MO eq_refl k j bk y xk yj Hk Hj Ak Ay) as LE.
  assert (below_all xk yj) by (eapply below_tr; [exact Bk|eapply below_tr; [exact BC|exact BY]]). specialize (LE H0). lia.
Qed.

(** ** counterexamples *)
Definition ce_mgr : mgr := id_mgr 3.
Definition ce_two_bits : list bdd := [bvar 0; bvar 1].
Lemma two_bits_average : (average 2 (fun a => inject_Z (dist (uval ce_two_bits a) (uval [bzero; bzero] a) * dist (uval ce_two_bits a) (uval [bzero; bzero] a))) == 7 # 2)%Q.
Proof. vm_compute. reflexivity. Qed.
Lemma mse_bound_exceeded : exists (M : mgr) (n fuel : nat) (function : list bdd) (m : SimpleMetricDimension)
    (ops : list Operator) (pop_all : bool) (r : nat * Bucket * list Bucket),
  Forall (wf M) function /\ below n function /\ (0 < m_grid_size m)%Z /\ (0 < m_bound m)%Q
  /\ bucket_minimize_helper M fuel function [m] MULTI_BDD ops [] 0 pop_all = Some (Ok r)
  /\ exists b, In b (snd r) /\ ~ error_below (m_metric m) n function (b_function b) (m_bound m).
Proof.
  exists ce_mgr, 2, 100, ce_two_bits, (SimpleDim MEAN_SQUARED (13 # 4) 2), [NEGATIVE_COFACTOR], true.
  destruct (bucket_minimize_helper ce_mgr 100 ce_two_bits [SimpleDim MEAN_SQUARED (13 # 4) 2] MULTI_BDD [NEGATIVE_COFACTOR] [] 0 true)
    as [[r| | |]|] eqn:E; try (vm_compute in E; discriminate). exists r.
  split; [exact (Forall_cons _ (wf_var _ 0) (Forall_cons _ (wf_var _ 1) (Forall_nil _)))|]. split.
  { constructor; [|constructor; [|constructor]]; apply dep_vars; intros i [<-|[]]; lia. }
  split; [reflexivity|]. split; [reflexivity|]. split; [reflexivity|].
  destruct r as [[o s] l]. exists (nth 1 l s). cbn [snd m_metric m_bound error_below].
  assert (H : exists b0, l = [b0; nth 1 l s] /\ b_function (nth 1 l s) = [bzero; bzero]).
  { vm_compute in E. injection E as _ _ <-. eexists. split; reflexivity. }
  destruct H as (b0 & H1 & H2). split; [rewrite H1; right; now left|]. rewrite H2. unfold average_below. rewrite two_bits_average.
  intro Hc. vm_compute in Hc. discriminate.
Qed.

Lemma random_changes_two : exists (M : mgr) (rands : list nat) (function : list bdd) (ops : list Operator) (g : OperatorFunction) (f' : list bdd),
  Forall (wf M) function /\ generate_random_operators M rands function ops 1 = Ok [g] /\ g function = Ok f'
  /\ nth_error f' 0 <> nth_error function 0 /\ nth_error f' 1 <> nth_error function 1.
Proof.
  exists ce_mgr, [0; 0], [bvar 0; bnot (bvar 0)], [POSITIVE_COFACTOR]. eexists. eexists.
  split; [exact (Forall_cons _ (wf_var _ 0) (Forall_cons _ (wf_not _ _ (wf_var _ 0)) (Forall_nil _)))|]. split; [vm_compute; reflexivity|]. split; [vm_compute; reflexivity|]. vm_compute. split; discriminate.
Qed.

Definition ce_fun : list bdd :=
  let M := ce_mgr in
  [band M (bvar 0) (bor M (bvar 1) (bvar 2)); bxor M (bvar 1) (bvar 2); bor M (bvar 0) (band M (bvar 1) (bvar 2))].
Lemma pareto_dominated : forall pop_all : bool, exists (function : list bdd) (metrics : list MetricDimension)
    (operators : list OperatorFunction) (fuel : nat) (buckets : list Bucket),
  bucket_greedy_minimize function metrics operators pop_all fuel = Some (Ok buckets)
  /\ exists x y, In x buckets /\ In y buckets /\ is_empty x = false /\ is_empty y = false /\ dominates x y.
Proof.
  intro p. exists ce_fun, [Dim 8 (metric_function ce_mgr ERROR_RATE) 1],
    (generate_single_bdd_operators ce_mgr ce_fun [NEGATIVE_COFACTOR; POSITIVE_COFACTOR]), 1000.
  destruct p; (eexists; split; [vm_compute; reflexivity|]).
  - do 2 eexists. split; [do 2 right; left; reflexivity|]. split; [do 3 right; left; reflexivity|]. split; [reflexivity|]. split; [reflexivity|].
    split; [constructor; [discriminate|constructor]|]. split; [cbn [bdd_size]; lia|]. right. exists 0. do 2 eexists. split; [reflexivity|]. split; reflexivity.
  - do 2 eexists. split; [do 4 right; left; reflexivity|]. split; [do 5 right; left; reflexivity|]. split; [reflexivity|]. split; [reflexivity|].
    split; [constructor; [discriminate|constructor]|]. split; [cbn [bdd_size]; lia|]. left. cbn [bdd_size]. lia.
Qed.
