(** Proofs about the bucket minimisation: soundness, monotonicity and termination of the search. *)
From Coq Require Import List Bool Arith ZArith QArith Lia Lqa.
From Verif Require Import Res Cudd CuddFacts Spec SpecFacts Helpers Metrics Examples AdderFacts Minimize MinimizeFacts.
Import ListNotations.
Open Scope nat_scope.

(** ** small facts *)
Lemma vec_eqb_eq x : forall y, vec_eqb x y = true <-> x = y.
Proof.
  induction x as [|a x IH]; intros [|b y]; cbn [vec_eqb]; try (split; congruence).
  rewrite andb_true_iff, Z.eqb_eq, IH. split; [intros [-> ->]; auto|intros [= -> ->]; auto].
Qed.
Lemma set_insert_in x s y : In y (set_insert x s) -> y = x \/ In y s.
Proof.
  induction s as [|z s IH]; cbn [set_insert]; [intros [<-|[]]; auto|].
  destruct (lex_lt x z); [intros [<-|H]; auto|]. destruct (vec_eqb x z); auto.
  intros [<-|H]; [right; now left|]. destruct (IH H); auto. right. now right.
Qed.
Lemma set_insert_length x s : length (set_insert x s) <= S (length s).
Proof.
  induction s as [|z s IH]; cbn [set_insert length]; auto.
  destruct (lex_lt x z); cbn [length]; auto. destruct (vec_eqb x z); cbn [length]; lia.
Qed.
Lemma set_erase_in x s y : In y (set_erase x s) -> In y s.
Proof. unfold set_erase. intro H. apply filter_In in H. apply H. Qed.
Lemma set_erase_length x s : In x s -> length (set_erase x s) < length s.
Proof.
  induction s as [|z s IH]; intro H; [destruct H|]. unfold set_erase in *. cbn [filter length].
  destruct (vec_eqb x z) eqn:E; cbn [negb].
  - assert (length (filter (fun y => negb (vec_eqb x y)) s) <= length s).
    { clear. induction s as [|w s IH]; cbn [filter length]; auto. destruct (negb (vec_eqb x w)); cbn [length]; lia. }
    lia.
  - cbn [length]. destruct H as [H|H]; [apply eq_sym, vec_eqb_eq in H; congruence|]. apply IH in H. lia.
Qed.
Lemma min_element_in s : forall best, In (min_element best s) (best :: s).
Proof.
  induction s as [|y s IH]; intro best; cbn [min_element]; [now left|].
  destruct (coordinate_sum y <? coordinate_sum best)%Z.
  - destruct (IH y) as [H|H]; [right; now left|right; now right].
  - destruct (IH best) as [H|H]; [now left|right; now right].
Qed.
Definition sizes (l : list Bucket) : nat := fold_right (fun b s => bdd_size b + s) 0 l.
Lemma vset_sizes (l : list Bucket) : forall i x l' b, vset l i x = Ok l' -> nth_error l i = Some b ->
  sizes l' + bdd_size b = sizes l + bdd_size x.
Proof.
  induction l as [|y l IH]; intros i x l' b H N; cbn [vset] in H; [discriminate|]. destruct i as [|i].
  - injection H as <-. cbn [nth_error] in N. injection N as ->. cbn [sizes fold_right]. lia.
  - destruct (vset l i x) as [l1| | |] eqn:E; cbn [bind] in H; try discriminate. injection H as <-.
    cbn [nth_error] in N. specialize (IH i x l1 b E N). cbn [sizes fold_right]. fold (sizes l1) (sizes l). lia.
Qed.
Lemma not_less_below x : forall y, length x = length y ->
  existsb (fun '(p, q) => (p <? q)%Z) (combine x y) = false <-> below_all y x.
Proof.
  induction x as [|a x IH]; intros [|b y] L; cbn [length] in L; try discriminate; cbn [combine existsb].
  - split; auto. intros _. constructor.
  - rewrite orb_false_iff, Z.ltb_ge, IH by lia. split; [intros [H1 H2]; constructor; auto|].
    intro H. inversion H; subst. auto.
Qed.

Section Search.
Variable function : list bdd.
Variable metrics : list MetricDimension.
Variable operators : list OperatorFunction.
Variable pop_all : bool.
Notation grid := (bucket_grid_size metrics).
Hypothesis grid_pos : Forall (fun b => (0 < b)%Z) grid.
Hypothesis grid_vol : (volume grid < 2 ^ 64)%Z.
Notation T := (Z.to_nat (volume grid)).

(** coordinates of bucket [i] *)
Definition at_index (i : nat) (index : list Z) : Prop := create_multi_dim_index (Z.of_nat i) grid = Ok index.
Lemma vol_pos : (0 < volume grid)%Z.
Proof. apply volume_pos. exact grid_pos. Qed.
Lemma at_index_ex i : i < T -> exists index, at_index i index /\ in_box grid index /\ flat index grid 0 = Z.of_nat i.
Proof.
  intro H. destruct (flat_onto grid grid_pos (Z.of_nat i)) as (x & B & E); [lia|].
  exists x. split; auto. unfold at_index. rewrite <- E. now apply create_ok.
Qed.
Lemma at_index_box i index : i < T -> at_index i index -> in_box grid index /\ flat index grid 0 = Z.of_nat i.
Proof.
  intros H A. destruct (at_index_ex i H) as (x & A' & B). unfold at_index in *. rewrite A in A'. now injection A' as ->.
Qed.
Lemma flat_lt index : in_box grid index -> Z.to_nat (flat index grid 0) < T.
Proof. intro H. apply flat_range in H. lia. Qed.
Lemma at_flat index : in_box grid index -> at_index (Z.to_nat (flat index grid 0)) index.
Proof. intro H. pose proof (flat_range _ _ H). unfold at_index. rewrite Z2Nat.id by lia. now apply create_ok. Qed.

(** metric values and cells of a function *)
Inductive measured (g : list bdd) : list MetricDimension -> list Z -> list Q -> Prop :=
| measured_nil : measured g [] [] []
| measured_cons m ms c cs v vs : metric m function g = Ok (Fin v) ->
    dimension_index (grid_size m) (Fin v) (bound m) = Ok c -> (c < grid_size m)%Z ->
    measured g ms cs vs -> measured g (m :: ms) (c :: cs) (v :: vs).
Lemma dimension_nonneg gs e bd c : dimension_index gs e bd = Ok c -> (0 <= c)%Z.
Proof.
  unfold dimension_index. destruct e as [e|]; [|discriminate]. destruct (Qeq_bool bd 0); [discriminate|].
  cbv zeta. destruct (_ && _) eqn:E; [|discriminate]. intros [= <-]. apply andb_true_iff in E. destruct E as [E _]. now apply Z.leb_le.
Qed.
Lemma measured_box g ms cs vs : measured g ms cs vs -> in_box (map grid_size ms) cs.
Proof. induction 1; constructor; auto. apply dimension_nonneg in H0. lia. Qed.
Lemma measured_fun g ms cs vs cs' vs' : measured g ms cs vs -> measured g ms cs' vs' -> cs = cs' /\ vs = vs'.
Proof.
  intro H. revert cs' vs'. induction H as [|m ms c cs v vs E1 E2 L H IH]; intros cs' vs' H'; inversion H'; subst; auto.
  destruct (IH _ _ ltac:(eassumption)) as [-> ->]. split; congruence.
Qed.

Lemma metric_loop_spec buckets nodes modified : forall ms i pre vpre r, length pre = i -> length vpre = i ->
  metric_loop function metrics buckets nodes modified ms i (pre ++ repeat 0%Z (length ms)) (vpre ++ repeat 0%Q (length ms)) = Ok r ->
  match r with
  | Rejected _ => True
  | Better idx vals => exists cs vs, idx = pre ++ cs /\ vals = vpre ++ vs /\ measured modified ms cs vs
  end.
Proof.
  induction ms as [|m ms IH]; intros i pre vpre r L1 L2 H; cbn [metric_loop] in H.
  - injection H as <-. exists [], []. cbn [length repeat]. repeat split; auto; constructor.
  - destruct (metric m function modified) as [e| | |] eqn:Em; cbn [bind] in H; try discriminate.
    destruct (dimension_index (grid_size m) e (bound m)) as [d| | |] eqn:Ed; cbn [bind] in H; try discriminate.
    destruct (grid_size m <=? d)%Z eqn:Eg; [injection H as <-; auto|]. apply Z.leb_gt in Eg.
    cbn [length repeat] in H. rewrite <- L1, vset_mid in H. cbn [bind] in H.
    destruct (reduce_multi_dim_index (pre ++ d :: repeat 0%Z (length ms)) grid) as [k| | |] eqn:Er; cbn [bind] in H; try discriminate.
    destruct (vget buckets (Z.to_nat k)) as [b| | |] eqn:Eb; cbn [bind] in H; try discriminate.
    destruct (bdd_size b <=? nodes); [injection H as <-; auto|].
    destruct e as [e|]; [|cbn in Ed; discriminate]. rewrite L1 in H. rewrite <- L2 in H at 1. rewrite vset_mid in H. cbn [bind] in H.
    specialize (IH (i + 1) (pre ++ [d]) (vpre ++ [e]) r). rewrite !app_length in IH. cbn [length] in IH.
    rewrite <- !app_assoc in IH. cbn [app] in IH. specialize (IH ltac:(lia) ltac:(lia) H).
    destruct r as [rm|idx vals]; auto. destruct IH as (cs & vs & -> & -> & HM).
    exists (d :: cs), (e :: vs). rewrite <- !app_assoc. repeat split; auto. now constructor.
Qed.
Lemma metric_loop_better buckets nodes modified idx vals :
  metric_loop function metrics buckets nodes modified metrics 0 (repeat 0%Z (length metrics)) (repeat 0%Q (length metrics)) = Ok (Better idx vals) ->
  measured modified metrics idx vals.
Proof.
  intro H. apply (metric_loop_spec buckets nodes modified metrics 0 [] [] _ eq_refl eq_refl) in H.
  destruct H as (cs & vs & -> & -> & H). exact H.
Qed.

(** ** invariants *)
Definition good_bucket (i : nat) (b : Bucket) : Prop :=
  derived operators function (b_function b) /\ bdd_size b = nodeCount (b_function b)
  /\ length (possible_operators b) = length operators
  /\ (is_empty b = true -> b_function b = function /\ metric_values b = repeat 0%Q (length metrics))
  /\ (is_empty b = false -> bdd_size b < nodeCount function
        /\ exists index cells, at_index i index /\ measured (b_function b) metrics cells (metric_values b)
             /\ below_all cells index /\ (pop_all = false -> cells = index)).
Definition good (buckets : list Bucket) : Prop :=
  length buckets = T /\ forall i b, nth_error buckets i = Some b -> good_bucket i b.
Definition good_test (test : list (list Z)) : Prop := forall x, In x test -> in_box grid x.
Definition good_pop (st : pop_state) : Prop :=
  let '(buckets, replace, test) := st in good buckets /\ good_test test
  /\ forall i op, In (i, op) replace -> i < T /\ op < length operators.
Definition weight (buckets : list Bucket) (test : list (list Z)) : nat := sizes buckets + length test.
(** with populate_all the sizes are monotone *)
Definition mono (buckets : list Bucket) : Prop := forall i j bi bj xi xj,
  nth_error buckets i = Some bi -> nth_error buckets j = Some bj -> at_index i xi -> at_index j xj ->
  below_all xi xj -> bdd_size bj <= bdd_size bi.

Lemma good_lt buckets i b : good buckets -> nth_error buckets i = Some b -> i < T.
Proof. intros (L & _) H. rewrite <- L. apply nth_error_Some. congruence. Qed.
Lemma map_set_in k v m i op : In (i, op) (map_set k v m) -> (i, op) = (k, v) \/ In (i, op) m.
Proof.
  induction m as [|[k' v'] m IH]; cbn [map_set]; [intros [<-|[]]; auto|].
  destruct (k =? k'); [intros [<-|H]; auto; right; now right|]. intros [<-|H]; [right; now left|].
  destruct (IH H); auto. right. now right.
Qed.

Section Populate.
Variables (opnum nodes : nat) (modified : list bdd) (idx : list Z) (vals : list Q).
Hypothesis opnum_lt : opnum < length operators.
Hypothesis mod_derived : derived operators function modified.
Hypothesis mod_nodes : nodes = nodeCount modified.
Hypothesis mod_measured : measured modified metrics idx vals.
Hypothesis mod_small : nodes < nodeCount function.

Lemma idx_box : in_box grid idx.
Proof. eapply measured_box; eauto. Qed.
(** the update of a single bucket *)
Lemma update_good buckets replace test i b index buckets' : good_pop (buckets, replace, test) ->
  nth_error buckets i = Some b -> nodes < bdd_size b -> at_index i index ->
  below_all idx index -> (pop_all = false -> idx = index) ->
  vset buckets i (Bkt modified nodes vals (possible_operators b) false) = Ok buckets' ->
  good_pop (buckets', map_set i opnum replace, set_insert index test)
  /\ weight buckets' (set_insert index test) <= weight buckets test.
Proof.
  intros ((L & G) & GT & GR) N LT A B EX E. destruct (vset_spec _ _ _ _ E) as (L' & Hi & NE).
  assert (HT : i < T) by lia. destruct (at_index_box i index HT A) as [BX _]. split; [split; [split|split]|].
  - lia.
  - intros j bj Hj. rewrite NE in Hj. destruct (j =? i) eqn:Ej; [|now apply G].
    apply Nat.eqb_eq in Ej. subst j. injection Hj as <-. destruct (G i b N) as (_ & _ & GL & _).
    repeat split; cbn [b_function bdd_size possible_operators is_empty metric_values]; auto; try discriminate.
    exists index, idx. auto.
  - intros x Hx. apply set_insert_in in Hx. destruct Hx as [->|Hx]; auto.
  - intros j o Hj. apply map_set_in in Hj. destruct Hj as [[= -> ->]|Hj]; auto.
  - pose proof (vset_sizes _ _ _ _ _ E N) as SS. cbn [bdd_size] in SS. pose proof (set_insert_length index test).
    unfold weight. lia.
Qed.
Lemma populate_good indices : forall st st', (pop_all = false -> forall i, In i indices -> at_index i idx) ->
  good_pop st -> populate metrics indices opnum nodes modified idx vals st = Ok st' ->
  good_pop st' /\ weight (fst (fst st')) (snd st') <= weight (fst (fst st)) (snd st).
Proof.
  induction indices as [|i indices IH]; intros [[buckets replace] test] st' EX G H; cbn [populate] in H; [injection H as <-; auto|].
  assert (EX' : pop_all = false -> forall i, In i indices -> at_index i idx) by (intros; apply EX; auto; now right).
  destruct (vget buckets i) as [b| | |] eqn:Eb; cbn [bind] in H; try discriminate. apply vget_iff in Eb.
  destruct (bdd_size b <=? nodes) eqn:Es; [now apply IH in H|]. apply Nat.leb_gt in Es.
  destruct (create_multi_dim_index (Z.of_nat i) grid) as [index| | |] eqn:Ei; cbn [bind] in H; try discriminate.
  destruct (existsb _ _) eqn:Ex; [now apply IH in H|].
  assert (HT : i < T) by (destruct G as ((L & _) & _); rewrite <- L; apply nth_error_Some; congruence).
  destruct (at_index_box i index HT Ei) as [BX _].
  apply not_less_below in Ex; [|rewrite (in_box_length _ _ BX), (in_box_length _ _ idx_box); auto].
  destruct (vset buckets i _) as [buckets'| | |] eqn:Ev; cbn [bind] in H; try discriminate.
  destruct (update_good buckets replace test i b index buckets' G Eb Es Ei Ex) as [G' W']; auto.
  { intro P. specialize (EX P i (or_introl eq_refl)). unfold at_index in EX. congruence. }
  apply IH in H; auto. cbn [fst snd] in *. destruct H as [H1 H2]. split; auto. lia.
Qed.
Lemma populate_total indices : forall st, (pop_all = false -> forall i, In i indices -> at_index i idx) ->
  good_pop st -> (forall i, In i indices -> i < T) ->
  exists st', populate metrics indices opnum nodes modified idx vals st = Ok st'.
Proof.
  induction indices as [|i indices IH]; intros [[buckets replace] test] EX G HI; cbn [populate]; [eauto|].
  assert (HT : i < T) by (apply HI; now left). assert (HI' : forall j, In j indices -> j < T) by (intros; apply HI; now right).
  assert (EX' : pop_all = false -> forall i, In i indices -> at_index i idx) by (intros; apply EX; auto; now right).
  destruct (vget_ok buckets i) as (b & Eb & Nb); [destruct G as ((L & _) & _); lia|]. rewrite Eb. cbn [bind].
  destruct (bdd_size b <=? nodes) eqn:Es; [now apply IH|]. apply Nat.leb_gt in Es.
  destruct (at_index_ex i HT) as (index & Ei & BX & _). rewrite Ei. cbn [bind].
  destruct (existsb _ _) eqn:Ex; [now apply IH|].
  apply not_less_below in Ex; [|rewrite (in_box_length _ _ BX), (in_box_length _ _ idx_box); auto].
  destruct (vset_ok buckets i (Bkt modified nodes vals (possible_operators b) false)) as (buckets' & Ev);
    [destruct G as ((L & _) & _); lia|]. rewrite Ev. cbn [bind].
  destruct (update_good buckets replace test i b index buckets' G Nb Es Ei Ex) as [G' W']; auto.
  intro P. specialize (EX P i (or_introl eq_refl)). unfold at_index in *. congruence.
Qed.
(** sizes after populating *)
Lemma populate_sizes indices : forall buckets replace test buckets' replace' test', length buckets = T ->
  populate metrics indices opnum nodes modified idx vals (buckets, replace, test) = Ok (buckets', replace', test') ->
  length buckets' = T /\ forall j bj xj, nth_error buckets j = Some bj -> at_index j xj -> exists bj', nth_error buckets' j = Some bj'
    /\ ((~ (In j indices /\ below_all idx xj) /\ bdd_size bj' = bdd_size bj)
        \/ (In j indices /\ below_all idx xj /\ bdd_size bj' = Nat.min nodes (bdd_size bj))).
Proof.
  induction indices as [|i indices IH]; intros buckets replace test buckets' replace' test' L H; cbn [populate] in H.
  { injection H as <- <- <-. split; auto. intros j bj xj Hj Aj. exists bj. split; auto. left. split; auto. intros [[] _]. }
  destruct (vget buckets i) as [b| | |] eqn:Eb; cbn [bind] in H; try discriminate. apply vget_iff in Eb.
  assert (HT : i < T) by (rewrite <- L; apply nth_error_Some; congruence).
  assert (SKIP : populate metrics indices opnum nodes modified idx vals (buckets, replace, test) = Ok (buckets', replace', test') ->
     (forall xi, at_index i xi -> below_all idx xi -> bdd_size b <= nodes) ->
     length buckets' = T /\ forall j bj xj, nth_error buckets j = Some bj -> at_index j xj -> exists bj', nth_error buckets' j = Some bj'
    /\ ((~ (In j (i :: indices) /\ below_all idx xj) /\ bdd_size bj' = bdd_size bj)
        \/ (In j (i :: indices) /\ below_all idx xj /\ bdd_size bj' = Nat.min nodes (bdd_size bj)))).
  { clear H. intros H HS. apply IH in H; auto. destruct H as [L' H]. split; auto. intros j bj xj Hj Aj.
    destruct (H j bj xj Hj Aj) as (bj' & N' & D). exists bj'. split; auto.
    destruct D as [[D1 D2]|(D1 & D2 & D3)]; [|right; repeat split; auto; now right].
    destruct (Nat.eq_dec i j) as [<-|Hn].
    - assert (bj = b) as -> by congruence.
      destruct (existsb (fun '(p, q) => (p <? q)%Z) (combine xj idx)) eqn:Ex.
      + left. split; auto. intros [_ B]. destruct (at_index_box i xj HT Aj) as [BX _].
        apply not_less_below in B; [congruence|]. now rewrite (in_box_length _ _ BX), (in_box_length _ _ idx_box).
      + destruct (at_index_box i xj HT Aj) as [BX _].
        apply not_less_below in Ex; [|now rewrite (in_box_length _ _ BX), (in_box_length _ _ idx_box)].
        right. split; [now left|]. split; auto. specialize (HS xj Aj Ex). lia.
    - left. split; auto. intros [[->|Hin] B]; [congruence|]. apply D1. auto. }
  destruct (bdd_size b <=? nodes) eqn:Es.
  { apply Nat.leb_le in Es. apply SKIP; auto. }
  apply Nat.leb_gt in Es.
  destruct (create_multi_dim_index (Z.of_nat i) grid) as [index| | |] eqn:Ei; cbn [bind] in H; try discriminate.
  destruct (at_index_box i index HT Ei) as [BX _].
  destruct (existsb _ _) eqn:Ex.
  { apply SKIP; auto. intros xi Ai B. unfold at_index in Ai. rewrite Ei in Ai. injection Ai as <-.
    apply not_less_below in B; [congruence|]. now rewrite (in_box_length _ _ BX), (in_box_length _ _ idx_box). }
  clear SKIP. apply not_less_below in Ex; [|now rewrite (in_box_length _ _ BX), (in_box_length _ _ idx_box)].
  destruct (vset buckets i _) as [bs| | |] eqn:Ev; cbn [bind] in H; try discriminate.
  destruct (vset_spec _ _ _ _ Ev) as (L' & _ & NE). apply IH in H; [|lia]. destruct H as [L'' H]. split; auto.
  intros j bj xj Hj Aj. destruct (Nat.eq_dec j i) as [->|Hn].
  - unfold at_index in Aj. rewrite Ei in Aj. injection Aj as <-. assert (bj = b) as -> by congruence.
    specialize (NE i). rewrite Nat.eqb_refl in NE. destruct (H i _ index NE Ei) as (bj' & N' & D). exists bj'. split; auto.
    right. split; [now left|]. split; auto. cbn [bdd_size] in D. destruct D as [[_ D]|(_ & _ & D)]; lia.
  - specialize (NE j). assert (j =? i = false) as E by now apply Nat.eqb_neq. rewrite E in NE.
    destruct (H j bj xj ltac:(congruence) Aj) as (bj' & N' & D). exists bj'. split; auto.
    destruct D as [[D1 D2]|(D1 & D2 & D3)]; [left; split; auto; intros [[->|Hin] B]; [congruence|auto]|right; repeat split; auto; now right].
Qed.
Lemma below_trans x y z : below_all x y -> below_all y z -> below_all x z.
Proof.
  intro H. revert z. induction H as [|a b x y H1 H IH]; intros z Hz; [exact Hz|]. inversion Hz; subst. constructor; [lia|now apply IH].
Qed.
Lemma populate_mono buckets replace test buckets' replace' test' : pop_all = true -> good buckets -> mono buckets ->
  let start := Z.to_nat (flat idx grid 0) in
  populate metrics (seq start (length buckets - start)) opnum nodes modified idx vals (buckets, replace, test) = Ok (buckets', replace', test') ->
  mono buckets'.
Proof.
  intros P (L & _) MO start H. destruct (populate_sizes _ _ _ _ _ _ _ L H) as [L' PS].
  intros i j bi bj xi xj Hi Hj Ai Aj B.
  assert (HTi : i < T) by (rewrite <- L'; apply nth_error_Some; congruence).
  assert (HTj : j < T) by (rewrite <- L'; apply nth_error_Some; congruence).
  destruct (nth_error buckets i) as [ci|] eqn:Ci; [|apply nth_error_None in Ci; lia].
  destruct (nth_error buckets j) as [cj|] eqn:Cj; [|apply nth_error_None in Cj; lia].
  specialize (MO i j ci cj xi xj Ci Cj Ai Aj B).
  destruct (PS i ci xi Ci Ai) as (bi' & Ni & Di). rewrite Hi in Ni. injection Ni as <-.
  destruct (PS j cj xj Cj Aj) as (bj' & Nj & Dj). rewrite Hj in Nj. injection Nj as <-.
  assert (SEQ : below_all idx xj -> In j (seq start (length buckets - start))).
  { intro Bj. destruct (at_index_box j xj HTj Aj) as [BX E]. apply in_seq.
    pose proof (flat_mono grid idx xj 0 0 idx_box BX Bj (Z.le_refl 0)). pose proof (flat_range _ _ idx_box). unfold start. lia. }
  destruct Di as [[_ ->]|(_ & Bi & ->)]; destruct Dj as [[Dj ->]|(_ & _ & ->)]; try lia.
  exfalso. apply Dj. split; [apply SEQ|]; eapply below_trans; eauto.
Qed.
End Populate.

(** ** the operator loop *)
Definition good_op (st : op_state) : Prop := good_pop (fst st) /\ length (snd st) = length operators
  /\ (pop_all = true -> mono (fst (fst (fst st)))).
Definition op_weight (st : op_state) : nat := weight (fst (fst (fst st))) (snd (fst st)).
Definition well_behaved : Prop :=
  (forall g op, derived operators function g -> In op operators -> exists g', op g = Ok g')
  /\ (forall g m, derived operators function g -> In m metrics -> exists v d, metric m function g = Ok (Fin v)
        /\ dimension_index (grid_size m) (Fin v) (bound m) = Ok d).

Lemma reduce_at idx : in_box grid idx -> reduce_multi_dim_index idx grid = Ok (flat idx grid 0).
Proof. intro H. apply reduce_ok; auto. lia. Qed.
Lemma op_step_good cur bf opnum st st' : derived operators function bf -> good_op st ->
  op_step function metrics operators pop_all cur bf opnum st = Ok st' -> good_op st' /\ op_weight st' <= op_weight st.
Proof.
  intros HD GO H. destruct st as [[[buckets replace] test] possible]. destruct GO as ((G & GT & GR) & LP & MO). cbn [fst snd] in *. unfold op_step in H.
  destruct (vget operators opnum) as [op| | |] eqn:Eo; cbn [bind] in H; try discriminate. apply vget_iff in Eo.
  assert (HO : opnum < length operators) by (apply nth_error_Some; congruence).
  assert (HI : In op operators) by (eapply nth_error_In; eauto).
  destruct (vget possible opnum) as [p| | |] eqn:Ep; cbn [bind] in H; try discriminate.
  assert (GS : good_op ((buckets, replace, test), possible)) by exact (conj (conj G (conj GT GR)) (conj LP MO)).
  destruct (negb p); [injection H as <-; auto|].
  destruct (op bf) as [modified| | |] eqn:Em; cbn [bind] in H; try discriminate. cbv zeta in H.
  assert (HM : derived operators function modified) by (eapply derived_step; eauto).
  destruct (vget buckets cur) as [c| | |] eqn:Ec; cbn [bind] in H; try discriminate. apply vget_iff in Ec.
  assert (RM : forall ps, vset possible opnum false = Ok ps -> good_op ((buckets, replace, test), ps)).
  { intros ps Hps. apply vset_spec in Hps. destruct Hps as (Lp & _). refine (conj (conj G (conj GT GR)) (conj _ MO)). cbn [snd]. lia. }
  destruct (bdd_size c <=? nodeCount modified) eqn:Es.
  { destruct (_ <? _); [|injection H as <-; auto].
    destruct (vset possible opnum false) as [ps| | |] eqn:Eps; cbn [bind] in H; try discriminate. injection H as <-. auto. }
  apply Nat.leb_gt in Es.
  destruct (metric_loop _ _ _ _ _ _ _ _ _) as [v| | |] eqn:Ev; cbn [bind] in H; try discriminate.
  destruct v as [rm|idx vals].
  { destruct rm; [|injection H as <-; auto].
    destruct (vset possible opnum false) as [ps| | |] eqn:Eps; cbn [bind] in H; try discriminate. injection H as <-. auto. }
  apply metric_loop_better in Ev. pose proof (measured_box _ _ _ _ Ev) as BX. fold grid in BX.
  rewrite reduce_at in H by auto. cbn [bind] in H.
  destruct (populate _ _ _ _ _ _ _ _) as [[[bs rp] ts]| | |] eqn:EP; cbn [bind] in H; try discriminate. injection H as <-.
  assert (SM : nodeCount modified < nodeCount function).
  { destruct (proj2 G cur c Ec) as (_ & _ & _ & GE & GN). destruct (is_empty c) eqn:Ee.
    - destruct (proj2 G cur c Ec) as (_ & SZ & _). rewrite (proj1 (GE eq_refl)) in SZ. lia.
    - destruct (GN eq_refl) as [? _]. lia. }
  pose proof EP as EP0.
  apply populate_good in EP; auto; [|intros P i Hi|exact (conj G (conj GT GR))].
  - destruct EP as [GP W]. split; [|exact W]. split; auto. split; auto. intro P. cbn [fst]. rewrite P in EP0.
    eapply populate_mono with (idx := idx); eauto.
  - rewrite P in Hi. apply in_seq in Hi. pose proof (flat_range _ _ BX).
    assert (i = Z.to_nat (flat idx grid 0)) as -> by lia. now apply at_flat.
Qed.

Lemma metric_loop_total buckets nodes modified : good buckets -> well_behaved -> derived operators function modified ->
  forall ms i pre vpre rest, metrics = rest ++ ms -> length rest = i -> length pre = i -> length vpre = i ->
  in_box (map grid_size rest) pre ->
  exists r, metric_loop function metrics buckets nodes modified ms i (pre ++ repeat 0%Z (length ms)) (vpre ++ repeat 0%Q (length ms)) = Ok r.
Proof.
  intros G [_ WM] HD. induction ms as [|m ms IH]; intros i pre vpre rest E Lr L1 L2 BX; cbn [metric_loop]; [eauto|].
  destruct (WM modified m HD) as (v & d & Em & Ed); [rewrite E; apply in_or_app; right; now left|].
  rewrite Em. cbn [bind]. rewrite Ed. cbn [bind]. destruct (grid_size m <=? d)%Z eqn:Eg; [eauto|]. apply Z.leb_gt in Eg.
  cbn [length repeat]. rewrite <- L1, vset_mid. cbn [bind].
  assert (BX1 : in_box (map grid_size (rest ++ [m])) (pre ++ [d])).
  { rewrite map_app. apply Forall2_app; auto. constructor; [|constructor]. apply dimension_nonneg in Ed. lia. }
  assert (BX2 : in_box grid (pre ++ d :: repeat 0%Z (length ms))).
  { change (d :: repeat 0%Z (length ms)) with ([d] ++ repeat 0%Z (length ms)). rewrite app_assoc.
    unfold bucket_grid_size. rewrite E. change (m :: ms) with ([m] ++ ms). rewrite app_assoc, map_app. apply Forall2_app; auto.
    assert (GP : Forall (fun b => (0 < b)%Z) (map grid_size ms)).
    { pose proof grid_pos as GP. unfold bucket_grid_size in GP. rewrite E, map_app in GP. apply Forall_app in GP.
      destruct GP as [_ GP]. cbn [map] in GP. now inversion GP. }
    clear - GP. induction ms as [|a ms IH]; cbn [map length repeat] in *; constructor; inversion GP; subst; auto. lia. }
  rewrite reduce_at by auto. cbn [bind].
  destruct (vget_ok buckets (Z.to_nat (flat (pre ++ d :: repeat 0%Z (length ms)) grid 0))) as (b & Eb & _).
  { destruct G as (L & _). rewrite L. now apply flat_lt. }
  rewrite Eb. cbn [bind]. destruct (bdd_size b <=? nodes); [eauto|]. rewrite L1.
  assert (VS : vset (vpre ++ 0%Q :: repeat 0%Q (length ms)) i v = Ok (vpre ++ v :: repeat 0%Q (length ms))) by (rewrite <- L2; apply vset_mid).
  rewrite VS. cbn [bind].
  destruct (IH (i + 1) (pre ++ [d]) (vpre ++ [v]) (rest ++ [m])) as (r & Er); auto; try (rewrite app_length; cbn [length]; lia).
  - rewrite E, <- app_assoc. reflexivity.
  - rewrite <- !app_assoc in Er. eauto.
Qed.
Lemma op_step_total cur bf opnum st : well_behaved -> derived operators function bf -> good_op st ->
  opnum < length operators -> cur < T -> exists st', op_step function metrics operators pop_all cur bf opnum st = Ok st'.
Proof.
  intros WB HD GO HO HC. destruct st as [[[buckets replace] test] possible]. destruct GO as ((G & GT & GR) & LP & MO). cbn [fst snd] in *. unfold op_step.
  destruct (vget_ok operators opnum HO) as (op & Eo & No). rewrite Eo. cbn [bind].
  assert (HI : In op operators) by (eapply nth_error_In; eauto).
  destruct (vget_ok possible opnum) as (p & Ep & _); [lia|]. rewrite Ep. cbn [bind]. destruct (negb p); [eauto|].
  destruct (proj1 WB bf op HD HI) as (modified & Em). rewrite Em. cbn [bind]. cbv zeta.
  assert (HM : derived operators function modified) by (eapply derived_step; eauto).
  destruct (vget_ok buckets cur) as (c & Ec & Nc); [destruct G as (L & _); lia|]. rewrite Ec. cbn [bind].
  assert (RM : exists ps, vset possible opnum false = Ok ps) by (apply vset_ok; lia). destruct RM as (ps & Eps).
  destruct (bdd_size c <=? nodeCount modified) eqn:Es.
  { destruct (_ <? _); [|eauto]. rewrite Eps. cbn [bind]. eauto. }
  apply Nat.leb_gt in Es.
  destruct (metric_loop_total buckets (nodeCount modified) modified G WB HM metrics 0 [] [] []) as (v & Ev); auto; [constructor|].
  cbn [app] in Ev. rewrite Ev. cbn [bind]. destruct v as [rm|idx vals].
  { destruct rm; [|eauto]. rewrite Eps. cbn [bind]. eauto. }
  apply metric_loop_better in Ev. pose proof (measured_box _ _ _ _ Ev) as BX. fold grid in BX.
  rewrite reduce_at by auto. cbn [bind].
  assert (SM : nodeCount modified < nodeCount function).
  { destruct (proj2 G cur c Nc) as (_ & _ & _ & GE & GN). destruct (is_empty c) eqn:Ee.
    - destruct (proj2 G cur c Nc) as (_ & SZ & _). rewrite (proj1 (GE eq_refl)) in SZ. lia.
    - destruct (GN eq_refl) as [? _]. lia. }
  destruct (populate_total opnum (nodeCount modified) modified idx vals HO HM eq_refl Ev SM
    (seq (Z.to_nat (flat idx grid 0)) ((if pop_all then length buckets else Z.to_nat (flat idx grid 0) + 1) - Z.to_nat (flat idx grid 0)))
    (buckets, replace, test)) as (st' & E).
  - intros P i Hi. rewrite P in Hi. apply in_seq in Hi. assert (i = Z.to_nat (flat idx grid 0)) as -> by lia. now apply at_flat.
  - exact (conj G (conj GT GR)).
  - intros i Hi. apply in_seq in Hi. pose proof (flat_lt _ BX). destruct G as (L & _). destruct pop_all; lia.
  - rewrite E. cbn [bind]. eauto.
Qed.

(** ** one round *)
Definition good_state (buckets : list Bucket) (test : list (list Z)) : Prop :=
  good buckets /\ good_test test /\ (pop_all = true -> mono buckets).
Lemma replace_good possible : length possible = length operators -> forall replace buckets buckets',
  good buckets -> replace_loop replace possible buckets = Ok buckets' ->
  good buckets' /\ sizes buckets' = sizes buckets /\ (mono buckets -> mono buckets').
Proof.
  intro LP. induction replace as [|[i op] replace IH]; intros buckets buckets' G H; cbn [replace_loop] in H; [injection H as <-; auto|].
  destruct (vget buckets i) as [b| | |] eqn:Eb; cbn [bind] in H; try discriminate. apply vget_iff in Eb.
  destruct (vset possible op false) as [ops| | |] eqn:Eo; cbn [bind] in H; try discriminate.
  destruct (vset buckets i _) as [bs| | |] eqn:Ev; cbn [bind] in H; try discriminate.
  destruct (vset_spec _ _ _ _ Ev) as (L' & Hi & NE). destruct (vset_spec _ _ _ _ Eo) as (Lo & _).
  assert (G' : good bs).
  { destruct G as (L & G). split; [lia|]. intros j bj Hj. rewrite NE in Hj. destruct (j =? i) eqn:Ej; [|now apply G].
    apply Nat.eqb_eq in Ej. subst j. injection Hj as <-. destruct (G i b Eb) as (G1 & G2 & G3 & G4 & G5).
    refine (conj G1 (conj G2 (conj _ (conj G4 G5)))). cbn [possible_operators]. lia. }
  destruct (IH bs buckets' G' H) as (I1 & I2 & I3). split; auto. split.
  - pose proof (vset_sizes _ _ _ _ _ Ev Eb) as SS. cbn [bdd_size] in SS. lia.
  - intro MO. apply I3. intros j k bj bk xj xk Hj Hk Aj Ak B. rewrite NE in Hj, Hk.
    assert (Fj : exists cj, nth_error buckets j = Some cj /\ bdd_size cj = bdd_size bj).
    { destruct (j =? i) eqn:Ej; [apply Nat.eqb_eq in Ej; subst j; injection Hj as <-; eauto|eauto]. }
    assert (Fk : exists ck, nth_error buckets k = Some ck /\ bdd_size ck = bdd_size bk).
    { destruct (k =? i) eqn:Ek; [apply Nat.eqb_eq in Ek; subst k; injection Hk as <-; eauto|eauto]. }
    destruct Fj as (cj & Cj & <-). destruct Fk as (ck & Ck & <-). eauto.
Qed.
Lemma replace_total possible : length possible = length operators -> forall replace buckets,
  (forall i op, In (i, op) replace -> i < length buckets /\ op < length operators) ->
  exists buckets', replace_loop replace possible buckets = Ok buckets'.
Proof.
  intro LP. induction replace as [|[i op] replace IH]; intros buckets HR; cbn [replace_loop]; [eauto|].
  destruct (HR i op (or_introl eq_refl)) as [Hi Ho].
  destruct (vget_ok buckets i Hi) as (b & Eb & _). rewrite Eb. cbn [bind].
  destruct (vset_ok possible op false) as (ops & Eo); [lia|]. rewrite Eo. cbn [bind].
  destruct (vset_ok buckets i (Bkt (b_function b) (bdd_size b) (metric_values b) ops (is_empty b)) Hi) as (bs & Ev). rewrite Ev. cbn [bind].
  apply IH. intros j o Hj. destruct (vset_spec _ _ _ _ Ev) as (L & _). rewrite L. apply HR. now right.
Qed.
Lemma explore_good buckets first rest buckets' test' : good_state buckets (first :: rest) ->
  explore function metrics operators pop_all buckets first rest = Ok (buckets', test') ->
  good_state buckets' test' /\ weight buckets' test' < weight buckets (first :: rest).
Proof.
  intros (G & GT & MO) H. unfold explore in H. cbv zeta in H.
  pose proof (min_element_in rest first) as MI. set (pos := min_element first rest) in *.
  rewrite reduce_at in H by (now apply GT). cbn [bind] in H.
  destruct (vget buckets _) as [b| | |] eqn:Eb; cbn [bind] in H; try discriminate. apply vget_iff in Eb.
  destruct (for_each _ _ _) as [[[[bs rp] ts] possible]| | |] eqn:EF; cbn [bind] in H; try discriminate.
  destruct (replace_loop rp possible bs) as [bs'| | |] eqn:ER; cbn [bind] in H; try discriminate. injection H as <- <-.
  destruct (proj2 G _ b Eb) as (HD & _ & LP & _).
  set (w := weight buckets (set_erase pos (first :: rest))).
  assert (I : good_op ((bs, rp, ts), possible) /\ op_weight ((bs, rp, ts), possible) <= w).
  { eapply for_each_pc with (I := fun st => good_op st /\ op_weight st <= w); [|split; [split|]|exact EF].
    - intros i st st' Hi [I1 I2] HS. apply op_step_good in HS; auto. destruct HS as [I1' I2']. split; auto. lia.
    - split; auto. split; [|intros i op []]. intros x Hx. apply GT. eapply set_erase_in; eauto.
    - split; auto.
    - unfold op_weight. cbn [fst snd]. auto. }
  destruct I as [((GB & GT' & _) & LP' & MO') W]. cbn [fst snd] in *. unfold op_weight in W. cbn [fst snd] in W.
  destruct (replace_good possible LP' rp bs bs' GB ER) as (G' & S' & M').
  split; [split; auto; split; auto|].
  pose proof (set_erase_length pos (first :: rest) MI). unfold weight in *. unfold w in W. lia.
Qed.
Lemma explore_total buckets first rest : well_behaved -> good_state buckets (first :: rest) ->
  exists st, explore function metrics operators pop_all buckets first rest = Ok st.
Proof.
  intros WB (G & GT & MO). unfold explore. cbv zeta.
  pose proof (min_element_in rest first) as MI. set (pos := min_element first rest) in *.
  assert (BX : in_box grid pos) by now apply GT. rewrite reduce_at by auto. cbn [bind].
  destruct (vget_ok buckets (Z.to_nat (flat pos grid 0))) as (b & Eb & Nb); [destruct G as (L & _); rewrite L; now apply flat_lt|].
  rewrite Eb. cbn [bind]. destruct (proj2 G _ b Nb) as (HD & _ & LP & _).
  destruct (for_each_total good_op (op_step function metrics operators pop_all (Z.to_nat (flat pos grid 0)) (b_function b))
    (seq 0 (length operators)) ((buckets, [], set_erase pos (first :: rest)), possible_operators b)) as ([[[bs rp] ts] possible] & EF & GO).
  - intros i st Hi GO. apply in_seq in Hi.
    destruct (op_step_total (Z.to_nat (flat pos grid 0)) (b_function b) i st WB HD GO) as (st' & E); [lia|now apply flat_lt|].
    exists st'. split; auto. apply op_step_good in E; auto. apply E.
  - split; [split; [auto|split; [|intros i op []]]|split; auto]. intros x Hx. apply GT. eapply set_erase_in; eauto.
  - match goal with |- exists st, bind ?x _ = _ => assert (E' : x = Ok ((bs, rp, ts), possible)) by exact EF; rewrite E' end.
    cbn [bind]. destruct GO as ((GB & _ & GR) & LP' & _). cbn [fst snd] in *.
    destruct (replace_total possible LP' rp bs) as (bs' & ER).
    + intros i op Hi. destruct (GR i op Hi). destruct GB as (L & _). lia.
    + rewrite ER. cbn [bind]. eauto.
Qed.

(** ** the whole search *)
Lemma search_good fuel : forall buckets test buckets', good_state buckets test ->
  search function metrics operators pop_all fuel buckets test = Some (Ok buckets') -> good_state buckets' [].
Proof.
  induction fuel as [|fuel IH]; intros buckets test buckets' G H; destruct test as [|first rest]; cbn [search] in H; try discriminate;
    try (injection H as <-; exact G).
  destruct (explore _ _ _ _ _ _ _) as [[bs ts]| | |] eqn:E; try discriminate. apply explore_good in E; auto. destruct E as [E _]. eauto.
Qed.
Lemma search_terminates fuel : forall buckets test, good_state buckets test -> weight buckets test <= fuel ->
  search function metrics operators pop_all fuel buckets test <> None.
Proof.
  induction fuel as [|fuel IH]; intros buckets test G W; destruct test as [|first rest]; cbn [search]; try discriminate.
  - unfold weight in W. cbn [length] in W. lia.
  - destruct (explore _ _ _ _ _ _ _) as [[bs ts]| | |] eqn:E; try discriminate. apply explore_good in E; auto.
    destruct E as [E WE]. apply IH; auto. lia.
Qed.
Lemma search_total fuel : well_behaved -> forall buckets test, good_state buckets test ->
  search function metrics operators pop_all fuel buckets test = None
  \/ exists buckets', search function metrics operators pop_all fuel buckets test = Some (Ok buckets').
Proof.
  intro WB. induction fuel as [|fuel IH]; intros buckets test G; destruct test as [|first rest]; cbn [search]; eauto.
  destruct (explore_total buckets first rest WB G) as ([bs ts] & E). rewrite E. apply explore_good in E; auto. apply IH. apply E.
Qed.

Definition initial : list Bucket := repeat (Bkt function (nodeCount function) (repeat 0%Q (length metrics))
  (repeat true (length operators)) true) T.
Lemma nth_repeat {A} (x : A) n : forall i y, nth_error (repeat x n) i = Some y -> y = x.
Proof. induction n as [|n IH]; intros [|i] y H; cbn [repeat nth_error] in H; try discriminate; [now injection H|eauto]. Qed.
Lemma initial_good : exists first, create_multi_dim_index 0 grid = Ok first /\ good_state initial [first].
Proof.
  destruct (at_index_ex 0) as (first & A & B & _); [pose proof vol_pos; lia|]. exists first. split; auto. split; [split|split].
  - apply repeat_length.
  - intros i b Hb. apply nth_repeat in Hb. subst b.
    repeat split; cbn [b_function bdd_size possible_operators is_empty metric_values]; auto; try discriminate.
    + constructor.
    + apply repeat_length.
  - intros x [<-|[]]. exact B.
  - intros _ i j bi bj xi xj Hi Hj _ _ _. apply nth_repeat in Hi, Hj. subst. lia.
Qed.
Lemma initial_sizes : sizes initial = T * nodeCount function.
Proof.
  unfold initial. induction T as [|n IH]; cbn [repeat sizes fold_right bdd_size]; auto. fold (sizes (repeat (Bkt function (nodeCount function) (repeat 0%Q (length metrics)) (repeat true (length operators)) true) n)).
  rewrite IH. lia.
Qed.
Lemma minimize_search fuel first : metrics <> [] -> create_multi_dim_index 0 grid = Ok first ->
  bucket_greedy_minimize function metrics operators pop_all fuel = search function metrics operators pop_all fuel initial [first].
Proof.
  intros HM E. unfold bucket_greedy_minimize. destruct metrics as [|m ms] eqn:EM; [congruence|]. rewrite <- EM in *.
  assert (length metrics =? 0 = false) as -> by (rewrite EM; reflexivity). cbv zeta. rewrite E.
  unfold total_buckets. rewrite total_volume, Z.mul_1_l by (auto; lia). reflexivity.
Qed.
End Search.
