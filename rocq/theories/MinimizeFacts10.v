(** The order in which the bucket search explores. *)
From Coq Require Import List Bool Arith ZArith QArith Lia Lqa Sorted.
From Verif Require Import Res Cudd CuddFacts Spec SpecFacts Helpers Counting Metrics Examples AdderFacts Minimize SpecMinimize
  MinimizeFacts MinimizeFacts2 MinimizeFacts3 MinimizeFacts5.
Import ListNotations.
Open Scope nat_scope.

(** ** the lexicographic order *)
Lemma lex_cons a x y : lex_less x y -> lex_less (a :: x) (a :: y).
Proof.
  intro H. destruct H as [x b y|p b x c y L].
  - apply (lex_shorter (a :: x)).
  - exact (lex_differ (a :: p) b x c y L).
Qed.
Lemma lex_inv x y : lex_less x y -> (exists a z, y = x ++ a :: z) \/ exists p a u b v, (a < b)%Z /\ x = p ++ a :: u /\ y = p ++ b :: v.
Proof. intro H. destruct H as [x a z|p a u b v L]; [left; eauto|right; exists p, a, u, b, v; auto]. Qed.
Lemma lex_lt_spec x : forall y, lex_lt x y = true <-> lex_less x y.
Proof.
  induction x as [|a x IH]; intros [|b y]; cbn [lex_lt].
  - split; [discriminate|]. intro H. apply lex_inv in H. destruct H as [(a & z & E)|(p & a & u & b & v & _ & E & _)]; [discriminate|].
    destruct p; discriminate.
  - split; auto. intros _. apply (lex_shorter []).
  - split; [discriminate|]. intro H. apply lex_inv in H. destruct H as [(c & z & E)|(p & c & u & b & v & _ & _ & E)]; [discriminate|].
    destruct p; discriminate.
  - destruct (a <? b)%Z eqn:E1; [apply Z.ltb_lt in E1; split; auto; intros _; exact (lex_differ [] a x b y E1)|]. apply Z.ltb_ge in E1.
    destruct (b <? a)%Z eqn:E2.
    + apply Z.ltb_lt in E2. split; [discriminate|]. intro H. apply lex_inv in H.
      destruct H as [(c & z & E)|(p & c & u & d & v & L & E3 & E4)].
      * cbn [app] in E. injection E as -> _. lia.
      * destruct p as [|q p]; cbn [app] in E3, E4; injection E3 as -> _; injection E4 as -> _; lia.
    + apply Z.ltb_ge in E2. assert (a = b) as -> by lia. rewrite IH. split; [apply lex_cons|].
      intro H. apply lex_inv in H. destruct H as [(c & z & E)|(p & c & u & d & v & L & E3 & E4)].
      * cbn [app] in E. injection E as ->. constructor.
      * destruct p as [|q p]; cbn [app] in E3, E4.
        -- injection E3 as -> _. injection E4 as -> _. lia.
        -- injection E3 as _ ->. injection E4 as _ ->. now constructor.
Qed.
Lemma lex_lt_trans x : forall y z, lex_lt x y = true -> lex_lt y z = true -> lex_lt x z = true.
Proof.
  induction x as [|a x IH]; intros [|b y] [|c z]; cbn [lex_lt]; try discriminate; auto.
  destruct (a <? b)%Z eqn:E1; destruct (b <? c)%Z eqn:E2; destruct (a <? c)%Z eqn:E3; auto;
    destruct (b <? a)%Z eqn:E4; destruct (c <? b)%Z eqn:E5; destruct (c <? a)%Z eqn:E6; try discriminate;
    rewrite ?Z.ltb_lt, ?Z.ltb_ge in *; try lia. apply IH.
Qed.
Lemma lex_total x : forall y, lex_lt x y = false -> vec_eqb x y = false -> lex_lt y x = true.
Proof.
  induction x as [|a x IH]; intros [|b y]; cbn [lex_lt vec_eqb]; try discriminate; auto.
  destruct (a <? b)%Z eqn:E1; [discriminate|]. destruct (b <? a)%Z eqn:E2; auto.
  apply Z.ltb_ge in E1, E2. assert (a = b) as -> by lia. rewrite Z.eqb_refl. cbn [andb]. apply IH.
Qed.
Lemma lex_trans x y z : lex_less x y -> lex_less y z -> lex_less x z.
Proof. rewrite <- !lex_lt_spec. apply lex_lt_trans. Qed.

(** ** the set of pending positions *)
Lemma set_insert_has x s : In x (set_insert x s).
Proof.
  induction s as [|y s IH]; cbn [set_insert]; [now left|]. destruct (lex_lt x y); [now left|].
  destruct (vec_eqb x y) eqn:E; [apply vec_eqb_eq in E; now left|now right].
Qed.
Lemma set_insert_keeps x s y : In y s -> In y (set_insert x s).
Proof.
  induction s as [|z s IH]; cbn [set_insert]; [intros []|]. intro H. destruct (lex_lt x z); [now right|].
  destruct (vec_eqb x z); auto. destruct H as [->|H]; [now left|right; auto].
Qed.
Lemma set_insert_iff x s y : In y (set_insert x s) <-> y = x \/ In y s.
Proof. split; [apply set_insert_in|intros [->|H]; [apply set_insert_has|now apply set_insert_keeps]]. Qed.
Lemma set_erase_iff x s y : In y (set_erase x s) <-> In y s /\ y <> x.
Proof.
  unfold set_erase. rewrite filter_In, negb_true_iff. split; intros [H1 H2]; split; auto.
  - intros ->. assert (vec_eqb x x = true) by (now apply vec_eqb_eq). congruence.
  - destruct (vec_eqb x y) eqn:E; auto. apply vec_eqb_eq in E. congruence.
Qed.
Lemma set_insert_sorted x s : StronglySorted lex_less s -> StronglySorted lex_less (set_insert x s).
Proof.
  induction 1 as [|y s H IH F]; cbn [set_insert]; [repeat constructor|].
  destruct (lex_lt x y) eqn:E1.
  { apply lex_lt_spec in E1. constructor; [now constructor|]. constructor; auto. eapply Forall_impl; [|exact F]. intros z Hz. eapply lex_trans; eauto. }
  destruct (vec_eqb x y) eqn:E2; [now constructor|]. constructor; auto. apply Forall_forall. intros z Hz. apply set_insert_iff in Hz.
  destruct Hz as [->|Hz]; [apply lex_lt_spec; now apply lex_total|]. rewrite Forall_forall in F. auto.
Qed.
Lemma set_erase_sorted x s : StronglySorted lex_less s -> StronglySorted lex_less (set_erase x s).
Proof.
  unfold set_erase. induction 1 as [|y s H IH F]; cbn [filter]; [constructor|]. destruct (negb _); auto. constructor; auto.
  apply Forall_forall. intros z Hz. apply filter_In in Hz. rewrite Forall_forall in F. apply F. apply Hz.
Qed.
Lemma coordinate_sum_total x : coordinate_sum x = total x.
Proof. unfold coordinate_sum, total. apply fold_symmetric; intros; lia. Qed.
Lemma min_element_least s : forall best, StronglySorted lex_less (best :: s) -> next_position (best :: s) (min_element best s).
Proof.
  assert (ST : forall s best (Q : list Z -> Prop), (forall y, Q y -> (total best < total y)%Z \/ (total best = total y /\ lex_less best y) \/ y = best) ->
    StronglySorted lex_less (best :: s) ->
    forall y, Q y \/ In y (best :: s) -> y = min_element best s \/ (total (min_element best s) < total y)%Z \/ (total (min_element best s) = total y /\ lex_less (min_element best s) y)).
  { induction s0 as [|z s0 IH]; intros best Q HQ SS y Hy; cbn [min_element].
    - destruct Hy as [Hy|[->|[]]]; auto. destruct (HQ y Hy) as [H|[H|H]]; auto.
    - inversion SS as [|? ? SS' F]; subst. inversion F as [|? ? F1 F2]; subst. rewrite !coordinate_sum_total. destruct (total z <? total best)%Z eqn:E.
      + apply Z.ltb_lt in E. apply (IH z (fun y => y = best \/ Q y)); auto.
        * intros w [->|Hw]; [now left|]. left. destruct (HQ w Hw) as [H|[[H _]| ->]]; lia.
        * destruct Hy as [Hy|[<-|Hy]]; auto.
      + apply Z.ltb_ge in E. apply (IH best (fun y => y = z \/ Q y)).
        * intros w [->|Hw]; auto. destruct (Z.eq_dec (total best) (total z)); [auto|left; lia].
        * inversion SS'; subst. constructor; auto.
        * destruct Hy as [Hy|[<-|[<-|Hy]]]; auto. right. now left. right. now right. }
  intros best SS. split; [apply min_element_in|]. intros y Hy. apply (ST s best (fun _ => False)); auto. intros w [].
Qed.

Section Search.
Variable function : list bdd.
Variable metrics : list MetricDimension.
Variable operators : list OperatorFunction.
Variable pop_all : bool.
Notation grid := (bucket_grid_size metrics).
Hypothesis grid_pos : Forall (fun b => (0 < b)%Z) grid.
Hypothesis grid_vol : (volume grid < 2 ^ 64)%Z.
Notation T := (Z.to_nat (volume grid)).
Notation good := (good function metrics operators pop_all).
Notation good_op := (good_op function metrics operators pop_all).
Notation good_state := (good_state function metrics operators pop_all).
Notation at_index := (at_index metrics).

Section Round.
Variable before : list Bucket.
Variable pending : list (list Z).
Variable bf : list bdd.
Hypothesis before_len : length before = T.
(** the bucket [i] is smaller than before the round *)
Definition smaller (buckets : list Bucket) (i : nat) : Prop := exists c b, nth_error before i = Some c /\ nth_error buckets i = Some b /\ bdd_size b < bdd_size c.
Definition from_op (c b : Bucket) : Prop :=
  (b_function b = b_function c /\ bdd_size b = bdd_size c /\ metric_values b = metric_values c /\ is_empty b = is_empty c)
  \/ (bdd_size b < bdd_size c /\ exists op, In op operators /\ op bf = Ok (b_function b)).
Definition round_inv (buckets : list Bucket) (test : list (list Z)) : Prop :=
  StronglySorted lex_less test /\ length buckets = T
  /\ (forall i c b, nth_error before i = Some c -> nth_error buckets i = Some b -> from_op c b)
  /\ (forall i x, i < T -> at_index i x -> (In x test <-> In x pending \/ smaller buckets i))
  /\ (forall x, In x test -> in_box grid x).

Lemma populate_round op opnum nodes modified idx vals indices : In op operators -> op bf = Ok modified -> forall st st',
  round_inv (fst (fst st)) (snd st) -> populate metrics indices opnum nodes modified idx vals st = Ok st' -> round_inv (fst (fst st')) (snd st').
Proof.
  intros IO EO. induction indices as [|i indices IH]; intros [[buckets replace] test] st' R H; cbn [populate] in H; [injection H as <-; auto|].
  destruct (vget buckets i) as [b| | |] eqn:Eb; cbn [bind] in H; try discriminate. apply vget_iff in Eb.
  destruct (bdd_size b <=? nodes) eqn:Es; [now apply IH in H|]. apply Nat.leb_gt in Es.
  destruct (create_multi_dim_index (Z.of_nat i) grid) as [index| | |] eqn:Ei; cbn [bind] in H; try discriminate.
  destruct (existsb _ _) eqn:Ex; [now apply IH in H|].
  destruct (vset buckets i _) as [buckets'| | |] eqn:Ev; cbn [bind] in H; try discriminate. apply IH in H; auto.
  cbn [fst snd] in *. destruct R as (R1 & R2 & R3 & R4 & R5). destruct (vset_spec _ _ _ _ Ev) as (L & Hi & NE).
  assert (HT : i < T) by lia. destruct (nth_error before i) as [c|] eqn:Ec; [|apply nth_error_None in Ec; lia].
  assert (SC : bdd_size b <= bdd_size c) by (destruct (R3 i c b Ec Eb) as [(_ & -> & _)|[? _]]; lia).
  split; [now apply set_insert_sorted|]. split; [lia|]. split; [|split].
  - intros j c' b' Hj Hj'. rewrite NE in Hj'. destruct (j =? i) eqn:Ej; [|eauto]. apply Nat.eqb_eq in Ej. subst j.
    injection Hj' as <-. rewrite Ec in Hj. injection Hj as <-. right. cbn [bdd_size b_function]. split; [lia|eauto].
  - intros j x Hj Ax. rewrite set_insert_iff, (R4 j x Hj Ax). destruct (Nat.eq_dec j i) as [->|NJ].
    + split; [|intros _; left; unfold MinimizeFacts2.at_index in Ax; congruence]. intros _. right. exists c. eexists. split; auto. rewrite NE, Nat.eqb_refl. split; [reflexivity|]. cbn [bdd_size]. lia.
    + assert (SM : smaller buckets' j <-> smaller buckets j).
      { unfold smaller. rewrite NE. apply Nat.eqb_neq in NJ. now rewrite NJ. }
      rewrite SM. split; [intros [->|H']; auto|auto]. exfalso. apply NJ.
      destruct (at_index_box metrics grid_pos j index Hj Ax) as [_ E1]. destruct (at_index_box metrics grid_pos i index HT Ei) as [_ E2]. lia.
  - intros x Hx. apply set_insert_iff in Hx. destruct Hx as [->|Hx]; auto. apply (at_index_box metrics grid_pos i index HT Ei).
Qed.
Lemma op_step_round cur opnum st st' : round_inv (fst (fst (fst st))) (snd (fst st)) ->
  op_step function metrics operators pop_all cur bf opnum st = Ok st' -> round_inv (fst (fst (fst st'))) (snd (fst st')).
Proof.
  intros R H. destruct st as [[[buckets replace] test] possible]. cbn [fst snd] in R. unfold op_step in H.
  destruct (vget operators opnum) as [op| | |] eqn:Eo; cbn [bind] in H; try discriminate. apply vget_iff in Eo.
  destruct (vget possible opnum) as [p| | |] eqn:Ep; cbn [bind] in H; try discriminate.
  destruct (negb p); [injection H as <-; auto|].
  destruct (op bf) as [modified| | |] eqn:Em; cbn [bind] in H; try discriminate. cbv zeta in H.
  destruct (vget buckets cur) as [c| | |] eqn:Ec; cbn [bind] in H; try discriminate.
  destruct (bdd_size c <=? nodeCount modified) eqn:Es.
  { destruct (_ <? _); [|injection H as <-; auto].
    destruct (vset possible opnum false) as [ps| | |] eqn:Eps; cbn [bind] in H; try discriminate. injection H as <-. auto. }
  destruct (metric_loop _ _ _ _ _ _ _ _ _) as [v| | |] eqn:Ev; cbn [bind] in H; try discriminate.
  destruct v as [rm|idx vals].
  { destruct rm; [|injection H as <-; auto].
    destruct (vset possible opnum false) as [ps| | |] eqn:Eps; cbn [bind] in H; try discriminate. injection H as <-. auto. }
  destruct (reduce_multi_dim_index _ _) as [s| | |]; cbn [bind] in H; try discriminate.
  destruct (populate _ _ _ _ _ _ _ _) as [pst| | |] eqn:EP; cbn [bind] in H; try discriminate. injection H as <-. cbn [fst snd].
  eapply (populate_round op); [eapply nth_error_In; eauto|exact Em| |exact EP]. exact R.
Qed.
Lemma replace_round possible test : forall replace buckets buckets', round_inv buckets test ->
  replace_loop replace possible buckets = Ok buckets' -> round_inv buckets' test.
Proof.
  induction replace as [|[i op] replace IH]; intros buckets buckets' R H; cbn [replace_loop] in H; [injection H as <-; auto|].
  destruct (vget buckets i) as [b| | |] eqn:Eb; cbn [bind] in H; try discriminate. apply vget_iff in Eb.
  destruct (vset possible op false) as [ops| | |] eqn:Eo; cbn [bind] in H; try discriminate.
  destruct (vset buckets i _) as [bs| | |] eqn:Ev; cbn [bind] in H; try discriminate. apply IH in H; auto. clear H.
  destruct R as (R1 & R2 & R3 & R4 & R5). destruct (vset_spec _ _ _ _ Ev) as (L & Hi & NE).
  split; auto. split; [lia|]. split; [|split; auto].
  - intros j c' b' Hj Hj'. rewrite NE in Hj'. destruct (j =? i) eqn:Ej; [|eauto]. apply Nat.eqb_eq in Ej. subst j.
    injection Hj' as <-. exact (R3 i c' b Hj Eb).
  - intros j x Hj Ax. rewrite (R4 j x Hj Ax). unfold smaller. rewrite NE. destruct (j =? i) eqn:Ej; [|reflexivity].
    apply Nat.eqb_eq in Ej. subst j. split; (intros [H|(c & d & H1 & H2 & H3)]; [now left|right]).
    + rewrite Eb in H2. injection H2 as <-. do 2 eexists. split; [exact H1|]. split; [reflexivity|exact H3].
    + injection H2 as <-. do 2 eexists. split; [exact H1|]. split; [exact Eb|exact H3].
Qed.
End Round.

Lemma explore_order buckets first rest buckets' test' : good_state buckets (first :: rest) -> StronglySorted lex_less (first :: rest) ->
  explore function metrics operators pop_all buckets first rest = Ok (buckets', test') ->
  StronglySorted lex_less test' /\ exists pos b, next_position (first :: rest) pos
    /\ nth_error buckets (Z.to_nat (row_major grid pos)) = Some b
    /\ length buckets' = length buckets
    /\ (forall i c b', nth_error buckets i = Some c -> nth_error buckets' i = Some b' ->
          (b_function b' = b_function c /\ bdd_size b' = bdd_size c /\ metric_values b' = metric_values c /\ is_empty b' = is_empty c)
          \/ (bdd_size b' < bdd_size c /\ exists op, In op operators /\ op (b_function b) = Ok (b_function b')))
    /\ (forall x, In x test' <-> (In x (first :: rest) /\ x <> pos) \/
          (in_box grid x /\ exists c b', nth_error buckets (Z.to_nat (row_major grid x)) = Some c
             /\ nth_error buckets' (Z.to_nat (row_major grid x)) = Some b' /\ bdd_size b' < bdd_size c)).
Proof.
  intros (G & GT & MO) SS H. unfold explore in H. cbv zeta in H.
  pose proof (min_element_least rest first SS) as NP. set (pos := min_element first rest) in *.
  assert (BX : in_box grid pos) by (apply GT; apply NP).
  rewrite (reduce_at metrics grid_vol) in H by auto. cbn [bind] in H.
  destruct (vget buckets _) as [b| | |] eqn:Eb; cbn [bind] in H; try discriminate. apply vget_iff in Eb.
  destruct (for_each _ _ _) as [[[[bs rp] ts] possible]| | |] eqn:EF; cbn [bind] in H; try discriminate.
  destruct (replace_loop rp possible bs) as [bs'| | |] eqn:ER; cbn [bind] in H; try discriminate. injection H as <- <-.
  assert (LB : length buckets = T) by apply G.
  assert (I : round_inv buckets (set_erase pos (first :: rest)) (b_function b) bs ts).
  { eapply for_each_pc with (I := fun st => round_inv buckets (set_erase pos (first :: rest)) (b_function b) (fst (fst (fst st))) (snd (fst st))) in EF.
    - exact EF.
    - intros i st st' _ I1 I2. eapply op_step_round; eauto.
    - cbn [fst snd]. split; [now apply set_erase_sorted|]. split; auto. split; [|split].
      + intros i c d Hc Hd. rewrite Hc in Hd. injection Hd as <-. left. auto.
      + intros i x Hi Ax. split; auto. intros [H|(c & d & H1 & H2 & H3)]; auto. rewrite H1 in H2. injection H2 as <-. lia.
      + intros x Hx. apply GT. eapply set_erase_in; eauto. }
  eapply replace_round in I; [|eauto|exact ER]; auto. destruct I as (R1 & R2 & R3 & R4 & R5). split; auto.
  exists pos, b. split; auto. split; [now rewrite row_major_at|]. split; [congruence|]. split; [exact R3|].
  intro x. split.
  - intro H. pose proof (R5 x H) as BXx. pose proof (R4 _ x (flat_lt metrics x BXx) (at_flat metrics x BXx)) as R4'.
    apply R4' in H. rewrite set_erase_iff in H. destruct H as [H|H]; [now left|right]. split; auto. now rewrite row_major_at.
  - intros [H|(BXx & H)].
    + assert (BXx : in_box grid x) by (apply GT; apply H).
      apply (R4 _ x (flat_lt metrics x BXx) (at_flat metrics x BXx)). left. now apply set_erase_iff.
    + apply (R4 _ x (flat_lt metrics x BXx) (at_flat metrics x BXx)). right. rewrite row_major_at in H by auto. exact H.
Qed.

Lemma first_zero first : create_multi_dim_index 0 grid = Ok first -> first = repeat 0%Z (length metrics).
Proof.
  assert (B : in_box grid (repeat 0%Z (length metrics)) /\ flat (repeat 0%Z (length metrics)) grid 0 = 0%Z).
  { pose proof grid_pos as GP. unfold bucket_grid_size in *. clear - GP. induction metrics as [|m ms IH]; cbn [map length repeat flat] in *; [split; [constructor|auto]|].
    inversion GP; subst. destruct (IH H2) as [I1 I2]. split; [constructor; [lia|exact I1]|exact I2]. }
  destruct B as [B E]. apply create_ok in B. rewrite E in B. rewrite B. congruence.
Qed.
Lemma rounds_good k buckets test : rounds function metrics operators pop_all k buckets test ->
  good_state buckets test /\ StronglySorted lex_less test.
Proof.
  induction 1 as [|k buckets first rest buckets' test' H [IH1 IH2] E].
  - destruct (initial_good function metrics operators pop_all grid_pos) as (first & E & G). apply first_zero in E. subst first.
    split; [exact G|repeat constructor].
  - split; [|eapply explore_order; eauto]. apply explore_good in E; auto. apply E.
Qed.
Lemma search_rounds fuel : forall k buckets test, rounds function metrics operators pop_all k buckets test ->
  forall result, search function metrics operators pop_all fuel buckets test = Some (Ok result) ->
  exists k', k' <= k + fuel /\ rounds function metrics operators pop_all k' result [].
Proof.
  induction fuel as [|fuel IH]; intros k buckets test R result H; destruct test as [|first rest]; cbn [search] in H; try discriminate;
    try (injection H as <-; exists k; split; [lia|auto]).
  destruct (explore _ _ _ _ _ _ _) as [[bs ts]| | |] eqn:E; try discriminate.
  destruct (IH (S k) bs ts (rounds_step _ _ _ _ _ _ _ _ _ _ R E) result H) as (k' & L & R'). exists k'. split; auto. lia.
Qed.
Lemma rounds_search k buckets test : rounds function metrics operators pop_all k buckets test ->
  forall fuel, search function metrics operators pop_all (k + fuel) (initial function metrics operators) [repeat 0%Z (length metrics)]
    = search function metrics operators pop_all fuel buckets test.
Proof.
  induction 1 as [|k buckets first rest buckets' test' H IH E]; intro fuel; auto.
  replace (S k + fuel) with (k + S fuel) by lia. rewrite IH. cbn [search]. now rewrite E.
Qed.
Lemma minimize_rounds fuel buckets : metrics <> [] ->
  bucket_greedy_minimize function metrics operators pop_all fuel = Some (Ok buckets)
  <-> exists k, k <= fuel /\ rounds function metrics operators pop_all k buckets [].
Proof.
  intro HM. destruct (initial_good function metrics operators pop_all grid_pos) as (first & E & G).
  rewrite (minimize_search _ _ _ _ grid_pos grid_vol fuel first HM E). apply first_zero in E. subst first. split.
  - intro H. destruct (search_rounds fuel 0 _ _ (rounds_start function metrics operators pop_all) buckets H) as (k & L & R). eauto.
  - intros (k & L & R). replace fuel with (k + (fuel - k)) by lia. rewrite (rounds_search k buckets [] R).
    destruct (fuel - k); reflexivity.
Qed.
End Search.

Lemma search_order : forall (function : list bdd) (metrics : list MetricDimension) (operators : list OperatorFunction) (pop_all : bool),
  Forall (fun m => (0 < grid_size m)%Z) metrics -> (volume (map grid_size metrics) < 2 ^ 64)%Z ->
  forall k buckets test, rounds function metrics operators pop_all k buckets test ->
  StronglySorted lex_less test /\ forall first rest buckets' test', test = first :: rest ->
    explore function metrics operators pop_all buckets first rest = Ok (buckets', test') ->
    exists pos b, next_position test pos
    /\ nth_error buckets (Z.to_nat (row_major (map grid_size metrics) pos)) = Some b
    /\ length buckets' = length buckets
    /\ (forall i c b', nth_error buckets i = Some c -> nth_error buckets' i = Some b' ->
          (b_function b' = b_function c /\ bdd_size b' = bdd_size c /\ metric_values b' = metric_values c /\ is_empty b' = is_empty c)
          \/ (bdd_size b' < bdd_size c /\ exists op, In op operators /\ op (b_function b) = Ok (b_function b')))
    /\ (forall x, In x test' <-> (In x test /\ x <> pos) \/
          (in_box (map grid_size metrics) x /\ exists c b', nth_error buckets (Z.to_nat (row_major (map grid_size metrics) x)) = Some c
             /\ nth_error buckets' (Z.to_nat (row_major (map grid_size metrics) x)) = Some b' /\ bdd_size b' < bdd_size c)).
Proof.
  intros function metrics operators pop_all HG HV k buckets test R.
  assert (GP : Forall (fun b => (0 < b)%Z) (bucket_grid_size metrics)) by (unfold bucket_grid_size; now apply Forall_map).
  destruct (rounds_good function metrics operators pop_all GP HV k buckets test R) as [G SS]. split; auto.
  intros first rest buckets' test' -> E. eapply (explore_order function metrics operators pop_all); eauto.
Qed.
Lemma search_is_rounds : forall (function : list bdd) (metrics : list MetricDimension) (operators : list OperatorFunction) (pop_all : bool),
  metrics <> [] -> Forall (fun m => (0 < grid_size m)%Z) metrics -> (volume (map grid_size metrics) < 2 ^ 64)%Z ->
  forall fuel buckets, bucket_greedy_minimize function metrics operators pop_all fuel = Some (Ok buckets)
  <-> exists k, k <= fuel /\ rounds function metrics operators pop_all k buckets [].
Proof.
  intros function metrics operators pop_all HM HG HV fuel buckets.
  assert (GP : Forall (fun b => (0 < b)%Z) (bucket_grid_size metrics)) by (unfold bucket_grid_size; now apply Forall_map).
  exact (minimize_rounds function metrics operators pop_all GP HV fuel buckets HM).
Qed.
