(** The bucket minimisation with doubles: order of the positions, soundness, termination. *)
From Coq Require Import List Bool Arith ZArith QArith Qabs Qround Lia Lqa.
From Verif Require Import Res Cudd Spec SpecFloat Float FloatFacts Helpers Counting Metrics Operators Examples Minimize SpecMinimize
  MinimizeFacts MinimizeFacts2 MinimizeFacts3 Rounded RoundedMinimize RoundedMinimizeFacts RoundedMinimizeFacts2 RoundedFacts2.
Import ListNotations.
Open Scope nat_scope.

Definition sum_list (l : list Z) : Z := fold_right Z.add 0%Z l.
Section Order.
Variable p : Z.
Variable rnd : Q -> Q.
Hypothesis Hp : (1 <= p)%Z.
Hypothesis keeps : keeps_floats p rnd.
Lemma keeps_int q z : (q == inject_Z z)%Q -> (0 <= z <= 2 ^ p)%Z -> (rnd q == inject_Z z)%Q.
Proof.
  intros E H. rewrite <- E. apply keeps. exists z, 0%Z. split; [rewrite Z.abs_eq; lia|].
  rewrite E. change (2 ^ 0)%Q with 1%Q. rewrite Qmult_1_r. reflexivity.
Qed.
Lemma in_box_sum bounds x : in_box bounds x -> (0 <= sum_list x <= sum_list bounds)%Z.
Proof. unfold in_box. induction 1; cbn [sum_list fold_right] in *; [lia|]. unfold sum_list in *. lia. Qed.
Lemma coordinate_sum_exact bounds x : in_box bounds x -> forall z q, (q == inject_Z z)%Q -> (0 <= z)%Z -> (z + sum_list bounds <= 2 ^ p)%Z ->
  (fold_left (fun s c => rnd (s + rnd (inject_Z c))) x q == inject_Z (fold_left Z.add x z))%Q.
Proof.
  unfold in_box. induction 1 as [|c b x bounds Hc H IH]; intros z q E Z0 B; cbn [fold_left]; [exact E|].
  cbn [sum_list fold_right] in B. fold (sum_list bounds) in B.
  pose proof (in_box_sum bounds x H) as SB.
  apply IH; [|lia|unfold sum_list in *; lia]. apply keeps_int; [|unfold sum_list in *; lia].
  rewrite E, (keeps_int (inject_Z c) c), inject_Z_plus; [reflexivity|reflexivity|unfold sum_list in *; lia].
Qed.
Lemma positions_exact bounds : (sum_list bounds <= 2 ^ p)%Z -> forall s best, Forall (in_box bounds) (best :: s) ->
  min_element_fl rnd best s = min_element best s.
Proof.
  intro B. assert (C : forall x, in_box bounds x -> (coordinate_sum_fl rnd x == inject_Z (coordinate_sum x))%Q).
  { intros x Hx. apply (coordinate_sum_exact bounds x Hx 0%Z 0%Q); [reflexivity|lia|lia]. }
  induction s as [|y s IH]; intros best H; cbn [min_element_fl min_element]; [reflexivity|].
  inversion H as [|? ? H1 H2]; subst. inversion H2 as [|? ? H3 H4]; subst.
  assert (E : qgtb (coordinate_sum_fl rnd best) (coordinate_sum_fl rnd y) = (coordinate_sum y <? coordinate_sum best)%Z).
  { rewrite (qgtb_comp _ _ _ _ (C best H1) (C y H3)). apply eq_true_iff_eq. rewrite Z.ltb_lt.
    unfold qgtb. rewrite negb_true_iff. split.
    - intro K. apply Z.nle_gt. intro L. rewrite Zle_Qle in L. apply Qle_bool_iff in L. congruence.
    - intro K. destruct (Qle_bool _ _) eqn:EQ; [|reflexivity]. apply Qle_bool_iff in EQ. rewrite <- Zle_Qle in EQ. lia. }
  rewrite E. destruct (_ <? _)%Z; apply IH; constructor; auto.
Qed.
End Order.

Section Sound.
Variable u : Q.
Variable rnd : Q -> Q.
Hypothesis U : (0 <= u < 1)%Q.
Hypothesis keeps : keeps_floats 53 rnd.
Hypothesis near : forall x, nearest_float 53 x (rnd x).
Hypothesis rele : relative_error u rnd.
Variable function : list bdd.
Variable metrics : list MetricDimension.
Variable operators : list OperatorFunction.
Variable pop_all : bool.
Notation grid := (map grid_size metrics).
Hypothesis has_metric : metrics <> [].
Hypothesis grid_pos : Forall (fun m => (0 < grid_size m)%Z) metrics.
Hypothesis grid_vol : (volume grid < 2 ^ 64)%Z.
Hypothesis grid_sum : (sum_list grid <= 2 ^ 53)%Z.

Lemma follows fuel : relopt (relres (Forall2 (same function metrics)))
  (bucket_greedy_minimize_fl rnd function metrics operators pop_all fuel)
  (bucket_greedy_minimize function (map (adjust rnd) metrics) operators pop_all fuel).
Proof.
  apply minimize_same; auto. intros s best H. eapply (positions_exact 53); eauto. lia.
Qed.
Lemma Forall2_nth {A B} (R : A -> B -> Prop) l l' : Forall2 R l l' -> forall i x, nth_error l i = Some x -> exists y, nth_error l' i = Some y /\ R x y.
Proof. induction 1; intros [|i] z Hz; cbn [nth_error] in *; try discriminate; [injection Hz as <-; eauto|eauto]. Qed.
Lemma Forall2_len {A B} (R : A -> B -> Prop) l l' : Forall2 R l l' -> length l = length l'.
Proof. induction 1; cbn [length]; congruence. Qed.
Lemma grid_le m : In m metrics -> (0 < grid_size m <= 2 ^ 53)%Z.
Proof.
  intro H. split; [rewrite Forall_forall in grid_pos; auto|].
  assert (G : forall ms, Forall (fun m => (0 < grid_size m)%Z) ms -> In m ms -> (grid_size m <= sum_list (map grid_size ms))%Z /\ (0 <= sum_list (map grid_size ms))%Z).
  { clear. induction ms as [|x ms IH]; intros F HI; [contradiction|]. inversion F; subst. cbn [map sum_list fold_right].
    assert (P : (0 <= sum_list (map grid_size ms))%Z).
    { clear - H2. induction H2; cbn [map sum_list fold_right]; [lia|]. fold (sum_list (map grid_size l)). lia. }
    fold (sum_list (map grid_size ms)). destruct HI as [->|HI]; [lia|]. specialize (IH H2 HI). lia. }
  destruct (G metrics grid_pos H). lia.
Qed.
Lemma buckets_sound_fl fuel buckets : bucket_greedy_minimize_fl rnd function metrics operators pop_all fuel = Some (Ok buckets) ->
  length buckets = Z.to_nat (volume grid) /\
  forall i b index, nth_error buckets i = Some b -> in_box grid index -> row_major grid index = Z.of_nat i ->
    derived operators function (b_function b) /\ bdd_size b = nodeCount (b_function b) /\ bdd_size b <= nodeCount function
    /\ (is_empty b = true -> b_function b = function /\ metric_values b = repeat 0%Q (length metrics))
    /\ (is_empty b = false -> bdd_size b < nodeCount function /\ length (metric_values b) = length metrics
        /\ forall k m v x, nth_error metrics k = Some m -> nth_error (metric_values b) k = Some v -> nth_error index k = Some x ->
             metric m function (b_function b) = Ok (Fin v)
             /\ ((0 < bound m)%Q ->
                 (float_number 53 v -> float_number 53 (bound m) ->
                   (v <= bound m)%Q /\ ((exists j, grid_size m = 2 ^ Z.of_nat j)%Z -> (v < bound m)%Q))
                 /\ ((0 <= v)%Q -> exists c, (0 <= c <= x)%Z /\ (pop_all = false -> c = x)
                       /\ (inject_Z c * bound m / inject_Z (grid_size m) <= qpow (1 + u) 2 * v)%Q
                       /\ (qpow (1 - u) 2 * v < (inject_Z c + 1) * bound m / inject_Z (grid_size m))%Q))).
Proof.
  intro H. pose proof (follows fuel) as F. rewrite H in F.
  destruct (bucket_greedy_minimize function (map (adjust rnd) metrics) operators pop_all fuel) as [[bs| | |]|] eqn:EB;
    cbn [relopt relres] in F; try contradiction.
  assert (GE : map grid_size (map (adjust rnd) metrics) = grid) by (rewrite map_map; reflexivity).
  assert (GP' : Forall (fun m => (0 < grid_size m)%Z) (map (adjust rnd) metrics)) by (apply Forall_map; exact grid_pos).
  assert (NE' : map (adjust rnd) metrics <> []) by (intro X; apply map_eq_nil in X; auto).
  pose proof (minimize_good function (map (adjust rnd) metrics) operators pop_all NE' GP' ltac:(rewrite GE; exact grid_vol) fuel bs EB) as ((L & G) & _).
  unfold bucket_grid_size in L. rewrite GE in L. split; [rewrite (Forall2_len _ _ _ F); exact L|].
  intros i b index Hi B E. destruct (Forall2_nth _ _ _ F i b Hi) as (b' & Hi' & S1 & S2 & S3 & S4 & S5 & S6).
  assert (HT : i < Z.to_nat (volume grid)) by (rewrite <- L; apply nth_error_Some; congruence).
  assert (A : at_index (map (adjust rnd) metrics) i index).
  { apply (at_row (map (adjust rnd) metrics) i index); rewrite ?GE; auto. }
  destruct (G i b' Hi') as (G1 & G2 & G3 & G4 & G5). rewrite S1, S2, S4.
  split; auto. split; auto. split; [|split].
  - destruct (is_empty b') eqn:Ee; [destruct (G4 eq_refl) as [G6 _]; rewrite G2, G6; lia|destruct (G5 eq_refl); lia].
  - intro Ee. split; [now destruct (G4 Ee)|apply S6; now rewrite S4].
  - intro Ee. destruct (G5 Ee) as (G6 & index' & cells & A' & ME & BL & EX).
    assert (index' = index) as -> by (unfold at_index in A, A'; congruence).
    rewrite S4 in S5. specialize (S5 Ee). rewrite S1 in S5. split; auto. split; [symmetry; exact (Forall2_len _ _ _ S5)|].
    intros k m v x Hm Hv Hx. destruct (Forall2_nth _ _ _ S5 k m Hm) as (v' & Hv' & EM). rewrite Hv in Hv'. injection Hv' as <-.
    split; auto. intro HB. pose proof (grid_le m ltac:(eapply nth_error_In; eauto)) as GL.
    destruct (measured_nth _ _ _ _ _ ME) as (L1 & L2 & ME').
    pose proof (map_nth_error (adjust rnd) k metrics Hm) as Hm'.
    destruct (nth_error (metric_values b') k) as [w|] eqn:Ew.
    2:{ apply nth_error_None in Ew. assert (k < length (map (adjust rnd) metrics)) by (apply nth_error_Some; congruence). lia. }
    destruct (ME' k _ w Hm' Ew) as (c & Hc & LT & EM' & ED). cbn [metric grid_size bound adjust] in *.
    rewrite EM in EM'. cbn [bind] in EM'. injection EM' as EW.
    assert (ED' : dimension_index_fl rnd (grid_size m) (Fin v) (bound m) = Ok c).
    { rewrite <- (adjusted_index rnd m (Fin v)) by lia. cbn [adjusted]. rewrite EW. exact ED. }
    split.
    + intros Fv Fb. exact (dimension_fl_bound 53 rnd ltac:(lia) near keeps (grid_size m) v (bound m) c HB GL Fv Fb ED' LT).
    + intro V0. exists c. split; [|split].
      * pose proof (dimension_nonneg _ _ _ _ ED). pose proof (below_nth _ _ BL k c x Hc Hx). lia.
      * intro P. rewrite (EX P) in Hc. congruence.
      * exact (dimension_fl_cell 53 rnd keeps u (grid_size m) v (bound m) c U rele HB GL V0 ED').
Qed.
Lemma search_enough_fl fuel : Z.to_nat (volume grid) * nodeCount function + 1 <= fuel ->
  bucket_greedy_minimize_fl rnd function metrics operators pop_all fuel <> None.
Proof.
  intros H E. pose proof (follows fuel) as F. rewrite E in F. cbn [relopt] in F.
  assert (GE : map grid_size (map (adjust rnd) metrics) = grid) by (rewrite map_map; reflexivity).
  assert (GP' : Forall (fun m => (0 < grid_size m)%Z) (map (adjust rnd) metrics)) by (apply Forall_map; exact grid_pos).
  assert (NE' : map (adjust rnd) metrics <> []) by (intro X; apply map_eq_nil in X; auto).
  destruct (bucket_greedy_minimize function (map (adjust rnd) metrics) operators pop_all fuel) eqn:EB; [contradiction|].
  revert EB. apply search_enough; auto; rewrite GE; auto.
Qed.
End Sound.
