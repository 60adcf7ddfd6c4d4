(** The mean squared error as a bound of bucket_minimize_helper: what is kept is the bound on the truncated value. *)
From Coq Require Import List Bool Arith ZArith QArith Lia Lqa.
From Verif Require Import Res Cudd CuddFacts Spec SpecFacts Helpers HelpersFacts HelpersFacts2 Counting Metrics MetricsFacts MetricsFacts2
  MetricsFacts4 MetricsFacts6 Operators Minimize SpecMinimize MinimizeFacts MinimizeFacts2 MinimizeFacts3 MinimizeFacts4.
Import ListNotations.
Section Guarantee.
Variables (M : mgr) (n : nat) (function : list bdd) (metrics : list SimpleMetricDimension) (mode : OperatorConstructionMode)
  (ops : list Operator) (rands : list nat) (count : nat) (pop_all : bool).
Hypothesis wff : Forall (wf M) function.
Hypothesis bel : below n function.
Hypothesis has_metric : metrics <> [].
Hypothesis grid_pos : Forall (fun m => (0 < m_grid_size m)%Z) metrics.
Hypothesis bound_pos : Forall (fun m => (0 < m_bound m)%Q) metrics.
Hypothesis grid_vol : (volume (map m_grid_size metrics) < 2 ^ 64)%Z.
Notation dims := (map (fun m => Dim (m_grid_size m) (metric_function M (m_metric m)) (m_bound m)) metrics).
(** a bucket is the function itself or measured below the bound *)
Lemma helper_measured fuel original smallest buckets :
  bucket_minimize_helper M fuel function metrics mode ops rands count pop_all = Some (Ok (original, smallest, buckets)) ->
  forall b m, In b buckets -> In m metrics ->
  b_function b = function \/ exists v, metric_function M (m_metric m) function (b_function b) = Ok (Fin v) /\ (v < m_bound m)%Q.
Proof.
  intros H b m Hb Hm.
  destruct (helper_split M function metrics mode ops rands count pop_all fuel _ H) as (l & bs & EG & EB & ES & E1 & E2). cbn [fst snd] in *. subst bs.
  pose proof (minimize_good function dims l pop_all ltac:(now destruct metrics) ltac:(apply Forall_map; exact grid_pos)
    ltac:(rewrite map_map; exact grid_vol) fuel buckets EB) as ((L & G) & _).
  apply In_nth_error in Hb. destruct Hb as (i & Hi). destruct (G i b Hi) as (G1 & G2 & G3 & G4 & G5).
  destruct (is_empty b) eqn:Ee.
  { left. destruct (G4 eq_refl) as [-> _]. reflexivity. }
  right. destruct (G5 eq_refl) as (_ & index & cells & _ & ME & _). destruct (measured_nth _ _ _ _ _ ME) as (L1 & L2 & ME').
  assert (BP : (0 < m_bound m)%Q) by (rewrite Forall_forall in bound_pos; now apply bound_pos).
  assert (GP : (0 < m_grid_size m)%Z) by (rewrite Forall_forall in grid_pos; now apply grid_pos).
  apply In_nth_error in Hm. destruct Hm as (k & Hk).
  assert (Hd : nth_error dims k = Some (Dim (m_grid_size m) (metric_function M (m_metric m)) (m_bound m)))
    by (now apply (map_nth_error (fun m => Dim (m_grid_size m) (metric_function M (m_metric m)) (m_bound m)))).
  destruct (nth_error (metric_values b) k) as [v|] eqn:Ev.
  2:{ apply nth_error_None in Ev. assert (k < length dims)%nat by (apply nth_error_Some; congruence). lia. }
  destruct (ME' k _ v Hd Ev) as (c & Hc & LT & EM & ED). cbn [metric grid_size bound] in *.
  exists v. split; auto. apply (dimension_cell (m_grid_size m) (m_bound m) v c); auto.
Qed.
Lemma helper_mean_squared fuel original smallest buckets :
  bucket_minimize_helper M fuel function metrics mode ops rands count pop_all = Some (Ok (original, smallest, buckets)) ->
  forall b m, In b buckets -> In m metrics -> m_metric m = MEAN_SQUARED -> 2 * length function + 2 + n <= 256 ->
  exists d, bdd_absolute_difference M function (b_function b) BaseTwo = Ok d
    /\ (forall a, uval d a = dist (uval function a) (uval (b_function b) a))
    /\ (forall s, largest_support d s -> (truncated_square n s d < m_bound m)%Q)
    /\ ((exists x, In x d /\ forall i, vars_in d i -> In i (varsn (snd x))) ->
        error_below MEAN_SQUARED n function (b_function b) (m_bound m)).
Proof.
  intros H b m Hb Hm K S.
  destruct (helper_guarantee M n function metrics mode ops rands count pop_all wff bel has_metric grid_pos bound_pos grid_vol
    fuel original smallest buckets H) as (_ & _ & _ & G).
  destruct (G b Hb) as (_ & _ & W & B & L & _).
  assert (BP : (0 < m_bound m)%Q) by (rewrite Forall_forall in bound_pos; now apply bound_pos).
  assert (S' : 2 * Nat.max (length function) (length (b_function b)) + 2 + n <= 256) by (rewrite L, Nat.max_id; exact S).
  destruct (mse_exact M n function (b_function b) BaseTwo wff W bel B ltac:(discriminate) S') as (d & q & E1 & E2 & E3 & E4).
  destruct (mse_spec M n function (b_function b) BaseTwo wff W bel B ltac:(discriminate) S') as (d' & q' & F1 & F2 & F3 & F4).
  rewrite E1 in F1. injection F1 as <-. rewrite E3 in F2. injection F2 as <-.
  assert (Q : (q < m_bound m)%Q).
  { destruct (helper_measured fuel original smallest buckets H b m Hb Hm) as [E|(v & Ev & Lv)].
    - rewrite E in F3. eapply Qle_lt_trans; [exact F3|].
      apply (error_self MEAN_SQUARED n function (m_bound m) BP).
    - rewrite K in Ev. cbn [metric_function] in Ev. rewrite E3 in Ev. injection Ev as <-. exact Lv. }
  exists d. split; auto. split; auto. split.
  - intros s Hs. now rewrite <- (E4 s Hs).
  - intro X. cbn [error_below]. unfold average_below. rewrite <- (F4 X). exact Q.
Qed.
End Guarantee.
