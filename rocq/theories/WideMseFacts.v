(** Bucket minimisation with doubles: the mean squared error of functions of more than 53 variables *)
From Coq Require Import List Bool Arith ZArith QArith Lia Lqa.
From Verif Require Import Res Cudd CuddFacts Spec SpecFacts SpecFloat Float Helpers HelpersFacts HelpersFacts2 Counting Metrics MetricsFacts MetricsFacts2
  MetricsFacts3 MetricsFacts4 MetricsFacts5 MetricsFacts6 AddFacts CountFacts RelMetrics RelFacts Operators Examples AdderFacts Minimize SpecMinimize MinimizeFacts MinimizeFacts2 MinimizeFacts3
  MinimizeFacts4 Rounded RoundedFacts RoundedFacts2 RoundedAdd RoundedAddFacts RoundedAddFacts2 RoundedMinimize RoundedMinimizeFacts RoundedMinimizeFacts2
  RoundedMinimizeFacts3 RoundedMinimizeFacts4 RoundedAverageFacts RoundedOperatorFacts.
Import ListNotations.
Open Scope nat_scope.

Lemma wide_mean_squared : forall (rnd : Q -> Q), rounds_to_nearest 53 rnd ->
  forall (M : mgr) (n : nat) (function : list bdd) (metrics : list SimpleMetricDimension)
    (mode : OperatorConstructionMode) (ops : list Operator) (rands : list nat) (count : nat) (pop_all : bool),
  Forall (wf M) function -> below n function -> metrics <> [] ->
  Forall (fun m => (0 < m_grid_size m)%Z) metrics -> Forall (fun m => (0 < m_bound m)%Q) metrics ->
  (volume (map m_grid_size metrics) < 2 ^ 64)%Z -> (fold_right Z.add 0 (map m_grid_size metrics) <= 2 ^ 53)%Z ->
  forall fuel original smallest buckets,
  bucket_minimize_helper_fl rnd M fuel function metrics mode ops rands count pop_all = Some (Ok (original, smallest, buckets)) ->
  forall b m, In b buckets -> In m metrics -> m_metric m = MEAN_SQUARED -> float_number 53 (m_bound m) ->
  2 * length function + 2 + n <= 256 ->
  forall B, (m_bound m < qpow (1 - 2 ^ (-53)) (2 * n + 1) * B)%Q ->
  exists d, bdd_absolute_difference M function (b_function b) BaseTwo = Ok d
    /\ (forall a, uval d a = dist (uval function a) (uval (b_function b) a))
    /\ ((exists x, In x d /\ forall i, vars_in d i -> In i (varsn (snd x))) ->
        error_below MEAN_SQUARED n function (b_function b) B).
Proof.
  intros rnd R M n function metrics mode ops rands count pop_all W Bl M0 GP BP GV GS fuel original smallest buckets H b m Hb Hm K FB S B HB.
  destruct (helper_fl_guarantee rnd R M n function metrics mode ops rands count pop_all W Bl M0 GP BP GV GS fuel original smallest buckets H) as (_ & _ & _ & G).
  destruct (G b Hb) as (_ & _ & Wb & Bb & L & _). clear G.
  assert (P : (0 < m_bound m)%Q) by (rewrite Forall_forall in BP; now apply BP).
  set (u := (2 ^ (-53))%Q) in *. assert (UP : (0 < 1 - u)%Q) by reflexivity.
  pose proof (qpow_pos (1 - u) (2 * n + 1) UP) as QP. pose proof (qpow_pos (1 - u) (2 * n) UP) as QP2.
  assert (QS : (qpow (1 - u) (2 * n + 1) == (1 - u) * qpow (1 - u) (2 * n))%Q) by (rewrite Nat.add_1_r; reflexivity).
  assert (S' : 2 * Nat.max (length function) (length (b_function b)) + 2 + n <= 256) by (rewrite L, Nat.max_id; exact S).
  destruct (mse_fl_spec 53 rnd ltac:(discriminate) R M n function (b_function b) BaseTwo W Wb Bl Bb ltac:(discriminate) S') as (d & q & E1 & E2 & E3 & E4).
  destruct (mse_exact M n function (b_function b) BaseTwo W Wb Bl Bb ltac:(discriminate) S') as (d' & q' & F1 & F2 & _ & _).
  rewrite E1 in F1. injection F1 as <-.
  exists d. split; [exact E1|]. split; [exact F2|]. intro X. specialize (E4 X).
  destruct (helper_fl_measured rnd R M function metrics mode ops rands count pop_all M0 GP BP GV GS fuel original smallest buckets H b m Hb Hm FB) as [E|(v & Ev & Lv)].
  - rewrite E. apply error_self. nra.
  - rewrite K in Ev. cbn [metric_function_fl] in Ev. rewrite E2 in Ev. cbn [bind to_double] in Ev. injection Ev as <-. specialize (Lv (proj1 (R q))).
    destruct E3 as [N _]. destruct (rnd_bounds u rnd (rel53 rnd R) q N) as [RB _]. destruct E4 as [E4 _]. cbn [error_below]. unfold average_below.
    change (fun a => inject_Z (wrapped BaseTwo function (b_function b) a * wrapped BaseTwo function (b_function b) a))
      with (fun a => inject_Z (dist (uval function a) (uval (b_function b) a) * dist (uval function a) (uval (b_function b) a))) in E4.
    change (2 ^ - (53))%Q with u in E4. set (A := average n _) in *. set (w := qpow (1 - u) (2 * n)) in *. rewrite QS in HB, QP. clear - UP QP QP2 HB Lv RB E4.
    apply Qnot_le_lt. intro C. clearbody A w u.
    assert (X1 : ((1 - u) * (w * A) <= (1 - u) * q)%Q) by (rewrite (Qmult_comm _ (w * A)), (Qmult_comm _ q); apply Qmult_le_compat_r; lra).
    assert (X2 : ((1 - u) * w * B <= (1 - u) * w * A)%Q) by (rewrite (Qmult_comm _ B), (Qmult_comm _ A); apply Qmult_le_compat_r; lra).
    lra.
Qed.
