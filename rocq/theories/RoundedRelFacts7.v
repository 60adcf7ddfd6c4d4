(** The relative error metrics and sampling with rounding: statements for the properties *)
From Coq Require Import List Bool Arith ZArith QArith Qabs Qround Lia Lqa.
From Verif Require Import Res Cudd CuddFacts Spec SpecFacts SpecFloat Float FloatFacts Helpers HelpersFacts HelpersFacts2 Counting AddFacts CountFacts
  Metrics MetricsFacts RelMetrics RelFacts RelFacts2 RelFacts3 RelFacts4 RelFacts6 RelFacts7
  Rounded RoundedFacts RoundedFacts2 RoundedAdd RoundedMinimize RoundedMinimizeFacts RoundedAverageFacts RoundedRel RoundedRelFacts RoundedRelFacts2
  RoundedRelFacts3 RoundedRelFacts4.
Import ListNotations.
Open Scope nat_scope.

Lemma wcre_search_fl_never53 rnd M clog2 n f g r e precision top (k : Z) : rounds_to_nearest 53 rnd ->
  clog2_ok clog2 -> Forall (wf M) f -> Forall (wf M) g -> below n f -> below n g ->
  f <> [] -> (r = TwosComplement -> g <> []) -> Nat.max (length f) (length g) <= 126 -> 16 <= e ->
  (forall a, (wrel r f g a == top)%Q) -> ~ float_number 53 top -> (36 <= k)%Z -> (2 ^ k <= top)%Q -> (precision < 2 ^ (k - 52))%Q ->
  forall fuel, wcre_search_fl rnd M clog2 f g e precision r fuel = None.
Proof.
  intros HR HC Wf Wg Bf Bg Hf Hg HL He Same NF Hk K2 HP.
  apply (wcre_search_fl_never 53 rnd M clog2 n f g r e precision top k); auto; try lia.
  replace (k + 1 - 53)%Z with (k - 52)%Z by lia. exact HP.
Qed.

Lemma random_input_fl rnd M rm f T draws : rounds_to_nearest 53 rnd -> index_order M -> wf M f -> depends_below T f -> (exists a, ev f a = true) ->
  length draws = T -> Forall (fun d => 0 < d <= rm)%Z draws -> (0 < rm)%Z ->
  exists l, random_satisfying_input_fl rnd rm f (count_minterms_fl rnd f) T draws = Ok l
    /\ length l = T /\ Forall (fun x => x = 0 \/ x = 1)%Z l /\ ev f (asg_ints l) = true.
Proof. intros HR HI Wf D Ha HL HF Hrm. exact (random_sampler_fl_sound 53 rnd M rm T ltac:(lia) HR HI Hrm f draws Wf D Ha HL HF). Qed.

Lemma wcre_division_fl_value dec M n f g e r : Forall (wf M) f -> Forall (wf M) g -> below n f -> below n g -> f <> [] ->
  (r = TwosComplement -> g <> []) -> Nat.max (length f) (length g) + e <= 256 ->
  exists m, wcre_symbolic_division_fl dec M f g e r = Ok (dec (inject_Z m / inject_Z (2 ^ Z.of_nat e)))%Q
    /\ is_max (fun a => Qfloor (wrel r f g a * inject_Z (2 ^ Z.of_nat e))) m.
Proof.
  intros Wf Wg Bf Bg Hf Hg HL. destruct (wcre_division_exact M n f g e r Wf Wg Bf Bg Hf Hg HL) as (m & E & H).
  exists m. split; [|exact H]. pose proof (wcre_division_dec dec M f g e r) as X. rewrite E in X. exact X.
Qed.

Lemma acre_division_fl_value u (U : (0 <= u <= 1)%Q) rnd dec (R : rounds_to_nearest 53 rnd) (D : relative_error u dec) M n f g e r :
  Forall (wf M) f -> Forall (wf M) g -> below n f -> below n g -> f <> [] ->
  (r = TwosComplement -> g <> []) -> Nat.max (length f) (length g) + e + n + 3 <= 256 ->
  let doubles := if n <=? 53 then 0 else 2 * n in
  exists q, acre_symbolic_division_fl rnd dec M f g e r = Ok (Fin q)
    /\ (q <= qpow (1 + u) 2 * (qpow (1 + 2 ^ (-53)) doubles * average n (wrel r f g)))%Q
    /\ (qpow (1 - u) 2 * (qpow (1 - 2 ^ (-53)) doubles * (average n (wrel r f g) - 1 / inject_Z (2 ^ Z.of_nat e))) <= q)%Q.
Proof.
  intros Wf Wg Bf Bg Hf Hg HL doubles.
  destruct (acre_division_dec u U rnd dec R D M n f g e r Wf Wg Bf Bg Hf Hg HL) as (q & q' & E & E' & A & B).
  destruct (acre_division_spec M n f g e r Wf Wg Bf Bg Hf Hg HL) as (x & Ex & X1 & X2). rewrite E in Ex. injection Ex as <-.
  exists q'. split; [exact E'|]. subst doubles. fold (double_steps n).
  assert (N : forall z k, (0 <= z)%Q -> (0 <= qpow z k)%Q) by (intros; now apply qpow_nonneg).
  assert (Mono : forall a x y, (0 <= a -> x <= y -> a * x <= a * y)%Q)
    by (intros a x y Ha Hxy; rewrite (Qmult_comm a x), (Qmult_comm a y); apply Qmult_le_compat_r; assumption).
  split.
  - eapply Qle_trans; [exact B|]. apply Mono; [apply N; lra|]. apply Mono; [apply N; vm_compute; discriminate|exact X1].
  - eapply Qle_trans; [|exact A]. apply Mono; [apply N; lra|]. apply Mono; [apply N; vm_compute; discriminate|lra].
Qed.

Lemma error_rate_sampling_fl_value rnd M draws f g samples : length f = length g -> Forall (wf M) f -> Forall (wf M) g ->
  below (read_size M) f -> below (read_size M) g -> (1 <= samples < 2 ^ 31)%Z -> (forall i, 0 <= draws i)%Z ->
  exists q, error_rate_sampling_fl rnd M draws f g samples = Ok (Fin (rnd q))
    /\ (q == inject_Z (Z.of_nat (length (filter (fun k => differ f g (sample draws (read_size M) k)) (seq 0 (Z.to_nat samples)))))
             / inject_Z samples)%Q.
Proof.
  intros HL Wf Wg Bf Bg Hs Hd. destruct (error_rate_sampling_fl_spec rnd M draws f g samples HL Wf Wg Bf Bg Hs) as (q & E & E').
  destruct (error_rate_sampling_exact M draws f g samples HL Wf Wg Bf Bg Hs Hd) as (x & Ex & X). rewrite E in Ex. injection Ex as <-.
  exists q. auto.
Qed.
