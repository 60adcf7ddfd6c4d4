(** Relations between the metrics *)
From Coq Require Import List Bool Arith ZArith QArith Qround Lia Lqa.
From Verif Require Import Res Cudd CuddFacts Spec SpecFacts Helpers HelpersFacts HelpersFacts2 Counting AddFacts CountFacts PathFacts Metrics MetricsFacts MetricsFacts2 MetricsFacts3 MetricsFacts4 MetricsFacts6 RelMetrics RelFacts RelFacts2 RelFacts7.
Import ListNotations.
Open Scope nat_scope.

(** ** pointwise relations *)
Lemma differ_uval f g a : length f = length g -> differ f g a = negb (uval f a =? uval g a)%Z.
Proof.
  revert g. induction f as [|x f IH]; intros [|y g] L; cbn [length] in L; try discriminate; [reflexivity|].
  cbn [differ uval]. rewrite IH by lia.
  destruct (ev x a), (ev y a); cbn [xorb orb Z.b2z];
    destruct (Z.eqb_spec (uval f a) (uval g a)); cbn [negb]; symmetry;
    try (apply negb_true_iff, Z.eqb_neq; lia); apply negb_false_iff, Z.eqb_eq; lia.
Qed.
Lemma differ_dist f g a : length f = length g -> (b2q (differ f g a) <= inject_Z (dist (uval f a) (uval g a)))%Q
  /\ (differ f g a = false -> dist (uval f a) (uval g a) = 0%Z).
Proof.
  intro L. rewrite differ_uval by auto. destruct (Z.eqb_spec (uval f a) (uval g a)) as [E|E]; cbn [negb b2q]; split.
  - change 0%Q with (inject_Z 0). rewrite <- Zle_Qle. apply dist_nonneg.
  - intros _. rewrite E. unfold dist. lia.
  - change 1%Q with (inject_Z 1). rewrite <- Zle_Qle. unfold dist. lia.
  - discriminate.
Qed.
Lemma differ_ham f g a : (b2q (differ f g a) <= inject_Z (hamming f g a))%Q /\ (differ f g a = false -> hamming f g a = 0%Z).
Proof.
  rewrite differ_hamming. pose proof (hamming_range f g a) as R. destruct (Z.eqb_spec (hamming f g a) 0) as [E|E]; cbn [negb b2q]; split.
  - rewrite E. apply Qle_refl.
  - auto.
  - change 1%Q with (inject_Z 1). rewrite <- Zle_Qle. lia.
  - discriminate.
Qed.

(** a quantity that is zero where the outputs agree and at most [m] elsewhere *)
Lemma average_by_rate n f g (F : asg -> Q) m : (forall a, 0 <= F a <= m)%Q -> (forall a, differ f g a = false -> (F a == 0)%Q) ->
  (average n F <= m * average n (fun a => b2q (differ f g a)))%Q.
Proof.
  intros HF H0. rewrite <- average_scale. apply average_le. intro a. specialize (HF a). specialize (H0 a).
  destruct (differ f g a); cbn [b2q]; [lra|]. rewrite H0 by auto. lra.
Qed.
Lemma average_square n (F : asg -> Q) : (average n F * average n F <= average n (fun a => F a * F a))%Q.
Proof.
  set (m := average n F).
  assert (H : (0 <= average n (fun a => (F a - m) * (F a - m)))%Q).
  { apply average_nonneg. intro a. destruct (Qlt_le_dec (F a - m) 0) as [L|L].
    - setoid_replace ((F a - m) * (F a - m))%Q with ((- (F a - m)) * (- (F a - m)))%Q by ring. apply Qmult_le_0_compat; lra.
    - apply Qmult_le_0_compat; lra. }
  rewrite (average_ext n _ (fun a => F a * F a + ((- (2) * m) * F a + m * m))%Q) in H by (intro; ring).
  rewrite !average_plus, average_scale, average_const in H. fold m in H. lra.
Qed.
Lemma is_max_nonneg F m : (forall a, 0 <= F a)%Z -> is_max F m -> (0 <= m)%Z.
Proof. intros H [(a & <-) _]. auto. Qed.
Lemma rel_dist x y : (0 <= rel x y <= inject_Z (dist x y))%Q.
Proof.
  unfold rel. assert (P : (0 < inject_Z (Z.max 1 (Z.abs x)))%Q) by (apply injZ_pos; lia). split.
  - apply le_div_iff; auto. rewrite Qmult_0_l. apply injZ_nonneg, dist_nonneg.
  - apply div_le_iff; auto. rewrite <- inject_Z_mult. rewrite <- Zle_Qle. pose proof (dist_nonneg x y). nia.
Qed.

(** ** between the metrics *)
Lemma cross_bounds M n f g : wfs M f -> wfs M g -> below n f -> below n g -> length f = length g -> length f + n < 256 ->
  exists er abf wcb ace wce,
    error_rate M f g = Ok er /\ average_bit_flip_error M f g = Ok abf /\ worst_case_bit_flip_error M f g = Ok wcb
    /\ average_case_error M f g BaseTwo = Ok (Fin ace) /\ worst_case_error M f g BaseTwo = Ok wce
    /\ (0 <= er <= 1)%Q /\ (er <= abf <= inject_Z wcb * er)%Q /\ (0 <= wcb <= Z.of_nat (length f))%Z
    /\ (er <= ace <= inject_Z wce * er)%Q.
Proof.
  intros Wf Wg Bf Bg L H.
  destruct (error_rate_full M n f g Wf Wg Bf Bg) as [HE _]. destruct (HE L) as (er & E1 & Q1 & _).
  destruct (average_bit_flip_full M n f g Wf Wg Bf Bg) as [HB _]. destruct (HB L) as (abf & E2 & Q2).
  destruct (worst_case_bit_flip_full M n f g Wf Wg L) as [HW _]. destruct (HW ltac:(lia)) as (wcb & E3 & Q3).
  destruct (ace_spec M n f g BaseTwo Wf Wg Bf Bg) as (ace & E4 & Q4); [discriminate|rewrite <- L, Nat.max_id; lia|].
  destruct (wce_base_spec M f g Wf Wg) as (wce & E5 & Q5); [lia|lia|].
  exists er, abf, wcb, ace, wce. do 5 (split; [assumption|]).
  assert (R1 : (0 <= er <= 1)%Q).
  { rewrite Q1. split; [apply average_nonneg; intro; apply b2q_nonneg|].
    apply Qle_trans with (average n (fun _ => 1%Q)); [|rewrite average_const; apply Qle_refl].
    apply average_le. intro a. destruct (differ f g a); cbn [b2q]; lra. }
  split; [exact R1|].
  assert (HH : (0 <= wcb)%Z) by (apply (is_max_nonneg _ _ (fun a => proj1 (hamming_range f g a)) Q3)).
  split; [split|split; [split|split]].
  - rewrite Q1, Q2. apply average_le. intro a. apply differ_ham.
  - rewrite Q1, Q2. apply average_by_rate.
    + intro a. split; [apply injZ_nonneg, hamming_range|rewrite <- Zle_Qle; apply Q3].
    + intros a Ha. now rewrite (proj2 (differ_ham f g a) Ha).
  - exact HH.
  - destruct Q3 as [(a & <-) _]. apply hamming_range.
  - rewrite Q1, Q4. apply average_le. intro a. now apply differ_dist.
  - rewrite Q1, Q4. apply average_by_rate; unfold wrapped.
    + intro a. split; [apply injZ_nonneg, dist_nonneg|rewrite <- Zle_Qle; apply Q5].
    + intros a Ha. now rewrite (proj2 (differ_dist f g a L) Ha).
Qed.

Lemma cross_squares M n f g : index_order M -> wfs M f -> wfs M g -> below n f -> below n g -> n <= 63 -> length f = length g ->
  2 * length f + n < 256 ->
  exists ace mse wce, average_case_error M f g BaseTwo = Ok (Fin ace) /\ mean_squared_error_add M f g BaseTwo = Ok (Fin mse)
    /\ worst_case_error M f g BaseTwo = Ok wce /\ (ace * ace <= mse)%Q /\ (ace <= mse <= inject_Z wce * ace)%Q.
Proof.
  intros HI Wf Wg Bf Bg Hn L H.
  destruct (ace_spec M n f g BaseTwo Wf Wg Bf Bg) as (ace & E4 & Q4); [discriminate|rewrite <- L, Nat.max_id; lia|].
  destruct (mse_add_full M n f g BaseTwo HI Wf Wg Bf Bg Hn) as (mse & E6 & Q6); [discriminate|rewrite <- L, Nat.max_id; lia|].
  destruct (wce_base_spec M f g Wf Wg) as (wce & E5 & Q5); [lia|lia|].
  exists ace, mse, wce. do 3 (split; [assumption|]). unfold wrapped in Q4. unfold value in Q6.
  rewrite Q4, Q6. split; [|split].
  - eapply Qle_trans; [apply average_square|]. apply average_le. intro a. rewrite inject_Z_mult. apply Qle_refl.
  - apply average_le. intro a. rewrite <- Zle_Qle. pose proof (dist_nonneg (uval f a) (uval g a)). nia.
  - rewrite <- average_scale. apply average_le. intro a. rewrite <- inject_Z_mult, <- Zle_Qle.
    pose proof (dist_nonneg (uval f a) (uval g a)). apply Z.mul_le_mono_nonneg_r; auto. apply Q5.
Qed.

Lemma cross_relative M n f g : index_order M -> wfs M f -> wfs M g -> below n f -> below n g -> n <= 63 -> length f = length g ->
  length f + n < 256 ->
  exists wcre acre er ace wce, wcre_add M f g BaseTwo = Ok wcre /\ acre_add M f g BaseTwo = Ok (Fin acre)
    /\ error_rate M f g = Ok er /\ average_case_error M f g BaseTwo = Ok (Fin ace) /\ worst_case_error M f g BaseTwo = Ok wce
    /\ (0 <= wcre <= inject_Z wce)%Q /\ (0 <= acre <= ace)%Q /\ (acre <= wcre * er)%Q.
Proof.
  intros HI Wf Wg Bf Bg Hn L H.
  destruct (wcre_add_spec M n f g BaseTwo HI Wf Wg Bf Bg Hn) as (wcre & E1 & Q1); [discriminate|].
  destruct (acre_add_spec M n f g BaseTwo HI Wf Wg Bf Bg Hn) as (acre & E2 & Q2); [discriminate|].
  destruct (error_rate_full M n f g Wf Wg Bf Bg) as [HE _]. destruct (HE L) as (er & E3 & Q3 & _).
  destruct (ace_spec M n f g BaseTwo Wf Wg Bf Bg) as (ace & E4 & Q4); [discriminate|rewrite <- L, Nat.max_id; lia|].
  destruct (wce_base_spec M f g Wf Wg) as (wce & E5 & Q5); [lia|lia|].
  exists wcre, acre, er, ace, wce. do 5 (split; [assumption|]). unfold wrapped in Q4. unfold value in Q1, Q2.
  split; [|split].
  - destruct Q1 as [(a & Ea) _]. rewrite <- Ea. destruct (rel_dist (uval f a) (uval g a)) as [R1 R2]. split; [auto|].
    apply Qle_trans with (1 := R2). rewrite <- Zle_Qle. apply Q5.
  - rewrite Q2, Q4. split; [apply average_nonneg; intro; apply rel_dist|]. apply average_le. intro. apply rel_dist.
  - rewrite Q2, Q3. apply average_by_rate.
    + intro a. split; [apply rel_dist|apply Q1].
    + intros a Ha. unfold rel. rewrite (proj2 (differ_dist f g a L) Ha). reflexivity.
Qed.

(** ** the laws of a metric *)
Lemma differ_sym f : forall g a, differ f g a = differ g f a.
Proof. induction f as [|x f IH]; intros [|y g] a; auto. cbn [differ]. rewrite IH, xorb_comm. reflexivity. Qed.
Lemma hamming_sym f : forall g a, hamming f g a = hamming g f a.
Proof. induction f as [|x f IH]; intros [|y g] a; auto. cbn [hamming]. rewrite IH, xorb_comm. reflexivity. Qed.
Lemma hamming_triangle f : forall g h a, length f = length g -> (hamming f h a <= hamming f g a + hamming g h a)%Z.
Proof.
  induction f as [|x f IH]; intros [|y g] [|z h] a L; cbn [length] in L; try discriminate; cbn [hamming]; try lia.
  - pose proof (hamming_range (x :: f) (y :: g) a) as R. cbn [hamming] in R. lia.
  - specialize (IH g h a ltac:(lia)). destruct (ev x a), (ev y a), (ev z a); cbn [xorb Z.b2z]; lia.
Qed.
Lemma differ_triangle f g h a : length f = length g -> (b2q (differ f h a) <= b2q (differ f g a) + b2q (differ g h a))%Q.
Proof.
  intro L. rewrite !differ_hamming. pose proof (hamming_triangle f g h a L). pose proof (hamming_range f g a).
  pose proof (hamming_range g h a). pose proof (hamming_range f h a).
  destruct (Z.eqb_spec (hamming f h a) 0), (Z.eqb_spec (hamming f g a) 0), (Z.eqb_spec (hamming g h a) 0); cbn [negb b2q]; try lra. lia.
Qed.

Lemma metric_laws M n f g h : wfs M f -> wfs M g -> wfs M h -> below n f -> below n g -> below n h ->
  length f = length g -> length g = length h -> length f + n < 256 ->
  (exists x y z x', error_rate M f h = Ok x /\ error_rate M f g = Ok y /\ error_rate M g h = Ok z /\ error_rate M h f = Ok x'
     /\ (x <= y + z)%Q /\ (x == x')%Q)
  /\ (exists x y z x', average_bit_flip_error M f h = Ok x /\ average_bit_flip_error M f g = Ok y
     /\ average_bit_flip_error M g h = Ok z /\ average_bit_flip_error M h f = Ok x' /\ (x <= y + z)%Q /\ (x == x')%Q)
  /\ (exists x y z, worst_case_bit_flip_error M f h = Ok x /\ worst_case_bit_flip_error M f g = Ok y
     /\ worst_case_bit_flip_error M g h = Ok z /\ worst_case_bit_flip_error M h f = Ok x /\ (x <= y + z)%Z)
  /\ (exists x y z x', average_case_error M f h BaseTwo = Ok (Fin x) /\ average_case_error M f g BaseTwo = Ok (Fin y)
     /\ average_case_error M g h BaseTwo = Ok (Fin z) /\ average_case_error M h f BaseTwo = Ok (Fin x') /\ (x <= y + z)%Q /\ (x == x')%Q).
Proof.
  intros Wf Wg Wh Bf Bg Bh L1 L2 H.
  assert (ER : forall f g, wfs M f -> wfs M g -> below n f -> below n g -> length f = length g ->
    exists q, error_rate M f g = Ok q /\ (q == average n (fun a => b2q (differ f g a)))%Q).
  { intros f' g' W W' B B' L. destruct (error_rate_full M n f' g' W W' B B') as [X _]. destruct (X L) as (q & ? & ? & _). eauto. }
  assert (AB : forall f g, wfs M f -> wfs M g -> below n f -> below n g -> length f = length g ->
    exists q, average_bit_flip_error M f g = Ok q /\ (q == average n (fun a => inject_Z (hamming f g a)))%Q).
  { intros f' g' W W' B B' L. destruct (average_bit_flip_full M n f' g' W W' B B') as [X _]. exact (X L). }
  assert (WB : forall f g, wfs M f -> wfs M g -> length f = length g -> length f + n < 256 ->
    exists q, worst_case_bit_flip_error M f g = Ok q /\ is_max (hamming f g) q).
  { intros f' g' W W' L HL. destruct (worst_case_bit_flip_full M n f' g' W W' L) as [X _]. apply X. lia. }
  assert (AC : forall f g, wfs M f -> wfs M g -> below n f -> below n g -> length f = length g -> length f + n < 256 ->
    exists q, average_case_error M f g BaseTwo = Ok (Fin q) /\ (q == average n (fun a => inject_Z (dist (uval f a) (uval g a))))%Q).
  { intros f' g' W W' B B' L HL. apply (ace_spec M n f' g' BaseTwo W W' B B'); [discriminate|]. rewrite <- L, Nat.max_id. lia. }
  split; [|split; [|split]].
  - destruct (ER f h) as (x & E1 & Q1), (ER f g) as (y & E2 & Q2), (ER g h) as (z & E3 & Q3), (ER h f) as (x' & E4 & Q4); auto; try lia.
    exists x, y, z, x'. do 4 (split; [assumption|]). rewrite Q1, Q2, Q3, Q4. split.
    + rewrite <- average_plus. apply average_le. intro a. now apply differ_triangle.
    + apply average_ext. intro a. now rewrite differ_sym.
  - destruct (AB f h) as (x & E1 & Q1), (AB f g) as (y & E2 & Q2), (AB g h) as (z & E3 & Q3), (AB h f) as (x' & E4 & Q4); auto; try lia.
    exists x, y, z, x'. do 4 (split; [assumption|]). rewrite Q1, Q2, Q3, Q4. split.
    + rewrite <- average_plus. apply average_le. intro a. rewrite <- inject_Z_plus, <- Zle_Qle. now apply hamming_triangle.
    + apply average_ext. intro a. now rewrite hamming_sym.
  - destruct (WB f h) as (x & E1 & Q1), (WB f g) as (y & E2 & Q2), (WB g h) as (z & E3 & Q3), (WB h f) as (x' & E4 & Q4); auto; try lia.
    exists x, y, z. split; [auto|]. split; [auto|]. split; [auto|]. split.
    + rewrite E4. f_equal. apply (is_max_unique (hamming f h)); auto. apply is_max_ext with (2 := Q4). intro. apply hamming_sym.
    + destruct Q1 as [(a & <-) _]. destruct Q2 as [_ Q2]. destruct Q3 as [_ Q3]. specialize (Q2 a). specialize (Q3 a).
      pose proof (hamming_triangle f g h a L1). lia.
  - destruct (AC f h) as (x & E1 & Q1), (AC f g) as (y & E2 & Q2), (AC g h) as (z & E3 & Q3), (AC h f) as (x' & E4 & Q4); auto; try lia.
    exists x, y, z, x'. do 4 (split; [assumption|]). rewrite Q1, Q2, Q3, Q4. split.
    + rewrite <- average_plus. apply average_le. intro a. rewrite <- inject_Z_plus, <- Zle_Qle. unfold dist. lia.
    + apply average_ext. intro a. unfold dist. rewrite <- Z.abs_opp. f_equiv. f_equal. lia.
Qed.
