(** The average metrics without a bound on the number of outputs and variables: 256-bit sums *)
From Coq Require Import List Bool Arith ZArith QArith Qround Lia Lqa.
From Verif Require Import Res Cudd CuddFacts Spec SpecFacts SpecWide Helpers HelpersFacts HelpersFacts2 Counting AddFacts CountFacts Metrics MetricsFacts MetricsFacts2 MetricsFacts3 MetricsFacts4 MetricsFacts6 RelMetrics RelFacts RelFacts2.
Import ListNotations.
Open Scope nat_scope.

Lemma pow2_split s : s <= 256 -> (pow2 s * pow2 (256 - s) = N256)%Z.
Proof. intro H. rewrite <- pow2_add. replace (s + (256 - s)) with 256 by lia. reflexivity. Qed.

Lemma Qfloor_quot c d : (0 < d)%Z -> Qfloor (inject_Z c / inject_Z d) = (c / d)%Z.
Proof.
  intro H. rewrite (Qfloor_comp _ (c # Z.to_pos d)).
  - cbn [Qfloor]. now rewrite Z2Pos.id.
  - rewrite Qmake_Qdiv, Z2Pos.id by auto. reflexivity.
Qed.

Lemma mod_remainder c s : s <= 256 ->
  (inject_Z (c mod N256) / inject_Z (pow2 s) == remainderQ (inject_Z c / inject_Z (pow2 s)) (inject_Z (pow2 (256 - s))))%Q.
Proof.
  intro H. unfold remainderQ. pose proof (pow2Q_pos s) as P. pose proof (pow2Q_pos (256 - s)) as P'.
  assert (E : (inject_Z c / inject_Z (pow2 s) / inject_Z (pow2 (256 - s)) == inject_Z c / inject_Z N256)%Q).
  { rewrite <- (pow2_split s H), inject_Z_mult. field. split; lra. }
  rewrite (Qfloor_comp _ _ E), Qfloor_quot by (unfold N256; lia).
  rewrite Zmod_eq_full by (unfold N256; lia). unfold Z.sub. rewrite inject_Z_plus, inject_Z_opp, inject_Z_mult.
  rewrite <- (pow2_split s H) at 2. rewrite inject_Z_mult. field. lra.
Qed.

Lemma remainder_range x m : (0 < m)%Q -> (0 <= remainderQ x m < m)%Q.
Proof.
  intro H. unfold remainderQ. pose proof (Qfloor_le (x / m)) as F1. pose proof (Qlt_floor (x / m)) as F2.
  assert (E : (x == x / m * m)%Q) by (field; lra).
  assert (G1 : (inject_Z (Qfloor (x / m)) * m <= x / m * m)%Q) by (apply Qmult_le_compat_r; lra).
  assert (G2 : (x / m * m < inject_Z (Qfloor (x / m) + 1) * m)%Q) by (apply Qmult_lt_compat_r; lra).
  rewrite inject_Z_plus in G2. change (inject_Z 1) with 1%Q in G2. split; lra.
Qed.
Lemma remainder_le x m : (0 < m)%Q -> (0 <= x)%Q -> (remainderQ x m <= x)%Q.
Proof.
  intros H Hx. unfold remainderQ. assert (0 <= Qfloor (x / m))%Z.
  { change 0%Z with (Qfloor 0). apply Qfloor_resp_le. apply Qle_shift_div_l; lra. }
  assert (0 <= inject_Z (Qfloor (x / m)) * m)%Q by (apply Qmult_le_0_compat; [now apply injZ_nonneg|lra]). lra.
Qed.
Lemma remainder_id x m : (0 < m)%Q -> (0 <= x)%Q -> ((remainderQ x m == x)%Q <-> (x < m)%Q).
Proof.
  intros H Hx. split; intro E.
  - rewrite <- E. apply remainder_range; auto.
  - unfold remainderQ. assert (F : Qfloor (x / m) = 0%Z).
    { pose proof (Qfloor_le (x / m)) as F1. pose proof (Qlt_floor (x / m)) as F2.
      assert (A : (x / m < 1)%Q) by (apply Qlt_shift_div_r; lra).
      assert (B : (0 <= x / m)%Q) by (apply Qle_shift_div_l; lra).
      assert (C : (inject_Z (Qfloor (x / m)) < inject_Z 1)%Q) by (change (inject_Z 1) with 1%Q; lra). rewrite <- Zlt_Qlt in C.
      assert (D : (inject_Z 0 < inject_Z (Qfloor (x / m) + 1))%Q) by (change (inject_Z 0) with 0%Q; lra). rewrite <- Zlt_Qlt in D. lia. }
    rewrite F. change (inject_Z 0) with 0%Q. lra.
Qed.
Lemma remainder_comp x y m : (x == y)%Q -> (remainderQ x m == remainderQ y m)%Q.
Proof.
  intro E. unfold remainderQ. assert (E' : (x / m == y / m)%Q) by (now rewrite E). now rewrite (Qfloor_comp _ _ E'), E.
Qed.

Lemma max_support_largest f s : largest_support f s -> max_support f 0 = s.
Proof.
  intro HL. destruct (max_support_spec f 0) as (_ & L2 & L3). apply (largest_support_unique f); auto.
  split; [auto|]. destruct L3 as [E|(b & Hb & E)]; [auto|right; eauto].
Qed.
Lemma shl256_over s : 256 <= s -> shl256 s = 0%Z.
Proof.
  intro H. unfold shl256, u256. change (2 ^ 256)%Z with (pow2 256). fold (pow2 s).
  replace s with (256 + (s - 256)) by lia. rewrite pow2_add, Z.mul_comm. apply Z.mod_mul. pose proof (pow2_pos 256). lia.
Qed.
Lemma shl256_small s : s < 256 -> shl256 s = pow2 s.
Proof.
  intro H. unfold shl256, u256. fold (pow2 s). apply Z.mod_small. pose proof (pow2_pos s). pose proof (pow2_lt s 256 H).
  change (pow2 256) with (2 ^ 256)%Z in *. lia.
Qed.
Lemma fdiv_zero x : fdiv x (inject_Z 0) = NonFin.
Proof. unfold fdiv. reflexivity. Qed.

Lemma average_value_wide M n f s : wfs M f -> below n f -> largest_support f s ->
  (256 <= s -> average_value f = NonFin)
  /\ (s < 256 -> exists q, average_value f = Fin q
       /\ (q == remainderQ (average n (fun a => inject_Z (uval f a))) (inject_Z (2 ^ Z.of_nat (256 - s))))%Q).
Proof.
  intros W B HL. unfold average_value. rewrite (max_support_largest f s HL). split; intro Hs.
  - rewrite shl256_over by auto. apply fdiv_zero.
  - rewrite shl256_small, average_sum_mod by (auto; unfold N256; lia). rewrite pow2_0, Z.mul_1_l, Z.add_0_l.
    rewrite fdiv_pos by apply pow2_pos. eexists. split; [reflexivity|].
    rewrite mod_remainder by lia. apply remainder_comp.
    rewrite (cz_meanv M s f W), <- (meanv_average M n f W B); [|apply HL]. field. apply pow2Q_nz.
Qed.

Lemma mean_squared_wide M n f s : wfs M f -> below n f -> largest_support f s ->
  (256 <= s -> mean_squared_value M f = NonFin)
  /\ (s < 256 -> exists q, mean_squared_value M f = Fin q
       /\ (q == remainderQ (truncated_square n s f) (inject_Z (2 ^ Z.of_nat (256 - s))))%Q).
Proof.
  intros W B HL. unfold mean_squared_value. rewrite (max_support_largest f s HL). split; intro Hs.
  - rewrite shl256_over by auto. apply fdiv_zero.
  - rewrite shl256_small, square_sum_mod by (auto; unfold N256; lia). rewrite pow2_0, !Z.mul_1_l, Z.add_0_l.
    rewrite fdiv_pos by apply pow2_pos. eexists. split; [reflexivity|].
    rewrite mod_remainder by lia. unfold truncated_square. now rewrite (sz_digits M n).
Qed.

Lemma trunc_le M n s f : wfs M f -> below n f -> (0 <= truncated_square n s f <= average n (fun a => inject_Z (uval f a * uval f a)))%Q.
Proof.
  intros W B. unfold truncated_square. rewrite <- (sz_digits M n s f W B). fold (pow2 s). pose proof (pow2Q_pos s).
  split.
  - apply Qle_shift_div_l; auto. rewrite Qmult_0_l. apply injZ_nonneg. apply sz_range.
  - rewrite <- (means_average M n f W B). apply Qle_shift_div_r; auto. rewrite Qmult_comm. apply sz_le.
Qed.

(** ** The error metrics *)
Lemma ace_wide M n f g r : wfs M f -> wfs M g -> below n f -> below n g -> (r = TwosComplement -> f <> [] /\ g <> []) ->
  exists d, bdd_absolute_difference M f g r = Ok d /\ (forall a, uval d a = wrapped r f g a) /\ forall s, largest_support d s ->
    (256 <= s -> average_case_error M f g r = Ok NonFin /\ mean_squared_error M f g r = Ok NonFin)
    /\ (s < 256 ->
        let m := average n (fun a => inject_Z (wrapped r f g a)) in
        (exists q, average_case_error M f g r = Ok (Fin q) /\ (q == remainderQ m (inject_Z (2 ^ Z.of_nat (256 - s))))%Q
           /\ (q <= m)%Q /\ ((q == m)%Q <-> (m < inject_Z (2 ^ Z.of_nat (256 - s)))%Q))
        /\ (exists q, mean_squared_error M f g r = Ok (Fin q)
           /\ (q <= average n (fun a => inject_Z (wrapped r f g a * wrapped r f g a)))%Q)).
Proof.
  intros Wf Wg Bf Bg Hr. destruct (absdiff_any M n f g r Wf Wg Bf Bg Hr) as (d & E & _ & W & B & V).
  exists d. split; [exact E|]. split; [exact V|]. intros s HL. unfold average_case_error, mean_squared_error. rewrite E. cbn [bind].
  destruct (average_value_wide M n d s W B HL) as [A1 A2]. destruct (mean_squared_wide M n d s W B HL) as [S1 S2]. split; intro Hs.
  - now rewrite A1, S1 by auto.
  - set (m := average n (fun a => inject_Z (wrapped r f g a))). cbv zeta.
    assert (EM : (average n (fun a => inject_Z (uval d a)) == m)%Q) by (apply average_ext; intro a; now rewrite V).
    assert (PM : (0 <= m)%Q).
    { rewrite <- EM. apply average_nonneg. intro a. apply injZ_nonneg. pose proof (uval_range d a). lia. }
    pose proof (pow2Q_pos (256 - s)) as PP. change (2 ^ Z.of_nat (256 - s))%Z with (pow2 (256 - s)) in *. split.
    + destruct (A2 Hs) as (q & -> & Hq). rewrite (remainder_comp _ _ _ EM) in Hq. exists q. split; [reflexivity|]. split; [exact Hq|].
      split; [rewrite Hq; now apply remainder_le|]. rewrite Hq. now apply remainder_id.
    + destruct (S2 Hs) as (q & -> & Hq). exists q. split; [reflexivity|]. destruct (trunc_le M n s d W B) as [T1 T2].
      rewrite Hq. eapply Qle_trans; [apply remainder_le; auto|]. eapply Qle_trans; [exact T2|].
      apply Qle_lteq. right. apply average_ext. intro a. now rewrite V.
Qed.
