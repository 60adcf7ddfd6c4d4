(** Rounding in the ADD based metrics: the metrics *)
From Coq Require Import List Bool Arith ZArith QArith Qabs Qpower Lia Lqa.
From Verif Require Import Res Cudd CuddFacts Spec SpecFacts SpecFloat Float FloatFacts Helpers HelpersFacts HelpersFacts2 Counting AddFacts
  PathFacts Metrics MetricsFacts MetricsFacts2 MetricsFacts3 MetricsFacts4 RelMetrics RelFacts Rounded RoundedFacts RoundedFacts2 RoundedAdd RoundedAddFacts.
Import ListNotations.
Open Scope nat_scope.

Lemma flip_add_fl_exact p rnd M f : keeps_floats p rnd -> forall g acc, wfs M f -> wfs M g -> aok M 0 acc ->
  (forall a, exists z, (aev acc a == inject_Z z)%Q /\ (0 <= z)%Z /\ (z + Z.of_nat (length f) <= 2 ^ p)%Z) ->
  flip_add_fl rnd M f g acc = flip_add M f g acc.
Proof.
  intro K. induction f as [|x f IH]; intros g acc Wf Wg Oa H; cbn [flip_add_fl flip_add]; auto.
  destruct g as [|y g]; auto. inversion Wf as [|? ? Wx Wf']; subst. inversion Wg as [|? ? Wy Wg']; subst.
  assert (Wb : aok M 0 (to_add (bxor M x y))) by (apply to_add_ok; auto with wf).
  assert (E : forall a, exists z, (aev (aadd M acc (to_add (bxor M x y))) a == inject_Z z)%Q /\ (0 <= z)%Z /\ (z + Z.of_nat (length f) <= 2 ^ p)%Z).
  { intro a. destruct (H a) as (z & E1 & E2 & E3). cbn [length] in E3. exists (z + Z.b2z (ev (bxor M x y) a))%Z.
    pose proof (b2z_range (ev (bxor M x y) a)). split; [|lia]. unfold aadd. rewrite apply_sem, E1, to_add_sem, inject_Z_plus.
    destruct (ev (bxor M x y) a); reflexivity. }
  replace (aadd_fl rnd M acc (to_add (bxor M x y))) with (aadd M acc (to_add (bxor M x y))).
  - apply IH; auto. apply apply_ok; auto.
  - apply (add_canonical M); try (apply apply_ok; auto). intro a. destruct (E a) as (z & E1 & E2 & E3).
    rewrite E1. symmetry. unfold aadd_fl. apply (apply_fl_int p rnd K M Qplus) with (x := inject_Z z); [|reflexivity|lia].
    unfold aadd in E1. rewrite apply_sem in E1. exact E1.
Qed.

Lemma add_metrics_exact rnd M f g : keeps_floats 53 rnd -> wfs M f -> wfs M g ->
  (length f <= 53 -> worst_case_bit_flip_error_add_fl rnd M f g = worst_case_bit_flip_error_add M f g)
  /\ ((Z.of_nat (length f) <= 2 ^ 53)%Z -> worst_case_bit_flip_error_fl rnd M f g = worst_case_bit_flip_error M f g)
  /\ forall r, length f <= 53 -> length g <= 53 ->
     worst_case_error_add_fl rnd M f g r = worst_case_error_add M f g r
     /\ average_case_error_add_fl rnd M f g r = average_case_error_add M f g r
     /\ mean_squared_error_add_fl rnd M f g r = mean_squared_error_add M f g r.
Proof.
  intros K Wf Wg. split; [|split].
  - intro L. unfold worst_case_bit_flip_error_add_fl, worst_case_bit_flip_error_add.
    now rewrite (xor_difference_add_fl_exact 53 rnd K M f g) by (auto; lia).
  - intro L. unfold worst_case_bit_flip_error_fl, worst_case_bit_flip_error.
    rewrite (flip_add_fl_exact 53 rnd M f K g (aconst 0) Wf Wg); [reflexivity|apply aconst_ok|].
    intro a. exists 0%Z. split; [rewrite aev_const; reflexivity|lia].
  - intros r Lf Lg. unfold worst_case_error_add_fl, average_case_error_add_fl, mean_squared_error_add_fl.
    rewrite (absolute_difference_add_fl_exact 53 rnd K M f g r) by (auto; lia). auto.
Qed.

(** ** Number of inputs with a value *)
Lemma tsum_pow2 M A n r : index_order M -> aok M 0 A -> (forall i, In i (avars A) -> i < n) -> n <= 63 ->
  add_terminal_values A = Ok r -> exists k, k <= n /\ tsum r = pow2 k.
Proof.
  intros HI Hok Hv Hn R. destruct A as [q|v t e].
  - destruct (add_terminal_values_full M (Leaf q) HI Hok) as (r' & R' & _ & _ & _ & S'); [cbn; lia|].
    rewrite R in R'. injection R' as <-. exists 0. split; [lia|]. exact S'.
  - assert (L : add_term_level (AN v t e) <= n) by (apply add_term_level_le; [auto|cbn; discriminate]).
    destruct (add_terminal_values_full M (AN v t e) HI Hok) as (r' & R' & _ & _ & _ & S'); [lia|].
    rewrite R in R'. injection R' as <-. exists (add_term_level (AN v t e)). split; [exact L|exact S'].
Qed.

Lemma Qeq_bool_0 x : Qeq_bool x 0 = true <-> (x == 0)%Q.
Proof. apply Qeq_bool_iff. Qed.

Lemma pow2_split k n : k <= n -> pow2 n = (pow2 k * pow2 (n - k))%Z.
Proof. intro H. unfold pow2. rewrite <- Z.pow_add_r by lia. f_equal. lia. Qed.

(** a quotient of a count and a power of two *)
Section Quotient.
Variables (u : Q) (rnd : Q -> Q).
Hypothesis U : (0 <= u <= 1)%Q.
Hypothesis K : keeps_floats 53 rnd.
Hypothesis R : relative_error u rnd.
Lemma quotient_fl s k : (0 <= s)%Z ->
  exists q, fdiv_fl rnd (rnd (inject_Z s)) (rnd (inject_Z (pow2 k))) = Fin q
    /\ within u 2 q (inject_Z s / inject_Z (pow2 k))
    /\ ((s <= 2 ^ 53)%Z -> (q == inject_Z s / inject_Z (pow2 k))%Q).
Proof.
  intro Hs. pose proof (rnd_pow2 53 rnd K (inject_Z (pow2 k)) k ltac:(lia) (Qeq_refl _)) as E.
  unfold fdiv_fl, fdiv. destruct (Qeq_bool (rnd (inject_Z (pow2 k))) 0) eqn:Z.
  { apply Qeq_bool_0 in Z. rewrite E in Z. exfalso. exact (pow2Q_nz k Z). }
  assert (S0 : (0 <= inject_Z s)%Q) by (change 0%Q with (inject_Z 0); rewrite <- Zle_Qle; exact Hs).
  assert (I0 : (0 <= / inject_Z (pow2 k))%Q) by apply Qlt_le_weak, Qinv_lt_0_compat, pow2Q_pos.
  assert (D0 : (0 <= inject_Z s / inject_Z (pow2 k))%Q) by (unfold Qdiv; apply Qmult_le_0_compat; auto).
  eexists. split; [reflexivity|]. split.
  - apply (within_rnd u U rnd R); [exact D0|].
    apply (within_eq u 1 (rnd (inject_Z s) * / inject_Z (pow2 k)) (inject_Z s * / inject_Z (pow2 k))); [unfold Qdiv; now rewrite E|reflexivity|].
    apply (within_scale u); [exact I0|]. apply (within_rnd u U rnd R); [exact S0|]. apply (within_refl u U); exact S0.
  - intro B. assert (ES : (rnd (inject_Z s) == inject_Z s)%Q) by (apply (float_z 53 rnd K); [reflexivity|lia]).
    transitivity (rnd (inject_Z s) / rnd (inject_Z (pow2 k)))%Q; [|rewrite ES, E; reflexivity].
    apply K. exists s, (- Z.of_nat k)%Z. split; [lia|]. rewrite ES, E. unfold Qdiv. apply Qmult_comp; [reflexivity|].
    unfold pow2. rewrite Zpower_Qpower by lia. change (inject_Z 2) with 2%Q. rewrite Qpower_opp. reflexivity.
Qed.
End Quotient.

(** ** Error rate: any number of outputs *)
Section Rel.
Variables (u : Q) (rnd : Q -> Q).
Hypothesis U : (0 <= u < 1)%Q.
Hypothesis K : keeps_floats 53 rnd.
Hypothesis R : relative_error u rnd.
Let U' : (0 <= u <= 1)%Q.
Proof. lra. Qed.

Lemma b2q_nonneg b : (0 <= b2q b)%Q.
Proof. destruct b; cbn; lra. Qed.
Lemma uval_nonneg_Q l a : (0 <= inject_Z (uval l a))%Q.
Proof. change 0%Q with (inject_Z 0). rewrite <- Zle_Qle. apply uval_range. Qed.

Lemma forest_loop_fl_rel M l : forall res sbp k, aok M 0 res -> aok M 0 sbp -> wfs M l -> forall (V : asg -> Z),
  (forall a, 0 <= V a)%Z -> (forall a, within u k (aev res a) (inject_Z (V a))) ->
  let '(r, s) := forest_loop_fl rnd M l res sbp in
  aok M 0 r /\ aok M 0 s /\ (forall i, In i (avars r) -> In i (avars res) \/ vars_in l i)
  /\ (forall i, In i (avars s) -> In i (avars sbp))
  /\ forall a, within u (k + 2 * length l) (aev r a) (inject_Z (V a * pow2 (length l) + uval (rev l) a)).
Proof.
  induction l as [|b l IH]; intros res sbp k Or Os W V V0 HV; cbn [forest_loop_fl].
  - repeat split; auto.
    + cbn [length rev uval]. rewrite pow2_0, Z.mul_1_r, Z.add_0_r, Nat.mul_0_r, Nat.add_0_r. apply HV.
    + cbn [length rev uval]. rewrite pow2_0, Z.mul_1_r, Z.add_0_r, Nat.mul_0_r, Nat.add_0_r. apply HV.
  - inversion W as [|? ? Wb Wl]; subst.
    set (two := aadd_fl rnd M (aconst 1) (aconst 1)).
    assert (O2 : aok M 0 two) by (apply apply_ok; apply aconst_ok).
    assert (N2 : avars two = []) by reflexivity.
    assert (E2 : forall a, (aev two a == 2)%Q) by (intro a; unfold two; rewrite (two_fl 53 rnd K) by lia; reflexivity).
    assert (Ob : aok M 0 (to_add b)) by now apply to_add_ok.
    assert (O3 : aok M 0 (aadd_fl rnd M (amul_fl rnd M res two) (to_add b))) by (apply apply_ok; [apply apply_ok; auto|exact Ob]).
    assert (O4 : aok M 0 (amul_fl rnd M sbp two)) by (apply apply_ok; auto).
    specialize (IH (aadd_fl rnd M (amul_fl rnd M res two) (to_add b)) (amul_fl rnd M sbp two) (k + 2)).
    destruct (forest_loop_fl rnd M l _ _) as [r s].
    destruct (IH O3 O4 Wl (fun a => 2 * V a + Z.b2z (ev b a))%Z) as (H1 & H2 & H3 & H4 & H5).
    + intro a. specialize (V0 a). pose proof (b2z_range (ev b a)). lia.
    + intro a. assert (B0 := b2z_range (ev b a)). specialize (V0 a).
      assert (VQ : (0 <= inject_Z (2 * V a))%Q) by (change 0%Q with (inject_Z 0); rewrite <- Zle_Qle; lia).
      assert (WQ : (0 <= inject_Z (2 * V a + Z.b2z (ev b a)))%Q) by (change 0%Q with (inject_Z 0); rewrite <- Zle_Qle; lia).
      assert (W1 : within u (S k) (aev (amul_fl rnd M res two) a) (inject_Z (2 * V a))).
      { apply (within_eq u (S k) (rnd (aev res a * aev two a)) (inject_Z (2 * V a))); [symmetry; unfold amul_fl; apply (apply_sem M (fun p q => rnd (p * q)%Q))|reflexivity|].
        apply (within_rnd u U' rnd R); [exact VQ|].
        apply (within_eq u k (aev res a * 2) (inject_Z (V a) * 2)); [now rewrite E2|rewrite inject_Z_mult; change (inject_Z 2) with 2%Q; ring|].
        apply (within_scale u); [lra|apply HV]. }
      replace (k + 2) with (S (S k)) by lia.
      apply (within_eq u (S (S k)) (rnd (aev (amul_fl rnd M res two) a + aev (to_add b) a)) (inject_Z (2 * V a + Z.b2z (ev b a))));
        [symmetry; unfold aadd_fl; apply (apply_sem M (fun p q => rnd (p + q)%Q))|reflexivity|].
      apply (within_rnd u U' rnd R); [exact WQ|].
      apply (within_eq u (S k) (aev (amul_fl rnd M res two) a + aev (to_add b) a) (inject_Z (2 * V a) + b2q (ev b a)));
        [reflexivity|rewrite inject_Z_plus; destruct (ev b a); reflexivity|].
      apply within_plus; [exact W1|]. rewrite to_add_sem. apply (within_refl u U'), b2q_nonneg.
    + split; [exact H1|]. split; [exact H2|]. split; [|split].
      * intros i Hi. apply H3 in Hi. destruct Hi as [Hi|(b' & Hb & Hi)]; [|right; exists b'; split; [now right|exact Hi]].
        apply apply_vars in Hi. destruct Hi as [Hi|Hi].
        -- apply apply_vars in Hi. rewrite N2 in Hi. destruct Hi as [Hi|[]]. now left.
        -- right. exists b. split; [now left|]. eapply ton_vars; exact Hi.
      * intros i Hi. apply H4 in Hi. apply apply_vars in Hi. rewrite N2 in Hi. destruct Hi as [Hi|[]]. exact Hi.
      * intro a. specialize (H5 a). cbn [rev length]. rewrite uval_app, rev_length, pow2_S. cbn [uval].
        replace (k + 2 * S (length l)) with (k + 2 + 2 * length l) by lia.
        replace (V a * (2 * pow2 (length l)) + (uval (rev l) a + pow2 (length l) * (Z.b2z (ev b a) + 2 * 0)))%Z
          with ((2 * V a + Z.b2z (ev b a)) * pow2 (length l) + uval (rev l) a)%Z by ring. exact H5.
Qed.

Lemma rnd_zero x : (x == 0)%Q -> (rnd x == 0)%Q.
Proof. intro E. transitivity x; [|exact E]. apply K. exists 0%Z, 0%Z. split; [lia|]. rewrite E. reflexivity. Qed.

Lemma forest_to_add_fl_rel M f : wfs M f ->
  exists A, bdd_forest_to_add_fl rnd M f BaseTwo = Ok A /\ aok M 0 A /\ (forall i, In i (avars A) -> vars_in f i)
    /\ forall a, within u (2 * length f + 1) (aev A a) (inject_Z (uval f a)).
Proof.
  intro W. unfold bdd_forest_to_add_fl. rewrite rev_app_distr. cbn [rev app].
  pose proof (forest_loop_fl_rel M (rev f) (aconst 0) (aconst 1) 0 ltac:(apply aconst_ok) ltac:(apply aconst_ok) ltac:(now apply wfs_rev)
    (fun _ => 0%Z) ltac:(intro; lia)) as H.
  destruct (forest_loop_fl rnd M (rev f) (aconst 0) (aconst 1)) as [r s]. destruct H as (H1 & H2 & H3 & H4 & H5).
  - intro a. apply (within_eq u 0 0 0); [symmetry; apply aev_const|reflexivity|]. apply (within_refl u U'). lra.
  - eexists. split; [reflexivity|].
    assert (OZ : aok M 0 (to_add bzero)) by (apply to_add_ok; auto with wf).
    split; [repeat apply apply_ok; auto|]. split.
    + intros i Hi. apply apply_vars in Hi. destruct Hi as [Hi|Hi].
      * apply H3 in Hi. destruct Hi as [[]|(b & Hb & Hi)]. exists b. split; [now apply in_rev|exact Hi].
      * apply apply_vars in Hi. destruct Hi as [[]|Hi]. apply H4 in Hi. destruct Hi.
    + intro a. specialize (H5 a). rewrite rev_length, rev_involutive, Z.mul_0_l, Z.add_0_l in H5. cbn [Nat.add] in H5.
      replace (2 * length f + 1) with (S (2 * length f)) by lia.
      apply (within_eq u (S (2 * length f)) (rnd (aev r a - aev (amul_fl rnd M (to_add bzero) s) a)) (inject_Z (uval f a)));
        [symmetry; unfold asub_fl; apply (apply_sem M (fun p q => rnd (p - q)%Q))|reflexivity|].
      apply (within_rnd u U' rnd R); [apply uval_nonneg_Q|].
      apply (within_eq u (2 * length f) (aev r a) (inject_Z (uval f a))); [|reflexivity|exact H5].
      assert (EZ : (aev (amul_fl rnd M (to_add bzero) s) a == 0)%Q).
      { unfold amul_fl. rewrite apply_sem. apply rnd_zero. rewrite to_add_sem, ev_zero. cbn [b2q]. ring. }
      rewrite EZ. ring.
Qed.

Lemma error_rate_add_fl_spec M n f g : index_order M -> wfs M f -> wfs M g -> below n f -> below n g -> n <= 63 ->
  length f = length g ->
  exists q, error_rate_add_fl rnd M f g = Ok (Fin q) /\ within u 2 q (average n (fun a => b2q (differ f g a)))
    /\ (n <= 53 -> (q == average n (fun a => b2q (differ f g a)))%Q).
Proof.
  intros HI Wf Wg Bf Bg Hn L. unfold error_rate_add_fl, xor_difference_add_fl.
  destruct (xor_vec_spec M f g L) as (d & Ed & Ld & Wd & Sd). rewrite Ed. cbn [bind].
  destruct (forest_to_add_fl_rel M d (Wd Wf Wg)) as (A & -> & OA & VA & EA). cbn [bind].
  assert (VB : forall i, In i (avars A) -> i < n).
  { apply (xor_vars_below M n f g A Wf Wg Bf Bg). intros i Hi. apply (xor_vec_vars M f g d i Wf Wg Ed). now apply VA. }
  destruct (histogram_use M A n HI OA VB Hn) as (r & HR & V & F & T & S).
  destruct (tsum_pow2 M A n r HI OA VB Hn HR) as (k & Hk & Hp). rewrite HR. cbn [bind].
  pose proof (nonzero_sums_spec r 0 0 F) as H. destruct (nonzero_sums r 0 0) as [s b].
  destruct H as [H1 H2]; try lia.
  { assert (pow2 n <= 2 ^ 63)%Z by (change (2 ^ 63)%Z with (pow2 63); apply pow2_le; lia). lia. }
  cbn [Z.add] in H1. subst b. rewrite Hp in *.
  assert (ES : (inject_Z s == inject_Z (pow2 k) * average n (fun a => b2q (differ f g a)))%Q).
  { rewrite H2, S. change (inject_Z 0) with 0%Q. rewrite Qplus_0_l. apply Qmult_comp; [reflexivity|]. apply average_ext. intro a.
    rewrite differ_lxor by auto. rewrite <- (xor_vec_uval M f g d L Ed a).
    assert (EQ : Qeq_bool (aev A a) 0 = (uval d a =? 0)%Z).
    { rewrite <- (Qeq_bool_inject (uval d a) 0). change (inject_Z 0) with 0%Q.
      pose proof (within_zero u (2 * length d + 1) (aev A a) (inject_Z (uval d a)) U (uval_nonneg_Q d a) (EA a)) as [Z1 Z2].
      destruct (Qeq_bool (inject_Z (uval d a)) 0) eqn:E0.
      - apply Qeq_bool_0. apply Z2. now apply Qeq_bool_0.
      - destruct (Qeq_bool (aev A a) 0) eqn:E1; auto. apply Qeq_bool_0 in E1. apply Z1, Qeq_bool_0 in E1. congruence. }
    rewrite EQ. reflexivity. }
  assert (A01 : (0 <= average n (fun a => b2q (differ f g a)) <= 1)%Q).
  { split; [apply average_nonneg; intro; apply b2q_nonneg|]. rewrite <- (average_const n 1). apply average_le. intro a.
    destruct (differ f g a); cbn; lra. }
  pose proof (pow2Q_pos k) as PK.
  assert (S0 : (0 <= s <= pow2 k)%Z).
  { split; rewrite Zle_Qle, ES; change (inject_Z 0) with 0%Q; nra. }
  destruct (quotient_fl u rnd U' K R s k ltac:(lia)) as (q & Eq & W & X). rewrite Eq.
  assert (ED : (inject_Z s / inject_Z (pow2 k) == average n (fun a => b2q (differ f g a)))%Q).
  { rewrite ES. field. apply pow2Q_nz. }
  exists q. split; [reflexivity|]. split.
  - apply (within_eq u 2 q (inject_Z s / inject_Z (pow2 k))); [reflexivity|exact ED|exact W].
  - intro N. rewrite <- ED. apply X. assert (pow2 k <= pow2 53)%Z by (apply pow2_le; lia). change (pow2 53) with (2 ^ 53)%Z in *. lia.
Qed.

Lemma average_bit_flip_add_fl_spec M n f g : index_order M -> wfs M f -> wfs M g -> below n f -> below n g -> n <= 63 ->
  length f = length g -> length f <= 53 -> (Z.of_nat (length f) * pow2 n < 2 ^ 64)%Z ->
  exists q, average_bit_flip_error_add_fl rnd M f g = Ok (Fin q) /\ within u 2 q (average n (fun a => inject_Z (hamming f g a)))
    /\ ((Z.of_nat (length f) * pow2 n <= 2 ^ 53)%Z -> (q == average n (fun a => inject_Z (hamming f g a)))%Q).
Proof.
  intros HI Wf Wg Bf Bg Hn L H53 Hb. unfold average_bit_flip_error_add_fl.
  rewrite (xor_difference_add_fl_exact 53 rnd K M f g) by (auto; lia).
  destruct (xor_difference_add_full M f g L) as (A & -> & HA & EA). destruct (HA Wf Wg) as [OA VA]. cbn [bind].
  assert (VB := xor_vars_below M n f g A Wf Wg Bf Bg VA).
  destruct (histogram_use M A n HI OA VB Hn) as (r & HR & V & F & T & S).
  destruct (tsum_pow2 M A n r HI OA VB Hn HR) as (k & Hk & Hp). rewrite HR. cbn [bind].
  destruct (popcount_sums_spec (Z.of_nat (length f)) r 0 0 F) as (s & HS & E); try lia.
  - intros v Hv. apply V in Hv. destruct Hv as (a & <-). exists (Z.lxor (uval f a) (uval g a)). split; [apply EA|]. split.
    + split; [apply lxor_nonneg; apply uval_range|]. pose proof (lxor_lt_pow2 f g a L). pose proof (pow2_64 (length f) ltac:(lia)). lia.
    + rewrite <- hamming_lxor by auto. apply hamming_range.
  - assert (pow2 n <= 2 ^ 63)%Z by (change (2 ^ 63)%Z with (pow2 63); apply pow2_le; lia). lia.
  - assert (Z.of_nat (length f) * tsum r <= Z.of_nat (length f) * pow2 n)%Z by (apply Z.mul_le_mono_nonneg_l; lia). lia.
  - rewrite HS. cbn [bind Z.add]. rewrite Hp in *.
    assert (ES : (inject_Z s == inject_Z (pow2 k) * average n (fun a => inject_Z (hamming f g a)))%Q).
    { rewrite E, S. change (inject_Z 0) with 0%Q. rewrite Qplus_0_l. apply Qmult_comp; [reflexivity|]. apply average_ext. intro a.
      rewrite (quot_int _ _ (EA a)), hamming_lxor by auto. reflexivity. }
    assert (AW : (0 <= average n (fun a => inject_Z (hamming f g a)) <= inject_Z (Z.of_nat (length f)))%Q).
    { split; [apply average_nonneg; intro a; change 0%Q with (inject_Z 0); rewrite <- Zle_Qle; apply hamming_range|].
      rewrite <- (average_const n (inject_Z (Z.of_nat (length f)))). apply average_le. intro a. rewrite <- Zle_Qle. apply hamming_range. }
    pose proof (pow2Q_pos k) as PK.
    assert (S0 : (0 <= s <= Z.of_nat (length f) * pow2 k)%Z).
    { split; rewrite Zle_Qle; [|rewrite inject_Z_mult]; rewrite ES; change (inject_Z 0) with 0%Q; nra. }
    destruct (quotient_fl u rnd U' K R s k ltac:(lia)) as (q & Eq & W & X). rewrite Eq.
    assert (ED : (inject_Z s / inject_Z (pow2 k) == average n (fun a => inject_Z (hamming f g a)))%Q).
    { rewrite ES. field. apply pow2Q_nz. }
    exists q. split; [reflexivity|]. split.
    + apply (within_eq u 2 q (inject_Z s / inject_Z (pow2 k))); [reflexivity|exact ED|exact W].
    + intro N. rewrite <- ED. apply X. pose proof (pow2_le k n Hk). nia.
Qed.

(** ** Relative errors *)
Lemma relative_add_fl_spec M n f g r : wfs M f -> wfs M g -> below n f -> below n g ->
  (r = TwosComplement -> f <> [] /\ g <> []) -> length f <= 53 -> length g <= 53 ->
  exists A, relative_add_fl rnd M f g r = Ok A /\ aok M 0 A /\ (forall i, In i (avars A) -> i < n)
    /\ forall a, within u 1 (aev A a) (rel (value r f a) (value r g a)).
Proof.
  intros Wf Wg Bf Bg Hr Lf Lg. unfold relative_add_fl.
  rewrite (absolute_difference_add_fl_exact 53 rnd K M f g r) by (auto; lia).
  destruct (absdiff_add_spec M f g r Hr) as (A & EA & OA & VA & SA). rewrite EA. cbn [bind].
  destruct (abs_any M n f r Wf Bf (fun e => proj1 (Hr e))) as (fa & Ef & Lfa & Wfa & Bfa & Vf). rewrite Ef. cbn [bind].
  rewrite (forest_to_add_fl_exact 53 rnd K M fa BaseTwo) by (auto; lia).
  destruct (forest_to_add_spec M fa BaseTwo) as (B & EB & OB & VB & SB); [discriminate|]. rewrite EB. cbn [bind].
  eexists. split; [reflexivity|]. split; [|split].
  - apply apply_ok; auto. apply apply_ok; auto using aconst_ok.
  - intros i Hi. apply apply_vars in Hi. destruct Hi as [Hi|Hi].
    + destruct (VA i Hi); [apply (below_vars M n f i)|apply (below_vars M n g i)]; auto.
    + apply apply_vars in Hi. destruct Hi as [Hi|[]]. apply (below_vars M n fa i); auto.
  - intro a.
    assert (H : (aev (amaximum M B (aconst 1)) a == inject_Z (Z.max 1 (Z.abs (value r f a))))%Q).
    { unfold amaximum. rewrite apply_sem. rewrite (qmax_comp _ _ (inject_Z (Z.abs (value r f a))) (inject_Z 1)).
      - rewrite qmax_inject. now rewrite Z.max_comm.
      - rewrite SB. cbn [value]. now rewrite Vf.
      - apply aev_const. }
    apply (within_eq u 1 (rnd (aev A a / aev (amaximum M B (aconst 1)) a)) (rel (value r f a) (value r g a)));
      [symmetry; unfold adiv_fl; apply (apply_sem M (fun p q => rnd (p / q)%Q))|reflexivity|].
    apply (within_rnd u U' rnd R); [apply rel_nonneg|].
    apply (within_eq u 0 (rel (value r f a) (value r g a)) (rel (value r f a) (value r g a))); [|reflexivity|apply (within_refl u U'), rel_nonneg].
    rewrite SA, H. reflexivity.
Qed.

Lemma wcre_add_fl_spec M n f g r : index_order M -> wfs M f -> wfs M g -> below n f -> below n g -> n <= 63 ->
  (r = TwosComplement -> f <> [] /\ g <> []) -> length f <= 53 -> length g <= 53 ->
  exists q m, wcre_add_fl rnd M f g r = Ok q /\ is_maxQ (fun a => rel (value r f a) (value r g a)) m /\ within u 1 q m.
Proof.
  intros HM Wf Wg Bf Bg Hn Hr Lf Lg.
  destruct (wcre_add_spec M n f g r HM Wf Wg Bf Bg Hn Hr) as (m & _ & Hm).
  unfold wcre_add_fl.
  destruct (relative_add_fl_spec M n f g r Wf Wg Bf Bg Hr Lf Lg) as (A & -> & OA & VA & SA). cbn [bind].
  destruct (histogram_use M A n HM OA VA Hn) as (tv & -> & HV & _). cbn [bind].
  eexists. exists m. split; [reflexivity|]. split; [exact Hm|].
  destruct (fold_qmax tv 0%Q) as (H1 & H2 & H3). cbv zeta in *. set (x := fold_left _ tv 0%Q) in *.
  destruct Hm as [(a & Ea) Hu]. unfold within in *. cbn [qpow] in *. split.
  - specialize (SA a). rewrite Ea in SA. eapply Qle_trans; [apply SA|]. apply H2. apply HV. eauto.
  - assert (M0 : (0 <= m)%Q) by (rewrite <- Ea; apply rel_nonneg).
    destruct H3 as [H3|H3].
    + rewrite H3. nra.
    + apply HV in H3. destruct H3 as (b & <-). specialize (SA b). specialize (Hu b).
      pose proof (rel_nonneg (value r f b) (value r g b)). eapply Qle_trans; [apply SA|]. nra.
Qed.

Lemma acre_add_fl_spec M n f g r : index_order M -> wfs M f -> wfs M g -> below n f -> below n g -> n <= 63 ->
  (r = TwosComplement -> f <> [] /\ g <> []) -> length f <= 53 -> length g <= 53 ->
  exists q, acre_add_fl rnd M f g r = Ok (Fin q) /\ within u 1 q (average n (fun a => rel (value r f a) (value r g a))).
Proof.
  intros HM Wf Wg Bf Bg Hn Hr Lf Lg. unfold acre_add_fl.
  destruct (relative_add_fl_spec M n f g r Wf Wg Bf Bg Hr Lf Lg) as (A & -> & OA & VA & SA). cbn [bind].
  destruct (histogram_use M A n HM OA VA Hn) as (tv & -> & HV & HP & HT & HS). cbn [bind].
  pose proof (decimal_sums_spec tv 0%Q 0%Z HP) as D. destruct (decimal_sums tv 0 0) as [x y].
  destruct D as (D1 & D2); try lia.
  { assert (2 ^ 63 < 2 ^ 256)%Z by (vm_compute; reflexivity).
    assert (pow2 n <= 2 ^ 63)%Z by (unfold pow2; apply Z.pow_le_mono_r; lia). lia. }
  rewrite Z.add_0_l in D2. subst y. rewrite fdiv_pos by lia. eexists. split; [reflexivity|].
  apply (within_eq u 1 (average n (fun a => aev A a)) (average n (fun a => rel (value r f a) (value r g a)))); [|reflexivity|].
  - rewrite D1, HS, Qplus_0_l. field. apply injZ_nz. lia.
  - unfold within. rewrite <- !average_scale. split; apply average_le; intro a; apply SA.
Qed.
End Rel.

(** ** More than 53 outputs *)
Lemma add_metrics_beyond : exists (f g : list bdd), let M := id_mgr 1 in
  length f = 54 /\ length g = 54 /\ Forall (wf M) f /\ Forall (wf M) g
  /\ worst_case_bit_flip_error_add M f g = Ok 54%Z
  /\ worst_case_bit_flip_error_add_fl (round_float 53) M f g = Ok 1%Z
  /\ worst_case_error_add M f g BaseTwo = Ok (2 ^ 54 - 1)%Z
  /\ worst_case_error_add_fl (round_float 53) M f g BaseTwo = Ok (2 ^ 54)%Z
  /\ exists q, error_rate_add_fl (round_float 53) M f g = Ok (Fin q) /\ (q == 1)%Q.
Proof.
  exists (repeat bone 54), (repeat bzero 54). cbv zeta. split; [reflexivity|]. split; [reflexivity|].
  split; [repeat constructor|]. split; [repeat constructor|].
  split; [vm_compute; reflexivity|]. split; [vm_compute; reflexivity|]. split; [vm_compute; reflexivity|].
  split; [vm_compute; reflexivity|]. eexists. split; [vm_compute; reflexivity|reflexivity].
Qed.
