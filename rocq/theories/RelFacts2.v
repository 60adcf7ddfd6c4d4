(** Facts about wcre_bounds, acre_bounds and the symbolic division *)
From Coq Require Import List Bool Arith ZArith QArith Qround Lia Lqa.
From Verif Require Import Res Cudd CuddFacts Spec SpecFacts Helpers HelpersFacts HelpersFacts2 Counting AddFacts CountFacts PathFacts Metrics MetricsFacts MetricsFacts2 MetricsFacts3 MetricsFacts4 RelMetrics RelFacts.
Import ListNotations.
Open Scope nat_scope.

Lemma div_le_iff p q m : (0 < m)%Q -> (p / m <= q <-> p <= q * m)%Q.
Proof.
  intro H. split; intro K.
  - apply (Qmult_le_compat_r _ _ m) in K; [|lra]. assert (p / m * m == p)%Q by (field; lra). lra.
  - apply Qle_shift_div_r; auto.
Qed.
Lemma le_div_iff p q m : (0 < m)%Q -> (q <= p / m <-> q * m <= p)%Q.
Proof.
  intro H. split; intro K.
  - apply (Qmult_le_compat_r _ _ m) in K; [|lra]. assert (p / m * m == p)%Q by (field; lra). lra.
  - apply Qle_shift_div_l; auto.
Qed.
Lemma Qmult_le_l' x y z : (0 <= x)%Q -> (y <= z)%Q -> (x * y <= x * z)%Q.
Proof. intros H1 H2. rewrite (Qmult_comm x y), (Qmult_comm x z). now apply Qmult_le_compat_r. Qed.
Lemma injZ_pos z : (0 < z)%Z -> (0 < inject_Z z)%Q.
Proof. apply (proj2 (injZ_lt 0 z)). Qed.
Lemma injZ_nonneg z : (0 <= z)%Z -> (0 <= inject_Z z)%Q.
Proof. apply (proj2 (injZ_le 0 z)). Qed.

Lemma wrel_base f g a : (wrel BaseTwo f g a == rel (uval f a) (uval g a))%Q.
Proof. reflexivity. Qed.

Lemma mask_length M f m : length (mask M f m) = length f.
Proof. unfold mask. apply map_length. Qed.
Lemma mask_wf M f m : wfs M f -> wf M m -> wfs M (mask M f m).
Proof. intros Hf Hm. induction Hf; cbn [mask map]; constructor; auto using wf_and. Qed.
Lemma mask_uval M f m a : uval (mask M f m) a = if ev m a then uval f a else 0%Z.
Proof.
  induction f as [|b f IH]; cbn [mask map uval]; [now destruct (ev m a)|]. fold (mask M f m). rewrite IH, ev_and.
  destruct (ev m a); [now rewrite andb_true_r|]. now rewrite andb_false_r.
Qed.
Lemma mask_below M n f m : below n f -> depends_below n m -> below n (mask M f m).
Proof.
  intros Hf Hm. apply below_of_uval. intros a b D. rewrite !mask_uval. rewrite (Hm a b D).
  now rewrite (below_uval n f a b).
Qed.

Lemma rel_parts M n f g r : wfs M f -> wfs M g -> below n f -> below n g -> f <> [] ->
  (r = TwosComplement -> g <> []) ->
  exists d fa f_, bdd_absolute_difference M f g r = Ok d /\ bdd_abs M f r = Ok fa /\ bdd_max_one M fa = Ok f_
    /\ length d <= S (Nat.max (length f) (length g)) /\ length fa = length f /\ length f_ = length f
    /\ wfs M d /\ wfs M fa /\ wfs M f_ /\ below n d /\ below n fa /\ below n f_
    /\ forall a, uval d a = wrapped r f g a /\ uval fa a = Z.abs (value r f a)
         /\ uval f_ a = Z.max 1 (Z.abs (value r f a)).
Proof.
  intros Wf Wg Bf Bg Hf Hg.
  destruct (absdiff_any M n f g r Wf Wg Bf Bg) as (d & Ed & Ld & Wd & Bd & Vd); auto.
  destruct (abs_any M n f r Wf Bf) as (fa & Ea & La & Wa & Ba & Va); auto.
  assert (fa <> []) by (intro E; subst; destruct f; [congruence|discriminate]).
  destruct (max_one_any M n fa) as (m & Em & Lm & Wm & Bm & Vm); auto.
  exists d, fa, m. repeat split; auto; try congruence.
Qed.

Lemma wrapped_range r f g a : f <> [] -> (r = TwosComplement -> g <> []) ->
  (0 <= wrapped r f g a < pow2 (Nat.max (length f) (length g)))%Z.
Proof.
  intros Hf Hg. destruct r; cbn [wrapped]; [apply dist_uval_lt|].
  pose proof (sval_dist_lt f g a Hf (Hg eq_refl)) as H. change (2 ^ Z.of_nat (Nat.max (length f) (length g)))%Z with (pow2 (Nat.max (length f) (length g))). lia.
Qed.

(** ** wcre_bounds *)
Lemma pm1_range k : 1 <= k -> (inject_Z (pow2 k - 1) <= pow_minus_one k <= inject_Z (pow2 k))%Q.
Proof.
  intro H. unfold pow_minus_one. change (2 ^ Z.of_nat k)%Z with (pow2 k).
  destruct (k <=? 53); split; apply injZ_le; lia.
Qed.
Lemma pm1_pos k : 1 <= k -> (0 < pow_minus_one k)%Q.
Proof.
  intro H. eapply Qlt_le_trans; [|apply pm1_range; auto]. apply injZ_pos.
  destruct k; [lia|]. rewrite pow2_S. pose proof (pow2_pos k). lia.
Qed.

Lemma uval_rev_cons b l a : uval (rev (b :: l)) a = (uval (rev l) a + pow2 (length l) * Z.b2z (ev b a))%Z.
Proof. cbn [rev]. rewrite uval_app, rev_length. cbn [uval]. ring. Qed.

Section Bounds.
Variable M : mgr.
Variable f : list bdd.
Hypothesis Wf : wfs M f.
Hypothesis Hf : forall a, (uval f a < 2 ^ 256)%Z.

(** ratio of the value to the denominator given by the remaining bits *)
Definition ratio (l : list bdd) (a : asg) : Q := (inject_Z (uval f a) / inject_Z (uval (rev l) a))%Q.

Lemma mask_max m : wf M m -> is_max (fun a => if ev m a then uval f a else 0%Z) (get_max_value M (mask M f m)).
Proof.
  intro Hm. eapply is_max_ext; [|apply get_max_value_bounded].
  - intro a. cbn beta. apply mask_uval.
  - now apply mask_wf.
  - intro a. rewrite mask_uval. destruct (ev m a); auto. vm_compute. reflexivity.
Qed.

Lemma wcre_bounds_loop_spec l : wfs M l -> forall z mn mx, wf M z -> (0 <= mn)%Q -> (mx <= 2 * mn)%Q ->
  let '(x, y) := wcre_bounds_loop M f l z mn mx in
  (mn <= x)%Q /\ (mx <= y)%Q /\ (y <= 2 * x)%Q
  /\ (forall a, ev z a = true -> (0 < uval (rev l) a)%Z -> (ratio l a <= y)%Q)
  /\ (forall B, (mn <= B)%Q -> (forall a, ev z a = true -> (0 < uval (rev l) a)%Z -> (ratio l a <= B)%Q) -> (x <= B)%Q).
Proof.
  induction l as [|b l IH]; intros Wl z mn mx Wz Hmn Hmx.
  - cbn [wcre_bounds_loop]. repeat split; try apply Qle_refl; auto. cbn. intros; lia.
  - cbn [wcre_bounds_loop]. inversion Wl as [|? ? Wb Wl']; subst.
    set (md := band M z b). set (mv := get_max_value M (mask M f md)).
    assert (Wm : wf M md) by (apply wf_and; auto).
    destruct (mask_max md Wm) as ((a0 & A0) & A1). fold mv in A0, A1. cbn beta in A0, A1.
    assert (P1 : (0 < pow_minus_one (length l + 1))%Q) by (apply pm1_pos; lia).
    assert (P2 : (0 < inject_Z (pow2 (length l)))%Q) by (apply injZ_pos, pow2_pos).
    assert (P3 := pm1_range (length l + 1) ltac:(lia)).
    assert (Hmv : (0 <= inject_Z mv)%Q).
    { apply injZ_nonneg. specialize (A1 a0). destruct (ev md a0); [pose proof (uval_range f a0)|]; lia. }
    assert (Q1 : (0 <= inject_Z mv / pow_minus_one (length l + 1))%Q) by (apply le_div_iff; auto; lra).
    assert (Q2 : (inject_Z mv / inject_Z (pow2 (length l)) <= 2 * (inject_Z mv / pow_minus_one (length l + 1)))%Q).
    { apply div_le_iff; auto.
      assert (E : (2 * (inject_Z mv / pow_minus_one (length l + 1)) * inject_Z (pow2 (length l))
                == inject_Z mv * (2 * inject_Z (pow2 (length l))) / pow_minus_one (length l + 1))%Q) by (field; lra).
      rewrite E. apply le_div_iff; auto. apply Qmult_le_l'; auto.
      destruct P3 as [_ P3]. rewrite Nat.add_1_r, pow2_S, inject_Z_mult in P3. rewrite Nat.add_1_r. exact P3. }
    specialize (IH Wl' (band M z (bnot b)) (qmax mn (inject_Z mv / pow_minus_one (length l + 1)))
                   (qmax mx (inject_Z mv / inject_Z (pow2 (length l))))).
    destruct (wcre_bounds_loop M f l _ _ _) as [x y].
    destruct IH as (I1 & I2 & I3 & I4 & I5).
    { apply wf_and; auto using wf_not. }
    { eapply Qle_trans; [apply Hmn|apply qmax_l]. }
    { destruct (qmax_cases mx (inject_Z mv / inject_Z (pow2 (length l)))) as [->| ->].
      - pose proof (qmax_l mn (inject_Z mv / pow_minus_one (length l + 1))). lra.
      - pose proof (qmax_r mn (inject_Z mv / pow_minus_one (length l + 1))). lra. }
    split; [eapply Qle_trans; [apply qmax_l|apply I1]|].
    split; [eapply Qle_trans; [apply qmax_l|apply I2]|].
    split; [exact I3|].
    assert (R : forall a, (0 <= uval (rev l) a < pow2 (length l))%Z) by (intro a; rewrite <- rev_length; apply uval_range).
    split.
    + intros a Hz Hu. unfold ratio. rewrite uval_rev_cons in *. destruct (ev b a) eqn:Eb; cbn [Z.b2z] in *.
      * eapply Qle_trans; [|apply I2]. eapply Qle_trans; [|apply qmax_r].
        specialize (A1 a). unfold md in A1. rewrite ev_and, Hz, Eb in A1. cbn [andb] in A1. specialize (R a).
        assert (P4 : (inject_Z (pow2 (length l)) <= inject_Z (uval (rev l) a + pow2 (length l) * 1))%Q) by (apply injZ_le; lia).
        apply div_le_iff; [lra|].
        assert (E : (inject_Z mv / inject_Z (pow2 (length l)) * inject_Z (uval (rev l) a + pow2 (length l) * 1)
              == inject_Z mv * inject_Z (uval (rev l) a + pow2 (length l) * 1) / inject_Z (pow2 (length l)))%Q) by (field; lra).
        rewrite E. apply le_div_iff; auto.
        eapply Qle_trans; [apply Qmult_le_compat_r; [apply injZ_le, A1|lra]|]. apply Qmult_le_l'; auto.
      * rewrite Z.mul_0_r, Z.add_0_r in *. apply I4; auto. rewrite ev_and, ev_not, Hz, Eb. reflexivity.
    + intros B HB Hall. apply I5.
      * destruct (qmax_cases mn (inject_Z mv / pow_minus_one (length l + 1))) as [->| ->]; auto.
        destruct (ev md a0) eqn:Em.
        -- unfold md in Em. rewrite ev_and in Em. apply andb_true_iff in Em. destruct Em as [Hz Eb].
           specialize (R a0). specialize (Hall a0 Hz). unfold ratio in Hall. rewrite uval_rev_cons, Eb in Hall. cbn [Z.b2z] in Hall.
           eapply Qle_trans; [|apply Hall; lia]. rewrite <- A0.
           assert (P5 : (0 < inject_Z (uval (rev l) a0 + pow2 (length l) * 1))%Q) by (apply injZ_pos; lia).
           assert (P6 : (inject_Z (uval (rev l) a0 + pow2 (length l) * 1) <= pow_minus_one (length l + 1))%Q).
           { eapply Qle_trans; [|apply P3]. apply injZ_le. rewrite Nat.add_1_r, pow2_S. lia. }
           apply div_le_iff; auto.
           assert (E : (inject_Z (uval f a0) / inject_Z (uval (rev l) a0 + pow2 (length l) * 1) * pow_minus_one (length l + 1)
              == inject_Z (uval f a0) * pow_minus_one (length l + 1) / inject_Z (uval (rev l) a0 + pow2 (length l) * 1))%Q) by (field; lra).
           rewrite E. apply le_div_iff; auto. apply Qmult_le_l'; auto. apply injZ_nonneg. pose proof (uval_range f a0). lia.
        -- rewrite <- A0. apply div_le_iff; auto.
           assert (0 <= B * pow_minus_one (length l + 1))%Q by (apply Qmult_le_0_compat; lra). exact H.
      * intros a Hz Hu. rewrite ev_and, ev_not in Hz. apply andb_true_iff in Hz. destruct Hz as [Hz Eb].
        specialize (Hall a Hz). unfold ratio in *. rewrite uval_rev_cons in Hall. destruct (ev b a); [discriminate|].
        cbn [Z.b2z] in Hall. rewrite Z.mul_0_r, Z.add_0_r in Hall. auto.
Qed.
End Bounds.

Lemma bdd_max_one_idem M n f : f <> [] -> wfs M f -> below n f -> (forall a, 1 <= uval f a)%Z ->
  exists m, bdd_max_one M f = Ok m /\ length m = length f /\ wfs M m /\ below n m /\ forall a, uval m a = uval f a.
Proof.
  intros Hf Wf Bf H. destruct (max_one_any M n f Hf Wf Bf) as (m & E & L & W & B & V). exists m. repeat split; auto.
  intro a. rewrite V. specialize (H a). lia.
Qed.

Lemma pow2_le m n : m <= n -> (pow2 m <= pow2 n)%Z.
Proof. intro H. unfold pow2. apply Z.pow_le_mono_r; lia. Qed.

Lemma wcre_bounds_spec M n f g r : wfs M f -> wfs M g -> below n f -> below n g -> f <> [] ->
  (r = TwosComplement -> g <> []) -> length f <= 256 -> length g <= 256 ->
  exists lo hi, wcre_bounds M f g r = Ok (lo, hi)
    /\ (hi <= 2 * lo)%Q /\ (forall a, wrel r f g a <= hi)%Q
    /\ (forall B, (forall a, wrel r f g a <= B)%Q -> (lo <= B)%Q).
Proof.
  intros Wf Wg Bf Bg Hf Hg Lf Lg. unfold wcre_bounds.
  destruct (rel_parts M n f g r Wf Wg Bf Bg Hf Hg) as (d & fa & f_ & Ed & Ea & Em & Ld & La & Lm & Wd & Wa & Wm & Bd & Ba & Bm & V).
  rewrite Ed, Ea. cbn [bind]. rewrite Em. cbn [bind]. unfold maximum_relative_value_bounds.
  assert (Hm : f_ <> []) by (intro E; subst; destruct f; [congruence|discriminate]).
  destruct (bdd_max_one_idem M n f_ Hm Wm Bm) as (m & E & L & W & B & Vm).
  { intro a. destruct (V a) as (_ & _ & ->). lia. }
  rewrite E. cbn [bind].
  assert (Hd : forall a, (uval d a < 2 ^ 256)%Z).
  { intro a. destruct (V a) as (-> & _). pose proof (wrapped_range r f g a Hf Hg).
    pose proof (pow2_256 (Nat.max (length f) (length g)) ltac:(lia)). lia. }
  pose proof (wcre_bounds_loop_spec M d Wd Hd (rev m)) as S. specialize (S ltac:(apply Forall_rev; auto) bone 0%Q 0%Q (wf_one M)).
  destruct (wcre_bounds_loop M d (rev m) bone 0 0) as [lo hi].
  destruct S as (_ & _ & S3 & S4 & S5); try lra.
  assert (HW : forall a, ratio d (rev m) a = wrel r f g a).
  { intro a. unfold ratio, wrel. rewrite rev_involutive, Vm. destruct (V a) as (-> & _ & ->). reflexivity. }
  assert (HP : forall a, (0 < uval (rev (rev m)) a)%Z).
  { intro a. rewrite rev_involutive, Vm. destruct (V a) as (_ & _ & ->). lia. }
  exists lo, hi. repeat split; auto.
  - intro a. rewrite <- HW. apply S4; auto.
  - intros B0 HB. apply S5.
    + eapply Qle_trans; [|apply (HB (fun _ => false))]. unfold wrel. apply le_div_iff; [apply injZ_pos; lia|].
      rewrite Qmult_0_l. apply injZ_nonneg. apply wrapped_range; auto.
    + intros a _ _. rewrite HW. apply HB.
Qed.

(** ** acre_bounds *)
Lemma average_mono_scale n F c : (average n (fun a => F a / c) == average n F / c)%Q.
Proof.
  rewrite (average_ext n (fun a => F a / c)%Q (fun a => (/ c) * F a)%Q) by (intro; unfold Qdiv; ring).
  rewrite average_scale. unfold Qdiv. ring.
Qed.

Section AvgBounds.
Variable M : mgr.
Variable n : nat.
Variable f : list bdd.
Hypothesis Wf : wfs M f.
Hypothesis Bf : below n f.
Hypothesis Hf : length f + n <= 256.

Definition part (z : bdd) (l : list bdd) (a : asg) : Q :=
  if ev z a then (if (0 <? uval (rev l) a)%Z then ratio f l a else 0) else 0.

Lemma mask_average m : wf M m -> depends_below n m ->
  exists q, average_value (mask M f m) = Fin q
    /\ (q == average n (fun a => if ev m a then inject_Z (uval f a) else 0))%Q.
Proof.
  intros Wm Bm. destruct (average_value_full M n (mask M f m)) as (q & E & V).
  - now apply mask_wf.
  - now apply mask_below.
  - intros b Hb. rewrite mask_length. assert (support_size b <= n); [|lia].
    apply (support_size_below M n b).
    + pose proof (mask_wf M f m Wf Wm) as H. rewrite Forall_forall in H. auto.
    + pose proof (mask_below M n f m Bf Bm) as H. unfold below in H. rewrite Forall_forall in H. auto.
  - exists q. split; auto. rewrite V. apply average_ext. intro a. rewrite mask_uval. destruct (ev m a); reflexivity.
Qed.

Lemma acre_bounds_loop_spec l : wfs M l -> below n l -> forall z mn mx, wf M z -> depends_below n z ->
  exists x y, acre_bounds_loop M f l z (Fin mn) (Fin mx) = (Fin x, Fin y)
  /\ (x - mn <= average n (part z l) <= y - mx)%Q /\ (y - mx <= 2 * (x - mn))%Q.
Proof.
  induction l as [|b l IH]; intros Wl Bl z mn mx Wz Bz.
  - cbn [acre_bounds_loop]. exists mn, mx. split; auto.
    assert (E : (average n (part z []) == 0)%Q).
    { rewrite (average_ext n _ (fun _ => 0%Q)); [apply average_const|]. intro a. unfold part. cbn. now destruct (ev z a). }
    rewrite E. repeat split; lra.
  - cbn [acre_bounds_loop]. inversion Wl as [|? ? Wb Wl']; subst. apply below_cons in Bl. destruct Bl as [Bb Bl'].
    set (md := band M z b).
    assert (Wm : wf M md) by (apply wf_and; auto).
    assert (Bm : depends_below n md) by (apply depends_below_and; auto).
    destruct (mask_average md Wm Bm) as (q & -> & Hq). cbn [nscale nplus].
    destruct (IH Wl' Bl' (band M z (bnot b)) (mn + q / pow_minus_one (length l + 1))%Q (mx + q / inject_Z (pow2 (length l)))%Q)
      as (x & y & E & H1 & H2).
    { apply wf_and; auto using wf_not. }
    { apply depends_below_and; auto. intros a1 a2 D. rewrite !ev_not. now rewrite (Bb a1 a2 D). }
    exists x, y. split; [exact E|].
    assert (P1 : (0 < pow_minus_one (length l + 1))%Q) by (apply pm1_pos; lia).
    assert (P2 : (0 < inject_Z (pow2 (length l)))%Q) by (apply injZ_pos, pow2_pos).
    assert (P3 := pm1_range (length l + 1) ltac:(lia)).
    assert (R : forall a, (0 <= uval (rev l) a < pow2 (length l))%Z) by (intro a; rewrite <- rev_length; apply uval_range).
    set (hd := fun a => if ev md a then ratio f (b :: l) a else 0%Q).
    assert (SP : (average n (part z (b :: l)) == average n hd + average n (part (band M z (bnot b)) l))%Q).
    { rewrite <- average_plus. apply average_ext. intro a. unfold part, hd, md, ratio. rewrite uval_rev_cons, !ev_and, ev_not.
      specialize (R a). pose proof (pow2_pos (length l)).
      destruct (ev z a), (ev b a); cbn [andb negb Z.b2z]; try ring.
      - assert (T : (0 <? uval (rev l) a + pow2 (length l) * 1)%Z = true) by (apply Z.ltb_lt; lia). rewrite T. ring.
      - rewrite Z.mul_0_r, Z.add_0_r. destruct (0 <? uval (rev l) a)%Z; ring. }
    assert (Qp : (0 <= q)%Q).
    { rewrite Hq. apply average_nonneg. intro a. destruct (ev md a); [|lra]. apply injZ_nonneg. pose proof (uval_range f a). lia. }
    assert (L1 : (q / pow_minus_one (length l + 1) <= average n hd)%Q).
    { rewrite Hq, <- average_mono_scale. apply average_le. intro a. unfold hd, ratio.
      destruct (ev md a) eqn:Em; [|unfold Qdiv; lra].
      unfold md in Em. rewrite ev_and in Em. apply andb_true_iff in Em. destruct Em as [_ Eb].
      rewrite uval_rev_cons, Eb. cbn [Z.b2z]. specialize (R a).
      assert (P5 : (0 < inject_Z (uval (rev l) a + pow2 (length l) * 1))%Q) by (apply injZ_pos; lia).
      assert (P6 : (inject_Z (uval (rev l) a + pow2 (length l) * 1) <= pow_minus_one (length l + 1))%Q).
      { eapply Qle_trans; [|apply P3]. apply injZ_le. rewrite Nat.add_1_r, pow2_S. lia. }
      apply div_le_iff; auto.
      assert (E2 : (inject_Z (uval f a) / inject_Z (uval (rev l) a + pow2 (length l) * 1) * pow_minus_one (length l + 1)
         == inject_Z (uval f a) * pow_minus_one (length l + 1) / inject_Z (uval (rev l) a + pow2 (length l) * 1))%Q) by (field; lra).
      rewrite E2. apply le_div_iff; auto. apply Qmult_le_l'; auto. apply injZ_nonneg. pose proof (uval_range f a). lia. }
    assert (L2 : (average n hd <= q / inject_Z (pow2 (length l)))%Q).
    { rewrite Hq, <- average_mono_scale. apply average_le. intro a. unfold hd, ratio.
      destruct (ev md a) eqn:Em; [|unfold Qdiv; lra].
      unfold md in Em. rewrite ev_and in Em. apply andb_true_iff in Em. destruct Em as [_ Eb].
      rewrite uval_rev_cons, Eb. cbn [Z.b2z]. specialize (R a).
      assert (P4 : (inject_Z (pow2 (length l)) <= inject_Z (uval (rev l) a + pow2 (length l) * 1))%Q) by (apply injZ_le; lia).
      apply div_le_iff; [lra|].
      assert (E2 : (inject_Z (uval f a) / inject_Z (pow2 (length l)) * inject_Z (uval (rev l) a + pow2 (length l) * 1)
            == inject_Z (uval f a) * inject_Z (uval (rev l) a + pow2 (length l) * 1) / inject_Z (pow2 (length l)))%Q) by (field; lra).
      rewrite E2. apply le_div_iff; auto. apply Qmult_le_l'; auto. apply injZ_nonneg. pose proof (uval_range f a). lia. }
    assert (L3 : (q / inject_Z (pow2 (length l)) <= 2 * (q / pow_minus_one (length l + 1)))%Q).
    { apply div_le_iff; auto.
      assert (E2 : (2 * (q / pow_minus_one (length l + 1)) * inject_Z (pow2 (length l))
                == q * (2 * inject_Z (pow2 (length l))) / pow_minus_one (length l + 1))%Q) by (field; lra).
      rewrite E2. apply le_div_iff; auto. apply Qmult_le_l'; auto.
      destruct P3 as [_ P3]. rewrite Nat.add_1_r, pow2_S, inject_Z_mult in P3. rewrite Nat.add_1_r. exact P3. }
    rewrite SP. repeat split; lra.
Qed.
End AvgBounds.

Lemma acre_bounds_spec M n f g r : wfs M f -> wfs M g -> below n f -> below n g -> f <> [] ->
  (r = TwosComplement -> g <> []) -> Nat.max (length f) (length g) + n < 256 ->
  exists lo hi, acre_bounds M f g r = Ok (Fin lo, Fin hi)
    /\ (hi <= 2 * lo)%Q /\ (lo <= average n (wrel r f g) <= hi)%Q.
Proof.
  intros Wf Wg Bf Bg Hf Hg L256. unfold acre_bounds.
  destruct (rel_parts M n f g r Wf Wg Bf Bg Hf Hg) as (d & fa & m & Ed & Ea & Em & Ld & La & Lm & Wd & Wa & Wm & Bd & Ba & Bm & V).
  rewrite Ed, Ea. cbn [bind]. unfold average_relative_value. rewrite Em. cbn [bind].
  destruct (acre_bounds_loop_spec M n d Wd Bd ltac:(lia) (rev m) ltac:(apply Forall_rev; auto) ltac:(apply Forall_rev; auto) bone 0%Q 0%Q (wf_one M))
    as (lo & hi & E & H1 & H2).
  { intros a b _. reflexivity. }
  rewrite E. exists lo, hi. split; auto.
  assert (HA : (average n (part d bone (rev m)) == average n (wrel r f g))%Q).
  { apply average_ext. intro a. unfold part, ratio, wrel. rewrite rev_involutive. destruct (V a) as (-> & _ & ->).
    cbn [ev bone fst snd evn xorb]. assert (T : (0 <? Z.max 1 (Z.abs (value r f a)))%Z = true) by (apply Z.ltb_lt; lia). rewrite T. reflexivity. }
  rewrite HA in H1. repeat split; lra.
Qed.

(** ** symbolic division *)
Lemma divided_spec M n f g e r : wfs M f -> wfs M g -> below n f -> below n g -> f <> [] ->
  (r = TwosComplement -> g <> []) ->
  exists q, divided M f g e r = Ok q /\ length q <= S (Nat.max (length f) (length g)) + e + 2 /\ wfs M q /\ below n q
    /\ forall a, uval q a = (wrapped r f g a * 2 ^ Z.of_nat e / Z.max 1 (Z.abs (value r f a)))%Z.
Proof.
  intros Wf Wg Bf Bg Hf Hg. unfold divided.
  destruct (rel_parts M n f g r Wf Wg Bf Bg Hf Hg) as (d & fa & m & Ed & Ea & Em & Ld & La & Lm & Wd & Wa & Wm & Bd & Ba & Bm & V).
  rewrite Ed, Ea. cbn [bind]. rewrite Em. cbn [bind].
  destruct (bdd_divide_spec M d m e) as (q & E & L & W & D). exists q.
  assert (VQ : forall a, uval q a = (wrapped r f g a * 2 ^ Z.of_nat e / Z.max 1 (Z.abs (value r f a)))%Z).
  { intro a. destruct (D a) as [D1 _]. destruct (V a) as (V1 & _ & V3). rewrite D1 by (rewrite V3; lia). now rewrite V1, V3. }
  repeat split; auto; [lia|].
  apply below_of_uval. intros a b Hab. rewrite !VQ.
  destruct (V a) as (V1 & _ & V3), (V b) as (V1' & _ & V3').
  rewrite <- V1, <- V3, <- V1', <- V3'. now rewrite (below_uval n d a b), (below_uval n m a b).
Qed.

Lemma floor_bounds x m e : (0 < m)%Z ->
  (inject_Z (x * 2 ^ Z.of_nat e / m) / inject_Z (pow2 e) <= inject_Z x / inject_Z m)%Q
  /\ (inject_Z x / inject_Z m < inject_Z (x * 2 ^ Z.of_nat e / m) / inject_Z (pow2 e) + 1 / inject_Z (pow2 e))%Q.
Proof.
  intro Hm. change (2 ^ Z.of_nat e)%Z with (pow2 e). pose proof (pow2_pos e) as Hp.
  assert (P1 := injZ_pos m Hm). assert (P2 := injZ_pos _ Hp).
  pose proof (Z.mul_div_le (x * pow2 e) m Hm) as D1.
  pose proof (Z.mul_succ_div_gt (x * pow2 e) m Hm) as D2. set (k := (x * pow2 e / m)%Z) in *. split.
  - apply div_le_iff; auto.
    assert (E : (inject_Z x / inject_Z m * inject_Z (pow2 e) == inject_Z (x * pow2 e) / inject_Z m)%Q) by (rewrite inject_Z_mult; field; lra).
    rewrite E. apply le_div_iff; auto. rewrite <- inject_Z_mult. apply injZ_le. lia.
  - assert (E1 : (inject_Z k / inject_Z (pow2 e) + 1 / inject_Z (pow2 e) == inject_Z (k + 1) / inject_Z (pow2 e))%Q)
      by (rewrite inject_Z_plus; field; lra).
    rewrite E1. apply Qlt_shift_div_l; auto.
    assert (E : (inject_Z x / inject_Z m * inject_Z (pow2 e) == inject_Z (x * pow2 e) / inject_Z m)%Q) by (rewrite inject_Z_mult; field; lra).
    rewrite E. apply Qlt_shift_div_r; auto. rewrite <- inject_Z_mult. apply injZ_lt. lia.
Qed.

Lemma wcre_division_spec M n f g e r : wfs M f -> wfs M g -> below n f -> below n g -> f <> [] ->
  (r = TwosComplement -> g <> []) -> Nat.max (length f) (length g) + e <= 256 ->
  exists q, wcre_symbolic_division M f g e r = Ok q
    /\ (exists a, q <= wrel r f g a)%Q /\ (forall a, wrel r f g a < q + 1 / inject_Z (2 ^ Z.of_nat e))%Q.
Proof.
  intros Wf Wg Bf Bg Hf Hg L. unfold wcre_symbolic_division.
  destruct (divided_spec M n f g e r Wf Wg Bf Bg Hf Hg) as (d & -> & _ & Wd & _ & V). cbn [bind].
  destruct (get_max_value_bounded M d Wd) as ((a0 & A0) & A1).
  { intro a. rewrite V. pose proof (wrapped_range r f g a Hf Hg) as H.
    assert (wrapped r f g a * 2 ^ Z.of_nat e < 2 ^ 256)%Z.
    { apply Z.lt_le_trans with (pow2 (Nat.max (length f) (length g)) * pow2 e)%Z.
      - apply Z.mul_lt_mono_pos_r; [apply pow2_pos|apply H].
      - rewrite <- pow2_add. now apply pow2_256. }
    eapply Z.le_lt_trans; [|eassumption].
    assert (0 <= wrapped r f g a * 2 ^ Z.of_nat e)%Z by (apply Z.mul_nonneg_nonneg; lia).
    apply Z.div_le_upper_bound; [lia|]. set (w := (wrapped r f g a * 2 ^ Z.of_nat e)%Z) in *. nia. }
  eexists. split; [reflexivity|]. split.
  - exists a0. rewrite <- A0, V. apply floor_bounds. lia.
  - intro a. specialize (A1 a). rewrite V in A1. change (2 ^ Z.of_nat e)%Z with (pow2 e) in A1. eapply Qlt_le_trans.
    + apply (floor_bounds (wrapped r f g a) (Z.max 1 (Z.abs (value r f a))) e). lia.
    + change (2 ^ Z.of_nat e)%Z with (pow2 e). apply Qplus_le_compat; [|apply Qle_refl].
      unfold Qdiv at 1 2. apply Qmult_le_compat_r; [now apply injZ_le|]. apply Qinv_le_0_compat. apply injZ_nonneg. pose proof (pow2_pos e). lia.
Qed.

Lemma sumQ_lt {A} (F G : A -> Q) l : l <> [] -> (forall x, F x < G x)%Q -> (sumQ (map F l) < sumQ (map G l))%Q.
Proof.
  intros Hl H. induction l as [|x l IH]; [congruence|]. cbn [map]. unfold sumQ in *. cbn [fold_right].
  destruct l as [|y l].
  - cbn. specialize (H x). lra.
  - specialize (IH ltac:(discriminate)). specialize (H x). lra.
Qed.
Lemma average_lt n F G : (forall a, F a < G a)%Q -> (average n F < average n G)%Q.
Proof.
  intro H. rewrite !average_eq. unfold Qdiv. apply Qmult_lt_compat_r.
  - apply Qinv_lt_0_compat. apply injZ_pos, pow2_pos.
  - unfold sum_inputs. apply sumQ_lt; auto. intro E. pose proof (all_inputs_length n) as L. rewrite E in L. cbn in L. pose proof (pow2_pos n). lia.
Qed.

Lemma acre_division_spec M n f g e r : wfs M f -> wfs M g -> below n f -> below n g -> f <> [] ->
  (r = TwosComplement -> g <> []) -> Nat.max (length f) (length g) + e + n + 3 <= 256 ->
  exists q, acre_symbolic_division M f g e r = Ok (Fin q)
    /\ (q <= average n (wrel r f g) < q + 1 / inject_Z (2 ^ Z.of_nat e))%Q.
Proof.
  intros Wf Wg Bf Bg Hf Hg L. unfold acre_symbolic_division.
  destruct (divided_spec M n f g e r Wf Wg Bf Bg Hf Hg) as (d & -> & Ld & Wd & Bd & V). cbn [bind].
  destruct (average_value_full M n d Wd Bd) as (q & -> & Hq).
  { intros b Hb. assert (support_size b <= n); [|lia]. apply (support_size_below M n b).
    - rewrite Forall_forall in Wd. auto.
    - unfold below in Bd. rewrite Forall_forall in Bd. auto. }
  cbn [nscale]. eexists. split; [reflexivity|]. rewrite Hq, <- average_mono_scale. split.
  - apply average_le. intro a. rewrite V. apply floor_bounds. lia.
  - assert (E : (average n (fun a => inject_Z (uval d a) / inject_Z (pow2 e)) + 1 / inject_Z (2 ^ Z.of_nat e)
               == average n (fun a => inject_Z (uval d a) / inject_Z (pow2 e) + 1 / inject_Z (pow2 e)))%Q).
    { rewrite average_plus, average_const. reflexivity. }
    rewrite E. apply average_lt. intro a. rewrite V. apply floor_bounds. lia.
Qed.
