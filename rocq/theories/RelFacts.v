(** Facts about the relative error metrics: ADD variants, bounds, symbolic division *)
From Coq Require Import List Bool Arith ZArith QArith Qround Lia Lqa.
From Verif Require Import Res Cudd CuddFacts Spec SpecFacts Helpers HelpersFacts HelpersFacts2 Counting AddFacts CountFacts PathFacts Metrics MetricsFacts MetricsFacts2 MetricsFacts3 MetricsFacts4 RelMetrics.
Import ListNotations.
Open Scope nat_scope.

Lemma qmax_l p q : (p <= qmax p q)%Q.
Proof. unfold qmax. destruct (Qle_bool q p) eqn:E; [apply Qle_refl|]. destruct (Qlt_le_dec p q); [apply Qlt_le_weak; auto|]. apply Qle_bool_iff in q0. congruence. Qed.
Lemma qmax_r p q : (q <= qmax p q)%Q.
Proof. unfold qmax. destruct (Qle_bool q p) eqn:E; [apply Qle_bool_iff; auto|apply Qle_refl]. Qed.
Lemma qmax_cases p q : qmax p q = p \/ qmax p q = q.
Proof. unfold qmax. destruct (Qle_bool q p); auto. Qed.

Lemma qmax_inject x y : (qmax (inject_Z x) (inject_Z y) == inject_Z (Z.max x y))%Q.
Proof.
  unfold qmax. destruct (Qle_bool (inject_Z y) (inject_Z x)) eqn:E.
  - apply Qle_bool_iff in E. apply (proj1 (injZ_le y x)) in E. rewrite Z.max_l by lia; reflexivity.
  - rewrite Z.max_r; [reflexivity|]. destruct (Z_lt_le_dec x y); [lia|].
    assert (Qle_bool (inject_Z y) (inject_Z x) = true) by (apply Qle_bool_iff, injZ_le; auto). congruence.
Qed.
Lemma qmax_comp p q p' q' : (p == p')%Q -> (q == q')%Q -> (qmax p q == qmax p' q')%Q.
Proof. intros H1 H2. apply Qle_antisym; [destruct (qmax_cases p q) as [->| ->]; rewrite ?H1, ?H2; auto using qmax_l, qmax_r
  |destruct (qmax_cases p' q') as [->| ->]; rewrite <- ?H1, <- ?H2; auto using qmax_l, qmax_r]. Qed.

Lemma injZ_lt x y : (inject_Z x < inject_Z y)%Q <-> (x < y)%Z.
Proof. rewrite <- Zlt_Qlt. reflexivity. Qed.

(** ** common ingredients *)
Lemma abs_any M n f r : wfs M f -> below n f -> (r = TwosComplement -> f <> []) ->
  exists fa, bdd_abs M f r = Ok fa /\ length fa = length f /\ wfs M fa /\ below n fa
    /\ forall a, uval fa a = Z.abs (value r f a).
Proof.
  intros Wf Bf Hr. destruct r.
  - exists f. repeat split; auto. intro a. cbn [value]. pose proof (uval_range f a). rewrite Z.abs_eq; lia.
  - destruct (bdd_abs_full M f) as (H & _). destruct (H (Hr eq_refl)) as (fa & E & L & W & V).
    exists fa. repeat split; auto. apply below_of_uval. intros a b D. rewrite !V.
    now rewrite (below_sval n f a b).
Qed.

Lemma max_one_any M n f : f <> [] -> wfs M f -> below n f ->
  exists m, bdd_max_one M f = Ok m /\ length m = length f /\ wfs M m /\ below n m
    /\ forall a, uval m a = Z.max 1 (uval f a).
Proof.
  intros Hf Wf Bf. destruct (bdd_max_one_spec M f Hf) as (m & E & L & W & V). exists m. repeat split; auto.
  apply below_of_uval. intros a b D. rewrite !V. now rewrite (below_uval n f a b).
Qed.

Lemma relative_add_spec M n f g r : wfs M f -> wfs M g -> below n f -> below n g ->
  (r = TwosComplement -> f <> [] /\ g <> []) ->
  exists A, relative_add M f g r = Ok A /\ aok M 0 A /\ (forall i, In i (avars A) -> i < n)
    /\ forall a, (aev A a == rel (value r f a) (value r g a))%Q.
Proof.
  intros Wf Wg Bf Bg Hr. unfold relative_add.
  destruct (absdiff_add_spec M f g r Hr) as (A & EA & OA & VA & SA). rewrite EA. cbn [bind].
  destruct (abs_any M n f r Wf Bf (fun e => proj1 (Hr e))) as (fa & Ef & Lf & Wfa & Bfa & Vf). rewrite Ef. cbn [bind].
  destruct (forest_to_add_spec M fa BaseTwo) as (B & EB & OB & VB & SB); [discriminate|]. rewrite EB. cbn [bind].
  eexists. split; [reflexivity|]. split; [|split].
  - apply apply_ok; auto. apply apply_ok; auto using aconst_ok.
  - intros i Hi. apply apply_vars in Hi. destruct Hi as [Hi|Hi].
    + destruct (VA i Hi); [apply (below_vars M n f i)|apply (below_vars M n g i)]; auto.
    + apply apply_vars in Hi. destruct Hi as [Hi|[]]. apply (below_vars M n fa i); auto.
  - intro a. unfold adiv, amaximum. rewrite apply_sem, SA. unfold rel.
    assert (H : (aev (apply M qmax B (aconst 1)) a == inject_Z (Z.max 1 (Z.abs (value r f a))))%Q).
    { rewrite apply_sem. rewrite (qmax_comp _ _ (inject_Z (Z.abs (value r f a))) (inject_Z 1)).
      - rewrite qmax_inject. now rewrite Z.max_comm.
      - rewrite SB. cbn [value]. now rewrite Vf.
      - apply aev_const. }
    now rewrite H.
Qed.

Lemma rel_nonneg x y : (0 <= rel x y)%Q.
Proof.
  unfold rel. apply Qle_shift_div_l.
  - apply (injZ_lt 0). lia.
  - rewrite Qmult_0_l. apply (proj2 (injZ_le 0 _)). apply dist_nonneg.
Qed.

Lemma fold_qmax (l : list (Q * Z)) : forall m,
  let x := fold_left (fun largest p => qmax largest (fst p)) l m in
  (m <= x)%Q /\ (forall v, In v (map fst l) -> (v <= x)%Q) /\ (x = m \/ In x (map fst l)).
Proof.
  induction l as [|p l IH]; intro m; cbn [fold_left map In].
  - repeat split; [apply Qle_refl|contradiction|auto].
  - destruct (IH (qmax m (fst p))) as (H1 & H2 & H3). repeat split.
    + eapply Qle_trans; [apply qmax_l|apply H1].
    + intros v [<-|Hv]; auto. eapply Qle_trans; [apply qmax_r|apply H1].
    + destruct H3 as [H3|H3]; auto. cbv zeta. rewrite H3. destruct (qmax_cases m (fst p)) as [->| ->]; auto.
Qed.

Lemma wcre_add_spec M n f g r : index_order M -> wfs M f -> wfs M g -> below n f -> below n g -> n <= 63 ->
  (r = TwosComplement -> f <> [] /\ g <> []) ->
  exists q, wcre_add M f g r = Ok q /\ is_maxQ (fun a => rel (value r f a) (value r g a)) q.
Proof.
  intros HM Wf Wg Bf Bg Hn Hr. unfold wcre_add.
  destruct (relative_add_spec M n f g r Wf Wg Bf Bg Hr) as (A & -> & OA & VA & SA). cbn [bind].
  destruct (histogram_use M A n HM OA VA Hn) as (tv & -> & HV & _). cbn [bind].
  eexists. split; [reflexivity|]. destruct (fold_qmax tv 0%Q) as (H1 & H2 & H3). cbv zeta in *.
  set (x := fold_left _ tv 0%Q) in *. split.
  - destruct H3 as [H3|H3].
    + exists (fun _ => false). apply Qle_antisym.
      * rewrite <- SA. apply H2. apply HV. eauto.
      * rewrite H3. apply rel_nonneg.
    + apply HV in H3. destruct H3 as (a & <-). exists a. now rewrite SA.
  - intro a. rewrite <- SA. apply H2. apply HV. eauto.
Qed.

Lemma decimal_sums_spec tv : forall s p, Forall (fun q => 0 <= snd q)%Z tv -> (0 <= p)%Z -> (p + tsum tv < 2 ^ 256)%Z ->
  let '(x, y) := decimal_sums tv s p in (x == s + wsum (fun v => v) tv)%Q /\ y = (p + tsum tv)%Z.
Proof.
  induction tv as [|[v c] tv IH]; intros s p HF Hp Hb; cbn [decimal_sums].
  - unfold wsum, tsum. cbn. split; [ring|lia].
  - inversion HF as [|? ? H1 H2]; subst. cbn [snd] in H1. unfold tsum in Hb |- *. cbn [map fold_right snd] in Hb |- *.
    change (fold_right Z.add 0%Z (map snd tv)) with (tsum tv) in *.
    assert (0 <= tsum tv)%Z.
    { clear - H2. unfold tsum. induction H2; cbn [map fold_right]; lia. }
    assert (E : u256 (p + c) = (p + c)%Z) by (unfold u256; apply Z.mod_small; lia). rewrite E.
    specialize (IH (s + v * inject_Z c)%Q (p + c)%Z H2). destruct (decimal_sums tv _ _) as [x y].
    destruct IH as (I1 & I2); try lia. split; [|lia]. rewrite I1. unfold wsum. cbn [map sumQ fold_right fst snd]. unfold sumQ. ring.
Qed.

Lemma acre_add_64 M n f g r : index_order M -> wfs M f -> wfs M g -> below n f -> below n g -> n <= 64 ->
  (r = TwosComplement -> f <> [] /\ g <> []) ->
  exists q, acre_add M f g r = Ok (Fin q) /\ (q == average n (fun a => rel (value r f a) (value r g a)))%Q.
Proof.
  intros HM Wf Wg Bf Bg Hn Hr. unfold acre_add.
  destruct (relative_add_spec M n f g r Wf Wg Bf Bg Hr) as (A & -> & OA & VA & SA). cbn [bind].
  destruct (histogram_use64 M A n HM OA VA Hn) as (tv & -> & HV & HP & HT & HS). cbn [bind].
  pose proof (decimal_sums_spec tv 0%Q 0%Z HP) as D. destruct (decimal_sums tv 0 0) as [x y].
  assert (pow2 n <= 2 ^ 256)%Z by (apply pow2_256; lia).
  destruct D as (D1 & D2); try lia.
  { assert (2 ^ 64 < 2 ^ 256)%Z by (vm_compute; reflexivity).
    assert (pow2 n <= 2 ^ 64)%Z by (unfold pow2; apply Z.pow_le_mono_r; lia). lia. }
  rewrite Z.add_0_l in D2. subst y. rewrite fdiv_pos by lia. eexists. split; [reflexivity|].
  rewrite D1, HS, Qplus_0_l.
  rewrite (average_ext n (fun a => aev A a) (fun a => rel (value r f a) (value r g a))) by auto.
  field. apply injZ_nz. lia.
Qed.
Lemma acre_add_spec M n f g r : index_order M -> wfs M f -> wfs M g -> below n f -> below n g -> n <= 63 ->
  (r = TwosComplement -> f <> [] /\ g <> []) ->
  exists q, acre_add M f g r = Ok (Fin q) /\ (q == average n (fun a => rel (value r f a) (value r g a)))%Q.
Proof. intros HM Wf Wg Bf Bg Hn. apply acre_add_64; auto. Qed.
