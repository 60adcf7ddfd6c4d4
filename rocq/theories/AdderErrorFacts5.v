(** Bit flips, relative errors and squared errors of the approximate adders *)
From Coq Require Import List Bool Arith ZArith QArith Lia Lqa.
From Verif Require Import Res Cudd CuddFacts Spec SpecFacts SpecAdder Helpers HelpersFacts Examples Counting Metrics MetricsFacts
  MetricsFacts2 MetricsFacts3 MetricsFacts4 MetricsFacts5 MetricsFacts6 RelMetrics RelFacts RelFacts2 CrossFacts
  AdderFacts AdderErrorFacts AdderErrorFacts2 AdderErrorFacts3.
Import ListNotations.
Open Scope nat_scope.

(** operands given as functions *)
Definition operands (x y : nat -> bool) : asg := fun i => if Nat.even i then x (i / 2) else y (i / 2).
Lemma op1_operands x y i : op1 (operands x y) i = x i.
Proof.
  unfold op1, operands. replace (Nat.even (2 * i)) with true by (symmetry; apply Nat.even_spec; exists i; lia).
  f_equal. rewrite Nat.mul_comm. apply Nat.div_mul. lia.
Qed.
Lemma op2_operands x y i : op2 (operands x y) i = y i.
Proof.
  unfold op2, operands. replace (Nat.even (2 * i + 1)) with false.
  - f_equal. rewrite Nat.mul_comm, Nat.div_add_l by lia. change (1 / 2) with 0. lia.
  - symmetry. rewrite Nat.add_1_r, Nat.even_succ, <- Nat.negb_even. apply negb_false_iff, Nat.even_spec. exists i. lia.
Qed.
Lemma cf_ext x y x' y' l i : (forall j, j < i -> x j = x' j) -> (forall j, j < i -> y j = y' j) -> cf x y l i = cf x' y' l i.
Proof.
  induction i as [|i IH]; intros H1 H2; cbn [cf]; auto. rewrite H1, H2 by lia. rewrite IH; auto.
Qed.

Lemma count_sum {A} (p : A -> bool) l : (inject_Z (Z.of_nat (length (filter p l))) == sumQ (map (fun i => b2q (p i)) l))%Q.
Proof.
  induction l as [|z l IH]; cbn [filter map]; [reflexivity|]. rewrite sumQ_cons, <- IH. destruct (p z); cbn [length b2q].
  - rewrite Nat2Z.inj_succ. unfold Z.succ. rewrite inject_Z_plus. change (inject_Z 1) with 1%Q. ring.
  - ring.
Qed.
Lemma sumQ_le {A} (F G : A -> Q) l : (forall i, In i l -> (F i <= G i)%Q) -> (sumQ (map F l) <= sumQ (map G l))%Q.
Proof.
  induction l as [|z l IH]; intro H; cbn [map]; [apply Qle_refl|]. rewrite !sumQ_cons.
  apply Qplus_le_compat; [apply H; now left|]. apply IH. intros i Hi. apply H. now right.
Qed.

Section Two.
Variable M : mgr.
Variable N P : nat.
Variable restart : nat -> bool.
Variables r s : list bdd.
Hypothesis HA : approximate_adder M N restart P r.
Hypothesis HR : regular_adder M N = Ok s.
Notation prev := (before restart P).

(** ** bit flips *)
Definition reach : nat := length (filter (fun i => 0 <? prev i) (seq 0 (N + 1))).
Lemma most_flips : is_max (hamming s r) (Z.of_nat reach).
Proof.
  destruct (two_facts _ _ _ _ _ _ HA HR) as (W1 & W2 & L1 & L2).
  assert (L : length s = length r) by lia. split.
  - set (y := fun k => k =? 0). exists (operands (fun _ => true) y).
    assert (E : (inject_Z (hamming s r (operands (fun _ => true) y)) == inject_Z (Z.of_nat reach))%Q).
    { rewrite hamming_sum by auto. unfold reach. rewrite count_sum, L2. apply sumQ_map_ext. intros i Hi. apply in_seq in Hi.
      rewrite (two_flip M N P restart r s HA HR) by lia.
      assert (C : forall l, cf (op1 (operands (fun _ => true) y)) (op2 (operands (fun _ => true) y)) l i = cf (fun _ => true) y l i).
      { intro l. apply cf_ext; intros j _; [apply op1_operands|apply op2_operands]. }
      rewrite !C. clear C.
      destruct (0 <? prev i) eqn:E.
      - apply Nat.ltb_lt in E. pose proof (prev_le restart P i).
        assert (cf (fun _ => true) y 0 i = true) as ->.
        { apply cf_generated. exists 0. repeat split; auto; try lia. intros j Hj. unfold y. destruct j; [lia|reflexivity]. }
        assert (cf (fun _ => true) y (prev i) i = false) as ->; [|cbn [b2q]; ring].
        destruct (cf _ y (prev i) i) eqn:C; auto. apply cf_generated in C. destruct C as (g & Hg & _ & C & _).
        unfold y in C. apply Nat.eqb_eq in C. lia.
      - apply Nat.ltb_ge in E. replace (prev i) with 0 by lia. cbn [b2q]. ring. }
    unfold Qeq in E. cbn in E. lia.
  - intro a. assert (E : (inject_Z (hamming s r a) <= inject_Z (Z.of_nat reach))%Q); [|now rewrite <- Zle_Qle in E].
    rewrite hamming_sum by auto. unfold reach. rewrite count_sum, L2. apply sumQ_le. intros i Hi. apply in_seq in Hi.
    rewrite (two_flip M N P restart r s HA HR) by lia. destruct (0 <? prev i) eqn:E.
    + destruct (cf _ _ 0 i), (cf _ _ (prev i) i); cbn [b2q]; lra.
    + apply Nat.ltb_ge in E. replace (prev i) with 0 by lia. cbn [b2q]. destruct (cf _ _ 0 i); cbn [b2q]; lra.
Qed.
Lemma two_worst_flips : (Z.of_nat N + 1 < 2 ^ 32)%Z -> worst_case_bit_flip_error M s r = Ok (Z.of_nat reach).
Proof.
  intro HN. destruct (two_facts _ _ _ _ _ _ HA HR) as (W1 & W2 & L1 & L2).
  destruct (worst_case_bit_flip_full M 0 s r W2 W1 ltac:(lia)) as [H _].
  destruct (H ltac:(rewrite L2; lia)) as (m & E & Hm). rewrite E. f_equal. exact (is_max_unique _ _ _ Hm most_flips).
Qed.

(** ** relative errors *)
Definition inexact : bool := existsb (fun k => restart k && (P <=? k)) (seq 0 N).
Lemma largest_relative : is_maxQ (fun a => rel (uval s a) (uval r a)) (if inexact then 1 else 0)%Q.
Proof.
  destruct (regular_value _ _ _ HR) as (_ & _ & V).
  assert (B : forall a, (0 <= dist (uval s a) (uval r a) <= uval s a)%Z).
  { intro a. rewrite (two_dist M N P restart r s HA HR), V.
    pose proof (adder_value _ _ _ _ _ HA a). pose proof (uval_range r a). pose proof (number_range N (forgets restart P (op1 a) (op2 a))). lia. }
  destruct inexact eqn:E.
  - split.
    + unfold inexact in E. apply existsb_exists in E. destruct E as (k & Hk & E). apply in_seq in Hk. apply andb_true_iff in E.
      destruct E as [E1 E2]. apply Nat.leb_le in E2. pose proof (prev_small restart P k E1 E2) as Hp.
      set (x := fun i => (k - P <=? i) && (i <=? k)). set (y := fun i => i =? k - P).
      exists (operands x y).
      assert (X : forall n, n <= N -> number n (op1 (operands x y)) = number n x) by (intros; apply number_ext; intros; apply op1_operands).
      assert (Y : forall n, n <= N -> number n (op2 (operands x y)) = number n y) by (intros; apply number_ext; intros; apply op2_operands).
      assert (SV : (uval s (operands x y) = 2 ^ Z.of_nat (k + 1))%Z).
      { rewrite V, X, Y by lia.
        assert (G : forall n, (number n x + number n y)%Z = (if (n <=? k - P)%nat then 0 else 2 ^ Z.of_nat (Nat.min n (k + 1)))%Z).
        { induction n as [|n IH]; [reflexivity|]. cbn [number]. unfold x at 2, y at 2.
          destruct (Nat.leb_spec (S n) (k - P)).
          - assert (n <=? k - P = true) as HH by (apply Nat.leb_le; lia). rewrite HH in IH.
            assert (k - P <=? n = false) as -> by (apply Nat.leb_gt; lia). assert (n =? k - P = false) as -> by (apply Nat.eqb_neq; lia). cbn [andb Z.b2z]. lia.
          - assert (k - P <=? n = true) as -> by (apply Nat.leb_le; lia). cbn [andb].
            destruct (Nat.eqb_spec n (k - P)) as [En|En].
            + assert (n <=? k - P = true) as HH by (apply Nat.leb_le; lia). rewrite HH in IH.
              assert (n <=? k = true) as -> by (apply Nat.leb_le; lia). cbn [Z.b2z].
              replace (Nat.min (S n) (k + 1)) with (S n) by lia. rewrite Nat2Z.inj_succ, Z.pow_succ_r by lia. lia.
            + assert (n <=? k - P = false) as HH by (apply Nat.leb_gt; lia). rewrite HH in IH.
              destruct (Nat.leb_spec n k); cbn [Z.b2z].
              * replace (Nat.min n (k + 1)) with n in IH by lia. replace (Nat.min (S n) (k + 1)) with (S n) by lia.
                rewrite Nat2Z.inj_succ, Z.pow_succ_r by lia. lia.
              * replace (Nat.min n (k + 1)) with (k + 1) in IH by lia. replace (Nat.min (S n) (k + 1)) with (k + 1) by lia. lia. }
        rewrite G. assert (N <=? k - P = false) as -> by (apply Nat.leb_gt; lia). now replace (Nat.min N (k + 1)) with (k + 1) by lia. }
      assert (F : forgets restart P x y k = true).
      { apply forgets_iff. split; auto. exists (k - P). split; [lia|]. apply generates_iff. unfold x, y.
        rewrite Nat.leb_refl, Nat.eqb_refl. assert (k - P <=? k = true) as -> by (apply Nat.leb_le; lia). repeat split; auto.
        intros j Hj. assert (k - P <=? j = true) as -> by (apply Nat.leb_le; lia). assert (j <=? k = true) as -> by (apply Nat.leb_le; lia).
        assert (j =? k - P = false) as -> by (apply Nat.eqb_neq; lia). reflexivity. }
      assert (D : (2 ^ Z.of_nat (k + 1) <= dist (uval s (operands x y)) (uval r (operands x y)))%Z).
      { rewrite (two_dist M N P restart r s HA HR).
        rewrite (number_ext N _ (forgets restart P x y)) by (intros; apply forgets_ext; intros; [apply op1_operands|apply op2_operands]).
        pose proof (number_mono_le (S k) N (forgets restart P x y) ltac:(lia)) as L. cbn [number] in L. rewrite F in L. cbn [Z.b2z] in L.
        pose proof (number_range k (forgets restart P x y)). rewrite Nat.add_1_r, Nat2Z.inj_succ, Z.pow_succ_r by lia. lia. }
      pose proof (B (operands x y)) as B'. rewrite SV in *.
      assert (0 < 2 ^ Z.of_nat (k + 1))%Z by (apply Z.pow_pos_nonneg; lia).
      unfold rel. replace (dist _ _) with (2 ^ Z.of_nat (k + 1))%Z by lia. rewrite Z.abs_eq, Z.max_r by lia.
      unfold Qdiv. apply Qmult_inv_r. intro Hz. apply (injZ_nz (2 ^ Z.of_nat (k + 1))%Z); [lia|exact Hz].
    + intro a. specialize (B a). unfold rel. apply Qle_shift_div_r.
      * change 0%Q with (inject_Z 0). rewrite <- Zlt_Qlt. lia.
      * rewrite Qmult_1_l, <- Zle_Qle. lia.
  - assert (Z : forall a, dist (uval s a) (uval r a) = 0%Z).
    { intro a. rewrite (two_dist M N P restart r s HA HR). rewrite number_zero; auto. intros k Hk. apply forgets_skip.
      unfold inexact in E. destruct (restart k && (P <=? k)) eqn:X; auto.
      assert (Y : existsb (fun k => restart k && (P <=? k)) (seq 0 N) = true) by (apply existsb_exists; exists k; split; [apply in_seq; lia|auto]).
      congruence. }
    assert (R0 : forall a, (rel (uval s a) (uval r a) == 0)%Q) by (intro a; unfold rel; rewrite Z; unfold Qdiv; ring).
    split; [exists (fun _ => false); apply R0|]. intro a. rewrite R0. apply Qle_refl.
Qed.
Lemma two_wcre : index_order M -> 2 * N <= 63 ->
  exists q, wcre_add M s r BaseTwo = Ok q /\ (q == if inexact then 1 else 0)%Q.
Proof.
  intros HM HN. destruct (two_facts _ _ _ _ _ _ HA HR) as (W1 & W2 & L1 & L2). destruct (two_below _ _ _ _ _ _ HA HR) as [B1 B2].
  destruct (wcre_add_spec M (2 * N) s r BaseTwo HM W2 W1 B2 B1 HN) as (q & E & (X & U)); [discriminate|].
  exists q. split; auto. destruct largest_relative as ((b & Y) & U'). cbn [value] in *.
  destruct X as (a & X). apply Qle_antisym.
  - rewrite <- X. apply U'.
  - rewrite <- Y. apply U.
Qed.
End Two.

(** ** squared errors *)
Section Square.
Variable restart : nat -> bool.
Variable P : nat.
Notation prev := (before restart P).
Lemma average_generates_low N n g G : low G g -> g <= n < N ->
  (average (2 * N) (fun a => b2q (generates (op1 a) (op2 a) n g) * G a) * (4 * iz (n - g)) == average (2 * N) G)%Q.
Proof.
  intros HL [H1 H2].
  assert (X : low (fun a => b2q (generates (op1 a) (op2 a) n g) * G a)%Q (S n) /\
    (average (2 * N) (fun a => b2q (generates (op1 a) (op2 a) n g) * G a) * (4 * iz (n - g)) == average (2 * N) G)%Q); [|apply X].
  induction H1 as [|n L IH].
  - assert (E : forall a, (b2q (generates (op1 a) (op2 a) g g) * G a == part (fun b c => b2q (b && c)) G g a)%Q).
    { intro a. unfold part, generates. rewrite Nat.sub_diag. cbn [seq forallb]. rewrite andb_true_r. reflexivity. }
    split.
    + intros a b Ha Hb. rewrite !E. apply low_part; auto.
    + rewrite (average_ext _ _ _ E), average_low by auto. rewrite Nat.sub_diag, iz_0. cbn [andb b2q].
      set (v := average _ _). lra.
  - destruct (IH ltac:(lia)) as [IL IA].
    assert (E : forall a, (b2q (generates (op1 a) (op2 a) (S n) g) * G a
      == part (fun b c => b2q (xorb b c)) (fun a => b2q (generates (op1 a) (op2 a) n g) * G a) (S n) a)%Q).
    { intro a. unfold part. rewrite generates_S by auto. destruct (generates _ _ _ _), (xorb _ _); cbn [andb b2q]; ring. }
    split.
    + intros a b Ha Hb. rewrite !E. apply low_part; auto.
    + rewrite (average_ext _ _ _ E), average_low by auto. replace (S n - g) with (S (n - g)) by lia. rewrite iz_S, <- IA. cbn [xorb b2q].
      set (v := average _ _). lra.
Qed.

Definition lost (k : nat) (x y : nat -> bool) : Q := inject_Z (number k (forgets restart P x y)).
Lemma lost_low k : low (fun a => lost k (op1 a) (op2 a)) k.
Proof.
  intros a b H1 H2. unfold lost. rewrite (number_ext k _ (forgets restart P (op1 b) (op2 b))); [reflexivity|].
  intros i Hi. apply forgets_ext; intros j Hj; [apply H1|apply H2]; lia.
Qed.
Lemma lost_average N k : k <= N -> (average (2 * N) (fun a => lost k (op1 a) (op2 a)) == (1#4) * (iz (prev k) - 1))%Q.
Proof.
  intro Hk. pose proof (average_loss N restart P k Hk) as A.
  rewrite (average_ext _ _ (fun a => 2 * lost k (op1 a) (op2 a))%Q) in A by (intro a; unfold lost; rewrite inject_Z_mult; reflexivity).
  rewrite average_scale in A. lra.
Qed.
(** the term that position [n] adds to the square *)
Definition gain (n : nat) (x y : nat -> bool) : Q :=
  if restart n then sumQ (map (fun g => b2q (generates x y n g) * (2 * iz n * lost g x y + iz n * iz n))%Q (seq (prev n) (n + 1 - P - prev n)))
  else 0%Q.
Lemma lost_step n x y : (lost (S n) x y * lost (S n) x y == lost n x y * lost n x y + gain n x y)%Q.
Proof.
  assert (E : (lost (S n) x y == lost n x y + iz n * b2q (forgets restart P x y n))%Q).
  { unfold lost. cbn [number]. rewrite inject_Z_plus, inject_Z_mult. unfold iz, pow2. destruct (forgets _ _ _ _ _); reflexivity. }
  rewrite E. unfold gain. destruct (forgets restart P x y n) eqn:F.
  - apply forgets_iff in F. destruct F as (HR & g & Hg & G). rewrite HR.
    assert (Q1 : lost n x y = lost g x y).
    { unfold lost. f_equal. apply number_skip; [lia|]. intros k Hk. apply (forgets_gap restart P x y n g); auto; lia. }
    rewrite (sum_one _ _ g).
    + rewrite G, Q1. cbn [b2q]. ring.
    + apply seq_NoDup.
    + apply in_seq. lia.
    + intros h Hh Hn. apply in_seq in Hh. destruct (generates x y n h) eqn:Gh; [|cbn [b2q]; ring].
      exfalso. apply Hn. apply (generates_unique x y n); auto; lia.
  - cbn [b2q]. destruct (restart n) eqn:HR; [|ring].
    assert (X : (sumQ (map (fun g => b2q (generates x y n g) * (2 * iz n * lost g x y + iz n * iz n))%Q (seq (prev n) (n + 1 - P - prev n))) == 0)%Q).
    { transitivity (sumQ (map (fun _ : nat => 0%Q) (seq (prev n) (n + 1 - P - prev n)))).
      - apply sumQ_map_ext. intros g Hg. apply in_seq in Hg. destruct (generates x y n g) eqn:G; [|cbn [b2q]; ring].
        exfalso. assert (F' : forgets restart P x y n = true) by (apply forgets_iff; split; auto; exists g; split; auto; lia). congruence.
      - generalize (seq (prev n) (n + 1 - P - prev n)). induction l as [|z l IL]; cbn [map]; rewrite ?sumQ_cons; [reflexivity|]. rewrite IL. reflexivity. }
    rewrite X. ring.
Qed.
Definition squares (N : nat) : Q :=
  sumQ (map (fun n => if restart n
    then sumQ (map (fun g => iz (n + g) + iz g * (iz (prev g) - 1) / 2)%Q (seq (prev n) (n + 1 - P - prev n)))
    else 0%Q) (seq 0 N)).
Lemma average_square N m : m <= N ->
  (average (2 * N) (fun a => 4 * (lost m (op1 a) (op2 a) * lost m (op1 a) (op2 a))) == squares m)%Q.
Proof.
  intro Hm. rewrite average_scale. induction m as [|m IH].
  - rewrite (average_ext _ _ (fun _ => 0)%Q) by (intro; reflexivity). rewrite average_const. reflexivity.
  - rewrite (average_ext _ _ _ (fun a => lost_step m (op1 a) (op2 a))). rewrite average_plus.
    unfold squares. rewrite seq_S, map_app, sumQ_app. cbn [map plus]. fold (squares m). rewrite sumQ_cons, sumQ_nil.
    assert (G : (4 * average (2 * N) (fun a => gain m (op1 a) (op2 a))
      == if restart m then sumQ (map (fun g => iz (m + g) + iz g * (iz (prev g) - 1) / 2)%Q (seq (prev m) (m + 1 - P - prev m))) else 0)%Q).
    { unfold gain. destruct (restart m); [|rewrite average_const; ring].
      rewrite (average_sum_list (2 * N) (fun g a => b2q (generates (op1 a) (op2 a) m g) * (2 * iz m * lost g (op1 a) (op2 a) + iz m * iz m))%Q).
      rewrite <- sumQ_scale. apply sumQ_map_ext. intros g Hg. apply in_seq in Hg. pose proof (prev_le restart P m).
      assert (HL : low (fun a => 2 * iz m * lost g (op1 a) (op2 a) + iz m * iz m)%Q g).
      { intros a b H1 H2. rewrite (lost_low g a b H1 H2). reflexivity. }
      pose proof (average_generates_low N m g _ HL ltac:(lia)) as A.
      rewrite average_plus, average_scale, average_const, lost_average in A by lia.
      cbv beta in A |- *. match goal with |- (4 * ?w == _)%Q => set (v := w) in * end. pose proof (iz_pos (m - g)) as Pm. pose proof (iz_pos g).
      assert (Y : (iz m == iz g * iz (m - g))%Q) by (rewrite <- iz_add; replace (g + (m - g)) with m by lia; reflexivity).
      assert (W : (4 * v == (v * (4 * iz (m - g))) / iz (m - g))%Q) by (field; lra).
      rewrite W, A, iz_add, Y. field. lra. }
    rewrite <- G. specialize (IH ltac:(lia)). rewrite <- IH. ring.
Qed.
End Square.

Section Mean.
Variable M : mgr.
Variable N P : nat.
Variable restart : nat -> bool.
Variables r s : list bdd.
Hypothesis HA : approximate_adder M N restart P r.
Hypothesis HR : regular_adder M N = Ok s.
Lemma mean_square : (average (2 * N) (fun a => inject_Z (dist (uval s a) (uval r a) * dist (uval s a) (uval r a))) == squares restart P N)%Q.
Proof.
  rewrite <- (average_square restart P N N) by auto. apply average_ext. intro a. rewrite (two_dist M N P restart r s HA HR).
  unfold lost. rewrite !inject_Z_mult. ring.
Qed.
Lemma two_mse : index_order M -> 2 * N <= 63 -> exists q, mean_squared_error_add M s r BaseTwo = Ok (Fin q) /\ (q == squares restart P N)%Q.
Proof.
  intros HM HN. destruct (two_facts _ _ _ _ _ _ HA HR) as (W1 & W2 & L1 & L2). destruct (two_below _ _ _ _ _ _ HA HR) as [B1 B2].
  destruct (mse_add_full M (2 * N) s r BaseTwo HM W2 W1 B2 B1 HN) as (q & E & V); [discriminate|rewrite L1, L2; lia|].
  exists q. split; auto. rewrite V. cbn [value]. apply mean_square.
Qed.
End Mean.

(** ** as stated *)
Lemma worst_flips_full M N P restart r s : approximate_adder M N restart P r -> regular_adder M N = Ok s -> (Z.of_nat N + 1 < 2 ^ 32)%Z ->
  worst_case_bit_flip_error M s r = Ok (Z.of_nat (length (filter (fun i => 0 <? before restart P i) (seq 0 (N + 1))))).
Proof. intros HA HR HN. exact (two_worst_flips M N P restart r s HA HR HN). Qed.
Lemma filter_count n : forall k, length (filter (fun i => k <=? i) (seq 0 n)) = n - k.
Proof.
  induction n as [|n IH]; intro k; [reflexivity|]. rewrite seq_S, filter_app, app_length, IH. cbn [plus filter].
  destruct (Nat.leb_spec k n); cbn [length]; lia.
Qed.
Lemma aca1_worst_flips M N Q r s : almost_correct_adder_1 M N Q = Ok r -> regular_adder M N = Ok s -> (Z.of_nat N + 1 < 2 ^ 32)%Z ->
  worst_case_bit_flip_error M s r = Ok (Z.of_nat (N + 1 - Q)).
Proof.
  intros HA HR HN. pose proof (aca1_range M N Q r HA) as HQ. rewrite (worst_flips_full M N _ _ r s (is_aca1 M N Q r HA) HR HN).
  do 2 f_equal. rewrite <- (filter_count (N + 1) Q). f_equal. apply filter_ext. intro i.
  assert (L : forall k, lookback (fun k => Q - 1 <=? k) (Q - 1) k = k + 1 - (Q - 1) \/ k < Q - 1 /\ lookback (fun k => Q - 1 <=? k) (Q - 1) k = 0).
  { intro k. destruct (Nat.leb_spec (Q - 1) k) as [H|H].
    - left. apply start_restart. now apply Nat.leb_le.
    - right. split; auto. apply lookback_none. intros j Hj. apply Nat.leb_gt. lia. }
  destruct i as [|i]; cbn [before].
  - destruct Q; [lia|reflexivity].
  - apply eq_true_iff_eq. rewrite Nat.ltb_lt, Nat.leb_le. destruct (L i) as [E|[E1 E2]]; lia.
Qed.

Lemma relative_full M N P restart r s : approximate_adder M N restart P r -> regular_adder M N = Ok s ->
  ((exists k, k < N /\ restart k = true /\ P <= k) -> is_maxQ (fun a => rel (uval s a) (uval r a)) 1)
  /\ ((forall k, k < N -> restart k = true -> k < P) -> forall a, uval r a = uval s a).
Proof.
  intros HA HR. split.
  - intros (k & H1 & H2 & H3). pose proof (largest_relative M N P restart r s HA HR) as L.
    assert (E : inexact N P restart = true); [|now rewrite E in L].
    unfold inexact. apply existsb_exists. exists k. split; [apply in_seq; lia|]. rewrite H2. now apply Nat.leb_le.
  - intros H a. pose proof (two_dist M N P restart r s HA HR a) as D.
    rewrite number_zero in D; [unfold dist in D; lia|]. intros k Hk. apply forgets_skip.
    destruct (restart k) eqn:E; auto. cbn [andb]. apply Nat.leb_gt. auto.
Qed.
Lemma relative_metrics M N P restart r s : approximate_adder M N restart P r -> regular_adder M N = Ok s ->
  (exists k, k < N /\ restart k = true /\ P <= k) ->
  (index_order M -> 2 * N <= 63 -> exists q, wcre_add M s r BaseTwo = Ok q /\ (q == 1)%Q)
  /\ (N < 256 -> exists lo hi, wcre_bounds M s r BaseTwo = Ok (lo, hi) /\ (1 # 2 <= lo <= 1)%Q /\ (1 <= hi <= 2)%Q).
Proof.
  intros HA HR HK. destruct (relative_full M N P restart r s HA HR) as [H _]. specialize (H HK).
  destruct (two_facts _ _ _ _ _ _ HA HR) as (W1 & W2 & L1 & L2). destruct (two_below _ _ _ _ _ _ HA HR) as [B1 B2]. split.
  - intros HM HN. destruct (two_wcre M N P restart r s HA HR HM HN) as (q & E & V). exists q. split; auto.
    assert (X : inexact N P restart = true); [|now rewrite X in V].
    destruct HK as (k & K1 & K2 & K3). unfold inexact. apply existsb_exists. exists k. split; [apply in_seq; lia|]. rewrite K2. now apply Nat.leb_le.
  - intro HN. assert (NE : s <> []) by (destruct s; [cbn in L2; lia|discriminate]).
    destruct (wcre_bounds_spec M (2 * N) s r BaseTwo W2 W1 B2 B1 NE) as (lo & hi & E & E1 & E2 & E3); [discriminate|lia|lia|].
    exists lo, hi. split; auto. destruct H as ((a & Ea) & H).
    assert (X1 : (lo <= 1)%Q) by (apply E3; intro b; rewrite wrel_base; apply H).
    assert (X2 : (1 <= hi)%Q) by (rewrite <- Ea, <- wrel_base; apply E2). lra.
Qed.

Lemma squares_full M N P restart r s : approximate_adder M N restart P r -> regular_adder M N = Ok s ->
  let mean := sumQ (map (fun k => if restart k
    then sumQ (map (fun g => inject_Z (2 ^ Z.of_nat (k + g))
                 + inject_Z (2 ^ Z.of_nat g) * (inject_Z (2 ^ Z.of_nat (before restart P g)) - 1) / 2)%Q
               (seq (before restart P k) (k + 1 - P - before restart P k)))
    else 0%Q) (seq 0 N)) in
  (average (2 * N) (fun a => inject_Z (dist (uval s a) (uval r a) * dist (uval s a) (uval r a))) == mean)%Q
  /\ (index_order M -> 2 * N <= 63 -> exists q, mean_squared_error_add M s r BaseTwo = Ok (Fin q) /\ (q == mean)%Q).
Proof.
  intros HA HR. cbv zeta. split.
  - exact (mean_square M N P restart r s HA HR).
  - exact (two_mse M N P restart r s HA HR).
Qed.
