(** Longer sub adders of the almost correct adder: squared and relative errors *)
From Coq Require Import List Bool Arith ZArith QArith Lia Lqa.
From Verif Require Import Res Cudd CuddFacts Spec SpecFacts SpecAdder SpecBounds Helpers HelpersFacts Examples Counting Metrics MetricsFacts
  MetricsFacts2 MetricsFacts3 MetricsFacts4 MetricsFacts5 MetricsFacts6 RelMetrics RelFacts RelFacts2 BoundsFacts CrossFacts
  AdderFacts AdderErrorFacts AdderErrorFacts2 AdderErrorFacts3 AdderErrorFacts5.
Import ListNotations.
Open Scope nat_scope.
Notation aca Q := (fun k => (Q - 1 <=? k)%nat).

(** ** the operands at one position *)
Definition put (k : nat) (b c : bool) (a : asg) : asg := upd (upd a (2 * k + 1) c) (2 * k) b.
Lemma op1_put k b c a j : op1 (put k b c a) j = if j =? k then b else op1 a j.
Proof.
  unfold op1, put, upd. destruct (Nat.eqb_spec j k) as [->|D].
  - now rewrite Nat.eqb_refl.
  - assert (2 * j =? 2 * k = false) as -> by (apply Nat.eqb_neq; lia).
    assert (2 * j =? 2 * k + 1 = false) as -> by (apply Nat.eqb_neq; lia). reflexivity.
Qed.
Lemma op2_put k b c a j : op2 (put k b c a) j = if j =? k then c else op2 a j.
Proof.
  unfold op2, put, upd. destruct (Nat.eqb_spec j k) as [->|D].
  - assert (2 * k + 1 =? 2 * k = false) as -> by (apply Nat.eqb_neq; lia). now rewrite Nat.eqb_refl.
  - assert (2 * j + 1 =? 2 * k = false) as -> by (apply Nat.eqb_neq; lia).
    assert (2 * j + 1 =? 2 * k + 1 = false) as -> by (apply Nat.eqb_neq; lia). reflexivity.
Qed.
Lemma pair_split N k F : extQ F -> k < N ->
  (average (2 * N) F == (1#4) * (average (2 * N) (fun a => F (put k true true a)) + average (2 * N) (fun a => F (put k true false a))
    + average (2 * N) (fun a => F (put k false true a)) + average (2 * N) (fun a => F (put k false false a))))%Q.
Proof.
  intros E Hk.
  assert (E1 : forall b, extQ (fun a => F (upd a (2 * k) b))) by (intros b a a' Haa; apply E; now apply upd_ext).
  rewrite (average_split (2 * N) (2 * k) F E) by lia.
  rewrite (average_split (2 * N) (2 * k + 1) _ (E1 true)), (average_split (2 * N) (2 * k + 1) _ (E1 false)) by lia.
  unfold put. ring.
Qed.
Lemma put_ext k b c a a' : (forall i, a i = a' i) -> forall i, put k b c a i = put k b c a' i.
Proof. intro H. unfold put. apply upd_ext, upd_ext, H. Qed.

(** the number with one bit set *)
Definition setb (x : nat -> bool) (k : nat) (b : bool) (j : nat) : bool := if j =? k then b else x j.
Lemma number_bit N x k b : k < N -> number N (setb x k b) = (number N (setb x k false) + 2 ^ Z.of_nat k * Z.b2z b)%Z.
Proof.
  intro H. unfold setb. induction N as [|N IH]; [lia|]. cbn [number]. destruct (Nat.eqb_spec N k) as [->|D].
  - rewrite (number_ext k (fun j => if (j =? k)%nat then b else x j) x), (number_ext k (fun j => if (j =? k)%nat then false else x j) x).
    + destruct b; cbn [Z.b2z]; lia.
    + intros i Hi. destruct (Nat.eqb_spec i k); [lia|reflexivity].
    + intros i Hi. destruct (Nat.eqb_spec i k); [lia|reflexivity].
  - rewrite IH by lia. lia.
Qed.
Definition total (N : nat) (a : asg) : Z := (number N (op1 a) + number N (op2 a))%Z.
Lemma total_ext N a a' : (forall i, a i = a' i) -> total N a = total N a'.
Proof. intro H. unfold total. f_equal; apply number_ext; intros i _; apply H. Qed.
Lemma total_put N k b c a : k < N -> total N (put k b c a) = (total N (put k false false a) + 2 ^ Z.of_nat k * (Z.b2z b + Z.b2z c))%Z.
Proof.
  intro H. unfold total.
  assert (X : forall b c, number N (op1 (put k b c a)) = number N (setb (op1 a) k b)
    /\ number N (op2 (put k b c a)) = number N (setb (op2 a) k c)).
  { intros b' c'. split; apply number_ext; intros i _; [apply op1_put|apply op2_put]. }
  destruct (X b c) as [-> ->]. destruct (X false false) as [-> ->].
  rewrite (number_bit N (op1 a) k b), (number_bit N (op2 a) k c) by auto. lia.
Qed.
Lemma total_nonneg N a : (0 <= total N a)%Z.
Proof. unfold total. pose proof (number_range N (op1 a)). pose proof (number_range N (op2 a)). lia. Qed.

(** ** a carry that travels further is lost less often, and for smaller sums *)
Definition denominator (h : Z -> Z) : Prop := forall u v, (1 <= u <= v)%Z -> (v <= 2 * u)%Z -> (0 < h u)%Z /\ (h v <= 3 * h u)%Z.
Definition weight (h : Z -> Z) (N k g : nat) (a : asg) : Q :=
  (b2q (generates (op1 a) (op2 a) k g) / inject_Z (h (Z.max 1 (total N a))))%Q.
Lemma generates_same x y x' y' k g : (forall j, x j = x' j) -> (forall j, y j = y' j) -> generates x y k g = generates x' y' k g.
Proof.
  intros H1 H2. apply eq_true_iff_eq. rewrite !generates_iff. split; intros (A & B & C); repeat split; try congruence; intros j Hj.
  - rewrite <- H1, <- H2. auto.
  - rewrite H1, H2. auto.
Qed.
Lemma weight_ext h N k g : extQ (weight h N k g).
Proof.
  intros a b H. unfold weight. rewrite (total_ext N a b H).
  rewrite (generates_same (op1 a) (op2 a) (op1 b) (op2 b)); [reflexivity| |]; intro j; apply H.
Qed.
Definition chain (k g : nat) (a : asg) : bool := forallb (fun j => xorb (op1 a j) (op2 a j)) (seq (S (S g)) (k - S g)).
Definition both (g : nat) (b c b' c' : bool) (a : asg) : asg := put g b c (put (S g) b' c' a).
Lemma chain_both k g b c b' c' a : chain k g (both g b c b' c' a) = chain k g a.
Proof.
  unfold chain. assert (X : forall j, S (S g) <= j -> xorb (op1 (both g b c b' c' a) j) (op2 (both g b c b' c' a) j) = xorb (op1 a j) (op2 a j)).
  { intros j Hj. unfold both. rewrite !op1_put, !op2_put. destruct (Nat.eqb_spec j g), (Nat.eqb_spec j (S g)); try lia. reflexivity. }
  apply eq_true_iff_eq. rewrite !forallb_forall. split; intros H j Hj; specialize (H j Hj); apply in_seq in Hj; rewrite X in * by lia; auto.
Qed.
Lemma bits_both g b c b' c' a : let z := both g b c b' c' a in op1 z g = b /\ op2 z g = c /\ op1 z (S g) = b' /\ op2 z (S g) = c'.
Proof.
  cbv zeta. unfold both. rewrite !op1_put, !op2_put, !Nat.eqb_refl. assert (S g =? g = false) as -> by (apply Nat.eqb_neq; lia). auto.
Qed.
Lemma first_both k g b c b' c' a : g < k ->
  generates (op1 (both g b c b' c' a)) (op2 (both g b c b' c' a)) k g = b && c && (xorb b' c' && chain k g a).
Proof.
  intro H. rewrite <- (chain_both k g b c b' c' a). destruct (bits_both g b c b' c' a) as (E1 & E2 & E3 & E4). unfold generates, chain.
  replace (k - g) with (S (k - S g)) by lia. cbn [seq forallb]. now rewrite E1, E2, E3, E4.
Qed.
Lemma second_both k g b c b' c' a : g < k ->
  generates (op1 (both g b c b' c' a)) (op2 (both g b c b' c' a)) k (S g) = b' && c' && chain k g a.
Proof.
  intro H. rewrite <- (chain_both k g b c b' c' a). destruct (bits_both g b c b' c' a) as (E1 & E2 & E3 & E4). unfold generates, chain.
  now rewrite E3, E4.
Qed.
Lemma total_both N g b c b' c' a : S g < N -> total N (both g b c b' c' a)
  = (total N (both g false false false false a) + 2 ^ Z.of_nat g * (Z.b2z b + Z.b2z c + 2 * (Z.b2z b' + Z.b2z c')))%Z.
Proof.
  intro H. unfold both. rewrite (total_put N g b c) by lia.
  assert (X : forall d e, total N (put g false false (put (S g) d e a)) = total N (put (S g) d e (put g false false a))).
  { intros d e. unfold total. f_equal; apply number_ext; intros i _; rewrite ?op1_put, ?op2_put; destruct (Nat.eqb_spec i g), (Nat.eqb_spec i (S g)); auto; lia. }
  rewrite !X, (total_put N (S g) b' c') by lia. rewrite Nat2Z.inj_succ, Z.pow_succ_r by lia. lia.
Qed.
Lemma both_split N g F : extQ F -> S g < N -> (average (2 * N) F == (1#16) * average (2 * N) (fun a =>
    F (both g true true true true a) + F (both g true false true true a) + F (both g false true true true a) + F (both g false false true true a)
  + (F (both g true true true false a) + F (both g true false true false a) + F (both g false true true false a) + F (both g false false true false a))
  + (F (both g true true false true a) + F (both g true false false true a) + F (both g false true false true a) + F (both g false false false true a))
  + (F (both g true true false false a) + F (both g true false false false a) + F (both g false true false false a) + F (both g false false false false a))))%Q.
Proof.
  intros E H. rewrite (pair_split N g F E) by lia.
  assert (E1 : forall b c, extQ (fun a => F (put g b c a))) by (intros b c a a' Haa; apply E; now apply put_ext).
  rewrite (pair_split N (S g) _ (E1 true true)), (pair_split N (S g) _ (E1 true false)), (pair_split N (S g) _ (E1 false true)),
    (pair_split N (S g) _ (E1 false false)) by lia.
  rewrite !average_plus. unfold both. ring.
Qed.
Lemma fractions p q t : (0 < p)%Z -> (0 < q)%Z -> (0 < t)%Z -> (q <= 3 * p)%Z -> (t <= 3 * p)%Z ->
  (2 / inject_Z p <= 1 / inject_Z p + 2 / inject_Z q + 1 / inject_Z t)%Q.
Proof.
  intros Hp Hq Ht H1 H2.
  assert (X : forall z, (0 < z)%Z -> (z <= 3 * p)%Z -> (1 / inject_Z p <= 3 * (1 / inject_Z z))%Q).
  { intros z Hz H. assert (P1 : (0 < inject_Z p)%Q) by (change 0%Q with (inject_Z 0); now rewrite <- Zlt_Qlt).
    assert (P2 : (0 < inject_Z z)%Q) by (change 0%Q with (inject_Z 0); now rewrite <- Zlt_Qlt).
    apply Qle_shift_div_r; auto. setoid_replace (3 * (1 / inject_Z z) * inject_Z p)%Q with ((3 * inject_Z p) / inject_Z z)%Q by (field; lra).
    apply Qle_shift_div_l; auto. rewrite Qmult_1_l. change 3%Q with (inject_Z 3). rewrite <- inject_Z_mult, <- Zle_Qle. auto. }
  pose proof (X q Hq H1) as A. pose proof (X t Ht H2) as B.
  setoid_replace (2 / inject_Z p)%Q with (2 * (1 / inject_Z p))%Q by (unfold Qdiv; ring).
  setoid_replace (2 / inject_Z q)%Q with (2 * (1 / inject_Z q))%Q by (unfold Qdiv; ring).
  set (u := (1 / inject_Z p)%Q) in *. set (v := (1 / inject_Z q)%Q) in *. set (w := (1 / inject_Z t)%Q) in *. clearbody u v w. lra.
Qed.
Lemma weight_step h N k g : denominator h -> g < k < N -> (average (2 * N) (weight h N k g) <= average (2 * N) (weight h N k (S g)))%Q.
Proof.
  intros Hh H. rewrite (both_split N g _ (weight_ext h N k g)), (both_split N g _ (weight_ext h N k (S g))) by lia.
  apply Qmult_le_l; [reflexivity|]. apply average_le. intro a. unfold weight.
  rewrite !first_both, !second_both by lia. cbn [andb xorb]. cbn [b2q].
  destruct (chain k g a); cbn [b2q andb xorb].
  2:{ unfold Qdiv. rewrite !Qmult_0_l. apply Qle_refl. }
  rewrite (total_both N g true true true false), (total_both N g true true false true), (total_both N g true true true true),
    (total_both N g true false true true), (total_both N g false true true true), (total_both N g false false true true) by lia.
  cbn [Z.b2z].
  pose proof (total_nonneg N (both g false false false false a)) as T0. set (T := total N (both g false false false false a)) in *.
  assert (P1 : (1 <= 2 ^ Z.of_nat g)%Z) by (pose proof (Z.pow_pos_nonneg 2 (Z.of_nat g)); lia). set (p := (2 ^ Z.of_nat g)%Z) in *.
  replace (T + p * (1 + 1 + 2 * (1 + 0)))%Z with (T + 4 * p)%Z by ring. replace (T + p * (1 + 1 + 2 * (0 + 1)))%Z with (T + 4 * p)%Z by ring.
  replace (T + p * (1 + 1 + 2 * (1 + 1)))%Z with (T + 6 * p)%Z by ring. replace (T + p * (1 + 0 + 2 * (1 + 1)))%Z with (T + 5 * p)%Z by ring.
  replace (T + p * (0 + 1 + 2 * (1 + 1)))%Z with (T + 5 * p)%Z by ring. replace (T + p * (0 + 0 + 2 * (1 + 1)))%Z with (T + 4 * p)%Z by ring.
  rewrite !Z.max_r by lia.
  pose proof (Hh (T + 4 * p) (T + 5 * p) ltac:(lia) ltac:(lia))%Z as [D1 D2].
  pose proof (Hh (T + 4 * p) (T + 6 * p) ltac:(lia) ltac:(lia))%Z as [_ D3].
  pose proof (Hh (T + 5 * p) (T + 5 * p) ltac:(lia) ltac:(lia))%Z as [D4 _].
  pose proof (Hh (T + 6 * p) (T + 6 * p) ltac:(lia) ltac:(lia))%Z as [D5 _].
  pose proof (fractions (h (T + 4 * p)) (h (T + 5 * p)) (h (T + 6 * p)) D1 D4 D5 D2 D3)%Z as F.
  unfold Qdiv in *. rewrite !Qmult_0_l. revert F. set (u := Qinv _). set (v := Qinv _). set (w := Qinv _). clearbody u v w. intro F. lra.
Qed.
Lemma weight_mono h N k g g' : denominator h -> g <= g' <= k -> k < N -> (average (2 * N) (weight h N k g) <= average (2 * N) (weight h N k g'))%Q.
Proof.
  intros Hh [H1 H2] H3. induction H1 as [|g' L IH]; [apply Qle_refl|].
  apply Qle_trans with (average (2 * N) (weight h N k g')); [apply IH; lia|]. apply weight_step; auto.
Qed.

(** ** the average loss, divided by a function of the sum *)
Lemma lost_weight h N Q a : 0 < Q ->
  (inject_Z (2 * number N (forgets (aca Q) (Q - 1) (op1 a) (op2 a))) / inject_Z (h (Z.max 1 (total N a)))
   == sumQ (map (fun k => if (Q - 1 <=? k)%nat then 2 * iz k * weight h N k (k + 1 - Q) a else 0) (seq 0 N)))%Q.
Proof.
  intro HQ. unfold weight. set (d := inject_Z (h (Z.max 1 (total N a)))). clearbody d. generalize N. clear N. intro m.
  induction m as [|m IH].
  - cbn [number seq map]. rewrite sumQ_nil. change (inject_Z (2 * 0)) with 0%Q. unfold Qdiv. ring.
  - rewrite seq_S, map_app, sumQ_app. cbn [map Nat.add]. rewrite sumQ_cons, sumQ_nil, <- IH. cbn [number].
    rewrite Z.mul_add_distr_l, inject_Z_plus, !inject_Z_mult. fold (pow2 m). fold (iz m).
    pose proof (aca_forgets Q (op1 a) (op2 a) m HQ) as F. change (inject_Z 2) with 2%Q.
    destruct (forgets (aca Q) (Q - 1) (op1 a) (op2 a) m).
    + destruct F as [F _]. destruct (F eq_refl) as [F1 F2]. rewrite F2. assert (Q - 1 <=? m = true) as -> by (apply Nat.leb_le; lia).
      cbn [Z.b2z b2q]. change (inject_Z 1) with 1%Q. unfold Qdiv. ring.
    + destruct F as [_ F]. cbn [Z.b2z]. change (inject_Z 0) with 0%Q. destruct (Nat.leb_spec (Q - 1) m) as [L|L]; [|unfold Qdiv; ring].
      destruct (generates (op1 a) (op2 a) m (m + 1 - Q)) eqn:G; [|cbn [b2q]; unfold Qdiv; ring].
      assert (false = true) by (apply F; split; [lia|auto]). discriminate.
Qed.
Lemma loss_mono h N Q R : denominator h -> 0 < Q <= R ->
  (average (2 * N) (fun a => inject_Z (2 * number N (forgets (aca R) (R - 1) (op1 a) (op2 a))) / inject_Z (h (Z.max 1 (total N a))))
   <= average (2 * N) (fun a => inject_Z (2 * number N (forgets (aca Q) (Q - 1) (op1 a) (op2 a))) / inject_Z (h (Z.max 1 (total N a)))))%Q.
Proof.
  intros Hh HQ. rewrite (average_ext _ _ _ (fun a => lost_weight h N R a ltac:(lia))), (average_ext _ _ _ (fun a => lost_weight h N Q a ltac:(lia))).
  rewrite !(average_sum_list (2 * N) (fun k a => if (_ <=? k)%nat then _ else 0%Q)).
  apply sumQ_le. intros k Hk. apply in_seq in Hk. pose proof (iz_pos k) as I.
  destruct (Nat.leb_spec (Q - 1) k) as [L|L], (Nat.leb_spec (R - 1) k) as [L'|L']; try lia.
  - rewrite !average_scale. apply Qmult_le_l; [lra|]. apply weight_mono; auto; lia.
  - rewrite average_const. apply average_nonneg. intro a. unfold weight. apply Qmult_le_0_compat; [lra|].
    pose proof (Hh (Z.max 1 (total N a)) (Z.max 1 (total N a)) ltac:(lia) ltac:(lia)) as [D _].
    unfold Qdiv. apply Qmult_le_0_compat; [destruct (generates _ _ _ _); cbn [b2q]; lra|]. apply Qinv_le_0_compat.
    change 0%Q with (inject_Z 0). rewrite <- Zle_Qle. lia.
  - apply Qle_refl.
Qed.

(** ** as stated *)
Lemma denominator_id : denominator (fun x => x).
Proof. intros u v H1 H2. lia. Qed.
Lemma log2_double u v : (1 <= u <= v)%Z -> (v <= 2 * u)%Z -> (Z.log2 v <= Z.log2 u + 1)%Z.
Proof. intros H1 H2. apply Z.log2_le_mono in H2. rewrite Z.log2_double in H2 by lia. lia. Qed.
Lemma denominator_below : denominator pow2_below.
Proof.
  intros u v H1 H2. pose proof (log2_double u v H1 H2). pose proof (Z.log2_nonneg u). unfold pow2_below.
  pose proof (Z.pow_pos_nonneg 2 (Z.log2 u) ltac:(lia) ltac:(lia)). split; auto.
  pose proof (Z.pow_le_mono_r 2 (Z.log2 v) (Z.log2 u + 1) ltac:(lia) ltac:(lia)) as K. rewrite Z.pow_add_r in K by lia. lia.
Qed.
Lemma denominator_ones : denominator all_ones.
Proof.
  intros u v H1 H2. pose proof (log2_double u v H1 H2). pose proof (Z.log2_nonneg u). unfold all_ones, pow2_below.
  pose proof (Z.pow_pos_nonneg 2 (Z.log2 u) ltac:(lia) ltac:(lia)).
  pose proof (Z.pow_le_mono_r 2 (Z.log2 v) (Z.log2 u + 1) ltac:(lia) ltac:(lia)) as K. rewrite Z.pow_add_r in K by lia.
  destruct (Z.ltb_spec (Z.log2 u) 53), (Z.ltb_spec (Z.log2 v) 53); split; try lia.
  assert (Z.log2 u = 52)%Z as E by lia. rewrite E in *. lia.
Qed.
Lemma aca1_squares M N Q R r r' s : almost_correct_adder_1 M N Q = Ok r -> almost_correct_adder_1 M N R = Ok r' ->
  regular_adder M N = Ok s -> Q <= R -> (squares (aca R) (R - 1) N <= squares (aca Q) (Q - 1) N)%Q.
Proof.
  intros E E' HS H. pose proof (aca1_range _ _ _ _ E) as RQ. pose proof (aca1_range _ _ _ _ E') as RR.
  assert (B : forall T j, 0 < T -> before (aca T) (T - 1) j = j - (T - 1)).
  { intros T j HT. destruct j as [|j]; [reflexivity|]. cbn [before]. pose proof (aca1_start T (S j) HT ltac:(lia)) as AS.
    replace (S j - 1) with j in AS by lia. exact AS. }
  assert (X : forall T k, 0 < T -> T - 1 <= k ->
    (sumQ (map (fun g => iz (k + g) + iz g * (iz (before (aca T) (T - 1) g) - 1) / 2)
      (seq (before (aca T) (T - 1) k) (k + 1 - (T - 1) - before (aca T) (T - 1) k)))
     == iz (k + (k + 1 - T)) + iz (k + 1 - T) * (iz (k + 1 - T - (T - 1)) - 1) / 2)%Q).
  { intros T k HT L. rewrite (B T k) by auto. replace (k + 1 - (T - 1) - (k - (T - 1))) with 1 by lia. cbn [seq map].
    rewrite sumQ_cons, sumQ_nil, B by auto. replace (k + 1 - T) with (k - (T - 1)) by lia. ring. }
  assert (I : forall i j, i <= j -> (1 <= iz i <= iz j)%Q).
  { intros i j L. unfold iz, pow2. change 1%Q with (inject_Z 1). rewrite <- !Zle_Qle. split.
    - pose proof (Z.pow_pos_nonneg 2 (Z.of_nat i)). lia.
    - apply Z.pow_le_mono_r; lia. }
  unfold squares. apply sumQ_le. intros k Hk. apply in_seq in Hk.
  destruct (Nat.leb_spec (Q - 1) k) as [L|L], (Nat.leb_spec (R - 1) k) as [L'|L']; try lia; [| |apply Qle_refl].
  - rewrite (X Q k), (X R k) by lia.
    pose proof (I (k + (k + 1 - R)) (k + (k + 1 - Q)) ltac:(lia)) as I1. pose proof (I (k + 1 - R) (k + 1 - Q) ltac:(lia)) as I2.
    pose proof (I (k + 1 - R - (R - 1)) (k + 1 - Q - (Q - 1)) ltac:(lia)) as I3.
    apply Qplus_le_compat; [apply I1|]. unfold Qdiv. apply Qmult_le_compat_r; [|now compute].
    apply Qle_trans with (iz (k + 1 - R) * (iz (k + 1 - Q - (Q - 1)) - 1))%Q.
    + apply Qmult_le_l; lra.
    + apply Qmult_le_compat_r; lra.
  - rewrite (X Q k) by lia. pose proof (I (k + (k + 1 - Q)) (k + (k + 1 - Q)) ltac:(lia)) as I1.
    pose proof (I (k + 1 - Q) (k + 1 - Q) ltac:(lia)) as I2. pose proof (I (k + 1 - Q - (Q - 1)) (k + 1 - Q - (Q - 1)) ltac:(lia)) as I3.
    assert (0 <= iz (k + 1 - Q) * (iz (k + 1 - Q - (Q - 1)) - 1) / 2)%Q; [|lra].
    unfold Qdiv. apply Qmult_le_0_compat; [apply Qmult_le_0_compat; lra|now compute].
Qed.

Section Better.
Variables (M : mgr) (N Q R : nat) (r r' s : list bdd).
Hypothesis E : almost_correct_adder_1 M N Q = Ok r.
Hypothesis E' : almost_correct_adder_1 M N R = Ok r'.
Hypothesis HS : regular_adder M N = Ok s.
Hypothesis H : Q <= R.
Notation mean F := (average (2 * N) F).
Lemma better_mean h : denominator h ->
  (mean (fun a => inject_Z (dist (uval s a) (uval r' a)) / inject_Z (h (Z.max 1 (Z.abs (uval s a)))))
   <= mean (fun a => inject_Z (dist (uval s a) (uval r a)) / inject_Z (h (Z.max 1 (Z.abs (uval s a))))))%Q.
Proof.
  intro Hh. pose proof (aca1_range _ _ _ _ E) as RQ.
  pose proof (is_aca1 M N Q r E) as A. pose proof (is_aca1 M N R r' E') as A'. destruct (regular_value _ _ _ HS) as (_ & _ & V).
  assert (T : forall a, uval s a = total N a) by (intro a; apply V).
  pose proof (loss_mono h N Q R Hh ltac:(lia)) as L.
  rewrite (average_ext _ (fun a => inject_Z (dist (uval s a) (uval r' a)) / inject_Z (h (Z.max 1 (Z.abs (uval s a)))))%Q
    (fun a => inject_Z (2 * number N (forgets (aca R) (R - 1) (op1 a) (op2 a))) / inject_Z (h (Z.max 1 (total N a))))%Q).
  2:{ intro a. rewrite (two_dist M N _ _ r' s A' HS), T, Z.abs_eq by apply total_nonneg. reflexivity. }
  rewrite (average_ext _ (fun a => inject_Z (dist (uval s a) (uval r a)) / inject_Z (h (Z.max 1 (Z.abs (uval s a)))))%Q
    (fun a => inject_Z (2 * number N (forgets (aca Q) (Q - 1) (op1 a) (op2 a))) / inject_Z (h (Z.max 1 (total N a))))%Q).
  2:{ intro a. rewrite (two_dist M N _ _ r s A HS), T, Z.abs_eq by apply total_nonneg. reflexivity. }
  exact L.
Qed.
Lemma better_means :
  (mean (fun a => inject_Z (dist (uval s a) (uval r' a) * dist (uval s a) (uval r' a)))
   <= mean (fun a => inject_Z (dist (uval s a) (uval r a) * dist (uval s a) (uval r a))))%Q
  /\ (mean (fun a => rel (uval s a) (uval r' a)) <= mean (fun a => rel (uval s a) (uval r a)))%Q
  /\ (mean (low_rel BaseTwo s r') <= mean (low_rel BaseTwo s r))%Q
  /\ (mean (high_rel BaseTwo s r') <= mean (high_rel BaseTwo s r))%Q
  /\ is_maxQ (fun a => rel (uval s a) (uval r' a)) 1 /\ is_maxQ (fun a => rel (uval s a) (uval r a)) 1.
Proof.
  pose proof (aca1_range _ _ _ _ E) as RQ. pose proof (aca1_range _ _ _ _ E') as RR.
  pose proof (is_aca1 M N Q r E) as A. pose proof (is_aca1 M N R r' E') as A'.
  split; [|split; [|split; [|split; [|split]]]].
  - rewrite (mean_square M N _ _ r s A HS), (mean_square M N _ _ r' s A' HS). exact (aca1_squares M N Q R r r' s E E' HS H).
  - exact (better_mean _ denominator_id).
  - exact (better_mean _ denominator_ones).
  - exact (better_mean _ denominator_below).
  - destruct (relative_full M N _ _ r' s A' HS) as [X _]. apply X. exists (R - 1). split; [lia|]. split; [apply Nat.leb_refl|lia].
  - destruct (relative_full M N _ _ r s A HS) as [X _]. apply X. exists (Q - 1). split; [lia|]. split; [apply Nat.leb_refl|lia].
Qed.
Lemma better_metrics :
  ((Z.of_nat N + 1 < 2 ^ 32)%Z -> exists p q, worst_case_bit_flip_error M s r' = Ok p /\ worst_case_bit_flip_error M s r = Ok q
     /\ (q - p = Z.of_nat (R - Q))%Z)
  /\ (index_order M -> 2 * N <= 63 ->
       (exists p q, mean_squared_error_add M s r' BaseTwo = Ok (Fin p) /\ mean_squared_error_add M s r BaseTwo = Ok (Fin q) /\ (p <= q)%Q)
       /\ (exists p q, acre_add M s r' BaseTwo = Ok (Fin p) /\ acre_add M s r BaseTwo = Ok (Fin q) /\ (p <= q)%Q))
  /\ (3 * N + 1 < 256 -> exists lo hi lo' hi', acre_bounds M s r' BaseTwo = Ok (Fin lo', Fin hi')
       /\ acre_bounds M s r BaseTwo = Ok (Fin lo, Fin hi) /\ (lo' <= lo)%Q /\ (hi' <= hi)%Q).
Proof.
  pose proof (aca1_range _ _ _ _ E) as RQ. pose proof (aca1_range _ _ _ _ E') as RR.
  pose proof (is_aca1 M N Q r E) as A. pose proof (is_aca1 M N R r' E') as A'.
  destruct better_means as (B1 & B2 & B3 & B4 & _).
  destruct (two_facts M N _ _ r s A HS) as (W1 & W2 & L1 & L2). destruct (two_facts M N _ _ r' s A' HS) as (W1' & _ & L1' & _).
  destruct (two_below M N _ _ r s A HS) as [C1 C2]. destruct (two_below M N _ _ r' s A' HS) as [C1' _].
  split; [|split].
  - intro HN. exists (Z.of_nat (N + 1 - R)), (Z.of_nat (N + 1 - Q)).
    split; [now apply aca1_worst_flips|]. split; [now apply aca1_worst_flips|]. lia.
  - intros HI HN. split.
    + destruct (two_mse M N _ _ r s A HS HI HN) as (q & F1 & F2). destruct (two_mse M N _ _ r' s A' HS HI HN) as (p & G1 & G2).
      exists p, q. repeat split; auto. rewrite F2, G2. exact (aca1_squares M N Q R r r' s E E' HS H).
    + destruct (acre_add_spec M (2 * N) s r BaseTwo HI W2 W1 C2 C1 HN) as (q & F1 & F2); [discriminate|].
      destruct (acre_add_spec M (2 * N) s r' BaseTwo HI W2 W1' C2 C1' HN) as (p & G1 & G2); [discriminate|].
      exists p, q. repeat split; auto. rewrite F2, G2. exact B2.
  - intro HN. assert (NE : s <> []) by (intros ->; cbn in L2; lia).
    destruct (acre_bounds_exact M (2 * N) s r BaseTwo W2 W1 C2 C1 NE) as (lo & hi & F1 & F2 & F3); [discriminate|lia|].
    destruct (acre_bounds_exact M (2 * N) s r' BaseTwo W2 W1' C2 C1' NE) as (lo' & hi' & G1 & G2 & G3); [discriminate|lia|].
    exists lo, hi, lo', hi'. split; auto. split; auto. rewrite F2, F3, G2, G3. auto.
Qed.
End Better.
