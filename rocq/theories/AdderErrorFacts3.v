(** Proofs about the error metrics of the approximate adders *)
From Coq Require Import List Bool Arith ZArith QArith Lia Lqa.
From Verif Require Import Res Cudd CuddFacts Spec SpecFacts SpecAdder Helpers HelpersFacts Examples AdderFacts AdderErrorFacts AdderErrorFacts2
  Counting Metrics MetricsFacts MetricsFacts2 MetricsFacts3 MetricsFacts4 MetricsFacts5 MetricsFacts6 CrossFacts.
Import ListNotations.
Open Scope nat_scope.

Lemma adder_value M N restart P r : approximate_adder M N restart P r -> forall a,
  (uval r a = number N (op1 a) + number N (op2 a) - 2 * number N (forgets restart P (op1 a) (op2 a)))%Z.
Proof.
  intros H a. apply adder_cut in H. destruct H as (_ & _ & L & V). rewrite uval_number, L, Nat.add_1_r.
  rewrite (number_ext (S N) _ (cut_bit (op1 a) (op2 a) (lookback restart P) N)) by (intros i Hi; apply V; lia).
  pose proof (cut_loss_value restart P (op1 a) (op2 a) N). lia.
Qed.
Lemma regular_value M N s : regular_adder M N = Ok s -> wfs M s /\ length s = N + 1
  /\ forall a, uval s a = (number N (op1 a) + number N (op2 a))%Z.
Proof. intro E. destruct (regular_ok M N) as (s' & E' & H). rewrite E in E'. injection E' as <-. exact H. Qed.

Section Two.
Variable M : mgr.
Variable N P : nat.
Variable restart : nat -> bool.
Variables r s : list bdd.
Hypothesis HA : approximate_adder M N restart P r.
Hypothesis HR : regular_adder M N = Ok s.

Lemma two_facts : wfs M r /\ wfs M s /\ length r = N + 1 /\ length s = N + 1.
Proof. destruct (adder_cut _ _ _ _ _ HA) as (_ & W & L & _). destruct (regular_value _ _ _ HR) as (W' & L' & _). auto. Qed.
Lemma two_dist a : dist (uval s a) (uval r a) = (2 * number N (forgets restart P (op1 a) (op2 a)))%Z.
Proof.
  destruct (regular_value _ _ _ HR) as (_ & _ & V). rewrite V, (adder_value _ _ _ _ _ HA).
  pose proof (number_range N (forgets restart P (op1 a) (op2 a))). unfold dist. lia.
Qed.
Lemma operands_below a b : (forall i, i < 2 * N -> a i = b i) -> (forall i, i < N -> op1 a i = op1 b i) /\ (forall i, i < N -> op2 a i = op2 b i).
Proof. intro H. split; intros i Hi; apply H; lia. Qed.
Lemma two_below : below (2 * N) r /\ below (2 * N) s.
Proof.
  split; apply below_of_uval; intros a b H; destruct (operands_below a b H) as [H1 H2].
  - rewrite !(adder_value _ _ _ _ _ HA). rewrite (number_ext N _ _ H1), (number_ext N _ _ H2).
    rewrite (number_ext N (forgets restart P (op1 a) (op2 a)) (forgets restart P (op1 b) (op2 b))); auto.
    intros i Hi. apply forgets_ext; intros j Hj; [apply H1|apply H2]; lia.
  - destruct (regular_value _ _ _ HR) as (_ & _ & V). rewrite !V. now rewrite (number_ext N _ _ H1), (number_ext N _ _ H2).
Qed.

Lemma two_ace : 3 * N + 1 < 256 -> exists q, average_case_error M s r BaseTwo = Ok (Fin q)
  /\ (q == (inject_Z (2 ^ Z.of_nat (lookback restart P (N - 1))) - 1) / 2)%Q.
Proof.
  intro HN. destruct two_facts as (W1 & W2 & L1 & L2). destruct two_below as [B1 B2].
  destruct (ace_full M (2 * N) s r W2 W1 B2 B1) as [(q & _ & _ & E & V & _) _]; [rewrite L1, L2; lia|].
  exists q. split; auto. rewrite V.
  rewrite (average_ext _ _ (fun a => inject_Z (2 * number N (forgets restart P (op1 a) (op2 a))))) by (intro; rewrite two_dist; reflexivity).
  rewrite average_loss by auto. destruct (adder_cut _ _ _ _ _ HA) as (H0 & _). destruct N as [|n]; [lia|].
  cbn [before]. replace (S n - 1) with n by lia. unfold iz, pow2. field.
Qed.

Lemma two_wce : N < 256 -> worst_case_error M s r BaseTwo = Ok (2 * hd 0 (largest_losses restart P N))%Z.
Proof.
  intro HN. destruct two_facts as (W1 & W2 & L1 & L2).
  destruct (wce_base_full M s r r W2 W1 W1 ltac:(lia) ltac:(lia) ltac:(lia)) as (m & E & V & _). rewrite E. f_equal.
  apply (is_max_unique (fun a => dist (uval s a) (uval r a))); auto. split.
  - destruct (loss_attained restart P N) as (x & y & H).
    exists (fun i => if Nat.even i then x (i / 2) else y (i / 2)). rewrite two_dist.
    rewrite (number_ext N _ (forgets restart P x y)); [now rewrite H|].
    intros i Hi. apply forgets_ext; intros j Hj.
    + unfold op1. replace (Nat.even (2 * j)) with true by (symmetry; apply Nat.even_spec; exists j; lia).
      f_equal. rewrite Nat.mul_comm. apply Nat.div_mul. lia.
    + unfold op2. replace (Nat.even (2 * j + 1)) with false.
      * f_equal. rewrite Nat.mul_comm, Nat.div_add_l by lia. change (1 / 2) with 0. lia.
      * symmetry. rewrite Nat.add_1_r, Nat.even_succ, <- Nat.negb_even. apply negb_false_iff, Nat.even_spec. exists j. lia.
  - intro a. cbn beta. rewrite two_dist. pose proof (loss_bound restart P N (op1 a) (op2 a)) as B. unfold loss in B. lia.
Qed.

Lemma two_differ a : differ s r a = negb (quiet restart P N (op1 a) (op2 a)).
Proof.
  destruct two_facts as (W1 & W2 & L1 & L2). rewrite differ_uval by lia. f_equal. rewrite quiet_number.
  pose proof (two_dist a) as D. unfold dist in D. apply eq_true_iff_eq. rewrite !Z.eqb_eq. lia.
Qed.
Lemma two_rate : exists q, error_rate M s r = Ok q
  /\ (q == 1 - inject_Z (hd 0%Z (exact_pairs restart P N)) / inject_Z (4 ^ Z.of_nat N))%Q.
Proof.
  destruct two_facts as (W1 & W2 & L1 & L2). destruct two_below as [B1 B2].
  destruct (error_rate_full M (2 * N) s r W2 W1 B2 B1) as [H _]. destruct (H ltac:(lia)) as (q & E & V & _).
  exists q. split; auto. rewrite V.
  rewrite (average_ext _ _ (fun a => 1 + (-1) * b2q (quiet restart P N (op1 a) (op2 a)))%Q)
    by (intro a; rewrite two_differ; destruct (quiet _ _ _ _ _); reflexivity).
  rewrite average_plus, average_const, average_scale.
  pose proof (quiet_average restart P N N (Nat.le_refl N)) as A. unfold pairs in A. rewrite <- A.
  assert (X : (inject_Z (4 ^ Z.of_nat N) == iz (2 * N))%Q).
  { unfold iz, pow2. rewrite Nat2Z.inj_mul, Z.pow_mul_r by lia. reflexivity. }
  rewrite X. pose proof (iz_pos (2 * N)). field. lra.
Qed.

Lemma hamming_sum f g a : length f = length g ->
  (inject_Z (hamming f g a) == sumQ (map (fun i => b2q (xorb (ev (nth i f bzero) a) (ev (nth i g bzero) a))) (seq 0 (length f))))%Q.
Proof.
  revert g. induction f as [|x f IH]; intros [|y g] L; try discriminate; [reflexivity|].
  cbn [hamming length seq map]. rewrite sumQ_cons, inject_Z_plus, <- seq_shift, map_map. cbn [nth]. rewrite (IH g) by (cbn in L; lia).
  destruct (xorb _ _); reflexivity.
Qed.
Lemma two_flip a i : i <= N -> (b2q (xorb (ev (nth i s bzero) a) (ev (nth i r bzero) a))
  == b2q (cf (op1 a) (op2 a) 0 i) + (-1) * b2q (cf (op1 a) (op2 a) (before restart P i) i))%Q.
Proof.
  intro Hi. destruct (adder_cut _ _ _ _ _ HA) as (_ & _ & _ & V). rewrite V by auto.
  assert (X : ev (nth i s bzero) a = sum_bit N (op1 a) (op2 a) i).
  { destruct (regular_value _ _ _ HR) as (_ & L & U). rewrite <- exact_testbit by auto. rewrite <- U, uval_number, L, number_testbit by lia. reflexivity. }
  rewrite X. unfold sum_bit, cut_bit.
  assert (C : cin (op1 a) (op2 a) (lookback restart P) i = cf (op1 a) (op2 a) (before restart P i) i) by (destruct i; reflexivity).
  rewrite C. pose proof (cf_mono (op1 a) (op2 a) (before restart P i) 0 i ltac:(lia)) as K.
  destruct (if i <? N then _ else _), (cf (op1 a) (op2 a) 0 i), (cf (op1 a) (op2 a) (before restart P i) i);
    try reflexivity; specialize (K eq_refl); discriminate.
Qed.
Lemma two_flips : exists q, average_bit_flip_error M s r = Ok q
  /\ (q == sumQ (map (fun i => (inject_Z (2 ^ Z.of_nat (before restart P i)) - 1) / inject_Z (2 ^ Z.of_nat (i + 1))) (seq 0 (N + 1))))%Q.
Proof.
  destruct two_facts as (W1 & W2 & L1 & L2). destruct two_below as [B1 B2].
  destruct (average_bit_flip_full M (2 * N) s r W2 W1 B2 B1) as [H _]. destruct (H ltac:(lia)) as (q & E & V).
  exists q. split; auto. rewrite V.
  rewrite (average_ext _ _ _ (fun a => hamming_sum s r a ltac:(lia))).
  rewrite (average_sum_list (2 * N) (fun i a => b2q (xorb (ev (nth i s bzero) a) (ev (nth i r bzero) a)))).
  rewrite L2. apply sumQ_map_ext. intros i Hi. apply in_seq in Hi.
  rewrite (average_ext _ _ _ (fun a => two_flip a i ltac:(lia))). rewrite average_plus, average_scale.
  pose proof (prev_le restart P i) as PL.
  pose proof (carry_density N 0 i ltac:(lia)) as D1. pose proof (carry_density N (before restart P i) i ltac:(lia)) as D2.
  set (B := average _ _) in D1 |- *. set (C := average _ _) in D2 |- *. rewrite iz_0 in D1.
  change (inject_Z (2 ^ Z.of_nat (before restart P i))) with (iz (before restart P i)).
  change (inject_Z (2 ^ Z.of_nat (i + 1))) with (iz (i + 1)). rewrite Nat.add_1_r, iz_S. pose proof (iz_pos i).
  assert (X : ((B + -1 * C) * iz i == (1#2) * (iz (before restart P i) - 1))%Q) by lra.
  assert (Y : (B + -1 * C == ((B + -1 * C) * iz i) / iz i)%Q) by (field; lra).
  rewrite Y, X. field. lra.
Qed.
End Two.

(** ** closed forms *)
Lemma lookback_last restart P k : forall m, k <= m -> restart k = true -> (forall j, k < j <= m -> restart j = false) ->
  lookback restart P m = k + 1 - P.
Proof.
  induction 1 as [|m L IH]; intros HR HN.
  - destruct k; cbn [lookback]; rewrite HR; reflexivity.
  - cbn [lookback]. rewrite HN by lia. apply IH; auto. intros j Hj. apply HN. lia.
Qed.
Lemma lookback_none restart P m : (forall j, j <= m -> restart j = false) -> lookback restart P m = 0.
Proof. intro H. apply lookback_zero. intros j Hj E. rewrite H in E by auto. discriminate. Qed.

Lemma aca1_range M N Q r : almost_correct_adder_1 M N Q = Ok r -> 0 < Q <= N.
Proof. intro E. assert (D : 0 < Q <= N \/ ~ 0 < Q <= N) by lia. destruct D as [H|H]; auto. rewrite aca1_bad in E by auto. discriminate. Qed.
Lemma aca1_ace M N Q r s : almost_correct_adder_1 M N Q = Ok r -> regular_adder M N = Ok s -> 3 * N + 1 < 256 ->
  exists q, average_case_error M s r BaseTwo = Ok (Fin q) /\ (q == (inject_Z (2 ^ Z.of_nat (N + 1 - Q)) - 1) / 2)%Q.
Proof.
  intros E E' H. pose proof (aca1_range _ _ _ _ E). destruct (two_ace M N (Q - 1) _ r s (is_aca1 M N Q r E) E' H) as (q & A & V).
  exists q. split; auto. rewrite V. change (lookback _ (Q - 1) (N - 1)) with (lookback (aca1_restart Q) (Q - 1) (N - 1)). rewrite (aca1_start Q N) by lia. replace (N - (Q - 1)) with (N + 1 - Q) by lia. reflexivity.
Qed.
Lemma gda_ace M N p P r s : gracefully_degrading_adder M N p P = Ok r -> regular_adder M N = Ok s -> 3 * N + 1 < 256 ->
  1 < p -> N mod p = 0 -> 2 < N ->
  exists q, average_case_error M s r BaseTwo = Ok (Fin q) /\ (q == (inject_Z (2 ^ Z.of_nat (N - N / p - P)) - 1) / 2)%Q.
Proof.
  intros E E' H Hp Hd HN. destruct (two_ace M N P _ r s (is_gda M N p P r E) E' H) as (q & A & V).
  exists q. split; auto. rewrite V. set (d := N / p) in *.
  assert (Dp : N = p * d) by (unfold d; pose proof (Nat.div_mod N p); lia).
  assert (0 < d) by (destruct d; lia). assert (2 <= N - d) by nia.
  rewrite (lookback_last _ P (N - d - 1) (N - 1)); try lia.
  - replace (N - d - 1 + 1 - P) with (N - d - P) by lia. reflexivity.
  - unfold block_end. replace (N - d - 1 + 1) with ((p - 1) * d) by nia. rewrite Nat.mod_mul by lia.
    assert (N - d - 1 =? 0 = false) as -> by (apply Nat.eqb_neq; lia). assert ((p - 1) * d =? N = false) as -> by (apply Nat.eqb_neq; nia). reflexivity.
  - intros j Hj. unfold block_end. destruct (Nat.eqb_spec (j + 1) N) as [Ej|Ej]; [now rewrite andb_false_r|].
    assert ((j + 1) mod d =? 0 = false) as ->; [|now rewrite andb_false_r].
    apply Nat.eqb_neq. replace (j + 1) with (j + 1 - (p - 1) * d + (p - 1) * d) by nia. rewrite Nat.mod_add by lia. rewrite Nat.mod_small by nia. nia.
Qed.
Lemma gear_ace M N R P r s : generic_accuracy_reconfigurable_adder M N R P = Ok r -> regular_adder M N = Ok s -> 3 * N + 1 < 256 ->
  0 < R -> R + P <= N -> (N - P) mod R = 0 ->
  exists q, average_case_error M s r BaseTwo = Ok (Fin q) /\ (q == (inject_Z (2 ^ Z.of_nat (N - R - P)) - 1) / 2)%Q.
Proof.
  intros E E' H HR HN Hd. destruct (two_ace M N P _ r s (is_gear M N R P r E) E' H) as (q & A & V).
  exists q. split; auto. rewrite V.
  assert (Dp : exists m, N = P + (m + 1) * R).
  { exists ((N - P) / R - 1). pose proof (Nat.div_mod (N - P) R ltac:(lia)). assert (1 <= (N - P) / R) by (apply Nat.div_le_lower_bound; lia). nia. }
  destruct Dp as (m & Dp). assert (R =? 0 = false) as R0 by (apply Nat.eqb_neq; lia). destruct m as [|m].
  - rewrite lookback_none; [replace (N - R - P) with 0 by lia; reflexivity|]. intros j Hj. unfold gear_end.
    destruct (Nat.eq_dec j (N - 1)) as [->|Hn].
    + rewrite Nat.eqb_refl. now rewrite andb_false_r.
    + assert (R + P - 1 <=? j = false) as -> by (apply Nat.leb_gt; nia). reflexivity.
  - rewrite (lookback_last _ P (N - R - 1) (N - 1)); try nia.
    + replace (N - R - 1 + 1 - P) with (N - R - P) by nia. reflexivity.
    + unfold gear_end. rewrite R0. assert (R + P - 1 <=? N - R - 1 = true) as -> by (apply Nat.leb_le; nia).
      assert (N - R - 1 =? N - 1 = false) as -> by (apply Nat.eqb_neq; nia).
      replace (N - R - 1 - (R + P - 1)) with (m * R) by nia. rewrite Nat.mod_mul by lia. reflexivity.
    + intros j Hj. unfold gear_end. rewrite R0. destruct (Nat.eqb_spec j (N - 1)) as [Ej|Ej]; [cbn [negb]; now rewrite andb_false_r|].
      assert ((j - (R + P - 1)) mod R =? 0 = false) as ->; [|now rewrite andb_false_r].
      apply Nat.eqb_neq. replace (j - (R + P - 1)) with (j - (N - R - 1) + m * R) by nia.
      rewrite Nat.mod_add by lia. rewrite Nat.mod_small by nia. nia.
Qed.

(** ** ACA-I: worst case and the effect of the length of the sub adders *)
Open Scope Z_scope.
Notation aca Q := (fun k => (Q - 1 <=? k)%nat).
Lemma aca_loss Q n : (0 < Q)%nat ->
  loss (aca Q) (Q - 1) n = if (n <? Q)%nat then 0 else 2 ^ Z.of_nat (n - 1) + loss (aca Q) (Q - 1) (n - Q).
Proof.
  intro HQ. destruct (Nat.ltb_spec n Q) as [L|L].
  - induction n as [|n IH]; [reflexivity|]. rewrite loss_skip; [apply IH; lia|]. assert ((Q - 1 <=? n)%nat = false) as -> by (apply Nat.leb_gt; lia). reflexivity.
  - destruct n as [|n]; [lia|]. rewrite loss_take; [|apply Nat.leb_le; lia|lia]. replace (S n - 1)%nat with n by lia. now replace (S n - Q)%nat with (n - (Q - 1))%nat by lia.
Qed.
Lemma aca_loss_closed Q n : (0 < Q)%nat ->
  2 * loss (aca Q) (Q - 1) n * (2 ^ Z.of_nat Q - 1) = 2 ^ Z.of_nat (n + Q) - 2 ^ Z.of_nat (n mod Q + Q).
Proof.
  intro HQ. induction n as [n IH] using (well_founded_induction lt_wf). rewrite aca_loss by auto.
  destruct (Nat.ltb_spec n Q) as [L|L].
  - rewrite Nat.mod_small by auto. lia.
  - specialize (IH (n - Q)%nat ltac:(lia)).
    assert (E : (n mod Q = (n - Q) mod Q)%nat).
    { replace n with (n - Q + 1 * Q)%nat at 1 by lia. apply Nat.mod_add. lia. }
    rewrite E. replace (n - Q + Q)%nat with n in IH by lia.
    assert (X : 2 ^ Z.of_nat n = 2 * 2 ^ Z.of_nat (n - 1)).
    { replace (Z.of_nat n) with (Z.succ (Z.of_nat (n - 1))) by lia. rewrite Z.pow_succ_r by lia. reflexivity. }
    assert (Y : 2 ^ Z.of_nat (n + Q) = 2 ^ Z.of_nat n * 2 ^ Z.of_nat Q) by (rewrite Nat2Z.inj_add, Z.pow_add_r by lia; reflexivity).
    rewrite Y. rewrite X in *. nia.
Qed.
Lemma aca1_wce M N Q r s : almost_correct_adder_1 M N Q = Ok r -> regular_adder M N = Ok s -> (N < 256)%nat ->
  exists m, worst_case_error M s r BaseTwo = Ok m
    /\ m * (2 ^ Z.of_nat Q - 1) = 2 ^ Z.of_nat (N + Q) - 2 ^ Z.of_nat (N mod Q + Q).
Proof.
  intros E E' H. pose proof (aca1_range _ _ _ _ E). rewrite (two_wce M N (Q - 1) _ r s (is_aca1 M N Q r E) E' H).
  eexists. split; [reflexivity|]. apply (aca_loss_closed Q N). lia.
Qed.
Lemma aca_loss_mono Q m n : (0 < Q)%nat -> (m <= n)%nat -> loss (aca Q) (Q - 1) m <= loss (aca Q) (Q - 1) n.
Proof.
  intros HQ. revert m. induction n as [n IH] using (well_founded_induction lt_wf). intros m L.
  rewrite (aca_loss Q m), (aca_loss Q n) by auto. destruct (Nat.ltb_spec m Q), (Nat.ltb_spec n Q); try lia.
  - pose proof (loss_bound (aca Q) (Q - 1) (n - Q) (fun _ => false) (fun _ => false)).
    pose proof (Z.pow_nonneg 2 (Z.of_nat (n - 1)) ltac:(lia)). lia.
  - pose proof (IH (n - Q)%nat ltac:(lia) (m - Q)%nat ltac:(lia)).
    pose proof (Z.pow_le_mono_r 2 (Z.of_nat (m - 1)) (Z.of_nat (n - 1)) ltac:(lia) ltac:(lia)). lia.
Qed.
Lemma aca_loss_better Q R n : (0 < Q <= R)%nat -> loss (aca R) (R - 1) n <= loss (aca Q) (Q - 1) n.
Proof.
  intros HQ. induction n as [n IH] using (well_founded_induction lt_wf).
  rewrite (aca_loss Q n), (aca_loss R n) by lia. destruct (Nat.ltb_spec n R), (Nat.ltb_spec n Q); try lia.
  - pose proof (loss_bound (aca Q) (Q - 1) (n - Q) (fun _ => false) (fun _ => false)).
    pose proof (Z.pow_nonneg 2 (Z.of_nat (n - 1)) ltac:(lia)). lia.
  - pose proof (IH (n - R)%nat ltac:(lia)). pose proof (aca_loss_mono Q (n - R) (n - Q) ltac:(lia) ltac:(lia)). lia.
Qed.
Close Scope Z_scope.

Lemma aca_forgets Q x y k : 0 < Q -> forgets (aca Q) (Q - 1) x y k = true <->
  Q <= k + 1 /\ generates x y k (k + 1 - Q) = true.
Proof.
  intro HQ. rewrite forgets_iff, Nat.leb_le.
  assert (B : forall j, before (aca Q) (Q - 1) j = j - (Q - 1)).
  { intro j. destruct j as [|j]; [reflexivity|]. cbn [before]. pose proof (aca1_start Q (S j) HQ ltac:(lia)) as A.
    replace (S j - 1) with j in A by lia. exact A. }
  rewrite B. split.
  - intros (H & g & Hg & G). split; [lia|]. replace (k + 1 - Q) with g by lia. exact G.
  - intros (H & G). split; [lia|]. exists (k + 1 - Q). split; [lia|exact G].
Qed.
Lemma aca_quiet Q R n x y : 0 < Q <= R -> quiet (aca Q) (Q - 1) n x y = true -> quiet (aca R) (R - 1) n x y = true.
Proof.
  intros HQ. rewrite !quiet_iff. intros H k Hk. destruct (forgets (aca R) (R - 1) x y k) eqn:E; auto. exfalso.
  apply aca_forgets in E; [|lia]. destruct E as [E G].
  specialize (H (k - (R - Q)) ltac:(lia)). assert (F : forgets (aca Q) (Q - 1) x y (k - (R - Q)) = true); [|congruence].
  apply aca_forgets; [lia|]. split; [lia|]. replace (k - (R - Q) + 1 - Q) with (k + 1 - R) by lia.
  apply generates_iff in G. apply generates_iff. destruct G as (G1 & G2 & G3). repeat split; auto. intros j Hj. apply G3. lia.
Qed.
Lemma aca1_better M N Q R r r' s : almost_correct_adder_1 M N Q = Ok r -> almost_correct_adder_1 M N R = Ok r' ->
  regular_adder M N = Ok s -> Q <= R ->
  (forall a, uval r a = uval s a -> uval r' a = uval s a)
  /\ (exists p q, error_rate M s r' = Ok p /\ error_rate M s r = Ok q /\ (p <= q)%Q)
  /\ (exists p q, average_bit_flip_error M s r' = Ok p /\ average_bit_flip_error M s r = Ok q /\ (p <= q)%Q)
  /\ (N < 256 -> exists p q, worst_case_error M s r' BaseTwo = Ok p /\ worst_case_error M s r BaseTwo = Ok q /\ (p <= q)%Z)
  /\ (3 * N + 1 < 256 -> exists p q, average_case_error M s r' BaseTwo = Ok (Fin p)
        /\ average_case_error M s r BaseTwo = Ok (Fin q) /\ (p <= q)%Q).
Proof.
  intros E E' HS H. pose proof (aca1_range _ _ _ _ E) as RQ. pose proof (aca1_range _ _ _ _ E') as RR.
  pose proof (is_aca1 M N Q r E) as A. pose proof (is_aca1 M N R r' E') as A'.
  assert (X : forall a, differ s r a = false -> differ s r' a = false).
  { intros a. rewrite (two_differ M N _ _ r s A HS), (two_differ M N _ _ r' s A' HS), !negb_false_iff. apply aca_quiet. lia. }
  destruct (two_facts M N _ _ r s A HS) as (W1 & W2 & L1 & L2). destruct (two_facts M N _ _ r' s A' HS) as (W1' & _ & L1' & _).
  destruct (two_below M N _ _ r s A HS) as [B1 B2]. destruct (two_below M N _ _ r' s A' HS) as [B1' _].
  split; [|split; [|split; [|split]]].
  - intros a Ha. specialize (X a). rewrite !differ_uval, !negb_false_iff, !Z.eqb_eq in X by lia. symmetry. apply X. auto.
  - destruct (error_rate_full M (2 * N) s r W2 W1 B2 B1) as [F _]. destruct (F ltac:(lia)) as (q & F1 & F2 & _).
    destruct (error_rate_full M (2 * N) s r' W2 W1' B2 B1') as [G _]. destruct (G ltac:(lia)) as (p & G1 & G2 & _).
    exists p, q. repeat split; auto. rewrite F2, G2. apply average_le. intro a. specialize (X a).
    destruct (differ s r a), (differ s r' a); cbn [b2q]; try lra; specialize (X eq_refl); discriminate.
  - destruct (two_flips M N _ _ r s A HS) as (q & F1 & F2). destruct (two_flips M N _ _ r' s A' HS) as (p & G1 & G2).
    exists p, q. repeat split; auto. rewrite F2, G2.
    assert (B : forall T j, 0 < T -> before (aca T) (T - 1) j = j - (T - 1)).
    { intros T j HT. destruct j as [|j]; [reflexivity|]. cbn [before]. pose proof (aca1_start T (S j) HT ltac:(lia)) as AS.
      replace (S j - 1) with j in AS by lia. exact AS. }
    generalize (seq 0 (N + 1)). induction l as [|i l IH]; cbn [map]; [apply Qle_refl|]. rewrite !sumQ_cons. apply Qplus_le_compat; auto.
    rewrite !B by lia. unfold Qdiv. apply Qmult_le_compat_r.
    + apply Qplus_le_compat; [|apply Qle_refl]. rewrite <- Zle_Qle. apply Z.pow_le_mono_r; lia.
    + apply Qinv_le_0_compat. change 0%Q with (inject_Z 0). rewrite <- Zle_Qle. apply Z.pow_nonneg. lia.
  - intro HN. eexists. eexists. split; [exact (two_wce M N _ _ r' s A' HS HN)|]. split; [exact (two_wce M N _ _ r s A HS HN)|].
    pose proof (aca_loss_better Q R N ltac:(lia)) as B. unfold loss in B. lia.
  - intro HN. destruct (aca1_ace M N Q r s E HS HN) as (q & F1 & F2). destruct (aca1_ace M N R r' s E' HS HN) as (p & G1 & G2).
    exists p, q. repeat split; auto. rewrite F2, G2. unfold Qdiv. apply Qmult_le_compat_r; [|now compute].
    apply Qplus_le_compat; [|apply Qle_refl]. rewrite <- Zle_Qle. apply Z.pow_le_mono_r; lia.
Qed.
Lemma aca1_worse : exists M N Q R r r' s a, Q < R /\ almost_correct_adder_1 M N Q = Ok r /\ almost_correct_adder_1 M N R = Ok r'
  /\ regular_adder M N = Ok s /\ (dist (uval s a) (uval r a) < dist (uval s a) (uval r' a))%Z.
Proof.
  exists (id_mgr 6), 3, 1, 2. eexists. eexists. eexists. exists (fun i => Nat.even i || (i =? 1)). split; [lia|].
  split; [vm_compute; reflexivity|]. split; [vm_compute; reflexivity|]. split; [vm_compute; reflexivity|]. vm_compute. reflexivity.
Qed.
