(** Bounds and closed forms for the error rate of the approximate adders *)
From Coq Require Import List Bool Arith ZArith QArith Lia Lqa.
From Verif Require Import Res Cudd CuddFacts Spec SpecFacts SpecFloat SpecAdder SpecLookback Helpers Examples Metrics AdderFacts AdderErrorFacts AdderErrorFacts2 AdderErrorFacts3
  AdderErrorFacts5 AdderErrorFacts6 AdderErrorFacts8 AdderErrorFacts10.
Import ListNotations.
Open Scope nat_scope.

Section Rate.
Variables (restart : nat -> bool) (P : nat).
Notation pairs := (pairs restart P).
Notation before := (before restart P).
Lemma pairs_S k : pairs (S k) = (4 * pairs k - if restart k then sumZ (map (fun j => 2 ^ Z.of_nat j * pairs (k - j)) (seq P (k - before k + 1 - P))) else 0)%Z.
Proof.
  unfold AdderErrorFacts2.pairs at 1. cbn [exact_pairs hd]. fold (pairs k). destruct (restart k); [|reflexivity]. do 2 f_equal.
  apply map_ext_in. intros j Hj. apply in_seq in Hj. rewrite pairs_nth by lia. reflexivity.
Qed.
Lemma pairs_range n : (0 <= pairs n <= 4 ^ Z.of_nat n)%Z.
Proof.
  pose proof (quiet_average restart P n n (le_n n)) as Q1.
  set (A := average (2 * n) (fun a => b2q (quiet restart P n (op1 a) (op2 a)))) in *.
  assert (R : (0 <= A <= 1)%Q).
  { unfold A. split.
    - rewrite <- (average_const (2 * n) 0). apply average_le. intro a. destruct (quiet _ _ _ _ _); cbn; lra.
    - rewrite <- (average_const (2 * n) 1). apply average_le. intro a. destruct (quiet _ _ _ _ _); cbn; lra. }
  assert (I : (iz (2 * n) == inject_Z (4 ^ Z.of_nat n))%Q).
  { unfold iz, pow2. rewrite Nat2Z.inj_mul, Z.pow_mul_r by lia. reflexivity. }
  assert (K : (0 < inject_Z (4 ^ Z.of_nat n))%Q) by (change 0%Q with (inject_Z 0); rewrite <- Zlt_Qlt; apply Z.pow_pos_nonneg; lia).
  rewrite I in Q1. rewrite Zle_Qle, (Zle_Qle (pairs n)), <- Q1. change (inject_Z 0) with 0%Q. clearbody A. nra.
Qed.
Lemma geometric k : forall L, P + L <= k + 1 ->
  sumZ (map (fun j => 2 ^ Z.of_nat j * 4 ^ Z.of_nat (k - j)) (seq P L))%Z = (2 ^ Z.of_nat k * (2 ^ Z.of_nat (k + 1 - P) - 2 ^ Z.of_nat (k + 1 - P - L)))%Z.
Proof.
  induction L as [|L IH]; intro H.
  - cbn [seq map]. unfold sumZ. cbn [fold_right]. rewrite Nat.sub_0_r. ring.
  - rewrite seq_S, map_app, sumZ_app, IH by lia. cbn [map]. unfold sumZ. cbn [fold_right].
    replace (k + 1 - P - L) with (S (k - (P + L))) by lia. replace (k + 1 - P - S L) with (k - (P + L)) by lia.
    replace (Z.of_nat k) with (Z.of_nat (P + L) + Z.of_nat (k - (P + L)))%Z by lia.
    rewrite Nat2Z.inj_succ, Z.pow_succ_r, Z.pow_add_r by lia. change 4%Z with (2 * 2)%Z. rewrite Z.pow_mul_l. ring.
Qed.
Lemma sumZ_le {A} (F G : A -> Z) l : (forall x, In x l -> F x <= G x)%Z -> (sumZ (map F l) <= sumZ (map G l))%Z.
Proof.
  unfold sumZ. induction l as [|x l IH]; intro H; cbn [map fold_right]; [lia|]. specialize (IH (fun y Hy => H y (or_intror Hy))).
  specialize (H x (or_introl eq_refl)). lia.
Qed.
Lemma sumZ_pos {A} (F : A -> Z) l : (forall x, In x l -> 0 <= F x)%Z -> (0 <= sumZ (map F l))%Z.
Proof.
  unfold sumZ. induction l as [|x l IH]; intro H; cbn [map fold_right]; [lia|]. specialize (IH (fun y Hy => H y (or_intror Hy))).
  specialize (H x (or_introl eq_refl)). lia.
Qed.
Notation cuts := (cuts restart P).
Lemma cuts_S n : cuts (S n) = cuts n + if restart n && (P <=? n) then 1 else 0.
Proof. unfold SpecLookback.cuts. rewrite seq_S, filter_app, app_length. cbn [plus filter]. destruct (restart n && (P <=? n)); reflexivity. Qed.
Lemma pairs_lower n : (4 ^ Z.of_nat n * (2 ^ Z.of_nat (P + 1) - Z.of_nat (cuts n)) <= 2 ^ Z.of_nat (P + 1) * pairs n)%Z.
Proof.
  induction n as [|n IH].
  - change (pairs 0) with 1%Z. change (cuts 0) with 0. rewrite Z.pow_0_r. lia.
  - rewrite pairs_S, cuts_S, (Nat2Z.inj_succ n), Z.pow_succ_r by lia. set (X := (4 ^ Z.of_nat n)%Z) in *.
    assert (X0 : (0 < X)%Z) by (apply Z.pow_pos_nonneg; lia). set (Y := (2 ^ Z.of_nat (P + 1))%Z) in *.
    destruct (restart n) eqn:R; cbn [andb]; [|rewrite Nat.add_0_r, Z.sub_0_r; lia].
    destruct (Nat.leb_spec P n) as [L|L].
    + set (W := sumZ _). assert (HW : (Y * W <= 4 * X)%Z); [|rewrite Nat2Z.inj_add; change (Z.of_nat 1) with 1%Z; nia].
      set (G := sumZ (map (fun j => 2 ^ Z.of_nat j * 4 ^ Z.of_nat (n - j))%Z (seq P (n - before n + 1 - P)))).
      assert (W <= G)%Z.
      { apply sumZ_le. intros j _. pose proof (pairs_range (n - j)). pose proof (Z.pow_pos_nonneg 2 (Z.of_nat j) ltac:(lia) ltac:(lia)). nia. }
      unfold G in H. rewrite geometric in H by (pose proof (prev_le restart P n); lia).
      set (E := (2 ^ Z.of_nat (n + 1 - P - (n - before n + 1 - P)))%Z) in H. assert (0 < E)%Z by (apply Z.pow_pos_nonneg; lia).
      assert (B : (Y * (2 ^ Z.of_nat n * 2 ^ Z.of_nat (n + 1 - P)) = 4 * X)%Z).
      { unfold Y, X. rewrite <- !Z.pow_add_r by lia. change 4%Z with (2 ^ 2)%Z. rewrite <- Z.pow_mul_r, <- Z.pow_add_r by lia. f_equal. lia. }
      assert (0 < Y)%Z by (apply Z.pow_pos_nonneg; lia). assert (0 < 2 ^ Z.of_nat n)%Z by (apply Z.pow_pos_nonneg; lia).
      rewrite <- B. nia.
    + replace (n - before n + 1 - P) with 0 by lia. cbn [seq map]. unfold sumZ. cbn [fold_right]. rewrite Nat.add_0_r, Z.sub_0_r. lia.
Qed.
Lemma pairs_step_le n : (pairs (S n) <= 4 * pairs n)%Z.
Proof.
  rewrite pairs_S. destruct (restart n); [|lia]. set (W := sumZ _). assert (0 <= W)%Z; [|lia]. apply sumZ_pos. intros j _.
  pose proof (pairs_range (n - j)). pose proof (Z.pow_pos_nonneg 2 (Z.of_nat j) ltac:(lia) ltac:(lia)). nia.
Qed.
Lemma pairs_mono m n : m <= n -> (pairs n <= 4 ^ Z.of_nat (n - m) * pairs m)%Z.
Proof.
  induction 1 as [|n L IH]; [rewrite Nat.sub_diag, Z.pow_0_r; lia|]. pose proof (pairs_step_le n).
  replace (S n - m) with (S (n - m)) by lia. rewrite Nat2Z.inj_succ, Z.pow_succ_r by lia. lia.
Qed.
Lemma pairs_skip n : restart n && (P <=? n) = false -> pairs (S n) = (4 * pairs n)%Z.
Proof.
  intro H. rewrite pairs_S. destruct (restart n); [|lia]. cbn [andb] in H. apply Nat.leb_gt in H.
  replace (n - before n + 1 - P) with 0 by lia. cbn [seq map]. unfold sumZ. cbn [fold_right]. lia.
Qed.
Lemma pairs_gap m n : m <= n -> (forall k, m <= k < n -> restart k && (P <=? k) = false) -> pairs n = (4 ^ Z.of_nat (n - m) * pairs m)%Z.
Proof.
  induction 1 as [|n L IH]; intro H; [rewrite Nat.sub_diag, Z.pow_0_r; lia|]. rewrite pairs_skip by (apply H; lia).
  rewrite IH by (intros; apply H; lia). replace (S n - m) with (S (n - m)) by lia. rewrite Nat2Z.inj_succ, Z.pow_succ_r by lia. ring.
Qed.
Lemma pairs_first k0 : restart k0 = true -> P <= k0 -> (forall k, k < k0 -> restart k && (P <=? k) = false) ->
  pairs (S k0) = (4 ^ Z.of_nat (S k0) - 2 ^ Z.of_nat k0 * (2 ^ Z.of_nat (k0 + 1 - P) - 1))%Z.
Proof.
  intros R L H. assert (B : before k0 = 0).
  { destruct k0 as [|k]; [reflexivity|]. cbn [SpecAdder.before]. apply lookback_zero. intros j Hj E. specialize (H j ltac:(lia)). rewrite E in H.
    cbn [andb] in H. apply Nat.leb_gt in H. lia. }
  assert (G : forall n, n <= k0 -> pairs n = (4 ^ Z.of_nat n)%Z).
  { intros n Hn. rewrite (pairs_gap 0 n) by (auto; try lia; intros; apply H; lia). rewrite Nat.sub_0_r. change (pairs 0) with 1%Z. lia. }
  rewrite pairs_S, R, B, G by lia. rewrite Nat.sub_0_r.
  rewrite (map_ext_in _ (fun j => 2 ^ Z.of_nat j * 4 ^ Z.of_nat (k0 - j))%Z) by (intros j Hj; rewrite G by lia; reflexivity).
  rewrite geometric by lia. replace (k0 + 1 - P - (k0 + 1 - P)) with 0 by lia. rewrite (Nat2Z.inj_succ k0), Z.pow_succ_r by lia. reflexivity.
Qed.
(** cuts after every [d] positions, no lookback *)
Lemma pairs_blocks d c : P = 0 -> 0 < d -> (forall k, k < d * c -> (restart k = true <-> (k + 1) mod d = 0)) ->
  forall m, m <= c -> pairs (d * m) = ((2 ^ Z.of_nat (2 * d - 1) + 2 ^ Z.of_nat (d - 1)) ^ Z.of_nat m)%Z.
Proof.
  intros HP Hd HR. induction m as [|m IH]; intro Hm; [rewrite Nat.mul_0_r; reflexivity|].
  assert (HL : d * S m <= d * c) by (apply Nat.mul_le_mono_l; lia).
  assert (NO : forall k, d * m <= k < d * m + (d - 1) -> restart k = false).
  { intros k Hk. destruct (restart k) eqn:E; auto. apply HR in E; [|lia]. apply Nat.div_exact in E; [|lia]. set (u := (k + 1) / d) in *. clearbody u.
    exfalso. assert (m < u) by nia. assert (u < S m) by nia. lia. }
  set (k := d * m + (d - 1)). assert (E : d * S m = S k) by (unfold k; nia).
  assert (RK : restart k = true).
  { apply HR; [lia|]. replace (k + 1) with (S m * d) by (unfold k; nia). apply Nat.mod_mul. lia. }
  assert (G : forall i, i < d -> pairs (d * m + i) = (4 ^ Z.of_nat i * pairs (d * m))%Z).
  { intros i Hi. rewrite (pairs_gap (d * m) (d * m + i)) by (try lia; intros j Hj; rewrite NO by lia; reflexivity). do 3 f_equal. lia. }
  assert (B : before k = d * m).
  { destruct m as [|m].
    - unfold k. rewrite Nat.mul_0_r. cbn [plus]. destruct (d - 1) as [|n] eqn:D1; [reflexivity|]. cbn [SpecAdder.before]. apply lookback_none.
      intros j Hj. apply NO. lia.
    - destruct k as [|k'] eqn:K; [unfold k in K; nia|]. cbn [SpecAdder.before].
      rewrite (lookback_last restart P (d * S m - 1) k').
      + lia.
      + unfold k in K. nia.
      + apply HR; [nia|]. replace (d * S m - 1 + 1) with (S m * d) by nia. apply Nat.mod_mul. lia.
      + intros j Hj. apply NO. unfold k in K. nia. }
  rewrite E, pairs_S, RK, B. replace (k - d * m + 1 - P) with d by (unfold k; lia).
  assert (PK : pairs k = (4 ^ Z.of_nat (d - 1) * pairs (d * m))%Z) by (unfold k; apply G; lia). rewrite PK.
  rewrite (map_ext_in _ (fun j => (2 ^ Z.of_nat j * 4 ^ Z.of_nat (d - 1 - j)) * pairs (d * m))%Z).
  2: { intros j Hj. apply in_seq in Hj. replace (k - j) with (d * m + (d - 1 - j)) by (unfold k; lia). rewrite G by lia. ring. }
  assert (SC : forall l, sumZ (map (fun j => (2 ^ Z.of_nat j * 4 ^ Z.of_nat (d - 1 - j)) * pairs (d * m))%Z l)
     = (sumZ (map (fun j => 2 ^ Z.of_nat j * 4 ^ Z.of_nat (d - 1 - j))%Z l) * pairs (d * m))%Z).
  { unfold sumZ. induction l as [|x l IL]; cbn [map fold_right]; [ring|]. rewrite IL. ring. }
  rewrite SC, (geometric (d - 1) d), IH by lia.
  rewrite (Nat2Z.inj_succ m), Z.pow_succ_r by lia. set (A := (_ ^ Z.of_nat m)%Z). clearbody A.
  replace (d - 1 + 1 - P) with (S (d - 1)) by lia. replace (S (d - 1) - d) with 0 by lia. replace (2 * d - 1) with (S ((d - 1) + (d - 1))) by lia.
  rewrite !(Nat2Z.inj_succ), Nat2Z.inj_add, !Z.pow_succ_r, Z.pow_add_r by lia. change (2 ^ Z.of_nat 0)%Z with 1%Z.
  change 4%Z with (2 * 2)%Z. rewrite Z.pow_mul_l. ring.
Qed.
End Rate.

Definition two (n : nat) : Q := inject_Z (2 ^ Z.of_nat n).
Lemma two_pos n : (0 < two n)%Q.
Proof. unfold two. change 0%Q with (inject_Z 0). rewrite <- Zlt_Qlt. apply Z.pow_pos_nonneg; lia. Qed.
Lemma four_pos n : (0 < inject_Z (4 ^ Z.of_nat n))%Q.
Proof. change 0%Q with (inject_Z 0). rewrite <- Zlt_Qlt. apply Z.pow_pos_nonneg; lia. Qed.
Lemma rate_upper M N P restart r s : approximate_adder M N restart P r -> regular_adder M N = Ok s ->
  exists q, error_rate M s r = Ok q /\ (q <= inject_Z (Z.of_nat (cuts restart P N)) / inject_Z (2 ^ Z.of_nat (P + 1)))%Q.
Proof.
  intros A E. destruct (two_rate M N P restart r s A E) as (q & E1 & E2). exists q. split; auto. rewrite E2. fold (pairs restart P N).
  pose proof (pairs_lower restart P N) as L. rewrite Zle_Qle, !inject_Z_mult in L. unfold Z.sub in L. rewrite inject_Z_plus, inject_Z_opp in L.
  pose proof (four_pos N) as F. pose proof (two_pos (P + 1)) as T. unfold two in T.
  set (X := inject_Z (4 ^ Z.of_nat N)) in *. set (Y := inject_Z (2 ^ Z.of_nat (P + 1))) in *. set (C := inject_Z (Z.of_nat _)) in *.
  set (V := inject_Z (pairs restart P N)) in *. clearbody X Y C V.
  apply (Qmult_le_l _ _ (X * Y)); [nra|].
  assert (E3 : (X * Y * (1 - V / X) == X * Y - Y * V)%Q) by (field; lra). assert (E4 : (X * Y * (C / Y) == X * C)%Q) by (field; lra).
  rewrite E3, E4. lra.
Qed.
Lemma rate_lower M N P restart r s k0 : approximate_adder M N restart P r -> regular_adder M N = Ok s ->
  k0 < N -> restart k0 = true -> P <= k0 -> (forall k, k < k0 -> restart k && (P <=? k) = false) ->
  exists q, error_rate M s r = Ok q /\ (1 / inject_Z (2 ^ Z.of_nat (P + 1)) - 1 / inject_Z (2 ^ Z.of_nat (k0 + 2)) <= q)%Q
    /\ ((forall k, k0 < k < N -> restart k = false) -> (q == 1 / inject_Z (2 ^ Z.of_nat (P + 1)) - 1 / inject_Z (2 ^ Z.of_nat (k0 + 2)))%Q).
Proof.
  intros A E H0 H1 H2 H3. destruct (two_rate M N P restart r s A E) as (q & E1 & E2). exists q. split; auto. fold (pairs restart P N) in E2.
  pose proof (pairs_first restart P k0 H1 H2 H3) as PF.
  set (g := (4 ^ Z.of_nat (N - S k0))%Z). assert (G0 : (0 < inject_Z g)%Q) by apply four_pos.
  assert (GN : (inject_Z (4 ^ Z.of_nat N) == inject_Z g * inject_Z (4 ^ Z.of_nat (S k0)))%Q).
  { unfold g. rewrite <- inject_Z_mult, <- Z.pow_add_r by lia. replace (Z.of_nat (N - S k0) + Z.of_nat (S k0))%Z with (Z.of_nat N) by lia. reflexivity. }
  pose proof (four_pos (S k0)) as F. pose proof (two_pos (P + 1)) as T1. pose proof (two_pos (k0 + 2)) as T2. unfold two in T1, T2.
  assert (V : (1 - inject_Z (g * pairs restart P (S k0)) / inject_Z (4 ^ Z.of_nat N)
      == 1 / inject_Z (2 ^ Z.of_nat (P + 1)) - 1 / inject_Z (2 ^ Z.of_nat (k0 + 2)))%Q).
  { rewrite GN, inject_Z_mult, PF. unfold Z.sub. rewrite inject_Z_plus, inject_Z_opp, inject_Z_mult, inject_Z_plus.
    change (inject_Z (- (1))) with (-1)%Q.
    assert (X1 : (inject_Z (4 ^ Z.of_nat (S k0)) == inject_Z (2 ^ Z.of_nat k0) * inject_Z (2 ^ Z.of_nat (k0 + 2)))%Q).
    { rewrite <- inject_Z_mult, <- Z.pow_add_r by lia. change 4%Z with (2 ^ 2)%Z. rewrite <- Z.pow_mul_r by lia.
      replace (2 * Z.of_nat (S k0))%Z with (Z.of_nat k0 + Z.of_nat (k0 + 2))%Z by lia. reflexivity. }
    assert (X2 : (inject_Z (2 ^ Z.of_nat (k0 + 2)) == inject_Z (2 ^ Z.of_nat (k0 + 1 - P)) * inject_Z (2 ^ Z.of_nat (P + 1)))%Q).
    { rewrite <- inject_Z_mult, <- Z.pow_add_r by lia. replace (Z.of_nat (k0 + 1 - P) + Z.of_nat (P + 1))%Z with (Z.of_nat (k0 + 2)) by lia. reflexivity. }
    pose proof (two_pos k0) as T3. pose proof (two_pos (k0 + 1 - P)) as T4. unfold two in T3, T4. rewrite X1, X2.
    field. repeat split; lra. }
  pose proof (four_pos N) as FN. split.
  - rewrite E2, <- V. pose proof (pairs_mono restart P (S k0) N ltac:(lia)) as M1. fold g in M1. rewrite Zle_Qle in M1.
    assert (inject_Z (pairs restart P N) / inject_Z (4 ^ Z.of_nat N) <= inject_Z (g * pairs restart P (S k0)) / inject_Z (4 ^ Z.of_nat N))%Q; [|lra].
    apply Qmult_le_compat_r; auto. apply Qlt_le_weak, Qinv_lt_0_compat, FN.
  - intro H4. rewrite E2, <- V. rewrite (pairs_gap restart P (S k0) N) by (try lia; intros k Hk; rewrite H4 by lia; reflexivity). reflexivity.
Qed.
Lemma inject_pow x n : (inject_Z (x ^ Z.of_nat n) == qpow (inject_Z x) n)%Q.
Proof. induction n as [|n IH]; [reflexivity|]. rewrite Nat2Z.inj_succ, Z.pow_succ_r, inject_Z_mult, IH by lia. reflexivity. Qed.
Lemma qpow_div x y n : (0 < y -> qpow x n / qpow y n == qpow (x / y) n)%Q.
Proof.
  intro H. induction n as [|n IH]; [reflexivity|]. cbn [qpow]. rewrite <- IH. field. split; [|lra].
  assert (0 < qpow y n)%Q; [|lra]. clear IH. induction n as [|n IH]; cbn [qpow]; [lra|nra].
Qed.
Lemma rate_blocks M N restart r s d c : approximate_adder M N restart 0 r -> regular_adder M N = Ok s -> 0 < d -> d * c <= N ->
  (forall k, k < d * c -> (restart k = true <-> (k + 1) mod d = 0)) -> (forall k, d * c <= k < N -> restart k = false) ->
  exists q, error_rate M s r = Ok q /\ (q == 1 - qpow (inject_Z (2 ^ Z.of_nat d + 1) / inject_Z (2 ^ Z.of_nat (d + 1))) c)%Q.
Proof.
  intros A E Hd HN H1 H2. destruct (two_rate M N 0 restart r s A E) as (q & E1 & E2). exists q. split; auto. rewrite E2. fold (pairs restart 0 N).
  rewrite (pairs_gap restart 0 (d * c) N) by (auto; intros k Hk; rewrite H2 by lia; reflexivity).
  rewrite (pairs_blocks restart 0 d c eq_refl Hd H1 c (le_n c)).
  assert (GN : (inject_Z (4 ^ Z.of_nat N) == inject_Z (4 ^ Z.of_nat (N - d * c)) * qpow (inject_Z (4 ^ Z.of_nat d)) c)%Q).
  { rewrite <- inject_pow, <- inject_Z_mult, <- Z.pow_mul_r, <- Z.pow_add_r by lia.
    replace (Z.of_nat (N - d * c) + Z.of_nat d * Z.of_nat c)%Z with (Z.of_nat N) by nia. reflexivity. }
  set (B := (2 ^ Z.of_nat (2 * d - 1) + 2 ^ Z.of_nat (d - 1))%Z). rewrite GN, inject_Z_mult, (inject_pow B c).
  assert (EQ : (inject_Z (2 ^ Z.of_nat d + 1) / inject_Z (2 ^ Z.of_nat (d + 1)) == inject_Z B / inject_Z (4 ^ Z.of_nat d))%Q).
  { assert (B0 : B = (2 ^ Z.of_nat (d - 1) * (2 ^ Z.of_nat d + 1))%Z).
    { unfold B. rewrite Z.mul_add_distr_l, <- Z.pow_add_r by lia. replace (Z.of_nat (d - 1) + Z.of_nat d)%Z with (Z.of_nat (2 * d - 1)) by lia. ring. }
    assert (B1 : (4 ^ Z.of_nat d)%Z = (2 ^ Z.of_nat (d - 1) * 2 ^ Z.of_nat (d + 1))%Z).
    { rewrite <- Z.pow_add_r by lia. change 4%Z with (2 ^ 2)%Z. rewrite <- Z.pow_mul_r by lia. f_equal. lia. }
    rewrite B0, B1, !inject_Z_mult. pose proof (two_pos (d - 1)) as T1. pose proof (two_pos (d + 1)) as T2. unfold two in *. field. lra. }
  assert (QP : forall a b n, (a == b)%Q -> (qpow a n == qpow b n)%Q).
  { intros a b n Hab. induction n as [|n IH]; [reflexivity|]. cbn [qpow]. rewrite IH, Hab. reflexivity. }
  rewrite (QP _ _ c EQ), <- qpow_div by apply four_pos. pose proof (four_pos (N - d * c)) as F1.
  assert (F2 : (0 < qpow (inject_Z (4 ^ Z.of_nat d)) c)%Q).
  { pose proof (four_pos d) as F. induction c as [|c' IH]; cbn [qpow]; [lra|]. clear - F. induction c' as [|n IH]; cbn [qpow]; nra. }
  field. split; lra.
Qed.
Lemma gda_rate M N p r s : gracefully_degrading_adder M N p 0 = Ok r -> regular_adder M N = Ok s -> 2 <= N / p ->
  exists q, error_rate M s r = Ok q
    /\ (q == 1 - qpow (inject_Z (2 ^ Z.of_nat (N / p) + 1) / inject_Z (2 ^ Z.of_nat (N / p + 1))) ((N - 1) / (N / p)))%Q.
Proof.
  intros E E' Hd. set (d := N / p) in *. set (c := (N - 1) / d).
  assert (HN : 0 < N) by (destruct N; [unfold d in Hd; destruct p; cbn in Hd; lia|lia]).
  pose proof (Nat.div_mod (N - 1) d ltac:(lia)) as D. pose proof (Nat.mod_upper_bound (N - 1) d ltac:(lia)) as U. fold c in D. clearbody c.
  assert (R : forall k, block_end N d k = true <-> k <> 0 /\ (k + 1) mod d = 0 /\ k + 1 <> N).
  { intro k. unfold block_end. rewrite !andb_true_iff, !negb_true_iff, !Nat.eqb_neq, Nat.eqb_eq. tauto. }
  apply (rate_blocks M N (block_end N d) r s d c); auto; try lia.
  - exact (is_gda M N p 0 r E).
  - intros k Hk. rewrite R. split; [tauto|]. intro K. split; [|lia]. intros ->. rewrite Nat.mod_small in K; lia.
  - intros k Hk. destruct (block_end N d k) eqn:K; auto. apply R in K as (K1 & K2 & K3). exfalso. apply Nat.div_exact in K2; [|lia].
    set (u := (k + 1) / d) in *. clearbody u. assert (c < u) by nia. nia.
Qed.
Lemma gear_rate M N R r s : generic_accuracy_reconfigurable_adder M N R 0 = Ok r -> regular_adder M N = Ok s ->
  exists q, error_rate M s r = Ok q
    /\ (q == 1 - qpow (inject_Z (2 ^ Z.of_nat R + 1) / inject_Z (2 ^ Z.of_nat (R + 1))) ((N - 1) / R))%Q.
Proof.
  intros E E'. destruct (gear_range M N R 0 r E) as (K1 & K2 & K3). set (c := (N - 1) / R).
  pose proof (Nat.div_mod (N - 1) R ltac:(lia)) as D. pose proof (Nat.mod_upper_bound (N - 1) R ltac:(lia)) as U. fold c in D. clearbody c.
  assert (Q0 : forall k, R <= k + 1 -> ((k - (R + 0 - 1)) mod R = 0 <-> (k + 1) mod R = 0)).
  { intros k Hk. replace (k + 1) with (k - (R + 0 - 1) + 1 * R) by lia. rewrite Nat.mod_add by lia. tauto. }
  apply (rate_blocks M N (gear_end N R 0) r s R c); auto; try lia.
  - exact (is_gear M N R 0 r E).
  - intros k Hk. rewrite gear_end_iff by lia. split; [intros (C1 & C2 & C3); apply Q0; auto; lia|]. intro K.
    assert (R <= k + 1) by (apply Nat.div_exact in K; [|lia]; set (u := (k + 1) / R) in *; clearbody u; destruct u; nia).
    split; [lia|]. split; [lia|]. apply Q0; auto.
  - intros k Hk. destruct (gear_end N R 0 k) eqn:K; auto. apply gear_end_iff in K as (C1 & C2 & C3); [|lia]. exfalso.
    apply Q0 in C3; [|lia]. apply Nat.div_exact in C3; [|lia]. set (u := (k + 1) / R) in *. clearbody u. assert (c < u) by nia. nia.
Qed.
