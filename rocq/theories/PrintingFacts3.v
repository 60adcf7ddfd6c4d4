(** Length of printed numbers *)
From Coq Require Import Ascii String List Bool Arith ZArith QArith Qabs Qpower Qround Lia Lqa.
From Verif Require Import Float SpecFloat FloatFacts Benchmark SpecBenchmark BenchmarkFacts4 Printing SpecPrinting PrintingFacts PrintingFacts2.
Import ListNotations.
Open Scope nat_scope.
Open Scope string_scope.

Lemma app_length_s a b : String.length (a ++ b) = String.length a + String.length b.
Proof. pose proof (app_len a b). lia. Qed.
Lemma strip_length b : String.length (without_zeros b) <= String.length b.
Proof. destruct (strip b) as [k E]. apply (f_equal String.length) in E. rewrite app_length_s in E. lia. Qed.
Lemma fraction_length a b : String.length (with_fraction a b) <= String.length a + 1 + String.length b.
Proof.
  unfold with_fraction. pose proof (strip_length b) as H. destruct (without_zeros b) as [|c s]; [lia|]. rewrite !app_length_s. cbn [String.length] in *. lia.
Qed.
Lemma to_string_length n k : (1 <= k)%nat -> (Z.of_N n < 10 ^ Z.of_nat k)%Z -> String.length (to_string n) <= k.
Proof.
  intros Hk H. destruct (N.eq_dec n 0) as [->|Hn]; [cbn; lia|]. destruct (number_of_digits_spec n ltac:(lia)) as (_ & B & _). unfold number_of_digits in B.
  assert (L : (Z.of_nat (String.length (to_string n)) - 1 < Z.of_nat k)%Z) by (apply (Z.pow_lt_mono_r_iff 10); lia). lia.
Qed.
Lemma exponent_length x : (Z.abs x < 1000)%Z -> String.length (put_exponent x) <= 4.
Proof.
  intro H. unfold put_exponent. rewrite !app_length_s. assert (S1 : String.length (if (x <? 0)%Z then "-" else "+") = 1) by now destruct (x <? 0)%Z. rewrite S1.
  destruct (Z.ltb_spec (Z.abs x) 10).
  - pose proof (to_string_length (Z.to_N (Z.abs x)) 1 ltac:(lia)) as L. rewrite Z2N.id in L by lia. change (10 ^ Z.of_nat 1)%Z with 10%Z in L. cbn [String.length]. specialize (L H0). lia.
  - pose proof (to_string_length (Z.to_N (Z.abs x)) 3 ltac:(lia)) as L. rewrite Z2N.id in L by lia. change (10 ^ Z.of_nat 3)%Z with 1000%Z in L. cbn [String.length]. specialize (L H). lia.
Qed.
Lemma zeros_length k : String.length (zeros k) = k.
Proof. pose proof (len_zeros k). lia. Qed.
Lemma positive_length q : (0 < q)%Q -> (Z.abs (snd (six_digits q)) < 1000)%Z -> String.length (put_positive q) <= 12.
Proof.
  intros Hq Hx. destruct (six_digits_spec q Hq) as (Hm & _). unfold put_positive. destruct (six_digits q) as [m x]. cbn [fst snd] in Hm, Hx.
  assert (L : String.length (to_string (Z.to_N m)) = 6).
  { pose proof (number_of_digits_spec (Z.to_N m) ltac:(lia)) as (L1 & L2). unfold number_of_digits in *. rewrite Z2N.id in L2 by lia. set (ds := to_string (Z.to_N m)) in *.
    assert (len ds - 1 < 6)%Z by (apply (Z.pow_lt_mono_r_iff 10); lia). assert (5 < len ds)%Z by (apply (Z.pow_lt_mono_r_iff 10); lia). lia. }
  set (ds := to_string (Z.to_N m)) in *. clearbody ds.
  assert (SP : forall k, k <= 6 -> String.length (substring 0 k ds) + String.length (substring k (6 - k) ds) = 6).
  { intros k Hk. destruct (sub_split k ds ltac:(lia)) as [E _]. rewrite L in E. apply (f_equal String.length) in E. rewrite app_length_s in E. lia. }
  destruct ((-4 <=? x) && (x <? 6))%Z eqn:EX.
  - apply andb_prop in EX. destruct EX as [X1 X2]. apply Z.leb_le in X1. apply Z.ltb_lt in X2. destruct (Z.leb_spec 0 x) as [X0|X0].
    + pose proof (fraction_length (substring 0 (Z.to_nat (x + 1)) ds) (substring (Z.to_nat (x + 1)) (6 - Z.to_nat (x + 1)) ds)). specialize (SP (Z.to_nat (x + 1)) ltac:(lia)). lia.
    + eapply Nat.le_trans; [apply fraction_length|]. rewrite app_length_s, zeros_length, L. cbn [String.length]. lia.
  - rewrite !app_length_s. pose proof (fraction_length (substring 0 1 ds) (substring 1 5 ds)). specialize (SP 1 ltac:(lia)). change (6 - 1) with 5 in SP.
    pose proof (exponent_length x Hx). cbn [String.length]. lia.
Qed.
Lemma six_exponent q e1 e2 : (0 < q)%Q -> (10 ^ e1 <= q)%Q -> (q < 10 ^ e2)%Q -> (e1 <= snd (six_digits q) <= e2)%Z.
Proof.
  intros Hq H1 H2. destruct (decimal_exponent_spec q Hq) as [D1 D2]. unfold six_digits. set (e := decimal_exponent q) in *. clearbody e.
  assert (A : (e1 <= e)%Z). { destruct (Z.le_gt_cases e1 e); auto. exfalso. pose proof (p10_mono (e + 1) e1 ltac:(lia)). lra. }
  assert (B : (e < e2)%Z). { destruct (Z.le_gt_cases e2 e); auto. exfalso. pose proof (p10_mono e2 e ltac:(lia)). lra. }
  destruct (_ =? _)%Z; cbn [snd]; lia.
Qed.
Lemma double_range q : double_number q -> (0 < q)%Q -> (10 ^ (-400) <= q)%Q /\ (q < 10 ^ 400)%Q.
Proof.
  intros (m & e & Hm & He & E) Hq. pose proof (p2_pos e) as P.
  assert (M1 : (1 <= m)%Z). { destruct (Z.le_gt_cases 1 m); auto. exfalso. assert (inject_Z m <= 0)%Q by (change 0%Q with (inject_Z 0); rewrite <- Zle_Qle; lia). rewrite E in Hq. nra. }
  rewrite E. split.
  - apply (Qle_trans _ (2 ^ (-1074))); [vm_compute; discriminate|]. apply (Qle_trans _ (2 ^ e)); [apply p2_mono; lia|].
    setoid_replace (2 ^ e)%Q with (inject_Z 1 * 2 ^ e)%Q at 1 by (change (inject_Z 1) with 1%Q; ring). apply Qmult_le_compat_r; [rewrite <- Zle_Qle; lia|lra].
  - apply (Qle_lt_trans _ (inject_Z (2 ^ 53) * 2 ^ 971)); [|reflexivity].
    apply (Qle_trans _ (inject_Z (2 ^ 53) * 2 ^ e)); [apply Qmult_le_compat_r; [rewrite <- Zle_Qle; lia|lra]|].
    rewrite !(Qmult_comm (inject_Z (2 ^ 53))). apply Qmult_le_compat_r; [apply p2_mono; lia|discriminate].
Qed.
Lemma double_opp q : double_number q -> double_number (- q).
Proof. intros (m & e & Hm & He & E). exists (- m)%Z, e. split; [lia|]. split; auto. rewrite E, inject_Z_opp. ring. Qed.
Lemma double_eq q q' : (q == q')%Q -> double_number q -> double_number q'.
Proof. intros E (m & e & Hm & He & E'). exists m, e. split; auto. split; auto. now rewrite <- E. Qed.
Lemma put_double_length q : double_number q -> String.length (put_double q) <= 13.
Proof.
  intro D. pose proof (Qred_correct q) as EQ. destruct (put_double_value q) as [(E & T)|[(E & V & T)|(E & V & T)]]; rewrite T.
  - cbn. lia.
  - assert (P : (0 < Qred q)%Q) by now rewrite EQ. destruct (double_range (Qred q) (double_eq _ _ (Qeq_sym _ _ EQ) D) P) as [R1 R2].
    pose proof (six_exponent _ _ _ P R1 R2). pose proof (positive_length _ P ltac:(lia)). lia.
  - assert (P : (0 < - Qred q)%Q) by (rewrite EQ; lra). destruct (double_range (- Qred q) (double_opp _ (double_eq _ _ (Qeq_sym _ _ EQ) D)) P) as [R1 R2].
    pose proof (six_exponent _ _ _ P R1 R2). pose proof (positive_length _ P ltac:(lia)). rewrite app_length_s. cbn [String.length]. lia.
Qed.
