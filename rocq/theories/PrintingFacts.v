(** Rounding to six decimal digits *)
From Coq Require Import Ascii String List Bool Arith ZArith QArith Qabs Qpower Qround Lia Lqa.
From Verif Require Import Float FloatFacts Benchmark SpecBenchmark BenchmarkFacts4 Printing SpecPrinting.
Open Scope Q_scope.

Lemma ten_nz : ~ 10 == 0. Proof. discriminate. Qed.
Lemma p10_pos z : 0 < 10 ^ z.
Proof.
  assert (H : 0 <= 10 ^ z) by (apply Qpower_pos; discriminate).
  assert (N : ~ 10 ^ z == 0) by (apply Qpower_not_0; exact ten_nz). 
  destruct (Qlt_le_dec 0 (10 ^ z)) as [L|L]; [exact L|]. exfalso. apply N. lra.
Qed.
Lemma p10_add x y : 10 ^ (x + y) == 10 ^ x * 10 ^ y.
Proof. apply Qpower_plus. exact ten_nz. Qed.
Lemma p10_inj z : (0 <= z)%Z -> 10 ^ z == inject_Z (10 ^ z).
Proof. intro H. rewrite Zpower_Qpower by exact H. reflexivity. Qed.
Lemma p10_succ z : 10 ^ (z + 1) == 10 * 10 ^ z.
Proof. rewrite p10_add. assert (E : 10 ^ 1 == 10) by reflexivity. rewrite E. ring. Qed.
Lemma p10_mono x y : (x <= y)%Z -> 10 ^ x <= 10 ^ y.
Proof.
  intro H. replace y with (x + (y - x))%Z by lia. rewrite p10_add. rewrite (p10_inj (y - x)) by lia.
  assert (P : 1 <= inject_Z (10 ^ (y - x))).
  { change 1 with (inject_Z 1). rewrite <- Zle_Qle. pose proof (Z.pow_pos_nonneg 10 (y - x) ltac:(lia) ltac:(lia)). lia. }
  pose proof (p10_pos x) as P2. assert (E : 10 ^ x == 10 ^ x * 1) by ring. rewrite E at 1.
  rewrite !(Qmult_comm (10 ^ x)). apply Qmult_le_compat_r; lra.
Qed.

Lemma qle_frac10 (a : Z) (d : positive) (x y : Z) : (0 <= x)%Z -> (0 <= y)%Z ->
  (10 ^ x * Zpos d <= a * 10 ^ y)%Z -> 10 ^ (x - y) <= a # d.
Proof.
  intros Hx Hy H. assert (E : 10 ^ (x - y) * 10 ^ y == 10 ^ x) by (rewrite <- p10_add; replace (x - y + y)%Z with x by lia; reflexivity).
  assert (E' : (a # d) * inject_Z (Zpos d) == inject_Z a) by (unfold Qeq; cbn [Qnum Qden inject_Z Qmult]; lia).
  pose proof (p10_pos y) as Py. pose proof (p10_pos (x - y)) as Pxy.
  assert (Pd : 0 < inject_Z (Zpos d)) by reflexivity.
  rewrite (p10_inj x Hx) in E. rewrite (p10_inj y Hy) in E, Py. set (z := 10 ^ (x - y)) in *.
  assert (H' : inject_Z (10 ^ x) * inject_Z (Zpos d) <= inject_Z a * inject_Z (10 ^ y)) by (rewrite <- !inject_Z_mult, <- Zle_Qle; exact H).
  rewrite <- E, <- E' in H'. clearbody z.
  apply Qnot_lt_le. intro L. apply Qle_not_lt in H'. apply H'.
  apply (Qmult_lt_compat_r _ _ (inject_Z (10 ^ y) * inject_Z (Zpos d))) in L; [|nra]. nra.
Qed.
Lemma qlt_frac10 (a : Z) (d : positive) (x y : Z) : (0 <= x)%Z -> (0 <= y)%Z ->
  (a * 10 ^ y < 10 ^ x * Zpos d)%Z -> a # d < 10 ^ (x - y).
Proof.
  intros Hx Hy H. assert (E : 10 ^ (x - y) * 10 ^ y == 10 ^ x) by (rewrite <- p10_add; replace (x - y + y)%Z with x by lia; reflexivity).
  assert (E' : (a # d) * inject_Z (Zpos d) == inject_Z a) by (unfold Qeq; cbn [Qnum Qden inject_Z Qmult]; lia).
  pose proof (p10_pos y) as Py. pose proof (p10_pos (x - y)) as Pxy.
  assert (Pd : 0 < inject_Z (Zpos d)) by reflexivity.
  rewrite (p10_inj x Hx) in E. rewrite (p10_inj y Hy) in E, Py. set (z := 10 ^ (x - y)) in *.
  assert (H' : inject_Z a * inject_Z (10 ^ y) < inject_Z (10 ^ x) * inject_Z (Zpos d)) by (rewrite <- !inject_Z_mult, <- Zlt_Qlt; exact H).
  rewrite <- E, <- E' in H'. clearbody z.
  apply Qnot_le_lt. intro L. apply Qlt_not_le in H'. apply H'.
  apply (Qmult_le_compat_r _ _ (inject_Z (10 ^ y) * inject_Z (Zpos d))) in L; [|nra]. nra.
Qed.

(** ** Digits *)
Lemma digit_range c d : digit_of c = Some d -> (0 <= d <= 9)%Z.
Proof.
  unfold digit_of. destruct ((48 <=? N_of_ascii c) && (N_of_ascii c <=? 57))%N eqn:E; [|discriminate].
  intros [= <-]. apply andb_prop in E. destruct E as [E1 E2]. apply N.leb_le in E1, E2. lia.
Qed.
Notation len s := (Z.of_nat (String.length s)).
Lemma len_S c s : (10 ^ len (String c s) = 10 * 10 ^ len s)%Z.
Proof. cbn [String.length]. rewrite Nat2Z.inj_succ, Z.pow_succ_r by lia. reflexivity. Qed.
Lemma digits_bounds s : forall v z, (0 <= v)%Z -> read_digits s v = Some z -> (v * 10 ^ len s <= z < (v + 1) * 10 ^ len s)%Z.
Proof.
  induction s as [|c s IH]; intros v z Hv H; cbn [read_digits] in H.
  - injection H as <-. cbn [String.length]. change (10 ^ Z.of_nat 0)%Z with 1%Z. lia.
  - destruct (digit_of c) as [d|] eqn:E; [|discriminate]. apply digit_range in E. apply IH in H; [|lia]. rewrite len_S.
    pose proof (Z.pow_pos_nonneg 10 (len s) ltac:(lia) ltac:(lia)). nia.
Qed.
Lemma number_of_digits_spec n : (0 < n)%N -> (1 <= number_of_digits n)%Z /\ (10 ^ (number_of_digits n - 1) <= Z.of_N n < 10 ^ number_of_digits n)%Z.
Proof.
  intro Hn. unfold number_of_digits. destruct (to_string_decimal n) as (H0 & H & Hz). destruct (to_string n) as [|c s]; [contradiction|].
  pose proof (digits_bounds _ _ _ (Z.le_refl 0) H) as B. split; [cbn [String.length]; lia|]. split; [|lia].
  cbn [read_digits] in H. destruct (digit_of c) as [d|] eqn:E; [|discriminate]. pose proof (digit_range _ _ E) as R.
  replace (len (String c s) - 1)%Z with (len s) by (cbn [String.length]; lia). destruct (Z.eq_dec d 0) as [->|D].
  - assert (c = "0"%char) as ->.
    { unfold digit_of in E. destruct ((48 <=? N_of_ascii c) && (N_of_ascii c <=? 57))%N eqn:G; [|discriminate]. injection E as E.
      rewrite <- (ascii_N_embedding c). replace (N_of_ascii c) with 48%N by lia. reflexivity. }
    rewrite (Hz s eq_refl) in *. cbn in H. injection H as H. lia.
  - apply digits_bounds in H; [|lia]. pose proof (Z.pow_pos_nonneg 10 (len s) ltac:(lia) ltac:(lia)). nia.
Qed.

Lemma decimal_exponent_spec q : 0 < q -> 10 ^ decimal_exponent q <= q /\ q < 10 ^ (decimal_exponent q + 1).
Proof.
  intro H. destruct q as [a d]. unfold decimal_exponent. cbn [Qnum Qden].
  assert (Ha : (0 < a)%Z) by (unfold Qlt in H; cbn in H; lia).
  destruct (number_of_digits_spec (Z.to_N a) ltac:(lia)) as [La [A1 A2]]. rewrite Z2N.id in A1, A2 by lia.
  destruct (number_of_digits_spec (Npos d) ltac:(lia)) as [Ld [D1 D2]]. cbn [Z.of_N] in D1, D2.
  set (la := number_of_digits (Z.to_N a)) in *. set (ld := number_of_digits (Npos d)) in *. clearbody la ld.
  assert (U : a # d < 10 ^ (la - ld + 1)).
  { replace (la - ld + 1)%Z with (la - (ld - 1))%Z by lia. apply qlt_frac10; [lia|lia|].
    apply (Z.lt_le_trans _ (10 ^ la * 10 ^ (ld - 1))); [apply Z.mul_lt_mono_pos_r; lia|apply Z.mul_le_mono_nonneg_l; lia]. }
  assert (L : 10 ^ (la - ld - 1) <= a # d).
  { replace (la - ld - 1)%Z with (la - 1 - ld)%Z by lia. apply qle_frac10; [lia|lia|].
    apply (Z.le_trans _ (a * Zpos d)); [apply Z.mul_le_mono_nonneg_r; lia|apply Z.mul_le_mono_nonneg_l; lia]. }
  pose proof (Qle_bool_iff (10 ^ (la - ld)) (a # d)) as B. destruct (Qle_bool (10 ^ (la - ld)) (a # d)).
  - split; [apply B; reflexivity|exact U].
  - split; [exact L|]. replace (la - ld - 1 + 1)%Z with (la - ld)%Z by lia. apply Qnot_le_lt. intro K. apply B in K. discriminate K.
Qed.

Definition six_value (q : Q) : Q := let (m, x) := six_digits q in inject_Z m * 10 ^ (x - 5).
Lemma six_digits_spec q : 0 < q -> (10 ^ 5 <= fst (six_digits q) < 10 ^ 6)%Z /\ (Qabs (q - six_value q) <= (5 # 1000000) * q)%Q
  /\ forall m e, (Z.abs m < 10 ^ 6)%Z -> Qabs (q - six_value q) <= Qabs (q - inject_Z m * 10 ^ e).
Proof.
  intros Hq. unfold six_value, six_digits. destruct (decimal_exponent_spec q Hq) as [E1 E2]. set (E := decimal_exponent q) in *. clearbody E.
  set (u := 10 ^ (E - 5)). assert (Pu : 0 < u) by apply p10_pos.
  assert (Unz : ~ u == 0) by (intro K; rewrite K in Pu; discriminate Pu).
  assert (X : q == (q / u) * u) by (field; exact Unz). set (x := q / u) in *.
  assert (EU : 10 ^ E == inject_Z (10 ^ 5) * u).
  { rewrite <- p10_inj by lia. unfold u. rewrite <- p10_add. replace (5 + (E - 5))%Z with E by lia. reflexivity. }
  assert (EU2 : 10 ^ (E + 1) == inject_Z (10 ^ 6) * u).
  { rewrite <- p10_inj by lia. unfold u. rewrite <- p10_add. replace (6 + (E - 5))%Z with (E + 1)%Z by lia. reflexivity. }
  assert (X1 : inject_Z (10 ^ 5) <= x) by (apply Qle_shift_div_l; [exact Pu|rewrite <- EU; exact E1]).
  assert (X2 : x <= inject_Z (10 ^ 6)) by (apply Qle_shift_div_r; [exact Pu|rewrite <- EU2; lra]).
  assert (Q1 : forall z, Qabs (q - z * u) == Qabs (x - z) * u).
  { intro z. rewrite X at 1. assert (E0 : x * u - z * u == (x - z) * u) by ring. rewrite E0, Qabs_Qmult, (Qabs_pos u) by lra. reflexivity. }
  assert (NM : forall k, Qabs (q - inject_Z (round_half_even x) * u) <= Qabs (q - inject_Z k * u)).
  { intro k. rewrite !Q1. apply Qmult_le_compat_r; [apply round_near|lra]. }
  assert (F0 : (10 ^ 5 <= Qfloor x)%Z). { rewrite <- (Qfloor_Z (10 ^ 5)). apply Qfloor_resp_le. exact X1. }
  pose proof (round_ge x) as R.
  assert (F1 : (round_half_even x <= 10 ^ 6)%Z).
  { pose proof (round_near x (10 ^ 6)) as N. destruct (Z.le_gt_cases (round_half_even x) (10 ^ 6)) as [K|K]; [exact K|]. exfalso.
    assert (K' : (10 ^ 6 + 1 <= round_half_even x)%Z) by lia. rewrite Zle_Qle, inject_Z_plus in K'. change (inject_Z 1) with 1 in K'.
    rewrite (Qabs_neg (x - inject_Z (10 ^ 6))), (Qabs_neg (x - inject_Z (round_half_even x))) in N by lra. lra. }
  assert (V : (let (m, y) := if (round_half_even x =? 10 ^ 6)%Z then ((10 ^ 5)%Z, (E + 1)%Z) else (round_half_even x, E) in inject_Z m * 10 ^ (y - 5))
     == inject_Z (round_half_even x) * u).
  { destruct (Z.eqb_spec (round_half_even x) (10 ^ 6)) as [K|K]; [|reflexivity]. rewrite K. unfold u.
    replace (E + 1 - 5)%Z with (E - 5 + 1)%Z by lia. rewrite p10_succ. change (inject_Z (10 ^ 6)) with (inject_Z (10 ^ 5 * 10)). rewrite inject_Z_mult. change (inject_Z 10) with 10. ring. }
  assert (FM : (10 ^ 5 <= fst (if (round_half_even x =? 10 ^ 6)%Z then ((10 ^ 5)%Z, (E + 1)%Z) else (round_half_even x, E)) < 10 ^ 6)%Z).
  { destruct (Z.eqb_spec (round_half_even x) (10 ^ 6)) as [K|K]; cbn [fst]; [|lia]. split; [apply Z.le_refl|reflexivity]. }
  split; [exact FM|]. split; [rewrite V|].
  - rewrite (Q1 (inject_Z (round_half_even x))). pose proof (round_half x) as Rh.
    assert (U5 : u <= (1 # 100000) * q). { change (inject_Z (10 ^ 5)) with 100000 in EU. lra. }
    apply (Qle_trans _ ((1 # 2) * u)); [apply Qmult_le_compat_r; lra|lra].
  - intros m e Hm. rewrite V. destruct (Z.le_gt_cases (E - 5) e) as [He|He].
    + assert (Y : inject_Z m * 10 ^ e == inject_Z (m * 10 ^ (e - (E - 5))) * u).
      { rewrite inject_Z_mult, <- p10_inj by lia. unfold u. rewrite <- Qmult_assoc, <- p10_add.
        replace (e - (E - 5) + (E - 5))%Z with e by lia. reflexivity. }
      rewrite Y. apply NM.
    + eapply Qle_trans; [apply (NM (10 ^ 5)%Z)|]. rewrite <- EU. rewrite Qabs_pos by lra.
      eapply Qle_trans; [|apply Qle_Qabs].
      assert (Y : inject_Z m * 10 ^ e <= 10 ^ E).
      { apply (Qle_trans _ (inject_Z (10 ^ 6) * 10 ^ e)).
        - apply Qmult_le_compat_r; [rewrite <- Zle_Qle; lia|apply Qlt_le_weak, p10_pos].
        - rewrite <- p10_inj by lia. rewrite <- p10_add. apply p10_mono. lia. }
      lra.
Qed.
