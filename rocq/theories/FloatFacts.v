(** Rounding: the result is the nearest floating point number *)
From Coq Require Import Bool ZArith QArith Qabs Qpower Qround Lia Lqa.
From Verif Require Import Float SpecFloat.
Open Scope Q_scope.

Lemma two_nz : ~ 2 == 0. Proof. discriminate. Qed.
Lemma p2_pos z : 0 < 2 ^ z.
Proof.
  assert (H : 0 <= 2 ^ z) by (apply Qpower_pos; discriminate).
  assert (N : ~ 2 ^ z == 0) by (apply Qpower_not_0; exact two_nz). 
  destruct (Qlt_le_dec 0 (2 ^ z)) as [L|L]; [exact L|]. exfalso. apply N. lra.
Qed.
Lemma p2_add x y : 2 ^ (x + y) == 2 ^ x * 2 ^ y.
Proof. apply Qpower_plus. exact two_nz. Qed.
Lemma p2_inj z : (0 <= z)%Z -> 2 ^ z == inject_Z (2 ^ z).
Proof. intro H. rewrite Zpower_Qpower by exact H. reflexivity. Qed.
Lemma p2_succ z : 2 ^ (z + 1) == 2 * 2 ^ z.
Proof. rewrite p2_add. assert (E : 2 ^ 1 == 2) by reflexivity. rewrite E. ring. Qed.
Lemma p2_mono x y : (x <= y)%Z -> 2 ^ x <= 2 ^ y.
Proof.
  intro H. replace y with (x + (y - x))%Z by lia. rewrite p2_add. rewrite (p2_inj (y - x)) by lia.
  assert (P : 1 <= inject_Z (2 ^ (y - x))).
  { change 1 with (inject_Z 1). rewrite <- Zle_Qle. pose proof (Z.pow_pos_nonneg 2 (y - x) ltac:(lia) ltac:(lia)). lia. }
  pose proof (p2_pos x) as P2. assert (E : 2 ^ x == 2 ^ x * 1) by ring. rewrite E at 1.
  rewrite !(Qmult_comm (2 ^ x)). apply Qmult_le_compat_r; lra.
Qed.

Lemma qle_frac (a : Z) (d : positive) (x y : Z) : (0 <= x)%Z -> (0 <= y)%Z ->
  (2 ^ x * Zpos d <= a * 2 ^ y)%Z -> 2 ^ (x - y) <= a # d.
Proof.
  intros Hx Hy H. assert (E : 2 ^ (x - y) * 2 ^ y == 2 ^ x) by (rewrite <- p2_add; replace (x - y + y)%Z with x by lia; reflexivity).
  assert (E' : (a # d) * inject_Z (Zpos d) == inject_Z a) by (unfold Qeq; cbn [Qnum Qden inject_Z Qmult]; lia).
  pose proof (p2_pos y) as Py. pose proof (p2_pos (x - y)) as Pxy.
  assert (Pd : 0 < inject_Z (Zpos d)) by reflexivity.
  rewrite (p2_inj x Hx) in E. rewrite (p2_inj y Hy) in E, Py. set (z := 2 ^ (x - y)) in *.
  assert (H' : inject_Z (2 ^ x) * inject_Z (Zpos d) <= inject_Z a * inject_Z (2 ^ y)) by (rewrite <- !inject_Z_mult, <- Zle_Qle; exact H).
  rewrite <- E, <- E' in H'. clearbody z.
  apply Qnot_lt_le. intro L. apply Qle_not_lt in H'. apply H'.
  apply (Qmult_lt_compat_r _ _ (inject_Z (2 ^ y) * inject_Z (Zpos d))) in L; [|nra]. nra.
Qed.
Lemma qlt_frac (a : Z) (d : positive) (x y : Z) : (0 <= x)%Z -> (0 <= y)%Z ->
  (a * 2 ^ y < 2 ^ x * Zpos d)%Z -> a # d < 2 ^ (x - y).
Proof.
  intros Hx Hy H. assert (E : 2 ^ (x - y) * 2 ^ y == 2 ^ x) by (rewrite <- p2_add; replace (x - y + y)%Z with x by lia; reflexivity).
  assert (E' : (a # d) * inject_Z (Zpos d) == inject_Z a) by (unfold Qeq; cbn [Qnum Qden inject_Z Qmult]; lia).
  pose proof (p2_pos y) as Py. pose proof (p2_pos (x - y)) as Pxy.
  assert (Pd : 0 < inject_Z (Zpos d)) by reflexivity.
  rewrite (p2_inj x Hx) in E. rewrite (p2_inj y Hy) in E, Py. set (z := 2 ^ (x - y)) in *.
  assert (H' : inject_Z a * inject_Z (2 ^ y) < inject_Z (2 ^ x) * inject_Z (Zpos d)) by (rewrite <- !inject_Z_mult, <- Zlt_Qlt; exact H).
  rewrite <- E, <- E' in H'. clearbody z.
  apply Qnot_le_lt. intro L. apply Qlt_not_le in H'. apply H'.
  apply (Qmult_le_compat_r _ _ (inject_Z (2 ^ y) * inject_Z (Zpos d))) in L; [|nra]. nra.
Qed.

Lemma binary_exponent_spec q : 0 < q -> 2 ^ binary_exponent q <= q /\ q < 2 ^ (binary_exponent q + 1).
Proof.
  intro H. destruct q as [a d]. unfold binary_exponent. cbn [Qnum Qden].
  assert (Ha : (0 < a)%Z) by (unfold Qlt in H; cbn in H; lia).
  destruct (Z.log2_spec a Ha) as [A1 A2]. destruct (Z.log2_spec (Zpos d) ltac:(lia)) as [D1 D2].
  pose proof (Z.log2_nonneg a) as La. pose proof (Z.log2_nonneg (Zpos d)) as Ld.
  set (la := Z.log2 a) in *. set (ld := Z.log2 (Zpos d)) in *. clearbody la ld.
  rewrite <- Z.add_1_r in A2, D2.
  assert (U : a # d < 2 ^ (la - ld + 1)).
  { replace (la - ld + 1)%Z with (la + 1 - ld)%Z by lia. apply qlt_frac; [lia|lia|].
    apply (Z.lt_le_trans _ (2 ^ (la + 1) * 2 ^ ld)); [apply Z.mul_lt_mono_pos_r; lia|apply Z.mul_le_mono_nonneg_l; lia]. }
  assert (L : 2 ^ (la - ld - 1) <= a # d).
  { replace (la - ld - 1)%Z with (la - (ld + 1))%Z by lia. apply qle_frac; [lia|lia|].
    apply (Z.le_trans _ (a * Zpos d)); [apply Z.mul_le_mono_nonneg_r; lia|apply Z.mul_le_mono_nonneg_l; lia]. }
  pose proof (Qle_bool_iff (2 ^ (la - ld)) (a # d)) as B. destruct (Qle_bool (2 ^ (la - ld)) (a # d)).
  - split; [apply B; reflexivity|exact U].
  - split; [exact L|]. replace (la - ld - 1 + 1)%Z with (la - ld)%Z by lia. apply Qnot_le_lt. intro K. apply B in K. discriminate K.
Qed.

Lemma round_ge x : (Qfloor x <= round_half_even x)%Z.
Proof.
  unfold round_half_even. destruct (negb _); [lia|]. destruct (negb _); [lia|]. destruct (Z.even _); lia.
Qed.


Lemma round_near x k : Qabs (x - inject_Z (round_half_even x)) <= Qabs (x - inject_Z k).
Proof.
  unfold round_half_even. pose proof (Qfloor_le x) as L. pose proof (Qlt_floor x) as U.
  rewrite inject_Z_plus in U. change (inject_Z 1) with 1 in U.
  set (z := Qfloor x) in *. clearbody z.
  assert (K : inject_Z k <= inject_Z z \/ inject_Z z + 1 <= inject_Z k).
  { destruct (Z.le_gt_cases k z) as [H|H]; [left; rewrite <- Zle_Qle; exact H|right].
    assert (H' : (z + 1 <= k)%Z) by lia. rewrite Zle_Qle, inject_Z_plus in H'. exact H'. }
  set (kq := inject_Z k) in *. clearbody kq.
  assert (B1 : Qabs (x - inject_Z z) == x - inject_Z z) by (apply Qabs_pos; lra).
  assert (B2 : Qabs (x - inject_Z (z + 1)) == inject_Z z + 1 - x).
  { rewrite inject_Z_plus. change (inject_Z 1) with 1. rewrite Qabs_neg by lra. ring. }
  assert (B3 : x - inject_Z z <= 1 # 2 -> x - inject_Z z <= Qabs (x - kq)).
  { intro H. destruct K as [K|K]; [apply (Qle_trans _ (x - kq)); [lra|apply Qle_Qabs]|].
    apply (Qle_trans _ (- (x - kq))); [lra|rewrite <- Qabs_opp; apply Qle_Qabs]. }
  assert (B4 : 1 # 2 <= x - inject_Z z -> inject_Z z + 1 - x <= Qabs (x - kq)).
  { intro H. destruct K as [K|K]; [apply (Qle_trans _ (x - kq)); [lra|apply Qle_Qabs]|].
    apply (Qle_trans _ (- (x - kq))); [lra|rewrite <- Qabs_opp; apply Qle_Qabs]. }
  pose proof (Qle_bool_iff (1 # 2) (x - inject_Z z)) as C1. pose proof (Qle_bool_iff (x - inject_Z z) (1 # 2)) as C2.
  destruct (Qle_bool (1 # 2) (x - inject_Z z)); cbn [negb].
  - destruct (Qle_bool (x - inject_Z z) (1 # 2)); cbn [negb].
    + destruct (Z.even z); [rewrite B1; apply B3; apply C2; reflexivity|rewrite B2; apply B4; apply C1; reflexivity].
    + rewrite B2. apply B4. apply C1. reflexivity.
  - rewrite B1. apply B3. apply Qlt_le_weak. apply Qnot_le_lt. intro H. apply C1 in H. discriminate.
Qed.

(** [q] positive *)
Lemma round_pos_spec p q : (1 <= p)%Z -> 0 < q ->
  (exists m e, (Z.abs m <= 2 ^ p)%Z /\ round_pos p q == inject_Z m * 2 ^ e)
  /\ forall m e, (Z.abs m <= 2 ^ p)%Z -> Qabs (q - round_pos p q) <= Qabs (q - inject_Z m * 2 ^ e).
Proof.
  intros Hp Hq. unfold round_pos. destruct (binary_exponent_spec q Hq) as [E1 E2]. set (E := binary_exponent q) in *. clearbody E.
  set (u := 2 ^ (E - (p - 1))). assert (Pu : 0 < u) by apply p2_pos.
  assert (Unz : ~ u == 0) by (intro K; rewrite K in Pu; discriminate Pu).
  assert (X : q == (q / u) * u) by (field; exact Unz). set (x := q / u) in *.
  assert (EU : 2 ^ E == inject_Z (2 ^ (p - 1)) * u).
  { rewrite <- p2_inj by lia. unfold u. rewrite <- p2_add. replace (p - 1 + (E - (p - 1)))%Z with E by lia. reflexivity. }
  assert (EU2 : 2 ^ (E + 1) == inject_Z (2 ^ p) * u).
  { rewrite <- p2_inj by lia. unfold u. rewrite <- p2_add. replace (p + (E - (p - 1)))%Z with (E + 1)%Z by lia. reflexivity. }
  assert (X1 : inject_Z (2 ^ (p - 1)) <= x) by (apply Qle_shift_div_l; [exact Pu|rewrite <- EU; exact E1]).
  assert (X2 : x <= inject_Z (2 ^ p)) by (apply Qle_shift_div_r; [exact Pu|rewrite <- EU2; lra]).
  assert (NM : forall k, Qabs (q - inject_Z (round_half_even x) * u) <= Qabs (q - inject_Z k * u)).
  { intro k. assert (Q1 : forall z, Qabs (q - z * u) == Qabs (x - z) * u).
    { intro z. rewrite X at 1. assert (E0 : x * u - z * u == (x - z) * u) by ring. rewrite E0, Qabs_Qmult, (Qabs_pos u) by lra. reflexivity. }
    rewrite !Q1. apply Qmult_le_compat_r; [apply round_near|lra]. }
  split.
  - exists (round_half_even x), (E - (p - 1))%Z. split; [|reflexivity].
    pose proof (round_ge x) as R. assert (F0 : (2 ^ (p - 1) <= Qfloor x)%Z).
    { rewrite <- (Qfloor_Z (2 ^ (p - 1))). apply Qfloor_resp_le. exact X1. }
    assert (F1 : (round_half_even x <= 2 ^ p)%Z).
    { pose proof (round_near x (2 ^ p)) as N. destruct (Z.le_gt_cases (round_half_even x) (2 ^ p)) as [K|K]; [exact K|]. exfalso.
      assert (K' : (2 ^ p + 1 <= round_half_even x)%Z) by lia. rewrite Zle_Qle, inject_Z_plus in K'. change (inject_Z 1) with 1 in K'.
      rewrite (Qabs_neg (x - inject_Z (2 ^ p))), (Qabs_neg (x - inject_Z (round_half_even x))) in N by lra. lra. }
    pose proof (Z.pow_pos_nonneg 2 (p - 1) ltac:(lia) ltac:(lia)). rewrite Z.abs_eq by lia. exact F1.
  - intros m e Hm. destruct (Z.le_gt_cases (E - (p - 1)) e) as [He|He].
    + assert (Y : inject_Z m * 2 ^ e == inject_Z (m * 2 ^ (e - (E - (p - 1)))) * u).
      { rewrite inject_Z_mult, <- p2_inj by lia. unfold u. rewrite <- Qmult_assoc, <- p2_add.
        replace (e - (E - (p - 1)) + (E - (p - 1)))%Z with e by lia. reflexivity. }
      rewrite Y. apply NM.
    + eapply Qle_trans; [apply (NM (2 ^ (p - 1))%Z)|]. rewrite <- EU. rewrite Qabs_pos by lra.
      eapply Qle_trans; [|apply Qle_Qabs].
      assert (Y : inject_Z m * 2 ^ e <= 2 ^ E).
      { apply (Qle_trans _ (inject_Z (2 ^ p) * 2 ^ e)).
        - apply Qmult_le_compat_r; [rewrite <- Zle_Qle; lia|apply Qlt_le_weak, p2_pos].
        - rewrite <- p2_inj by lia. rewrite <- p2_add. apply p2_mono. lia. }
      lra.
Qed.

Lemma round_float_spec p q : (1 <= p)%Z -> float_number p (round_float p q) /\ nearest_float p q (round_float p q).
Proof.
  intro Hp. unfold float_number, nearest_float, round_float. destruct q as [a d]. cbn [Qnum]. destruct a as [|a|a].
  - split.
    + exists 0%Z, 0%Z. split; [cbn; apply Z.pow_nonneg; lia|reflexivity].
    + intros x _. assert (E : (0 # d) - 0 == 0) by (unfold Qeq; cbn; lia). rewrite E. apply Qabs_nonneg.
  - destruct (round_pos_spec p (Zpos a # d) Hp ltac:(reflexivity)) as [A B]. split; [exact A|].
    intros x (m & e & Hm & Hx). rewrite Hx. now apply B.
  - destruct (round_pos_spec p (- (Zneg a # d)) Hp ltac:(reflexivity)) as [(m & e & Hm & A) B]. split.
    + exists (- m)%Z, e. split; [rewrite Z.abs_opp; exact Hm|]. rewrite A, inject_Z_opp. ring.
    + intros x (m' & e' & Hm' & Hx). specialize (B (- m')%Z e'). rewrite Z.abs_opp in B. specialize (B Hm').
      assert (E1 : (Zneg a # d) - - round_pos p (- (Zneg a # d)) == - (- (Zneg a # d) - round_pos p (- (Zneg a # d)))) by ring.
      rewrite E1, Qabs_opp. eapply Qle_trans; [exact B|].
      assert (E2 : - (Zneg a # d) - inject_Z (- m') * 2 ^ e' == - ((Zneg a # d) - x)) by (rewrite Hx, inject_Z_opp; ring).
      rewrite E2, Qabs_opp. apply Qle_refl.
Qed.

Lemma round_half x : Qabs (x - inject_Z (round_half_even x)) <= 1 # 2.
Proof.
  pose proof (Qfloor_le x) as L. pose proof (Qlt_floor x) as U.
  pose proof (round_near x (Qfloor x)) as N1. pose proof (round_near x (Qfloor x + 1)) as N2.
  rewrite inject_Z_plus in U, N2. change (inject_Z 1) with 1 in *.
  set (z := inject_Z (Qfloor x)) in *. clearbody z. set (r := Qabs (x - inject_Z (round_half_even x))) in *. clearbody r.
  rewrite (Qabs_pos (x - z)) in N1 by lra. rewrite (Qabs_neg (x - (z + 1))) in N2 by lra. lra.
Qed.

Lemma round_pos_relative p q : (1 <= p)%Z -> 0 < q -> Qabs (round_pos p q - q) <= 2 ^ (- p) * q.
Proof.
  intros Hp Hq. unfold round_pos. destruct (binary_exponent_spec q Hq) as [E1 E2]. set (E := binary_exponent q) in *. clearbody E.
  set (u := 2 ^ (E - (p - 1))). assert (Pu : 0 < u) by apply p2_pos.
  assert (Unz : ~ u == 0) by (intro K; rewrite K in Pu; discriminate Pu).
  assert (X : q == (q / u) * u) by (field; exact Unz). set (x := q / u) in *.
  assert (EQ : inject_Z (round_half_even x) * u - q == - ((x - inject_Z (round_half_even x)) * u)) by (rewrite X at 1; ring).
  rewrite EQ, Qabs_opp, Qabs_Qmult, (Qabs_pos u) by lra.
  apply (Qle_trans _ ((1 # 2) * u)); [apply Qmult_le_compat_r; [apply round_half|lra]|].
  assert (U2 : (1 # 2) * u == 2 ^ (- p) * 2 ^ E).
  { assert (H2 : 1 # 2 == 2 ^ (-1)) by reflexivity. rewrite H2. unfold u. rewrite <- !p2_add.
    replace (-1 + (E - (p - 1)))%Z with (- p + E)%Z by lia. reflexivity. }
  rewrite U2. rewrite !(Qmult_comm (2 ^ (- p))). apply Qmult_le_compat_r; [exact E1|apply Qlt_le_weak, p2_pos].
Qed.

Lemma round_float_keeps p : (1 <= p)%Z -> keeps_floats p (round_float p).
Proof.
  intros Hp x Hx. destruct (round_float_spec p x Hp) as [_ N]. specialize (N x Hx).
  assert (E : x - x == 0) by ring. rewrite E in N. change (Qabs 0) with 0 in N.
  pose proof (Qabs_nonneg (x - round_float p x)) as P.
  pose proof (Qle_Qabs (x - round_float p x)) as A. pose proof (Qle_Qabs (- (x - round_float p x))) as B. rewrite Qabs_opp in B. lra.
Qed.
Lemma round_float_relative p : (1 <= p)%Z -> relative_error (2 ^ (- p)) (round_float p).
Proof.
  intros Hp x. unfold round_float. destruct x as [a d]. cbn [Qnum]. destruct a as [|a|a].
  - assert (E : 0 - (0 # d) == 0) by (unfold Qeq; cbn; lia). rewrite E. change (Qabs 0) with 0.
    apply Qmult_le_0_compat; [apply Qlt_le_weak, p2_pos|apply Qabs_nonneg].
  - rewrite (Qabs_pos (Zpos a # d)) by (unfold Qle; cbn; lia). apply round_pos_relative; [exact Hp|reflexivity].
  - set (q := - (Zneg a # d)). assert (Q0 : Zneg a # d == - q) by (unfold q; ring).
    assert (E : - round_pos p q - (Zneg a # d) == - (round_pos p q - q)) by (rewrite Q0; ring).
    rewrite E, Q0, !Qabs_opp. assert (P : 0 < q) by reflexivity. rewrite (Qabs_pos q) by lra.
    apply round_pos_relative; [exact Hp|exact P].
Qed.
