(** The index of a bucket computed with doubles. *)
From Coq Require Import List Bool Arith ZArith QArith Qabs Qround Lia Lqa.
From Verif Require Import Res Cudd Spec SpecFloat Float FloatFacts Helpers Counting Metrics Operators Examples Minimize SpecMinimize
  MinimizeFacts MinimizeFacts2 MinimizeFacts3 Rounded RoundedMinimize RoundedMinimizeFacts RoundedFacts2.
Import ListNotations.
Open Scope Q_scope.

(** two different numbers with [p] bits have a distance *)
Lemma float_gap p b e : (1 <= p)%Z -> float_number p b -> float_number p e -> 0 < b -> b < e -> b * (1 + 2 ^ (- p)) <= e.
Proof.
  intros Hp (m & k & Hm & Eb) (m' & k' & Hm' & Ee) B L.
  assert (PP : 0 < 2 ^ (- p)) by apply p2_pos.
  assert (INV : inject_Z (2 ^ p) * 2 ^ (- p) == 1).
  { rewrite <- p2_inj by lia. rewrite <- p2_add. replace (p + - p)%Z with 0%Z by lia. reflexivity. }
  destruct (Z.le_gt_cases k k') as [K|K].
  - (* e is a multiple of 2^k *)
    pose proof (p2_pos k) as P. set (d := (m' * 2 ^ (k' - k))%Z).
    assert (Ed : e == inject_Z d * 2 ^ k).
    { rewrite Ee. unfold d. rewrite inject_Z_mult, <- (p2_inj (k' - k)) by lia. rewrite <- Qmult_assoc, <- p2_add.
      replace (k' - k + k)%Z with k' by lia. reflexivity. }
    assert (LD : (m < d)%Z).
    { rewrite Zlt_Qlt. apply (Qmult_lt_r _ _ (2 ^ k) P). rewrite <- Eb, <- Ed. exact L. }
    assert (S1 : b + 2 ^ k <= e).
    { rewrite Eb, Ed. assert (inject_Z m + 1 <= inject_Z d) by (change 1 with (inject_Z 1); rewrite <- inject_Z_plus, <- Zle_Qle; lia).
      assert ((inject_Z m + 1) * 2 ^ k <= inject_Z d * 2 ^ k) by (apply Qmult_le_compat_r; lra). lra. }
    assert (S2 : b * 2 ^ (- p) <= 2 ^ k).
    { rewrite Eb. assert (M1 : inject_Z m * 2 ^ (- p) <= 1).
      { rewrite <- INV. apply Qmult_le_compat_r; [rewrite <- Zle_Qle; lia|lra]. }
      assert (inject_Z m * 2 ^ (- p) * 2 ^ k <= 1 * 2 ^ k) by (apply Qmult_le_compat_r; lra). lra. }
    lra.
  - (* b is a multiple of 2^k' *)
    pose proof (p2_pos k') as P. set (d := (m * 2 ^ (k - k'))%Z).
    assert (Ed : b == inject_Z d * 2 ^ k').
    { rewrite Eb. unfold d. rewrite inject_Z_mult, <- (p2_inj (k - k')) by lia. rewrite <- Qmult_assoc, <- p2_add.
      replace (k - k' + k')%Z with k by lia. reflexivity. }
    assert (LD : (d < m')%Z).
    { rewrite Zlt_Qlt. apply (Qmult_lt_r _ _ (2 ^ k') P). rewrite <- Ee, <- Ed. exact L. }
    assert (S1 : b + 2 ^ k' <= e).
    { rewrite Ed, Ee. assert (inject_Z d + 1 <= inject_Z m') by (change 1 with (inject_Z 1); rewrite <- inject_Z_plus, <- Zle_Qle; lia).
      assert ((inject_Z d + 1) * 2 ^ k' <= inject_Z m' * 2 ^ k') by (apply Qmult_le_compat_r; lra). lra. }
    assert (S2 : e * 2 ^ (- p) <= 2 ^ k').
    { rewrite Ee. assert (M1 : inject_Z m' * 2 ^ (- p) <= 1).
      { rewrite <- INV. apply Qmult_le_compat_r; [rewrite <- Zle_Qle; lia|lra]. }
      assert (inject_Z m' * 2 ^ (- p) * 2 ^ k' <= 1 * 2 ^ k') by (apply Qmult_le_compat_r; lra). lra. }
    assert (b * 2 ^ (- p) <= e * 2 ^ (- p)) by (apply Qmult_le_compat_r; lra). lra.
Qed.

Section Nearest.
Variable p : Z.
Variable rnd : Q -> Q.
Hypothesis Hp : (1 <= p)%Z.
Hypothesis near : forall x, nearest_float p x (rnd x).

Lemma near_ge x g : float_number p g -> g <= x -> g <= rnd x.
Proof.
  intros F L. apply Qnot_lt_le. intro H. pose proof (near x g F) as N.
  rewrite (Qabs_pos (x - g)), (Qabs_pos (x - rnd x)) in N by lra. lra.
Qed.
Lemma near_le x g : float_number p g -> x <= g -> rnd x <= g.
Proof.
  intros F L. apply Qnot_lt_le. intro H. pose proof (near x g F) as N.
  rewrite (Qabs_neg (x - g)), (Qabs_neg (x - rnd x)) in N by lra. lra.
Qed.
(** slightly better than the unit roundoff *)
Lemma near_below x : 0 <= x -> x <= rnd x * (1 + 2 ^ (- p)).
Proof.
  intro X0. set (u := 2 ^ (- p)). assert (U : 0 < u) by apply p2_pos.
  destruct (Qlt_le_dec 0 x) as [X|X].
  2:{ assert (E : x == 0) by lra. assert (0 <= rnd x).
      { apply near_ge; [exists 0%Z, 0%Z; split; [rewrite Z.abs_0; apply Z.pow_nonneg; lia|reflexivity]|lra]. }
      assert (0 <= rnd x * (1 + u)) by (apply Qmult_le_0_compat; lra). lra. }
  destruct (binary_exponent_spec x X) as [E1 E2]. set (E := binary_exponent x) in *. clearbody E.
  set (w := 2 ^ (E - (p - 1))). assert (W : 0 < w) by apply p2_pos.
  assert (WU : w == 2 * (u * 2 ^ E)).
  { unfold w, u. rewrite <- p2_add, <- p2_succ. replace (- p + E + 1)%Z with (E - (p - 1))%Z by lia. reflexivity. }
  assert (PE : 0 < 2 ^ E) by apply p2_pos.
  assert (F0 : float_number p (2 ^ E)).
  { exists 1%Z, E. split; [|rewrite Qmult_1_l; reflexivity]. change (Z.abs 1) with 1%Z. pose proof (Z.pow_pos_nonneg 2 p ltac:(lia) ltac:(lia)). lia. }
  pose proof (near_ge x (2 ^ E) F0 E1) as R0. pose proof (near x (2 ^ E) F0) as N0. rewrite (Qabs_pos (x - 2 ^ E)) in N0 by lra.
  (* the multiples of w around x *)
  set (z := Qfloor (x / w)).
  assert (Z1 : inject_Z z * w <= x).
  { pose proof (Qfloor_le (x / w)) as H. fold z in H. apply (Qmult_le_compat_r _ _ w) in H; [|lra].
    assert (K : x / w * w == x) by (field; lra). rewrite K in H. exact H. }
  assert (Z2 : x < (inject_Z z + 1) * w).
  { pose proof (Qlt_floor (x / w)) as H. fold z in H. rewrite inject_Z_plus in H. change (inject_Z 1) with 1 in H.
    apply (Qmult_lt_r _ _ w W) in H. assert (K : x / w * w == x) by (field; lra). rewrite K in H. exact H. }
  assert (WE : inject_Z (2 ^ p) * w == 2 ^ (E + 1)).
  { rewrite <- p2_inj by lia. unfold w. rewrite <- p2_add. replace (p + (E - (p - 1)))%Z with (E + 1)%Z by lia. reflexivity. }
  assert (ZL : (0 <= z < 2 ^ p)%Z).
  { split.
    - change 0%Z with (Qfloor 0). apply Qfloor_resp_le. apply Qle_shift_div_l; [exact W|lra].
    - rewrite Zlt_Qlt. apply (Qmult_lt_r _ _ w W). rewrite WE. lra. }
  assert (FZ : forall k, (0 <= k <= 2 ^ p)%Z -> float_number p (inject_Z k * w)).
  { intros k K. exists k, (E - (p - 1))%Z. split; [rewrite Z.abs_eq; lia|reflexivity]. }
  pose proof (near x _ (FZ z ltac:(lia))) as N1. pose proof (near x _ (FZ (z + 1)%Z ltac:(lia))) as N2.
  rewrite inject_Z_plus in N2. change (inject_Z 1) with 1 in N2.
  rewrite (Qabs_pos (x - inject_Z z * w)) in N1 by lra. rewrite (Qabs_neg (x - (inject_Z z + 1) * w)) in N2 by lra.
  pose proof (Qle_Qabs (x - rnd x)) as A. assert (D : x - rnd x <= u * 2 ^ E) by lra.
  assert (u * 2 ^ E <= u * rnd x) by (rewrite !(Qmult_comm u); apply Qmult_le_compat_r; lra). lra.
Qed.
Hypothesis keeps : keeps_floats p rnd.

Lemma quot_lt q c : Z.quot (Qnum q) (Zpos (Qden q)) = c -> q < inject_Z c + 1.
Proof.
  destruct q as [a d]. cbn [Qnum Qden]. intro E. unfold Qlt. cbn [inject_Z Qplus Qnum Qden].
  pose proof (Z.quot_rem' a (Zpos d)) as QR. pose proof (Z.rem_bound_abs a (Zpos d) ltac:(discriminate)) as RB.
  rewrite E in QR. change (Z.abs (Zpos d)) with (Zpos d) in RB. change (Z.pos (1 * 1)) with 1%Z. nia.
Qed.
Lemma quot_le q c : 0 <= q -> Z.quot (Qnum q) (Zpos (Qden q)) = c -> inject_Z c <= q.
Proof.
  destruct q as [a d]. cbn [Qnum Qden]. intros Q0 E. unfold Qle in *. cbn [inject_Z Qnum Qden] in *. rewrite Z.mul_1_r in *. cbn [Z.mul] in Q0.
  pose proof (Z.quot_rem' a (Zpos d)) as QR. pose proof (Z.rem_nonneg a (Zpos d) ltac:(discriminate) ltac:(lia)). rewrite E in QR. lia.
Qed.
Lemma float_small z : (0 <= z <= 2 ^ p)%Z -> float_number p (inject_Z z).
Proof. intro H. exists z, 0%Z. split; [rewrite Z.abs_eq; lia|]. change (2 ^ 0) with 1. rewrite Qmult_1_r. reflexivity. Qed.

Lemma dimension_fl_bound g e b c : 0 < b -> (0 < g <= 2 ^ p)%Z -> float_number p e -> float_number p b ->
  dimension_index_fl rnd g (Fin e) b = Ok c -> (c < g)%Z -> e <= b /\ ((exists k, g = 2 ^ Z.of_nat k)%Z -> e < b).
Proof.
  intros B G Fe Fb H C. unfold dimension_index_fl in H. destruct (Qeq_bool b 0); [discriminate|]. cbv zeta in H.
  set (q := rnd (rnd (rnd (inject_Z g) * e) / b)) in *. destruct (_ && _); [|discriminate].
  apply (f_equal (fun x => match x with Ok y => y | _ => 0%Z end)) in H. cbn beta iota in H. apply quot_lt in H.
  assert (QG : q < inject_Z g).
  { assert (inject_Z c + 1 <= inject_Z g) by (change 1 with (inject_Z 1); rewrite <- inject_Z_plus, <- Zle_Qle; lia). lra. }
  assert (GQ : 0 < inject_Z g) by (change 0 with (inject_Z 0); rewrite <- Zlt_Qlt; lia).
  assert (RG : rnd (inject_Z g) == inject_Z g) by (apply keeps, float_small; lia).
  assert (Q1 : rnd (rnd (inject_Z g) * e) / b < inject_Z g).
  { apply Qnot_le_lt. intro K. pose proof (near_ge _ _ (float_small g ltac:(lia)) K). unfold q in QG. lra. }
  assert (Q2 : rnd (rnd (inject_Z g) * e) < inject_Z g * b).
  { apply (Qmult_lt_r _ _ b B) in Q1. assert (K : rnd (rnd (inject_Z g) * e) / b * b == rnd (rnd (inject_Z g) * e)) by (field; lra).
    rewrite K in Q1. exact Q1. }
  set (x := rnd (inject_Z g) * e) in *. assert (EX : x == inject_Z g * e) by (unfold x; rewrite RG; reflexivity).
  split.
  - apply Qnot_lt_le. intro L. pose proof (float_gap p b e Hp Fb Fe B L) as GAP.
    assert (P : 0 <= x) by (rewrite EX; apply Qmult_le_0_compat; lra). pose proof (near_below _ P) as NB. rewrite EX in NB at 1.
    set (u := 2 ^ (- p)) in *. assert (U : 0 < u) by apply p2_pos.
    assert (rnd x * (1 + u) < inject_Z g * b * (1 + u)) by (apply Qmult_lt_r; lra).
    assert (inject_Z g * (b * (1 + u)) <= inject_Z g * e) by (rewrite !(Qmult_comm (inject_Z g)); apply Qmult_le_compat_r; lra). lra.
  - intros (k & Ek). assert (FE : float_number p x).
    { destruct Fe as (m & j & Hm & Ee). exists m, (j + Z.of_nat k)%Z. split; auto.
      rewrite EX, Ee, p2_add, (p2_inj (Z.of_nat k)), Ek by lia. ring. }
    rewrite (keeps _ FE), EX in Q2. apply (Qmult_lt_l _ _ (inject_Z g) GQ). exact Q2.
Qed.
(** the cell up to two roundings *)
Lemma dimension_fl_cell u g e b c : 0 <= u < 1 -> relative_error u rnd -> 0 < b -> (0 < g <= 2 ^ p)%Z -> 0 <= e ->
  dimension_index_fl rnd g (Fin e) b = Ok c ->
  inject_Z c * b / inject_Z g <= qpow (1 + u) 2 * e /\ qpow (1 - u) 2 * e < (inject_Z c + 1) * b / inject_Z g.
Proof.
  intros U R B G E0 H. assert (U' : 0 <= u <= 1) by lra. unfold dimension_index_fl in H. destruct (Qeq_bool b 0); [discriminate|]. cbv zeta in H.
  set (q := rnd (rnd (rnd (inject_Z g) * e) / b)) in *. destruct (_ && _); [|discriminate].
  apply (f_equal (fun x => match x with Ok y => y | _ => 0%Z end)) in H. cbn beta iota in H. pose proof (quot_lt _ _ H) as QU.
  assert (GQ : 0 < inject_Z g) by (change 0 with (inject_Z 0); rewrite <- Zlt_Qlt; lia).
  assert (RG : rnd (inject_Z g) == inject_Z g) by (apply keeps, float_small; lia).
  set (x := rnd (inject_Z g) * e) in *. assert (EX : x == inject_Z g * e) by (unfold x; rewrite RG; reflexivity).
  assert (P : 0 <= inject_Z g * e) by (apply Qmult_le_0_compat; lra).
  assert (W1 : within u 1 (rnd x) (inject_Z g * e)).
  { apply (within_rnd u U' rnd R); [exact P|]. apply (within_eq u 0 (inject_Z g * e) (inject_Z g * e)); [now rewrite EX|reflexivity|].
    now apply (within_refl u U'). }
  assert (W2 : within u 1 (rnd x / b) (inject_Z g * e / b)).
  { unfold Qdiv. apply within_scale; auto. apply Qinv_le_0_compat. lra. }
  assert (P2 : 0 <= inject_Z g * e / b) by (apply Qle_shift_div_l; lra).
  assert (W3 : within u 2 q (inject_Z g * e / b)) by (now apply (within_rnd u U' rnd R)).
  assert (Q0 : 0 <= q) by (apply (within_nonneg u U' 2 _ _ P2 W3)).
  pose proof (quot_le _ _ Q0 H) as QL. destruct W3 as [W4 W5]. set (A := qpow (1 - u) 2) in *. set (D := qpow (1 + u) 2) in *. split.
  - apply Qle_shift_div_r; auto.
    assert (K : inject_Z c * b <= D * (inject_Z g * e / b) * b) by (apply Qmult_le_compat_r; lra).
    assert (K2 : D * (inject_Z g * e / b) * b == D * e * inject_Z g) by (field; lra). rewrite K2 in K. exact K.
  - apply Qlt_shift_div_l; auto.
    assert (K : A * (inject_Z g * e / b) * b < (inject_Z c + 1) * b) by (apply Qmult_lt_r; lra).
    assert (K2 : A * (inject_Z g * e / b) * b == A * e * inject_Z g) by (field; lra). rewrite K2 in K. exact K.
Qed.
End Nearest.
