(** rounding to float *)
From Coq Require Import List Bool Arith ZArith QArith Qpower Qround Lia Lqa.
From Verif Require Import Res Cudd Float FloatFacts Benchmark BenchmarkFacts2 Genetic.
Import ListNotations.
Open Scope Q_scope.

(** a float below a double is below its rounding *)
Lemma to_float_ge (k : Z) (n w : nat) (x : Q) : (0 <= k)%Z -> (n + w <= 24)%nat ->
  let e := inject_Z k / inject_Z (2 ^ Z.of_nat n) in
  e <= inject_Z (2 ^ Z.of_nat w) -> e < x -> e <= to_float x.
Proof.
  intros Hk Hnw e Hw Hx.
  assert (Pn : 0 < inject_Z (2 ^ Z.of_nat n)). { change 0 with (inject_Z 0). rewrite <- Zlt_Qlt. apply Z.pow_pos_nonneg; lia. }
  assert (He : 0 <= e). { apply Qle_shift_div_l; [exact Pn|]. rewrite Qmult_0_l. change 0 with (inject_Z 0). rewrite <- Zle_Qle. exact Hk. }
  assert (Px : 0 < x) by lra.
  assert (T : to_float x = round_pos 24 x).
  { unfold to_float, round_float. unfold Qlt in Px. cbn [Qnum Qden] in Px. destruct (Qnum x); [lia|reflexivity|lia]. }
  rewrite T. unfold round_pos. change (24 - 1)%Z with 23%Z. destruct (binary_exponent_spec x Px) as [E1 E2]. set (E := binary_exponent x) in *. clearbody E.
  set (u := 2 ^ (E - 23)). assert (Pu : 0 < u) by apply p2_pos.
  pose proof (round_ge (x / u)) as R. set (z := round_half_even (x / u)) in *. clearbody z.
  assert (Main : exists j, e <= inject_Z j * u /\ inject_Z j <= x / u).
  { destruct (Qlt_le_dec (2 ^ E) e) as [L|L].
    - assert (HE : (E < Z.of_nat w)%Z).
      { destruct (Z.lt_ge_cases E (Z.of_nat w)) as [K|K]; [exact K|]. exfalso.
        pose proof (p2_mono _ _ K) as Mo. rewrite (p2_inj (Z.of_nat w)) in Mo by lia. lra. }
      exists (k * 2 ^ (23 - E - Z.of_nat n))%Z.
      assert (Ee : e == inject_Z (k * 2 ^ (23 - E - Z.of_nat n)) * u).
      { rewrite inject_Z_mult. rewrite <- (p2_inj (23 - E - Z.of_nat n)) by lia. unfold e, u.
        rewrite <- (p2_inj (Z.of_nat n)) by lia.
        assert (S1 : 2 ^ (23 - E - Z.of_nat n) * 2 ^ (E - 23) * 2 ^ Z.of_nat n == 1).
        { rewrite <- !p2_add. replace (23 - E - Z.of_nat n + (E - 23) + Z.of_nat n)%Z with 0%Z by lia. reflexivity. }
        rewrite <- (Qmult_1_r (inject_Z k)) at 1. rewrite <- S1. field. intro N. pose proof (p2_pos (Z.of_nat n)). lra. }
      split; [rewrite <- Ee; apply Qle_refl|]. apply Qle_shift_div_l; [exact Pu|]. rewrite <- Ee. lra.
    - exists (2 ^ 23)%Z. assert (Eu : inject_Z (2 ^ 23) * u == 2 ^ E).
      { rewrite <- (p2_inj 23) by lia. unfold u. rewrite <- p2_add. replace (23 + (E - 23))%Z with E by lia. reflexivity. }
      split; [rewrite Eu; exact L|]. apply Qle_shift_div_l; [exact Pu|]. rewrite Eu. exact E1. }
  destruct Main as (j & J1 & J2).
  assert (Hj : (j <= z)%Z).
  { apply (Z.le_trans _ (Qfloor (x / u))); [|exact R]. rewrite <- (Qfloor_Z j). apply Qfloor_resp_le. exact J2. }
  apply (Qle_trans _ (inject_Z j * u)); [exact J1|]. apply Qmult_le_compat_r; [rewrite <- Zle_Qle; exact Hj|lra].
Qed.
Lemma to_float_nonneg x : 0 <= x -> 0 <= to_float x.
Proof.
  intro H. destruct (Qlt_le_dec 0 x) as [L|L].
  - apply (Qle_trans _ (inject_Z 0 / inject_Z (2 ^ Z.of_nat 0))); [vm_compute; discriminate|].
    apply (to_float_ge 0 0 0 x); [lia|lia|vm_compute; discriminate|]. exact L.
  - assert (E : Qnum x = 0%Z) by (unfold Qle in *; cbn in *; lia). unfold to_float, round_float. rewrite E. apply Qle_refl.
Qed.
