(** eval_adder with 32 bits: what is read from inputs of any size *)
From Coq Require Import List Bool Arith ZArith Lia.
From Verif Require Import Res Cudd CuddFacts Spec Helpers HelpersFacts HelpersFacts2.
Import ListNotations.
Open Scope Z_scope.

Definition read32 (x : Z) : Z := x mod 2 ^ 31 + (if 2 ^ 31 <=? x then 2 ^ 31 else 0).
Lemma read32_range x : 0 <= read32 x < 2 ^ 32.
Proof. unfold read32. pose proof (Z.mod_pos_bound x (2 ^ 31) ltac:(reflexivity)). destruct (2 ^ 31 <=? x); lia. Qed.
Lemma land_top x : (0 <? Z.land x (- 2 ^ 31)) = (2 ^ 31 <=? x).
Proof.
  assert (E : Z.land x (- 2 ^ 31) = 2 ^ 31 * (x / 2 ^ 31)).
  { replace (- 2 ^ 31) with (Z.lnot (Z.ones 31)) by reflexivity. rewrite <- Z.ldiff_land, Z.ldiff_ones_r by lia. rewrite Z.shiftr_div_pow2, Z.shiftl_mul_pow2 by lia. lia. }
  rewrite E. pose proof (Z.div_mod x (2 ^ 31) ltac:(discriminate)) as D. pose proof (Z.mod_pos_bound x (2 ^ 31) ltac:(reflexivity)) as B.
  destruct (Z.leb_spec (2 ^ 31) x); [apply Z.ltb_lt|apply Z.ltb_ge]; nia.
Qed.
Lemma land_low x i : (i < 31)%nat -> Z.land (read32 x) (2 ^ Z.of_nat i) = Z.land x (2 ^ Z.of_nat i).
Proof.
  intro H. assert (E : read32 x mod 2 ^ 31 = x mod 2 ^ 31).
  { unfold read32. destruct (2 ^ 31 <=? x); [|now rewrite Z.add_0_r, Z.mod_mod].
    rewrite <- (Z.mul_1_l (2 ^ 31)) at 2. rewrite Z.mod_add by discriminate. now rewrite Z.mod_mod. }
  apply Z.bits_inj. intro k. rewrite !Z.land_spec. destruct (Z.eq_dec k (Z.of_nat i)) as [->|N].
  - f_equal. rewrite <- (Z.mod_pow2_bits_low (read32 x) 31), <- (Z.mod_pow2_bits_low x 31) by lia. now rewrite E.
  - rewrite (Z.pow2_bits_false (Z.of_nat i) k) by congruence. now rewrite !andb_false_r.
Qed.
Lemma adder_bit_read x i : adder_bit (read32 x) i = adder_bit x i.
Proof.
  unfold adder_bit. destruct (i <? 31)%nat eqn:E; [apply Nat.ltb_lt in E; now rewrite land_low|].
  destruct (i =? 31)%nat; [|reflexivity]. rewrite !land_top.
  assert (L : (2 ^ 31 <=? read32 x) = (2 ^ 31 <=? x)).
  { unfold read32. pose proof (Z.mod_pos_bound x (2 ^ 31) ltac:(reflexivity)) as B. destruct (Z.leb_spec (2 ^ 31) x); [apply Z.leb_le|apply Z.leb_gt]; lia. }
  now rewrite L.
Qed.
Lemma eval_adder_32 (f : list bdd) x y : (forall b i, In b f -> In i (varsn (snd b)) -> (i < 64)%nat) -> (length f <= 63)%nat ->
  eval_adder f x y 32 = Ok (uval f (adder_asg (read32 x) (read32 y) 32)).
Proof.
  intros Hv Hl. rewrite <- (eval_adder_spec f (read32 x) (read32 y) 32).
  - unfold eval_adder. assert (G : forall n i, adder_inputs x y i n = adder_inputs (read32 x) (read32 y) i n).
    { induction n as [|n IH]; intro i; cbn [adder_inputs]; [reflexivity|]. now rewrite !adder_bit_read, IH. }
    now rewrite G.
  - right. split; [reflexivity|apply read32_range].
  - right. split; [reflexivity|apply read32_range].
  - exact Hv.
  - exact Hl.
Qed.
