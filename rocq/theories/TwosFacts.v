(** approximate_worst_case_error for two's complement against the wrapped difference *)
From Coq Require Import List Bool Arith ZArith QArith Lia.
From Verif Require Import Res Cudd CuddFacts Spec SpecFacts Helpers HelpersFacts HelpersFacts2 Counting AddFacts Metrics MetricsFacts MetricsFacts2 MetricsFacts3 MetricsFacts4 MetricsFacts6.
Import ListNotations.
Open Scope nat_scope.

Lemma floor_wrap (u v P K : Z) : (0 < P)%Z -> let D := dist u v in let d := dist (u / P) (v / P) in
  ((Z.min d (K - d) - 1) * P + 1 <= Z.min D (K * P - D) <= (Z.min d (K - d) + 1) * P - 1)%Z.
Proof.
  intros HP D d. unfold dist in *. pose proof (Z.div_mod u P ltac:(lia)). pose proof (Z.div_mod v P ltac:(lia)).
  pose proof (Z.mod_pos_bound u P HP). pose proof (Z.mod_pos_bound v P HP).
  set (x := (u / P)%Z) in *. set (y := (v / P)%Z) in *. set (rx := (u mod P)%Z) in *. set (ry := (v mod P)%Z) in *.
  assert (B : ((d - 1) * P + 1 <= D <= (d + 1) * P - 1)%Z).
  { unfold D, d. destruct (Z_le_gt_dec y x); [destruct (Z_le_gt_dec v u)|destruct (Z_le_gt_dec v u)];
    rewrite ?(Z.abs_eq (x - y)) by lia; rewrite ?(Z.abs_neq (x - y)) by lia; rewrite ?(Z.abs_eq (u - v)) by lia; rewrite ?(Z.abs_neq (u - v)) by lia; nia. }
  destruct (Z_le_gt_dec d (K - d)); rewrite ?(Z.min_l d (K - d)) by lia; rewrite ?(Z.min_r d (K - d)) by lia; nia.
Qed.

Lemma awce_twos_wrapped M f0 g0 sf sg n : wfs M f0 -> wfs M g0 -> wf M sf -> wf M sg ->
  length f0 = length g0 -> length f0 < 256 -> (1 <= n)%Z ->
  forall h, top_difference f0 g0 h -> let s := Z.to_nat (Z.of_nat h + 1 - n) in let f := f0 ++ [sf] in let g := g0 ++ [sg] in
  exists x w, approximate_worst_case_error M f g n TwosComplement = Ok x
    /\ is_max (wrapped TwosComplement f g) w /\ (w <= x <= w + 2 ^ (Z.of_nat s + 1) - 2)%Z
    /\ ((forall a, dist (sval f a) (sval g a) <= 2 ^ Z.of_nat (length f0))%Z -> forall a, (dist (sval f a) (sval g a) <= x)%Z).
Proof.
  intros Wf Wg Wsf Wsg HL H256 Hn h Hh s f g.
  destruct (awce_twos_value M f0 g0 sf sg n Wf Wg Wsf Wsg HL H256 Hn) as [_ V]. specialize (V h Hh). cbv zeta in V. fold s f g in V.
  destruct V as (m & Hm & E). 

  destruct (wce_twos_spec M f g) as (w & _ & Hw).
  { apply Forall_app. auto. }
  { apply Forall_app. auto. }
  { intro X. now apply app_eq_nil in X. }
  { intro X. now apply app_eq_nil in X. }
  { unfold f. rewrite app_length. cbn. lia. }
  { unfold g. rewrite app_length. cbn. lia. }
  assert (Lf : length f = length f0 + 1) by (unfold f; rewrite app_length; reflexivity).
  assert (Lg : length g = length f0 + 1) by (unfold g; rewrite app_length, HL; reflexivity).
  assert (HW : is_max (wrapped TwosComplement f g) w) by exact Hw. clear Hw.
  destruct Hh as (Hh & _). assert (Hs : s <= length f0) by lia.
  pose proof (pow2_pos s) as Ps. unfold pow2 in Ps.
  assert (PW : (2 ^ Z.of_nat (length f0 + 1) = 2 ^ Z.of_nat (length f0 + 1 - s) * 2 ^ Z.of_nat s)%Z).
  { rewrite <- Z.pow_add_r by lia. f_equal. lia. }
  assert (FW : forall a, let d := dist (sval f a / 2 ^ Z.of_nat s) (sval g a / 2 ^ Z.of_nat s) in
     ((Z.min d (2 ^ Z.of_nat (length f0 + 1 - s) - d) - 1) * 2 ^ Z.of_nat s + 1 <= wrapped TwosComplement f g a
      <= (Z.min d (2 ^ Z.of_nat (length f0 + 1 - s) - d) + 1) * 2 ^ Z.of_nat s - 1)%Z).
  { intros a d. unfold wrapped. rewrite Lf, Lg, Nat.max_id, PW. now apply floor_wrap. }
  assert (UP : forall a, (wrapped TwosComplement f g a <= (m + 1) * 2 ^ Z.of_nat s - 1)%Z).
  { intro a. specialize (FW a). cbv zeta in FW. destruct Hm as [_ Hm]. specialize (Hm a). cbv beta in Hm. nia. }
  exists ((m + 1) * 2 ^ Z.of_nat s - 1)%Z, w. split; [exact E|]. split; [exact HW|].
  destruct HW as [(aw & Ew) HWa]. split; [split|].
  - rewrite <- Ew. apply UP.
  - destruct Hm as [(am & Em) _]. specialize (FW am). cbv zeta in FW. cbv beta in Em. rewrite Em in FW. specialize (HWa am).
    rewrite Z.pow_add_r by lia. lia.
  - intros HD a. specialize (UP a). specialize (HD a). unfold wrapped in UP. rewrite Lf, Lg, Nat.max_id in UP.
    rewrite Nat2Z.inj_add, Z.pow_add_r in UP by lia. change (2 ^ Z.of_nat 1)%Z with 2%Z in UP. lia.
Qed.
