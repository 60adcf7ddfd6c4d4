(** The metrics of two's complement vectors measure the distance on a circle. *)
From Coq Require Import List Bool Arith ZArith QArith Lia Lqa.
From Verif Require Import Res Cudd CuddFacts Spec SpecFacts Helpers HelpersFacts HelpersFacts2 Counting Metrics MetricsFacts MetricsFacts2
  MetricsFacts3 MetricsFacts4 LawFacts.
Import ListNotations.
Open Scope Z_scope.

Definition circle (w : nat) (x y : Z) : Z := Z.min (dist x y) (2 ^ Z.of_nat w - dist x y).
Lemma wrapped_circle f g a : length f = length g -> wrapped TwosComplement f g a = circle (length f) (sval f a) (sval g a).
Proof. intro L. unfold wrapped, circle. now rewrite <- L, Nat.max_id. Qed.

Lemma half (f : list bdd) : f <> [] -> 2 ^ Z.of_nat (length f) = 2 * pow2 (length f - 1).
Proof.
  intro H. destruct f as [|b f]; [congruence|]. cbn [length]. replace (S (length f) - 1)%nat with (length f) by lia.
  unfold pow2. rewrite Nat2Z.inj_succ, Z.pow_succ_r by lia. reflexivity.
Qed.
Lemma circle_triangle f g h a : f <> [] -> length f = length g -> length g = length h ->
  wrapped TwosComplement f h a <= wrapped TwosComplement f g a + wrapped TwosComplement g h a.
Proof.
  intros Hf L L2. assert (Hg : g <> []) by (intros ->; destruct f; [congruence|discriminate L]).
  assert (Hh : h <> []) by (intros ->; destruct g; [congruence|discriminate L2]).
  rewrite !wrapped_circle by congruence. rewrite <- L. unfold circle, dist. rewrite (half f Hf).
  pose proof (sval_range f a Hf) as A. pose proof (sval_range g a Hg) as B. pose proof (sval_range h a Hh) as C.
  rewrite <- L2, <- L in C. rewrite <- L in B. lia.
Qed.
Lemma circle_range f g a : f <> [] -> length f = length g ->
  0 <= wrapped TwosComplement f g a <= 2 ^ Z.of_nat (length f - 1)
  /\ (wrapped TwosComplement f g a = 0 <-> uval f a = uval g a).
Proof.
  intros Hf L. assert (Hg : g <> []) by (intros ->; destruct f; [congruence|discriminate L]).
  rewrite wrapped_circle by congruence. unfold circle, dist. rewrite (half f Hf). fold (pow2 (length f - 1)).
  pose proof (sval_range f a Hf) as A. pose proof (sval_range g a Hg) as B. rewrite <- L in B. split; [lia|].
  rewrite <- (sval_uval f a Hf), <- (sval_uval g a Hg), <- L. split.
  - intro E. replace (sval g a) with (sval f a) by lia. reflexivity.
  - intro E. assert (sval f a = sval g a); [|lia].
    assert (P : pow2 (length f) = 2 * pow2 (length f - 1)) by (unfold pow2 at 1; apply half; auto).
    assert (Q : 0 < pow2 (length f)) by (unfold pow2; apply Z.pow_pos_nonneg; lia).
    pose proof (Z.div_mod (sval f a) (pow2 (length f)) ltac:(lia)) as D1.
    pose proof (Z.div_mod (sval g a) (pow2 (length f)) ltac:(lia)) as D2. rewrite E in D1.
    assert (sval f a / pow2 (length f) = sval g a / pow2 (length f)) by nia. nia.
Qed.

Lemma worst_twos_circle M f g h : wfs M f -> wfs M g -> wfs M h -> f <> [] -> length f = length g -> length g = length h ->
  (length f <= 256)%nat ->
  exists x y z, worst_case_error M f h TwosComplement = Ok x /\ worst_case_error M f g TwosComplement = Ok y
    /\ worst_case_error M g h TwosComplement = Ok z
    /\ x <= y + z /\ (y = 0 <-> f = g) /\ 0 <= y <= 2 ^ Z.of_nat (length f - 1).
Proof.
  intros Wf Wg Wh Hf L L2 B. assert (Hg : g <> []) by (intros ->; destruct f; [congruence|discriminate L]).
  assert (Hh : h <> []) by (intros ->; destruct g; [congruence|discriminate L2]).
  destruct (wce_twos_full M f h) as [(x & Ex & [(ax & Ax) Mx] & _) _]; auto; [congruence|].
  destruct (wce_twos_full M f g) as [(y & Ey & [(ay & Ay) My] & _) _]; auto; [congruence|].
  destruct (wce_twos_full M g h) as [(z & Ez & [(az & Az) Mz] & _) _]; auto; [congruence|congruence|].
  exists x, y, z. do 3 (split; [assumption|]). split; [|split].
  - rewrite <- Ax. pose proof (circle_triangle f g h ax Hf L L2) as T. specialize (My ax). specialize (Mz ax).
    unfold wrapped in T. unfold pow2 in *. lia.
  - split.
    + intros ->. apply (same_number M); auto. intro a. apply (circle_range f g a); auto.
      specialize (My a). pose proof (proj1 (circle_range f g a Hf L)). unfold wrapped in *. unfold pow2 in *. lia.
    + intros <-. rewrite <- Ay. change (wrapped TwosComplement f f ay = 0). now apply circle_range.
  - rewrite <- Ay. change (0 <= wrapped TwosComplement f g ay <= 2 ^ Z.of_nat (length f - 1)). now apply circle_range.
Qed.

Lemma average_twos_circle M n f g h : wfs M f -> wfs M g -> wfs M h -> below n f -> below n g -> below n h ->
  f <> [] -> length f = length g -> length g = length h -> (length f + n < 256)%nat ->
  exists x y z, average_case_error M f h TwosComplement = Ok (Fin x) /\ average_case_error M f g TwosComplement = Ok (Fin y)
    /\ average_case_error M g h TwosComplement = Ok (Fin z)
    /\ (x <= y + z)%Q /\ ((y == 0)%Q <-> f = g) /\ (0 <= y <= inject_Z (2 ^ Z.of_nat (length f - 1)))%Q.
Proof.
  intros Wf Wg Wh Bf Bg Bh Hf L L2 B. assert (Hg : g <> []) by (intros ->; destruct f; [congruence|discriminate L]).
  assert (Hh : h <> []) by (intros ->; destruct g; [congruence|discriminate L2]).
  destruct (ace_spec M n f h TwosComplement) as (x & Ex & Vx); auto; [lia|].
  destruct (ace_spec M n f g TwosComplement) as (y & Ey & Vy); auto; [lia|].
  destruct (ace_spec M n g h TwosComplement) as (z & Ez & Vz); auto; [lia|].
  exists x, y, z. do 3 (split; [assumption|]).
  assert (N : forall a, (0 <= inject_Z (wrapped TwosComplement f g a))%Q).
  { intro a. change 0%Q with (inject_Z 0). rewrite <- Zle_Qle. now apply circle_range. }
  split; [|split].
  - rewrite Vx, Vy, Vz, <- average_plus. apply average_le. intro a. rewrite <- inject_Z_plus, <- Zle_Qle. now apply circle_triangle.
  - rewrite Vy. split.
    + intro E. apply (same_number M); auto. intro a. apply (circle_range f g a); auto.
      assert (inject_Z (wrapped TwosComplement f g a) == 0)%Q as Z0.
      { refine (proj1 (average_zero_iff n _ _ N) E a). intros u v E'. unfold wrapped. now rewrite (below_sval n f u v Bf E'), (below_sval n g u v Bg E'). }
      change 0%Q with (inject_Z 0) in Z0. exact (proj1 (inject_Z_injective _ _) Z0).
    + intros <-. rewrite <- (average_const n 0). apply average_ext. intro a.
      replace (wrapped TwosComplement f f a) with 0; [reflexivity|]. symmetry. now apply circle_range.
  - rewrite Vy. split; [now apply average_nonneg|]. rewrite <- (average_const n (inject_Z _)).
    apply average_le. intro a. rewrite <- Zle_Qle. now apply circle_range.
Qed.
