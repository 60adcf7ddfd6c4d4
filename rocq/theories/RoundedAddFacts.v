(** Rounding in the ADD based metrics *)
From Coq Require Import List Bool Arith ZArith QArith Qabs Qpower Lia Lqa.
From Verif Require Import Res Cudd CuddFacts Spec SpecFacts SpecFloat Float FloatFacts Helpers HelpersFacts HelpersFacts2 Counting AddFacts
  PathFacts Metrics MetricsFacts MetricsFacts2 MetricsFacts3 MetricsFacts4 RelMetrics RelFacts Rounded RoundedFacts RoundedFacts2 RoundedAdd.
Import ListNotations.
Open Scope nat_scope.

(** ** ADDs are canonical *)
Lemma aev_cof_true v t e a M k : aok M k (AN v t e) -> aev (AN v t e) (upd a v true) = aev t a.
Proof.
  cbn [aok aev]. intros (_ & H & _). rewrite upd_same. apply aev_upd_notin.
  intro Hi. apply (aok_vars _ _ _ _ H) in Hi. lia.
Qed.
Lemma aev_cof_false v t e a M k : aok M k (AN v t e) -> aev (AN v t e) (upd a v false) = aev e a.
Proof.
  cbn [aok aev]. intros (_ & _ & H & _). rewrite upd_same. apply aev_upd_notin.
  intro Hi. apply (aok_vars _ _ _ _ H) in Hi. lia.
Qed.
Lemma aev_upd_above M k v b g a : aok M k g -> lv M v < k -> aev g (upd a v b) = aev g a.
Proof. intros H L. apply aev_upd_notin. intro Hi. apply (aok_vars _ _ _ _ H) in Hi. lia. Qed.

Lemma add_canonical_aux M s : forall f g k k', asize f + asize g < s -> aok M k f -> aok M k' g ->
  (forall a, aev f a = aev g a) -> f = g.
Proof.
  induction s as [|s IH]; intros f g k k' Hs Of Og E; [lia|].
  assert (D : forall v t e g k k', asize (AN v t e) + asize g < S s -> aok M k (AN v t e) -> aok M k' g ->
    lv M v < k' -> (forall a, aev (AN v t e) a = aev g a) -> False).
  { clear f g k k' Hs Of Og E. intros v t e g k k' Hs Of Og L E. assert (t = e).
    - destruct (Of) as (_ & Ot & Oe & _). apply (IH t e (S (lv M v)) (S (lv M v))); [cbn [asize] in Hs; lia|exact Ot|exact Oe|].
      intro a. rewrite <- (aev_cof_true v t e a M k Of), <- (aev_cof_false v t e a M k Of), !E.
      now rewrite !(aev_upd_above M k').
    - destruct Of as (_ & _ & _ & N). auto. }
  destruct f as [p|v t e], g as [q|w t' e'].
  - specialize (E (fun _ => false)). cbn in E. now subst.
  - exfalso. apply (D w t' e' (Leaf p) k' (S (lv M w))); [cbn [asize] in *; lia|exact Og|exact Of|lia|]. intro a. now rewrite E.
  - exfalso. apply (D v t e (Leaf q) k (S (lv M v))); [cbn [asize] in *; lia|exact Of|exact Og|lia|]. exact E.
  - destruct (lt_eq_lt_dec (lv M v) (lv M w)) as [[L|L]|L].
    + exfalso. apply (D v t e (AN w t' e') k (lv M w)); [exact Hs|exact Of| |exact L|exact E].
      destruct Og as (_ & O2). split; [lia|exact O2].
    + apply lv_inj in L. subst w. destruct (Of) as (_ & Ot & Oe & _), (Og) as (_ & Ot' & Oe' & _). f_equal.
      * apply (IH t t' (S (lv M v)) (S (lv M v))); [cbn [asize] in Hs; lia|exact Ot|exact Ot'|]. intro a.
        rewrite <- (aev_cof_true v t e a M k Of), <- (aev_cof_true v t' e' a M k' Og). apply E.
      * apply (IH e e' (S (lv M v)) (S (lv M v))); [cbn [asize] in Hs; lia|exact Oe|exact Oe'|]. intro a.
        rewrite <- (aev_cof_false v t e a M k Of), <- (aev_cof_false v t' e' a M k' Og). apply E.
    + exfalso. apply (D w t' e' (AN v t e) k' (lv M v)); [cbn [asize] in *; lia|exact Og| |exact L|].
      * destruct Of as (_ & O2). split; [lia|exact O2].
      * intro a. now rewrite E.
Qed.
Lemma add_canonical M f g : aok M 0 f -> aok M 0 g -> (forall a, aev f a == aev g a)%Q -> f = g.
Proof.
  intros Of Og E. apply (add_canonical_aux M (S (asize f + asize g)) f g 0 0); auto. intro a.
  rewrite <- (aev_red M f 0 a Of), <- (aev_red M g 0 a Og). apply Qred_complete, E.
Qed.

(** ** Vectors of at most [p] outputs: no rounding *)
Section Exact.
Variable p : Z.
Variable rnd : Q -> Q.
Hypothesis K : keeps_floats p rnd.

Lemma float_z x z : (x == inject_Z z)%Q -> (Z.abs z <= 2 ^ p)%Z -> (rnd x == inject_Z z)%Q.
Proof.
  intros E H. transitivity x; [|exact E]. apply K. exists z, 0%Z. split; [exact H|]. rewrite E. change (2 ^ 0)%Q with 1%Q. ring.
Qed.
Lemma rnd_pow2 x k : (0 <= p)%Z -> (x == inject_Z (pow2 k))%Q -> (rnd x == inject_Z (pow2 k))%Q.
Proof.
  intros P E. transitivity x; [|exact E]. apply K. exists 1%Z, (Z.of_nat k). split.
  - change (Z.abs 1) with 1%Z. change 1%Z with (2 ^ 0)%Z. apply Z.pow_le_mono_r; lia.
  - rewrite E. unfold pow2. rewrite Zpower_Qpower by lia. change (inject_Z 1) with 1%Q. change (inject_Z 2) with 2%Q. ring.
Qed.

Lemma apply_fl_int M op f g a x z : (op (aev f a) (aev g a) == x)%Q -> (x == inject_Z z)%Q -> (Z.abs z <= 2 ^ p)%Z ->
  (aev (apply M (fun p q => rnd (op p q)) f g) a == inject_Z z)%Q.
Proof. intros E F H. rewrite apply_sem. apply float_z; [now rewrite E|exact H]. Qed.

Lemma pow2_p k : (Z.of_nat k <= p)%Z -> (pow2 k <= 2 ^ p)%Z.
Proof. intro H. unfold pow2. apply Z.pow_le_mono_r; lia. Qed.

Lemma two_fl M a : (1 <= p)%Z -> (aev (aadd_fl rnd M (aconst 1) (aconst 1)) a == inject_Z 2)%Q.
Proof.
  intro P. unfold aadd_fl. apply (apply_fl_int M Qplus) with (x := inject_Z 2); [rewrite !aev_const; reflexivity|reflexivity|].
  change (Z.abs 2) with (2 ^ 1)%Z. apply Z.pow_le_mono_r; lia.
Qed.

Lemma forest_loop_fl_exact M l : forall res sbp k (R : asg -> Z), (Z.of_nat (k + length l) <= p)%Z ->
  aok M 0 res -> aok M 0 sbp -> wfs M l ->
  (forall a, aev res a == inject_Z (R a))%Q -> (forall a, 0 <= R a < pow2 k)%Z -> (forall a, aev sbp a == inject_Z (pow2 k))%Q ->
  let '(r, s) := forest_loop_fl rnd M l res sbp in
  aok M 0 r /\ aok M 0 s
  /\ (forall a, aev r a == inject_Z (R a * pow2 (length l) + uval (rev l) a))%Q
  /\ (forall a, aev s a == inject_Z (pow2 (k + length l)))%Q.
Proof.
  induction l as [|b l IH]; intros res sbp k R HL Or Os W Er Rr Es; cbn [forest_loop_fl].
  - repeat split; auto; intro a.
    + rewrite Er. cbn [rev uval length]. rewrite pow2_0. replace (R a * 1 + 0)%Z with (R a) by lia. reflexivity.
    + rewrite Es. cbn [length]. rewrite Nat.add_0_r. reflexivity.
  - inversion W as [|? ? Wb Wl]; subst. cbn [length] in HL. assert (P : (1 <= p)%Z) by lia.
    pose proof (pow2_p (S k) ltac:(lia)) as PK. rewrite pow2_S in PK.
    assert (E1 : forall a, (aev (amul_fl rnd M res (aadd_fl rnd M (aconst 1) (aconst 1))) a == inject_Z (2 * R a))%Q).
    { intro a. unfold amul_fl. apply (apply_fl_int M Qmult) with (x := inject_Z (2 * R a)); [|reflexivity|specialize (Rr a); lia].
      rewrite two_fl, Er by exact P. rewrite inject_Z_mult. ring. }
    assert (E2 : forall a, (aev (amul_fl rnd M sbp (aadd_fl rnd M (aconst 1) (aconst 1))) a == inject_Z (pow2 (S k)))%Q).
    { intro a. unfold amul_fl. apply (apply_fl_int M Qmult) with (x := inject_Z (pow2 (S k))); [|reflexivity|].
      - rewrite two_fl, Es by exact P. rewrite pow2_S, inject_Z_mult. ring.
      - rewrite pow2_S. pose proof (pow2_pos k). lia. }
    specialize (IH (aadd_fl rnd M (amul_fl rnd M res (aadd_fl rnd M (aconst 1) (aconst 1))) (to_add b))
                   (amul_fl rnd M sbp (aadd_fl rnd M (aconst 1) (aconst 1))) (S k) (fun a => 2 * R a + Z.b2z (ev b a))%Z).
    destruct (forest_loop_fl rnd M l _ _) as [r s]. destruct IH as (H1 & H2 & H3 & H4).
    + lia.
    + repeat apply apply_ok; auto using aconst_ok. now apply to_add_ok.
    + repeat apply apply_ok; auto using aconst_ok.
    + exact Wl.
    + intro a. unfold aadd_fl at 1. apply (apply_fl_int M Qplus) with (x := inject_Z (2 * R a + Z.b2z (ev b a))); [|reflexivity|].
      * rewrite E1, to_add_sem, inject_Z_plus. destruct (ev b a); reflexivity.
      * specialize (Rr a). pose proof (b2z_range (ev b a)). lia.
    + intro a. specialize (Rr a). pose proof (b2z_range (ev b a)). rewrite pow2_S. lia.
    + exact E2.
    + repeat split; auto; intro a.
      * rewrite H3. cbn [rev length]. rewrite uval_app, rev_length, pow2_S. cbn [uval].
        replace ((2 * R a + Z.b2z (ev b a)) * pow2 (length l) + uval (rev l) a)%Z
          with (R a * (2 * pow2 (length l)) + (uval (rev l) a + pow2 (length l) * (Z.b2z (ev b a) + 2 * 0)))%Z by ring. reflexivity.
      * rewrite H4. cbn [length]. rewrite Nat.add_succ_r. reflexivity.
Qed.

(** the number of a vector *)
Definition signed_fl (M : mgr) (l : list bdd) : res add :=
  match rev l with
  | [] => UB
  | sign :: rest =>
      let '(result, signBitPower) := forest_loop_fl rnd M rest (aconst 0) (aconst 1) in
      Ok (asub_fl rnd M result (amul_fl rnd M (to_add sign) signBitPower))
  end.
Lemma signed_fl_exact M l s : (Z.of_nat (length l) <= p)%Z -> wfs M l -> wf M s ->
  exists A, signed_fl M (l ++ [s]) = Ok A /\ aok M 0 A /\ forall a, (aev A a == inject_Z (sval (l ++ [s]) a))%Q.
Proof.
  intros HL W Ws. unfold signed_fl. rewrite rev_app_distr. cbn [rev app].
  pose proof (forest_loop_fl_exact M (rev l) (aconst 0) (aconst 1) 0 (fun _ => 0%Z)) as H.
  destruct (forest_loop_fl rnd M (rev l) (aconst 0) (aconst 1)) as [r q]. destruct H as (H1 & H2 & H3 & H4).
  - rewrite rev_length. lia.
  - apply aconst_ok.
  - apply aconst_ok.
  - now apply wfs_rev.
  - intro a. rewrite aev_const. reflexivity.
  - intro a. rewrite pow2_0. lia.
  - intro a. rewrite aev_const. reflexivity.
  - rewrite rev_length, rev_involutive in *. cbn [Nat.add] in H4. eexists. split; [reflexivity|]. split.
    + repeat apply apply_ok; auto. now apply to_add_ok.
    + intro a. pose proof (uval_range l a) as U. pose proof (pow2_p _ HL) as PL. pose proof (b2z_range (ev s a)) as B.
      assert (EM : (aev (amul_fl rnd M (to_add s) q) a == inject_Z (pow2 (length l) * Z.b2z (ev s a)))%Q).
      { unfold amul_fl. apply (apply_fl_int M Qmult) with (x := inject_Z (pow2 (length l) * Z.b2z (ev s a))); [|reflexivity|].
        - rewrite to_add_sem, H4, inject_Z_mult. destruct (ev s a); cbn [b2q Z.b2z]; change (inject_Z 0) with 0%Q; change (inject_Z 1) with 1%Q; ring.
        - destruct (ev s a); cbn [Z.b2z]; lia. }
      unfold asub_fl. apply (apply_fl_int M Qminus) with (x := inject_Z (sval (l ++ [s]) a)); [|reflexivity|].
      * rewrite EM, H3, sval_app. rewrite Z.mul_0_l, Z.add_0_l. unfold Z.sub. rewrite inject_Z_plus, inject_Z_opp. reflexivity.
      * rewrite sval_app. destruct (ev s a); cbn [Z.b2z]; lia.
Qed.

Lemma forest_to_add_fl_exact M f r : (Z.of_nat (length f) <= p)%Z -> wfs M f ->
  bdd_forest_to_add_fl rnd M f r = bdd_forest_to_add M f r.
Proof.
  intros HL W. destruct r.
  - destruct (signed_fl_exact M f bzero HL W) as (A & EA & OA & SA); [auto with wf|].
    destruct (forest_to_add_spec M f BaseTwo) as (B & EB & OB & _ & SB); [discriminate|]. rewrite EB.
    change (bdd_forest_to_add_fl rnd M f BaseTwo) with (signed_fl M (f ++ [bzero])). rewrite EA. f_equal.
    apply (add_canonical M); auto. intro a. rewrite SA, SB, sval_snoc_zero. reflexivity.
  - destruct f as [|s f _] using rev_ind; [reflexivity|]. rewrite app_length in HL. cbn [length] in HL.
    apply Forall_app in W. destruct W as [W Ws]. inversion Ws; subst.
    destruct (signed_fl_exact M f s) as (A & EA & OA & SA); auto; [lia|].
    destruct (forest_to_add_spec M (f ++ [s]) TwosComplement) as (B & EB & OB & _ & SB); [intros _ E; now apply app_eq_nil in E|].
    rewrite EB. change (bdd_forest_to_add_fl rnd M (f ++ [s]) TwosComplement) with (signed_fl M (f ++ [s])). rewrite EA. f_equal.
    apply (add_canonical M); auto.
    + apply OB. apply Forall_app. auto.
    + intro a. rewrite SA, SB. reflexivity.
Qed.

Lemma xor_vec_length M f : forall g d, xor_vec M f g = Ok d -> length d = length f.
Proof.
  induction f as [|x f IH]; intros [|y g] d; cbn [xor_vec]; try (intros [= <-]; reflexivity); try discriminate.
  destruct (xor_vec M f g) as [d'| | |] eqn:E; cbn [bind]; try discriminate. intros [= <-]. cbn [length]. now rewrite (IH _ _ E).
Qed.
Lemma xor_vec_wfs M f : forall g d, wfs M f -> wfs M g -> xor_vec M f g = Ok d -> wfs M d.
Proof.
  induction f as [|x f IH]; intros [|y g] d Wf Wg; cbn [xor_vec]; try (intros [= <-]; constructor); try discriminate.
  destruct (xor_vec M f g) as [d'| | |] eqn:E; cbn [bind]; try discriminate. intros [= <-].
  inversion Wf; inversion Wg; subst. constructor; [auto with wf|]. apply (IH g); auto.
Qed.
Lemma xor_difference_add_fl_exact M f g : (Z.of_nat (length f) <= p)%Z -> wfs M f -> wfs M g ->
  xor_difference_add_fl rnd M f g = xor_difference_add M f g.
Proof.
  intros HL Wf Wg. unfold xor_difference_add_fl, xor_difference_add.
  destruct (xor_vec M f g) as [d| | |] eqn:E; cbn [bind]; auto.
  apply forest_to_add_fl_exact; [rewrite (xor_vec_length M f g d E); exact HL|now apply (xor_vec_wfs M f g)].
Qed.

Lemma value_bound r f a : (r = TwosComplement -> f <> []) -> (Z.of_nat (length f) <= p)%Z -> (- 2 ^ p <= value r f a <= 2 ^ p)%Z.
Proof.
  intros Hr HL. pose proof (pow2_p _ HL). destruct r; cbn [value].
  - pose proof (uval_range f a). lia.
  - pose proof (sval_range f a (Hr eq_refl)).
    assert (pow2 (length f - 1) <= pow2 (length f))%Z by (apply pow2_le; lia). lia.
Qed.
Lemma dist_bound r f g a : (r = TwosComplement -> f <> [] /\ g <> []) -> (Z.of_nat (length f) <= p)%Z -> (Z.of_nat (length g) <= p)%Z ->
  (0 <= dist (value r f a) (value r g a) <= 2 ^ p)%Z.
Proof.
  intros Hr Hf Hg. split; [apply dist_nonneg|]. unfold dist.
  pose proof (pow2_p _ Hf). pose proof (pow2_p _ Hg). destruct r; cbn [value].
  - pose proof (uval_range f a). pose proof (uval_range g a). lia.
  - destruct (Hr eq_refl) as [Nf Ng]. pose proof (sval_range f a Nf). pose proof (sval_range g a Ng).
    destruct f as [|x f]; [congruence|]. destruct g as [|y g]; [congruence|]. cbn [length] in *.
    rewrite pow2_S in *. replace (S (length f) - 1) with (length f) in * by lia.
    replace (S (length g) - 1) with (length g) in * by lia. lia.
Qed.

Lemma forest_to_add_empty M : bdd_forest_to_add M [] TwosComplement = UB.
Proof. reflexivity. Qed.
Lemma bind_ub A B (x : res A) (k : A -> res B) : x = UB -> (y <- x ;; k y) = UB.
Proof. now intros ->. Qed.

Lemma absolute_difference_add_fl_exact M f g r : (Z.of_nat (length f) <= p)%Z -> (Z.of_nat (length g) <= p)%Z -> wfs M f -> wfs M g ->
  absolute_difference_add_fl rnd M f g r = absolute_difference_add M f g r.
Proof.
  intros Hf Hg Wf Wg. unfold absolute_difference_add_fl, absolute_difference_add.
  rewrite !forest_to_add_fl_exact by auto.
  destruct (bdd_forest_to_add M f r) as [A| | |] eqn:EA; cbn [bind]; auto.
  destruct (bdd_forest_to_add M g r) as [B| | |] eqn:EB; cbn [bind]; auto. f_equal.
  assert (Nf : r = TwosComplement -> f <> []) by (intros -> ->; discriminate).
  assert (Ng : r = TwosComplement -> g <> []) by (intros -> ->; discriminate).
  destruct (forest_to_add_spec M f r Nf) as (A' & EA' & OA & _ & SA). rewrite EA in EA'. injection EA' as <-.
  destruct (forest_to_add_spec M g r Ng) as (B' & EB' & OB & _ & SB). rewrite EB in EB'. injection EB' as <-.
  apply (add_canonical M); try (apply apply_ok; auto). intro a. rewrite !apply_sem. unfold qabsdiff.
  assert (E : (aev A a - aev B a == inject_Z (value r f a - value r g a))%Q).
  { rewrite SA, SB. unfold Z.sub. rewrite inject_Z_plus, inject_Z_opp. reflexivity. }
  rewrite (float_z _ _ E); [now rewrite E|].
  pose proof (dist_bound r f g a (fun e => conj (Nf e) (Ng e)) Hf Hg) as D. exact (proj2 D).
Qed.
End Exact.
