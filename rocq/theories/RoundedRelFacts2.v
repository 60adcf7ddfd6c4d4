(** Proofs about wcre_search with rounding *)
From Coq Require Import List Bool Arith ZArith QArith Qabs Qround Lia Lqa.
From Verif Require Import Res Cudd CuddFacts Spec SpecFacts SpecFloat Float FloatFacts Helpers HelpersFacts HelpersFacts2 Counting AddFacts CountFacts PathFacts
  Metrics MetricsFacts MetricsFacts2 MetricsFacts3 MetricsFacts4 RelMetrics RelFacts RelFacts2 RelFacts3 RelFacts4 RelFacts5 RelFacts6 Operators OperatorFacts Rounded LevelFacts RoundedFacts
  RoundedMinimizeFacts RoundedMinimizeFacts2 RoundedRel RoundedRelFacts.
Import ListNotations.
Open Scope nat_scope.

Lemma multiply_double_comp M clog2 f x y e : (x == y)%Q -> bdd_multiply_constant_double M clog2 f x e = bdd_multiply_constant_double M clog2 f y e.
Proof.
  intro E. unfold bdd_multiply_constant_double.
  assert (B : forall c, Qle_bool x c = Qle_bool y c).
  { intro c. apply Bool.eq_iff_eq_true. rewrite !Qle_bool_iff, E. reflexivity. }
  rewrite !B, (Qfloor_comp _ _ E), (Qceiling_comp _ _ E).
  assert (F : Qfloor ((x - inject_Z (Qfloor y)) * inject_Z (pow2 e)) = Qfloor ((y - inject_Z (Qfloor y)) * inject_Z (pow2 e))).
  { apply Qfloor_comp. now rewrite E. }
  rewrite F. reflexivity.
Qed.
Lemma p2_lt_inv a b : (2 ^ a < 2 ^ b)%Q -> (a < b)%Z.
Proof. intro H. destruct (Z_lt_le_dec a b) as [|L]; auto. apply p2_mono in L. lra. Qed.
Lemma p2_le_inv a b : (2 ^ a <= 2 ^ b)%Q -> (a <= b)%Z.
Proof.
  intro H. destruct (Z_le_gt_dec a b) as [|L]; auto. exfalso.
  assert (X : (2 ^ (b + 1) <= 2 ^ a)%Q) by (apply p2_mono; lia). rewrite p2_succ in X. pose proof (p2_pos b). lra.
Qed.

(** ** few outputs: the bisection computes without rounding errors *)
Lemma bisect_fl_same p rnd M clog2 d f_ precision (sb L : Z) : keeps_floats p rnd -> (2 ^ (- sb) <= precision)%Q -> (0 <= sb)%Z -> (0 <= L)%Z ->
  (L + sb + 1 <= p)%Z -> forall fuel mn mx mn' mx' lg (m e : Z), (0 <= m)%Z -> (- sb <= e)%Z ->
  (mn == inject_Z m * 2 ^ e)%Q -> (mx == (inject_Z m + 1) * 2 ^ e)%Q -> (mn' == mn)%Q -> (mx' == mx)%Q -> (mx <= 2 ^ L)%Q ->
  relopt (relres Qeq) (ws_bisect_fl rnd M clog2 d f_ precision fuel mn mx lg) (ws_bisect M clog2 d f_ precision fuel mn' mx' lg).
Proof.
  intros K Hpr Hsb HL Hp. induction fuel as [|fuel IH]; intros mn mx mn' mx' lg m e Hm He Emn Emx Emn' Emx' HB.
  all: assert (PE := p2_pos e).
  all: assert (MB : (m + 1 <= 2 ^ (L + sb))%Z).
  1,3: apply (proj1 (injZ_le _ _)); rewrite <- p2_inj by lia; rewrite inject_Z_plus; change (inject_Z 1) with 1%Q;
       apply (Qmult_le_r _ _ (2 ^ e)); [exact PE|]; rewrite <- p2_add;
       assert (X : (2 ^ L <= 2 ^ (L + sb + e))%Q) by (apply p2_mono; lia); lra.
  all: assert (P1 : (2 ^ (L + sb + 1) = 2 * 2 ^ (L + sb))%Z) by (rewrite Z.pow_add_r by lia; lia).
  all: assert (P2 : (2 ^ (L + sb + 1) <= 2 ^ p)%Z) by (apply Z.pow_le_mono_r; lia).
  all: assert (D1 : (rnd (mx - mn) == mx - mn)%Q).
  1,3: apply K; exists 1%Z, e; split; [cbn [Z.abs]; lia|rewrite Emx, Emn; ring].
  all: assert (FS : float_number p (mn + mx)%Q).
  1,3: exists (2 * m + 1)%Z, e; split; [rewrite Z.abs_eq; lia|rewrite Emx, Emn, inject_Z_plus, inject_Z_mult; change (inject_Z 1) with 1%Q; change (inject_Z 2) with 2%Q; ring].
  all: assert (S1 : (rnd (mn + mx) == mn + mx)%Q) by (apply K; exact FS).
  all: assert (S2 : (rnd (rnd (mn + mx) / 2) == (mn' + mx') / 2)%Q).
  1,3: assert (X : (rnd (mn + mx) / 2 == (mn + mx) / 2)%Q) by (rewrite S1; reflexivity);
       rewrite Emn', Emx', <- X; apply K; apply (float_eq _ _ _ X); apply float_half_of; exact FS.
  all: assert (SB : Qle_bool (rnd (mx - mn)%Q) precision = Qle_bool (mx' - mn') precision)
         by (apply Bool.eq_iff_eq_true; rewrite !Qle_bool_iff, D1, Emn', Emx'; reflexivity).
  - cbn [ws_bisect_fl ws_bisect]. rewrite SB. destruct (Qle_bool (mx' - mn') precision); cbn [relopt relres]; auto.
  - cbn [ws_bisect_fl ws_bisect]. rewrite SB. destruct (Qle_bool (mx' - mn') precision) eqn:EB; [cbn [relopt relres]; auto|].
    cbv zeta. rewrite (multiply_double_comp _ _ _ _ _ _ S2).
    destruct (bdd_multiply_constant_double M clog2 (mask M f_ lg) ((mn' + mx') / 2) 16) as [r| | |]; cbn [relopt relres]; auto.
    assert (HE : (- sb <= e - 1)%Z).
    { assert (X : ~ (mx' - mn' <= precision)%Q) by (rewrite <- Qle_bool_iff, EB; discriminate). apply Qnot_le_lt in X.
      rewrite Emn', Emx', Emn, Emx in X.
      assert (X2 : (2 ^ (- sb) < 2 ^ e)%Q) by lra. apply p2_lt_inv in X2. lia. }
    assert (E1 : (2 ^ e == 2 * 2 ^ (e - 1))%Q) by (rewrite <- p2_succ; replace (e - 1 + 1)%Z with e by lia; reflexivity).
    assert (MID : (rnd (rnd (mn + mx) / 2) == (2 * inject_Z m + 1) * 2 ^ (e - 1))%Q).
    { rewrite S2, Emn', Emx', Emn, Emx, E1. field. }
    destruct (exists_greater_equals M (mask M d lg) r) as [[|] [|]]; cbn [fst snd relopt relres]; auto.
    + apply (IH _ _ _ _ _ (2 * m + 1)%Z (e - 1)%Z); auto; try lia.
      * rewrite MID, inject_Z_plus, inject_Z_mult. reflexivity.
      * rewrite Emx, inject_Z_plus, inject_Z_mult, E1. change (inject_Z 1) with 1%Q. change (inject_Z 2) with 2%Q. ring.
      * now rewrite S2.
    + apply (IH _ _ _ _ _ (2 * m)%Z (e - 1)%Z); auto; try lia.
      * rewrite Emn, inject_Z_mult, E1. change (inject_Z 2) with 2%Q. ring.
      * now rewrite S2.
      * apply (Qle_trans _ mx); auto. rewrite MID, Emx, E1. pose proof (p2_pos (e - 1)). lra.
Qed.

Lemma double_power M clog2 d f_ fuel : forall k q, ws_double M clog2 d f_ fuel (pow2 k) = Ok (inl q) -> exists i, q = inject_Z (pow2 i).
Proof.
  induction fuel as [|fuel IH]; intros k q E; cbn [ws_double] in E; [discriminate|].
  destruct (pow2 k <? 2 ^ 128)%Z; cbn [require_ bind] in E; [|discriminate].
  destruct (bdd_multiply_constant_double M clog2 f_ (inject_Z (pow2 k)) 16) as [m| | |]; cbn [bind] in E; try discriminate.
  destruct (exists_greater_equals M d m) as [[|] [|]]; cbn [fst snd negb] in E.
  1,3: injection E as <-; eauto.
  - apply (IH (S k)). rewrite pow2_S, Z.mul_comm. exact E.
  - destruct (pow2 k =? 1)%Z; [discriminate|]. destruct (bdd_multiply_constant_double M clog2 f_ (inject_Z (pow2 k) / 2) 16); discriminate.
Qed.
(** what the search starts with *)
Lemma ws_start_spec M clog2 n f g r e top : clog2_ok clog2 -> wfs M f -> wfs M g -> below n f -> below n g ->
  f <> [] -> (r = TwosComplement -> g <> []) -> Nat.max (length f) (length g) <= 126 -> 16 <= e -> is_maxQ (wrel r f g) top ->
  (exists q, ws_start M clog2 f g e r = Ok (inl q) /\ (q == top)%Q /\ (q = 0%Q \/ exists i, q = inject_Z (pow2 i)))
  \/ exists d f_, wfs M d /\ wfs M f_ /\ (forall a, (1 <= uval f_ a)%Z) /\ (forall a, (N16 | uval f_ a)%Z)
     /\ (forall a, (quotient d f_ a == wrel r f g a)%Q)
     /\ ((ws_start M clog2 f g e r = Ok (inr (d, f_, 0%Q, 1%Q, bone)) /\ (0 < top < 1)%Q)
         \/ exists (k : nat) mn mx lg, ws_start M clog2 f g e r = Ok (inr (d, f_, mn, mx, lg))
              /\ (mn == inject_Z (pow2 k))%Q /\ (mx == inject_Z (pow2 (S k)))%Q /\ (mn < top <= mx)%Q /\ k < Nat.max (length f) (length g)
              /\ wf M lg /\ forall a, ev lg a = true <-> (mn < quotient d f_ a)%Q).
Proof.
  intros HC Wf Wg Bf Bg Hf Hg HL He Ht. unfold ws_start.
  destruct (rel_parts M _ f g r Wf Wg Bf Bg Hf Hg) as (d & fa & f_ & Ed & Ea & Em & Ld & La & Lm & Wd & Wa & Wm & Bd & Ba & Bm & V).
  rewrite Ea. cbn [bind]. rewrite Em. cbn [bind]. rewrite Ed. cbn [bind].
  destruct (forallb is_zero d) eqn:Ez.
  { left. exists 0%Q. split; [reflexivity|]. split; [|now left]. rewrite (all_zero_iff M) in Ez by auto.
    destruct Ht as [(a & Ha) _]. rewrite <- Ha. unfold wrel. destruct (V a) as (V1 & _). rewrite <- V1, Ez.
    assert (0 < inject_Z (Z.max 1 (Z.abs (value r f a))))%Q by (apply injZ_pos; lia). change (inject_Z 0) with 0%Q. field. lra. }
  apply (all_zero_false M) in Ez; auto. destruct Ez as (a0 & Ha0).
  set (d' := repeat bzero e ++ d). set (f' := repeat bzero e ++ f_).
  assert (Pe := pow2_pos e).
  assert (HQ : forall a, (quotient d' f' a == wrel r f g a)%Q).
  { intro a. unfold quotient, wrel, d', f'. rewrite !uval_prefix0. destruct (V a) as (-> & _ & ->). rewrite !inject_Z_mult.
    assert (0 < inject_Z (pow2 e))%Q by now apply injZ_pos. assert (0 < inject_Z (Z.max 1 (Z.abs (value r f a))))%Q by (apply injZ_pos; lia). field. lra. }
  assert (Ht' : is_maxQ (quotient d' f') top).
  { destruct Ht as [(a & Ha) HT]. split; [exists a; now rewrite HQ|]. intro b. rewrite HQ. apply HT. }
  assert (HF : forall a, (1 <= uval f' a)%Z) by (intro a; unfold f'; rewrite uval_prefix0; destruct (V a) as (_ & _ & ->); nia).
  assert (F16 : forall a, (N16 | uval f' a)%Z).
  { intro a. unfold f'. rewrite uval_prefix0. exists (pow2 (e - 16) * uval f_ a)%Z. replace e with (16 + (e - 16)) at 1 by lia. rewrite pow2_add.
    change (pow2 16) with N16. ring. }
  assert (Wd' : wfs M d') by (apply wfs_prefix0; auto). assert (Wf' : wfs M f') by (apply wfs_prefix0; auto).
  assert (T0 : (0 < top)%Q).
  { destruct Ht' as [_ HT]. specialize (HT a0). rewrite HQ in HT. unfold wrel in HT. destruct (V a0) as (V1 & _). rewrite <- V1 in HT.
    assert (X : (0 < inject_Z (Z.max 1 (Z.abs (value r f a0))))%Q) by (apply injZ_pos; lia).
    apply (div_le_iff _ _ _ X) in HT. assert (0 < inject_Z (uval d a0))%Q by now apply injZ_pos.
    destruct (Qlt_le_dec 0 top) as [|X2]; auto. exfalso.
    assert (top * inject_Z (Z.max 1 (Z.abs (value r f a0))) <= 0)%Q by (rewrite <- (Qmult_0_l (inject_Z (Z.max 1 (Z.abs (value r f a0))))); apply Qmult_le_compat_r; lra). lra. }
  destruct (double_spec M clog2 HC d' f' Wd' Wf' HF F16 top Ht' (length d)) with (fuel := S (length d)) (k := 0) as (x & Ex & Hx); try lia.
  { intro a. unfold d', f'. rewrite !uval_prefix0. pose proof (uval_range d a). destruct (V a) as (_ & _ & V3). pose proof (pow2_pos (length d)).
    assert (1 <= uval f_ a)%Z by lia.
    assert (X : (uval d a < pow2 (length d) * uval f_ a)%Z) by nia.
    replace (pow2 (length d) * (pow2 e * uval f_ a))%Z with (pow2 e * (pow2 (length d) * uval f_ a))%Z by ring.
    apply Z.mul_lt_mono_pos_l; auto. }
  change (pow2 0) with 1%Z in Ex. rewrite Ex. cbn [bind].
  destruct x as [q|[[mn mx] lg]]; [left; exists q; split; [reflexivity|]; split; [apply Hx|right; exact (double_power _ _ _ _ _ 0 q Ex)]|right]. exists d', f'. repeat (split; [assumption|]).
  destruct Hx as [(-> & -> & -> & T1)|(T1 & Tm & mi & j & Hj & S1 & S2 & S3 & S4 & S5 & S6 & S7)]; [left; split; auto|right].
  assert (MI : mi = pow2 j).
  { apply inject_Z_injective. rewrite inject_Z_plus in S4. change (inject_Z N16) with 65536%Q in *. lra. }
  subst mi. assert (J : 16 <= j).
  { destruct (le_lt_dec 16 j) as [|X]; auto. exfalso. assert (pow2 j <= pow2 15)%Z by (apply pow2_le; lia). change (pow2 15) with 32768%Z in *. unfold N16 in *. lia. }
  assert (PJ : pow2 j = (N16 * pow2 (j - 16))%Z) by (replace j with (16 + (j - 16)) at 1 by lia; rewrite pow2_add; reflexivity).
  assert (MN : (mn == inject_Z (pow2 (j - 16)))%Q).
  { rewrite PJ, inject_Z_mult in S3. change (inject_Z N16) with 65536%Q in *. lra. }
  exists (j - 16), mn, mx, lg. split; [reflexivity|]. split; [exact MN|].
  split; [rewrite pow2_S, inject_Z_mult, <- MN; change (inject_Z 2) with 2%Q; lra|]. split; [exact S7|].
  split; [|split; auto].
  assert (TB : (top < inject_Z (pow2 (Nat.max (length f) (length g))))%Q).
  { destruct Ht as [(a & Ha) _]. rewrite <- Ha. unfold wrel.
    assert (X : (0 < inject_Z (Z.max 1 (Z.abs (value r f a))))%Q) by (apply injZ_pos; lia).
    assert (WB : (0 <= wrapped r f g a < pow2 (Nat.max (length f) (length g)))%Z) by (apply wrapped_range; auto).
    apply (Qle_lt_trans _ (inject_Z (wrapped r f g a))); [|apply (proj2 (injZ_lt _ _)); lia].
    apply div_le_iff; auto. rewrite <- inject_Z_mult. apply (proj2 (injZ_le _ _)). nia. }
  assert (X : (inject_Z (pow2 (j - 16)) < inject_Z (pow2 (Nat.max (length f) (length g))))%Q) by lra.
  apply (proj1 (injZ_lt _ _)) in X. destruct (le_lt_dec (Nat.max (length f) (length g)) (j - 16)) as [Y|Y]; auto. apply pow2_le in Y. lia.
Qed.

Theorem wcre_search_fl_same p rnd M clog2 n f g r e precision (sb : Z) : keeps_floats p rnd -> clog2_ok clog2 -> wfs M f -> wfs M g -> below n f -> below n g ->
  f <> [] -> (r = TwosComplement -> g <> []) -> Nat.max (length f) (length g) <= 126 -> 16 <= e ->
  (0 <= sb)%Z -> (2 ^ (- sb) <= precision)%Q -> (Z.of_nat (Nat.max (length f) (length g)) + sb + 1 <= p)%Z ->
  forall fuel, relopt (relres Qeq) (wcre_search_fl rnd M clog2 f g e precision r fuel) (wcre_search M clog2 f g e precision r fuel).
Proof.
  intros K HC Wf Wg Bf Bg Hf Hg HL He Hsb Hpr Hp fuel.
  destruct (max_exists n (wrel r f g) (wrel_dep n f g r Bf Bg)) as (top & Ht).
  unfold wcre_search_fl, wcre_search.
  destruct (ws_start_spec M clog2 n f g r e top HC Wf Wg Bf Bg Hf Hg HL He Ht) as [(q & -> & _)|(d & f_ & _ & _ & _ & _ & _ & [(-> & _)|(k & mn & mx & lg & -> & E1 & E2 & _ & Hk & _)])].
  - cbn [relopt relres]. reflexivity.
  - apply (bisect_fl_same p rnd M clog2 d f_ precision sb (Z.of_nat (Nat.max (length f) (length g))) K Hpr Hsb ltac:(lia) Hp fuel _ _ _ _ _ 0%Z 0%Z); try reflexivity; try lia.
    change 1%Q with (2 ^ 0)%Q. apply p2_mono. lia.
  - assert (P : forall i, (inject_Z (pow2 i) == 2 ^ Z.of_nat i)%Q) by (intro i; unfold pow2; rewrite <- p2_inj by lia; reflexivity).
    apply (bisect_fl_same p rnd M clog2 d f_ precision sb (Z.of_nat (Nat.max (length f) (length g))) K Hpr Hsb ltac:(lia) Hp fuel _ _ _ _ _ 1%Z (Z.of_nat k)); try reflexivity; try lia.
    + rewrite E1, P. change (inject_Z 1) with 1%Q. ring.
    + rewrite E2, pow2_S, inject_Z_mult, P. change (inject_Z 1) with 1%Q. change (inject_Z 2) with 2%Q. ring.
    + rewrite E2, P. apply p2_mono. lia.
Qed.

(** ** many outputs: the bisection need not end *)
Lemma float_grid p x k : (1 <= p)%Z -> float_number p x -> (2 ^ k <= x)%Q -> exists z : Z, (x == inject_Z z * 2 ^ (k + 1 - p))%Q.
Proof.
  intros Hp (m & e & Hm & E) H. destruct (Z_le_gt_dec (k + 1 - p) e) as [L|L].
  - exists (m * 2 ^ (e - (k + 1 - p)))%Z. rewrite E, inject_Z_mult, <- p2_inj by lia.
    rewrite <- Qmult_assoc, <- p2_add. replace (e - (k + 1 - p) + (k + 1 - p))%Z with e by lia. reflexivity.
  - assert (X : (x <= 2 ^ k)%Q).
    { rewrite E. assert (inject_Z m <= inject_Z (2 ^ p))%Q by (rewrite <- Zle_Qle; lia). rewrite <- p2_inj in H0 by lia.
      apply (Qle_trans _ (2 ^ p * 2 ^ e)); [apply Qmult_le_compat_r; [auto|pose proof (p2_pos e); lra]|]. rewrite <- p2_add. apply p2_mono. lia. }
    exists (2 ^ (p - 1))%Z. rewrite <- p2_inj, <- p2_add by lia. replace (p - 1 + (k + 1 - p))%Z with k by lia. lra.
Qed.

Section Never.
Variables (p : Z) (rnd : Q -> Q) (M : mgr) (clog2 : Z -> nat) (d f_ : list bdd) (top precision : Q) (k : Z).
Hypothesis Hp : (1 <= p)%Z.
Hypothesis HR : rounds_to_nearest p rnd.
Hypothesis HC : clog2_ok clog2.
Hypothesis Wd : wfs M d.
Hypothesis Wf : wfs M f_.
Hypothesis HF : forall a, (1 <= uval f_ a)%Z.
Hypothesis F16 : forall a, (N16 | uval f_ a)%Z.
Hypothesis Same : forall a, (quotient d f_ a == top)%Q.
Hypothesis NF : ~ float_number p top.
Hypothesis Hk : (0 <= k)%Z.
Hypothesis Hk16 : (0 <= k + 17 - p)%Z.
Hypothesis Hprec : (precision < 2 ^ (k + 1 - p))%Q.

Lemma bisect_never fuel : forall mn mx lg, float_number p mn -> float_number p mx -> (2 ^ k <= mn)%Q -> (mn < top)%Q -> (top < mx)%Q -> (mx < 2 ^ 128)%Q ->
  wf M lg -> (forall a, ev lg a = true) -> ws_bisect_fl rnd M clog2 d f_ precision fuel mn mx lg = None.
Proof.
  assert (Hnear := rn_near p rnd HR).
  induction fuel as [|fuel IH]; intros mn mx lg Fn Fx Kn Ln Lx Bx Wl El.
  all: assert (G : Qle_bool (rnd (mx - mn)%Q) precision = false).
  1,3: destruct (float_grid p mn k ltac:(lia) Fn Kn) as (z1 & E1); destruct (float_grid p mx k ltac:(lia) Fx ltac:(lra)) as (z2 & E2);
       set (w := (2 ^ (k + 1 - p))%Q) in *; assert (W : (0 < w)%Q) by apply p2_pos;
       assert (Z : (z1 + 1 <= z2)%Z) by (assert (X : (inject_Z z1 < inject_Z z2)%Q) by (apply (Qmult_lt_r _ _ w W); lra); apply (proj1 (injZ_lt _ _)) in X; lia);
       assert (D : (w <= mx - mn)%Q)
         by (apply (proj2 (injZ_le _ _)) in Z; rewrite inject_Z_plus in Z; change (inject_Z 1) with 1%Q in Z;
             assert (X : ((inject_Z z1 + 1) * w <= inject_Z z2 * w)%Q) by (apply Qmult_le_compat_r; lra); lra);
       assert (R : (w <= rnd (mx - mn))%Q) by (apply (near_ge p rnd Hnear); auto; exists 1%Z, (k + 1 - p)%Z; split; [pose proof (Z.pow_pos_nonneg 2 p ltac:(lia) ltac:(lia)); cbn [Z.abs]; lia|unfold w; ring]);
       destruct (Qle_bool (rnd (mx - mn)%Q) precision) eqn:EB; auto; apply Qle_bool_iff in EB; lra.
  - cbn [ws_bisect_fl]. now rewrite G.
  - cbn [ws_bisect_fl]. rewrite G. cbv zeta. set (mid := rnd (rnd (mn + mx) / 2)%Q).
    assert (FM : float_number p mid) by apply (rn_float p rnd HR).
    assert (ME : (mid == rnd (mn + mx) / 2)%Q) by (apply (rn_keeps p rnd HR), float_half_of, (rn_float p rnd HR)).
    assert (M1 : (mn <= mid)%Q).
    { assert (2 * mn <= rnd (mn + mx))%Q.
      { apply (near_ge p rnd Hnear); [|lra]. apply (float_eq _ _ (mn * 2 ^ 1)%Q); [change (2 ^ 1)%Q with 2%Q; ring|]. now apply float_scale. }
      rewrite ME. apply le_div_iff; lra. }
    assert (M2 : (mid <= mx)%Q).
    { assert (rnd (mn + mx) <= 2 * mx)%Q.
      { apply (near_le p rnd Hnear); [|lra]. apply (float_eq _ _ (mx * 2 ^ 1)%Q); [change (2 ^ 1)%Q with 2%Q; ring|]. now apply float_scale. }
      rewrite ME. apply div_le_iff; lra. }
    clearbody mid.
    destruct (float_grid p mid k ltac:(lia) FM ltac:(lra)) as (z & Ez).
    set (m := (z * 2 ^ (k + 17 - p))%Z).
    assert (Em : (mid * inject_Z N16 == inject_Z m)%Q).
    { unfold m. rewrite Ez, inject_Z_mult, <- p2_inj by lia. change (inject_Z N16) with (2 ^ 16)%Q. rewrite <- Qmult_assoc, <- p2_add.
      replace (k + 1 - p + 16)%Z with (k + 17 - p)%Z by lia. reflexivity. }
    assert (Hm : (N16 <= m < N16 * 2 ^ 128)%Z).
    { assert (ML : (1 <= mid)%Q) by (assert (2 ^ 0 <= 2 ^ k)%Q by (apply p2_mono; lia); change (2 ^ 0)%Q with 1%Q in *; lra).
      assert (MU : (mid < 2 ^ 128)%Q) by lra. rewrite p2_inj in MU by lia.
      split; [apply (proj1 (injZ_le _ _))|apply (proj1 (injZ_lt _ _))]; rewrite ?inject_Z_mult, <- Em; change (inject_Z N16) with 65536%Q; lra. }
    destruct (compare_spec M clog2 HC d f_ Wd Wf F16 lg mid m Wl Em Hm) as (r & -> & Wr & Vr & CL).
    destruct (exists_greater_equals M (mask M d lg) r) as [[|] [|]]; cbn [fst snd].
    + exfalso. destruct CL as (_ & x & C). specialize (C (El x)). apply (equal_iff d f_ HF m mid x Em) in C. rewrite Same in C.
      apply NF. apply (float_eq _ _ mid); [now symmetry|auto].
    + destruct CL as (x & _ & C). rewrite (above_iff d f_ HF m mid x Em), Same in C.
      apply IH; auto; try lra. intro a. apply Vr. split; auto. rewrite (above_iff d f_ HF m mid a Em), Same. exact C.
    + contradiction.
    + destruct (CL (fun _ => false)) as [_ C]. apply (less_iff d f_ HF m mid _ Em) in C. rewrite Same in C.
      apply IH; auto; lra.
Qed.
End Never.

Theorem wcre_search_fl_never p rnd M clog2 n f g r e precision top (k : Z) : (1 <= p)%Z -> rounds_to_nearest p rnd ->
  clog2_ok clog2 -> wfs M f -> wfs M g -> below n f -> below n g ->
  f <> [] -> (r = TwosComplement -> g <> []) -> Nat.max (length f) (length g) <= 126 -> 16 <= e ->
  (forall a, (wrel r f g a == top)%Q) -> ~ float_number p top -> (0 <= k)%Z -> (p - 17 <= k)%Z -> (2 ^ k <= top)%Q -> (precision < 2 ^ (k + 1 - p))%Q ->
  forall fuel, wcre_search_fl rnd M clog2 f g e precision r fuel = None.
Proof.
  intros Hp HR HC Wf Wg Bf Bg Hf Hg HL He Same NF K0 K1 K2 HP fuel.
  assert (Ht : is_maxQ (wrel r f g) top).
  { split; [exists (fun _ => false); apply Same|]. intro a. rewrite Same. lra. }
  assert (P : forall i, (inject_Z (pow2 i) == 2 ^ Z.of_nat i)%Q) by (intro i; unfold pow2; rewrite <- p2_inj by lia; reflexivity).
  assert (Fp : forall i, float_number p (2 ^ i)%Q).
  { intro i. exists 1%Z, i. split; [pose proof (Z.pow_pos_nonneg 2 p ltac:(lia) ltac:(lia)); cbn [Z.abs]; lia|]. change (inject_Z 1) with 1%Q. ring. }
  unfold wcre_search_fl.
  destruct (ws_start_spec M clog2 n f g r e top HC Wf Wg Bf Bg Hf Hg HL He Ht) as [(q & _ & ET & Z)|(d & f_ & Wd & Wf_ & HF & F16 & HQ & [(_ & T1)|(i & mn & mx & lg & -> & E1 & E2 & T & Hi & Wl & Sl)])].
  - exfalso. apply NF. apply (float_eq _ _ q); [now symmetry|]. destruct Z as [->|(i & ->)].
    + apply float_zero. lia.
    + apply (float_eq _ _ _ (P i)). apply Fp.
  - exfalso. assert (2 ^ 0 <= 2 ^ k)%Q by (apply p2_mono; lia). change (2 ^ 0)%Q with 1%Q in *. lra.
  - assert (TX : (top < mx)%Q).
    { destruct (Qlt_le_dec top mx) as [|X]; auto. exfalso. apply NF. assert (E : (top == mx)%Q) by lra.
      apply (float_eq _ _ _ E). apply (float_eq _ _ _ E2). apply (float_eq _ _ _ (P (S i))). apply Fp. }
    apply (bisect_never p rnd M clog2 d f_ top precision k); auto; try lia; try lra.
    + intro a. now rewrite HQ.
    + apply (float_eq _ _ _ E1). apply (float_eq _ _ _ (P i)). apply Fp.
    + apply (float_eq _ _ _ E2). apply (float_eq _ _ _ (P (S i))). apply Fp.
    + rewrite E1, P. apply p2_mono. assert (X : (2 ^ k < 2 ^ Z.of_nat (S i))%Q) by (rewrite <- P; lra). apply p2_lt_inv in X. lia.
    + rewrite E2, P. apply (Qle_lt_trans _ (2 ^ 127)); [apply p2_mono; lia|reflexivity].
    + intro a. apply Sl. rewrite HQ, Same. lra.
Qed.
