(** Rounding in cpp_dec_float_100: the bounds and the symbolic division of the relative error metrics *)
From Coq Require Import List Bool Arith ZArith QArith Qabs Lia Lqa.
From Verif Require Import Res Cudd CuddFacts Spec SpecFacts SpecFloat Float FloatFacts Helpers HelpersFacts HelpersFacts2 Counting AddFacts CountFacts
  RoundedMinimize Metrics MetricsFacts MetricsFacts2 MetricsFacts4 RelMetrics RelFacts RelFacts2 RelFacts7 Rounded RoundedFacts RoundedFacts2 RoundedAverageFacts RoundedRel.
Import ListNotations.
Open Scope nat_scope.

Lemma qmax_lub a b c : (a <= c)%Q -> (b <= c)%Q -> (qmax a b <= c)%Q.
Proof. intros A B. destruct (qmax_cases a b) as [->| ->]; auto. Qed.

Section Dec.
Variable u : Q.
Hypothesis U : (0 <= u <= 1)%Q.
Variable dec : Q -> Q.
Hypothesis D : relative_error u dec.

(** ** wcre_bounds *)
Lemma wcre_loop_dec M f (Wf : wfs M f) (Hf : forall a, (uval f a < 2 ^ 256)%Z) l : wfs M l -> forall z mn mx mn' mx', wf M z ->
  (mn' <= (1 + u) * mn)%Q -> ((1 - u) * mx <= mx')%Q ->
  let '(x, y) := wcre_bounds_loop M f l z mn mx in
  let '(x', y') := wcre_bounds_loop_fl dec M f l z mn' mx' in
  (x' <= (1 + u) * x)%Q /\ ((1 - u) * y <= y')%Q.
Proof.
  induction l as [|b l IH]; intros Wl z mn mx mn' mx' Wz H1 H2; cbn [wcre_bounds_loop wcre_bounds_loop_fl]; [auto|].
  inversion Wl as [|? ? Wb Wl']; subst.
  assert (Wm : wf M (band M z b)) by (apply wf_and; auto).
  set (mv := get_max_value M (mask M f (band M z b))).
  assert (Hmv : (0 <= inject_Z mv)%Q).
  { apply injZ_nonneg. destruct (mask_max M f Wf Hf (band M z b) Wm) as ((a0 & A0) & _). fold mv in A0. cbn beta in A0. rewrite <- A0.
    destruct (ev _ a0); [|lia]. pose proof (uval_range f a0). lia. }
  assert (P1 : (0 < pow_minus_one (length l + 1))%Q) by (apply pm1_pos; lia).
  assert (P2 : (0 < inject_Z (pow2 (length l)))%Q) by (apply injZ_pos, pow2_pos).
  assert (Q1 : (0 <= inject_Z mv / pow_minus_one (length l + 1))%Q) by (apply le_div_iff; auto; lra).
  assert (Q2 : (0 <= inject_Z mv / inject_Z (pow2 (length l)))%Q) by (apply le_div_iff; auto; lra).
  apply IH; auto.
  - apply wf_and; auto using wf_not.
  - destruct (rnd_bounds u dec D _ Q1) as [_ B]. apply qmax_lub.
    + eapply Qle_trans; [exact H1|]. apply Qmult_le_l'; [lra|apply qmax_l].
    + eapply Qle_trans; [exact B|]. apply Qmult_le_l'; [lra|apply qmax_r].
  - destruct (rnd_bounds u dec D _ Q2) as [B _].
    destruct (qmax_cases mx (inject_Z mv / inject_Z (pow2 (length l)))) as [->| ->].
    + eapply Qle_trans; [exact H2|apply qmax_l].
    + eapply Qle_trans; [exact B|apply qmax_r].
Qed.

Lemma wcre_bounds_dec M n f g r : wfs M f -> wfs M g -> below n f -> below n g -> f <> [] ->
  (r = TwosComplement -> g <> []) -> length f <= 256 -> length g <= 256 ->
  exists lo hi, wcre_bounds_fl dec M f g r = Ok (lo, hi)
    /\ (forall a, (1 - u) * wrel r f g a <= hi)%Q
    /\ (forall B, (forall a, wrel r f g a <= B)%Q -> (lo <= (1 + u) * B)%Q).
Proof.
  intros Wf Wg Bf Bg Hf Hg Lf Lg.
  destruct (wcre_bounds_spec M n f g r Wf Wg Bf Bg Hf Hg Lf Lg) as (lo & hi & E & _ & H1 & H2). revert E.
  unfold wcre_bounds, wcre_bounds_fl.
  destruct (rel_parts M n f g r Wf Wg Bf Bg Hf Hg) as (d & fa & f_ & Ed & Ea & Em & Ld & La & Lm & Wd & Wa & Wm & Bd & Ba & Bm & V).
  rewrite Ed, Ea. cbn [bind]. rewrite Em. cbn [bind]. unfold maximum_relative_value_bounds, maximum_relative_value_bounds_fl.
  assert (Hm : f_ <> []) by (intro E; subst; destruct f; [congruence|discriminate]).
  destruct (bdd_max_one_idem M n f_ Hm Wm Bm) as (m & E & L & W & B & Vm).
  { intro a. destruct (V a) as (_ & _ & ->). lia. }
  rewrite E. cbn [bind]. intro X.
  assert (Hd : forall a, (uval d a < 2 ^ 256)%Z).
  { intro a. destruct (V a) as (-> & _). pose proof (wrapped_range r f g a Hf Hg).
    pose proof (pow2_256 (Nat.max (length f) (length g)) ltac:(lia)). lia. }
  pose proof (wcre_loop_dec M d Wd Hd (rev m) ltac:(apply Forall_rev; auto) bone 0%Q 0%Q 0%Q 0%Q (wf_one M) ltac:(lra) ltac:(lra)) as S.
  destruct (wcre_bounds_loop M d (rev m) bone 0 0) as [x y]. destruct (wcre_bounds_loop_fl dec M d (rev m) bone 0 0) as [x' y'].
  injection X as -> ->. destruct S as [S1 S2]. exists x', y'. split; [reflexivity|]. split.
  - intro a. eapply Qle_trans; [|exact S2]. apply Qmult_le_l'; [lra|apply H1].
  - intros B0 HB. eapply Qle_trans; [exact S1|]. apply Qmult_le_l'; [lra|]. now apply H2.
Qed.

(** ** wcre_symbolic_division *)
Lemma wcre_division_dec M f g e r :
  match wcre_symbolic_division M f g e r with
  | Ok q => wcre_symbolic_division_fl dec M f g e r = Ok (dec q)
  | UB => wcre_symbolic_division_fl dec M f g e r = UB
  | Throw => wcre_symbolic_division_fl dec M f g e r = Throw
  | Abort => wcre_symbolic_division_fl dec M f g e r = Abort
  end.
Proof. unfold wcre_symbolic_division, wcre_symbolic_division_fl. destruct (divided M f g e r); reflexivity. Qed.

(** ** Averages: [al] and [ah] stand for the error of the doubles *)
Section Averages.
Variables al ah : Q.
Hypothesis A0 : (0 <= al)%Q.
Hypothesis A1 : (0 <= ah)%Q.
Definition near2 (k : nat) (x y : Q) : Prop := (qpow (1 - u) k * (al * y) <= x /\ x <= qpow (1 + u) k * (ah * y))%Q.

Lemma near2_nonneg k x y : (0 <= y)%Q -> near2 k x y -> (0 <= x)%Q.
Proof.
  intros Hy [A _]. eapply Qle_trans; [|exact A]. apply Qmult_le_0_compat; [apply qpow_nonneg; lra|]. now apply Qmult_le_0_compat.
Qed.
Lemma near2_S k x y : (0 <= y)%Q -> near2 k x y -> near2 (S k) x y.
Proof.
  intros Hy [A B]. pose proof (qpow_up u U k). pose proof (qpow_down u U k).
  assert (0 <= al * y)%Q by now apply Qmult_le_0_compat. assert (0 <= ah * y)%Q by now apply Qmult_le_0_compat. split.
  - eapply Qle_trans; [|exact A]. now apply Qmult_le_compat_r.
  - eapply Qle_trans; [exact B|]. now apply Qmult_le_compat_r.
Qed.
Lemma near2_mono j k x y : (0 <= y)%Q -> j <= k -> near2 j x y -> near2 k x y.
Proof. intros Hy L H. induction L; auto. now apply near2_S. Qed.
Lemma near2_dec k x y : (0 <= y)%Q -> near2 k x y -> near2 (S k) (dec x) y.
Proof.
  intros Hy H. pose proof (near2_nonneg k x y Hy H) as X. destruct (rnd_bounds u dec D x X) as [L1 L2]. destruct H as [A B].
  unfold near2. cbn [qpow]. split; nra.
Qed.
Lemma near2_div k x y c : (0 < c)%Q -> near2 k x y -> near2 k (x / c) (y / c).
Proof.
  intros Hc [A B]. assert (I : (0 <= / c)%Q) by (apply Qinv_le_0_compat; lra). unfold near2, Qdiv. set (i := (/ c)%Q) in *.
  split; nra.
Qed.
Lemma near2_plus k x y x' y' : near2 k x y -> near2 k x' y' -> near2 k (x + x') (y + y').
Proof. intros [A B] [A' B']. unfold near2. split; lra. Qed.
Lemma near2_eq k x y y' : (y == y')%Q -> near2 k x y -> near2 k x y'.
Proof. unfold near2. intros E [A B]. rewrite <- E. auto. Qed.

Variable rnd : Q -> Q.
Variable M : mgr.
Variable n : nat.
(** the average in doubles *)
Hypothesis AV : forall f, wfs M f -> below n f -> (forall b, In b f -> length f + support_size b <= 256) ->
  exists q, average_value_fl rnd f = Fin q /\ (al * average n (fun a => inject_Z (uval f a)) <= q <= ah * average n (fun a => inject_Z (uval f a)))%Q.

Lemma average_dec_near f : wfs M f -> below n f -> length f + n <= 256 ->
  exists q, average_value_dec rnd dec f = Fin q /\ near2 1 q (average n (fun a => inject_Z (uval f a))).
Proof.
  intros W B L. destruct (AV f W B) as (q & E & H).
  { intros b Hb. assert (support_size b <= n); [|lia]. apply (support_size_below M n b).
    - rewrite Forall_forall in W. auto.
    - unfold below in B. rewrite Forall_forall in B. auto. }
  unfold average_value_dec. rewrite E. cbn [nround]. eexists. split; [reflexivity|]. apply near2_dec.
  - apply average_nonneg. intro a. apply injZ_nonneg, uval_range.
  - unfold near2. cbn [qpow]. lra.
Qed.

Lemma acre_loop_dec f (Wf : wfs M f) (Bf : below n f) (Hf : length f + n <= 256) l : wfs M l -> below n l ->
  forall z mn mx mn' mx' k, wf M z -> depends_below n z -> 2 <= k -> (0 <= mn)%Q -> (0 <= mx)%Q -> near2 k mn' mn -> near2 k mx' mx ->
  exists x y x' y', acre_bounds_loop M f l z (Fin mn) (Fin mx) = (Fin x, Fin y)
    /\ acre_bounds_loop_fl rnd dec M f l z (Fin mn') (Fin mx') = (Fin x', Fin y')
    /\ near2 (length l + k) x' x /\ near2 (length l + k) y' y.
Proof.
  induction l as [|b l IH]; intros Wl Bl z mn mx mn' mx' k Wz Bz Hk H1 H2 N1 N2; cbn [acre_bounds_loop acre_bounds_loop_fl].
  - exists mn, mx, mn', mx'. repeat split; auto; try apply N1; apply N2.
  - inversion Wl as [|? ? Wb Wl']; subst. apply below_cons in Bl. destruct Bl as [Bb Bl'].
    set (md := band M z b).
    assert (Wm : wf M md) by (apply wf_and; auto).
    assert (Bm : depends_below n md) by (apply depends_below_and; auto).
    destruct (mask_average M n f Wf Bf Hf md Wm Bm) as (q & Eq & Hq). rewrite Eq. cbn [nscale nplus].
    destruct (average_dec_near (mask M f md)) as (q' & Eq' & Hq').
    { now apply mask_wf. } { now apply mask_below. } { now rewrite mask_length. }
    rewrite Eq'. cbn [nscale nplus nround].
    assert (HE : (average n (fun a => inject_Z (uval (mask M f md) a)) == q)%Q).
    { rewrite Hq. apply average_ext. intro a. rewrite mask_uval. destruct (ev md a); reflexivity. }
    apply (near2_eq 1 q' _ q HE) in Hq'.
    assert (Qp : (0 <= q)%Q).
    { rewrite <- HE. apply average_nonneg. intro a. apply injZ_nonneg, uval_range. }
    assert (P1 : (0 < pow_minus_one (length l + 1))%Q) by (apply pm1_pos; lia).
    assert (P2 : (0 < inject_Z (pow2 (length l)))%Q) by (apply injZ_pos, pow2_pos).
    assert (Q1 : (0 <= q / pow_minus_one (length l + 1))%Q) by (apply le_div_iff; auto; lra).
    assert (Q2 : (0 <= q / inject_Z (pow2 (length l)))%Q) by (apply le_div_iff; auto; lra).
    destruct (IH Wl' Bl' (band M z (bnot b)) (mn + q / pow_minus_one (length l + 1))%Q (mx + q / inject_Z (pow2 (length l)))%Q
      (dec (mn' + dec (q' / pow_minus_one (length l + 1))))%Q (dec (mx' + dec (q' / inject_Z (pow2 (length l)))))%Q (S k))
      as (x & y & x' & y' & E1 & E2 & N3 & N4).
    + apply wf_and; auto using wf_not.
    + apply depends_below_and; auto. intros a1 a2 Dd. rewrite !ev_not. now rewrite (Bb a1 a2 Dd).
    + lia.
    + lra.
    + lra.
    + apply near2_dec; [lra|]. apply near2_plus; auto. apply (near2_mono 2); auto. apply near2_dec; auto. now apply near2_div.
    + apply near2_dec; [lra|]. apply near2_plus; auto. apply (near2_mono 2); auto. apply near2_dec; auto. now apply near2_div.
    + exists x, y, x', y'. cbn [length]. replace (S (length l) + k) with (length l + S k) by lia. auto.
Qed.

Lemma acre_bounds_near f g r : wfs M f -> wfs M g -> below n f -> below n g -> f <> [] ->
  (r = TwosComplement -> g <> []) -> Nat.max (length f) (length g) + n < 256 ->
  exists lo hi, acre_bounds_fl rnd dec M f g r = Ok (Fin lo, Fin hi)
    /\ (qpow (1 - u) (length f + 2) * (al * average n (wrel r f g)) <= hi)%Q
    /\ (lo <= qpow (1 + u) (length f + 2) * (ah * average n (wrel r f g)))%Q.
Proof.
  intros Wf Wg Bf Bg Hf Hg L256.
  destruct (acre_bounds_spec M n f g r Wf Wg Bf Bg Hf Hg L256) as (lo & hi & E & _ & H1 & H2). revert E.
  unfold acre_bounds, acre_bounds_fl.
  destruct (rel_parts M n f g r Wf Wg Bf Bg Hf Hg) as (d & fa & m & Ed & Ea & Em & Ld & La & Lm & Wd & Wa & Wm & Bd & Ba & Bm & V).
  rewrite Ed, Ea. cbn [bind]. unfold average_relative_value, average_relative_value_fl. rewrite Em. cbn [bind].
  assert (Z0 : near2 2 0 0) by (unfold near2; split; lra).
  destruct (acre_loop_dec d Wd Bd ltac:(lia) (rev m) ltac:(apply Forall_rev; auto) ltac:(apply Forall_rev; auto) bone 0%Q 0%Q 0%Q 0%Q 2 (wf_one M))
    as (x & y & x' & y' & E1 & E2 & [N1 N2] & [N3 N4]); auto; try lra.
  { intros a b _. reflexivity. }
  rewrite E1, E2. intro X. injection X as -> ->. exists x', y'. rewrite rev_length, Lm in *. split; [reflexivity|].
  assert (G1 : (0 <= qpow (1 - u) (length f + 2))%Q) by (apply qpow_nonneg; lra).
  assert (G2 : (0 <= qpow (1 + u) (length f + 2))%Q) by (apply qpow_nonneg; lra). split.
  - eapply Qle_trans; [|exact N3]. apply Qmult_le_l'; auto. now apply Qmult_le_l'.
  - eapply Qle_trans; [exact N2|]. apply Qmult_le_l'; auto. now apply Qmult_le_l'.
Qed.

Lemma acre_division_near f g e r : wfs M f -> wfs M g -> below n f -> below n g -> f <> [] ->
  (r = TwosComplement -> g <> []) -> Nat.max (length f) (length g) + e + n + 3 <= 256 ->
  exists q q', acre_symbolic_division M f g e r = Ok (Fin q) /\ acre_symbolic_division_fl rnd dec M f g e r = Ok (Fin q') /\ near2 2 q' q.
Proof.
  intros Wf Wg Bf Bg Hf Hg L. unfold acre_symbolic_division, acre_symbolic_division_fl.
  destruct (divided_spec M n f g e r Wf Wg Bf Bg Hf Hg) as (d & -> & Ld & Wd & Bd & V). cbn [bind].
  destruct (average_value_full M n d Wd Bd) as (q & -> & Hq).
  { intros b Hb. assert (support_size b <= n); [|lia]. apply (support_size_below M n b).
    - rewrite Forall_forall in Wd. auto.
    - unfold below in Bd. rewrite Forall_forall in Bd. auto. }
  destruct (average_dec_near d Wd Bd ltac:(lia)) as (q' & -> & N). cbn [nscale nround].
  exists (q / inject_Z (pow2 e))%Q, (dec (q' / inject_Z (pow2 e)))%Q. split; [reflexivity|]. split; [reflexivity|].
  assert (P2 : (0 < inject_Z (pow2 e))%Q) by (apply injZ_pos, pow2_pos).
  assert (Qp : (0 <= q)%Q) by (rewrite Hq; apply average_nonneg; intro a; apply injZ_nonneg, uval_range).
  apply near2_dec; [apply le_div_iff; auto; lra|]. apply near2_div; auto. eapply near2_eq; [symmetry; exact Hq|exact N].
Qed.
End Averages.
End Dec.

(** how many roundings of doubles an average of n variables may contain *)
Definition double_steps (n : nat) : nat := if n <=? 53 then 0 else 2 * n.

Lemma average_fl_steps rnd M n f : rounds_to_nearest 53 rnd -> wfs M f -> below n f -> (forall b, In b f -> length f + support_size b <= 256) ->
  exists q, average_value_fl rnd f = Fin q /\ within (2 ^ (-53)) (double_steps n) q (average n (fun a => inject_Z (uval f a))).
Proof.
  intros R W B H. unfold double_steps. destruct (n <=? 53) eqn:E.
  - apply Nat.leb_le in E. destruct (average_value_full M n f W B H) as (q & X & Hq). exists q. split.
    + rewrite <- X. unfold average_value_fl, average_value. cbv zeta. pose proof (rounds_keeps 53 rnd R) as K.
      rewrite (average_sum_same 53 rnd K M n) by (auto; lia). reflexivity.
    + unfold within. cbn [qpow]. rewrite Hq. split; lra.
  - exact (average_value_fl_within 53 rnd ltac:(lia) R M n f W B H).
Qed.

Section Final.
Variable u : Q.
Hypothesis U : (0 <= u <= 1)%Q.
Variable rnd dec : Q -> Q.
Hypothesis R : rounds_to_nearest 53 rnd.
Hypothesis D : relative_error u dec.
Let v : Q := (2 ^ (-53))%Q.
Let V : (0 <= v <= 1)%Q.
Proof. unfold v. split; vm_compute; discriminate. Qed.

Lemma acre_bounds_dec M n f g r : wfs M f -> wfs M g -> below n f -> below n g -> f <> [] ->
  (r = TwosComplement -> g <> []) -> Nat.max (length f) (length g) + n < 256 ->
  exists lo hi, acre_bounds_fl rnd dec M f g r = Ok (Fin lo, Fin hi)
    /\ (qpow (1 - u) (length f + 2) * (qpow (1 - v) (double_steps n) * average n (wrel r f g)) <= hi)%Q
    /\ (lo <= qpow (1 + u) (length f + 2) * (qpow (1 + v) (double_steps n) * average n (wrel r f g)))%Q.
Proof.
  apply (acre_bounds_near u U dec D (qpow (1 - v) (double_steps n)) (qpow (1 + v) (double_steps n))).
  - apply qpow_nonneg. destruct V. lra.
  - apply qpow_nonneg. destruct V. lra.
  - intros x W B H. apply (average_fl_steps rnd M n x R W B H).
Qed.
Lemma acre_division_dec M n f g e r : wfs M f -> wfs M g -> below n f -> below n g -> f <> [] ->
  (r = TwosComplement -> g <> []) -> Nat.max (length f) (length g) + e + n + 3 <= 256 ->
  exists q q', acre_symbolic_division M f g e r = Ok (Fin q) /\ acre_symbolic_division_fl rnd dec M f g e r = Ok (Fin q')
    /\ (qpow (1 - u) 2 * (qpow (1 - v) (double_steps n) * q) <= q' <= qpow (1 + u) 2 * (qpow (1 + v) (double_steps n) * q))%Q.
Proof.
  apply (acre_division_near u U dec D (qpow (1 - v) (double_steps n)) (qpow (1 + v) (double_steps n))).
  - apply qpow_nonneg. destruct V. lra.
  - intros x W B H. apply (average_fl_steps rnd M n x R W B H).
Qed.
End Final.
