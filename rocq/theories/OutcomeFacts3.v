(** Exactly when the ADD variants of the metrics fail, for any number of variables. *)
From Coq Require Import List Bool Arith ZArith QArith Lia.
From Verif Require Import Res Cudd CuddFacts Spec SpecFacts SpecMinimize SpecPaths SpecOutcomes Helpers HelpersFacts Counting AddFacts Metrics MetricsFacts MetricsFacts2
  LevelFacts RelMetrics RelFacts OutcomeFacts WideFacts Ieee Ieee3.
Import ListNotations.
Open Scope nat_scope.

Lemma popcountll_cases v : (exists w, popcountll v = Ok w) \/ popcountll v = UB.
Proof. unfold popcountll. destruct (_ && _); eauto. Qed.
Lemma popcount_sums_ok r : (forall v, In v (map fst r) -> exists w, popcountll v = Ok w) -> forall b t, exists x, popcount_sums r b t = Ok x.
Proof.
  induction r as [|[v c] r IH]; intros H b t; cbn [popcount_sums]; eauto.
  destruct (H v) as (w & ->); [now left|]. cbn [bind]. apply IH. intros u Hu. apply H. now right.
Qed.
Lemma popcount_sums_ub r : (exists v, In v (map fst r) /\ popcountll v = UB) -> forall b t, popcount_sums r b t = UB.
Proof.
  induction r as [|[v c] r IH]; intros (u & Hu & U) b t; [destruct Hu|]. cbn [popcount_sums].
  destruct (popcountll_cases v) as [(w & E)|E]; rewrite E; cbn [bind]; auto.
  apply IH. destruct Hu as [<-|Hu]; [cbn [fst] in U; congruence|eauto].
Qed.
Lemma max_popcount_ok r : (forall v, In v (map fst r) -> exists w, popcountll v = Ok w) -> forall m, exists x, max_popcount r m = Ok x.
Proof.
  induction r as [|[v c] r IH]; intros H m; cbn [max_popcount]; eauto.
  destruct (H v) as (w & ->); [now left|]. cbn [bind]. apply IH. intros u Hu. apply H. now right.
Qed.
Lemma max_popcount_ub r : (exists v, In v (map fst r) /\ popcountll v = UB) -> forall m, max_popcount r m = UB.
Proof.
  induction r as [|[v c] r IH]; intros (u & Hu & U) m; [destruct Hu|]. cbn [max_popcount].
  destruct (popcountll_cases v) as [(w & E)|E]; rewrite E; cbn [bind]; auto.
  apply IH. destruct Hu as [<-|Hu]; [cbn [fst] in U; congruence|eauto].
Qed.

Lemma uval_bit_any f i a : ev (nth i f bzero) a = Z.testbit (uval f a) (Z.of_nat i).
Proof.
  revert i. induction f as [|x f IH]; intro i; cbn [uval].
  - rewrite Z.bits_0. now destruct i.
  - destruct i as [|i]; cbn [nth].
    + change (Z.of_nat 0) with 0%Z. rewrite Z.add_comm. destruct (ev x a); cbn [Z.b2z]; [now rewrite Z.testbit_odd_0|now rewrite Z.add_0_r, Z.testbit_even_0].
    + rewrite IH, Nat2Z.inj_succ, Z.add_comm. destruct (ev x a); cbn [Z.b2z];
        [rewrite Z.testbit_odd_succ by lia|rewrite Z.add_0_r, Z.testbit_even_succ by lia]; reflexivity.
Qed.

Lemma lxor_high f g a : (0 <= Z.lxor (uval f a) (uval g a))%Z ->
  ((2 ^ 64 <= Z.lxor (uval f a) (uval g a))%Z <-> exists i, 64 <= i /\ ev (nth i f bzero) a <> ev (nth i g bzero) a).
Proof.
  intro N. set (z := Z.lxor (uval f a) (uval g a)) in *.
  assert (T : forall i, Z.testbit z (Z.of_nat i) = xorb (ev (nth i f bzero) a) (ev (nth i g bzero) a)).
  { intro i. unfold z. rewrite Z.lxor_spec, !uval_bit_any. reflexivity. }
  split.
  - intro H. exists (Z.to_nat (Z.log2 z)). assert (64 <= Z.log2 z)%Z by (apply Z.log2_le_pow2; lia). split; [lia|].
    intro E. specialize (T (Z.to_nat (Z.log2 z))). rewrite Z2Nat.id, Z.bit_log2, E, xorb_nilpotent in T by lia. discriminate.
  - intros (i & Hi & D). specialize (T i). destruct (Z.le_gt_cases (2 ^ 64) z) as [|S']; auto. exfalso.
    assert (Z.testbit z (Z.of_nat i) = false).
    { destruct (Z.eq_dec z 0) as [->|Nz]; [apply Z.bits_0|]. apply Z.bits_above_log2; [lia|].
      apply Z.lt_le_trans with 64%Z; [apply Z.log2_lt_pow2; lia|lia]. }
    rewrite H in T. destruct (ev (nth i f bzero) a), (ev (nth i g bzero) a); cbn in T; congruence.
Qed.

Lemma arithmetic_add_failures M f g r : index_order M -> wfs M f -> wfs M g -> (r = TwosComplement -> f <> [] /\ g <> []) ->
  exists A, absolute_difference_add M f g r = Ok A /\ forall t, depth A t ->
    undefined_iff (worst_case_error_add M f g r) (long_edge t A)
    /\ undefined_iff (average_case_error_add M f g r) (long_edge t A)
    /\ undefined_iff (mean_squared_error_add M f g r) (long_edge t A).
Proof.
  intros HI Wf Wg Hr. destruct (absdiff_add_spec M f g r Hr) as (A & E & HA & _). exists A. split; auto. intros t D.
  unfold worst_case_error_add, average_case_error_add, mean_squared_error_add. rewrite E. cbn [bind].
  destruct (wide_cases M A t HI (HA Wf Wg) D) as [[L U]|[L (h & R & _)]].
  - rewrite U. cbn [bind]. split; [|split]; apply undefined_from; auto; contradiction.
  - rewrite R. cbn [bind]. destruct (weighted_sums (fun v => v) h 0 0), (weighted_sums (fun v => u256 (v * v)) h 0 0).
    split; [|split]; apply undefined_from; try contradiction; eauto.
Qed.

Lemma bitwise_add_failures M f g : index_order M -> wfs M f -> wfs M g -> length f = length g ->
  exists A, xor_difference_add M f g = Ok A /\ forall t, depth A t ->
    undefined_iff (error_rate_add M f g) (long_edge t A)
    /\ undefined_iff (average_bit_flip_error_add M f g) (long_edge t A \/ high_difference f g)
    /\ undefined_iff (worst_case_bit_flip_error_add M f g) (long_edge t A \/ high_difference f g).
Proof.
  intros HI Wf Wg Len. destruct (xor_difference_add_full M f g Len) as (A & E & HA & VA). destruct (HA Wf Wg) as [OA _].
  exists A. split; auto. intros t D.
  unfold error_rate_add, average_bit_flip_error_add, worst_case_bit_flip_error_add. rewrite E. cbn [bind].
  destruct (wide_cases M A t HI OA D) as [[L U]|[L (h & R & V)]].
  - rewrite U. cbn [bind]. split; [apply undefined_from; auto; contradiction|].
    split; apply undefined_from; auto; intro X; exfalso; apply X; auto.
  - rewrite R. cbn [bind].
    assert (P : forall a, popcountll (aev A a) = UB <-> (2 ^ 64 <= Z.lxor (uval f a) (uval g a))%Z).
    { intro a. assert (N : (0 <= Z.lxor (uval f a) (uval g a))%Z) by (apply lxor_nonneg; apply uval_range).
      unfold popcountll. rewrite (quot_int _ _ (VA a)).
      destruct (Z.ltb_spec (-1) (Z.lxor (uval f a) (uval g a))), (Z.ltb_spec (Z.lxor (uval f a) (uval g a)) (2 ^ 64)); cbn [andb];
        split; intro X; try discriminate; try lia; auto. }
    assert (Q : (exists v, In v (map fst h) /\ popcountll v = UB) <-> high_difference f g).
    { split.
      - intros (v & Hv & X). apply V in Hv as (a & <-). apply P in X. apply lxor_high in X; [|apply lxor_nonneg; apply uval_range].
        destruct X as (i & Hi & X). exists i, a. auto.
      - intros (i & a & Hi & X). exists (aev A a). split; [apply V; eauto|]. apply P, lxor_high; eauto. apply lxor_nonneg; apply uval_range. }
    assert (Dec : (exists v, In v (map fst h) /\ popcountll v = UB) \/ (forall v, In v (map fst h) -> exists w, popcountll v = Ok w)).
    { clear. induction (map fst h) as [|v l IH]; [right; intros v []|]. destruct (popcountll_cases v) as [(w & X)|X].
      - destruct IH as [(u & Hu & Y)|IH]; [left; exists u; split; auto; now right|]. right. intros u [<-|Hu]; eauto.
      - left. exists v. split; auto. now left. }
    destruct (nonzero_sums h 0 0). split; [apply undefined_from; [contradiction|eauto|auto]|].
    destruct Dec as [B|G].
    + rewrite (popcount_sums_ub h B), (max_popcount_ub h B). cbn [bind].
      assert (long_edge t A \/ high_difference f g) by (right; now apply Q).
      split; apply undefined_from; auto; contradiction.
    + assert (~ (long_edge t A \/ high_difference f g)).
      { intros [X|X]; [contradiction|]. apply Q in X as (v & Hv & X). destruct (G v Hv) as (w & Y). congruence. }
      destruct (popcount_sums_ok h G 0 0) as ([x y] & ->). destruct (max_popcount_ok h G 0) as (m & ->). cbn [bind].
      split; apply undefined_from; try contradiction; eauto.
Qed.

Lemma worst_flip_failures M f g e : wfs M f -> wfs M g ->
  (fails e (worst_case_bit_flip_error M f g) <->
   (e = FailedAssert /\ length f <> length g) \/ (e = Undefined /\ length f = length g /\ exists a, (2 ^ 32 <= hamming f g a)%Z)).
Proof.
  intros Wf Wg. unfold worst_case_bit_flip_error. destruct (Nat.eqb_spec (length f) (length g)) as [L|L]; cbn [assert_ bind].
  - destruct (flip_add_spec M f g (aconst 0) L) as (B & -> & W & E). cbn [bind].
    assert (WB : aok M 0 B) by (apply W; auto using aconst_ok).
    destruct (amax_spec M B 0 WB) as [(a & Ha) HU].
    assert (E' : forall a, (aev B a == inject_Z (hamming f g a))%Q) by (intro; rewrite E, aev_const; ring).
    assert (HM : (amax B == inject_Z (hamming f g a))%Q) by (rewrite <- Ha; apply E').
    unfold const_ADD_value, aconst. rewrite (quot_int (Qred (amax B)) (hamming f g a)) by (rewrite Qred_correct; exact HM).
    pose proof (hamming_range f g a) as N. rewrite (proj2 (Z.ltb_lt (-1) (hamming f g a))) by lia. cbn [andb].
    destruct (Z.ltb_spec (hamming f g a) (2 ^ 32)) as [S'|S'].
    + split; [intro F; destruct e; discriminate F|]. intros [[_ X]|(_ & _ & b & X)]; [contradiction|]. exfalso.
      assert (hamming f g b <= hamming f g a)%Z; [|lia]. apply injZ_le. rewrite <- (E' b), <- HM. apply HU.
    + split; [intro F; destruct e; try discriminate F; right; repeat split; eauto|]. intros [[_ X]|(-> & _)]; [contradiction|reflexivity].
  - split; [intro F; destruct e; try discriminate F; auto|]. intros [[-> _]|(_ & X & _)]; [reflexivity|contradiction].
Qed.

Lemma double_failures count M f g :
  undefined_iff (error_rate_d count M f g) (length g < length f)
  /\ abort_iff (average_bit_flip_error_d count M f g) (length f <> length g).
Proof.
  split.
  - unfold error_rate_d. assert (H : forall f g z, (length g < length f -> miter M f g z = UB) /\ (~ length g < length f -> exists r, miter M f g z = Ok r)).
    { clear. induction f as [|x f IH]; intros [|y g] z; cbn [miter length]; split; intro H; try lia; eauto; apply IH; lia. }
    destruct (H f g bzero) as [H1 H2]. destruct (lt_dec (length g) (length f)) as [Y|N].
    + rewrite (H1 Y). apply undefined_from; auto; contradiction.
    + destruct (H2 N) as (r & ->). cbn [bind]. apply undefined_from; try contradiction; eauto.
  - unfold average_bit_flip_error_d. destruct (Nat.eqb_spec (length f) (length g)) as [L|L]; cbn [assert_ bind].
    + assert (H : forall f g s z, length f = length g -> exists r, flip_sum_d count M f g s z = Ok r).
      { clear. induction f as [|x f IH]; intros [|y g] s z L; try discriminate; cbn [flip_sum_d]; eauto. }
      destruct (H f g (max_support g (max_support f 0)) (DFin 0) L) as (r & ->). cbn [bind]. apply abort_from; try contradiction; eauto.
    + apply abort_from; auto; contradiction.
Qed.

Lemma depth_below A n : (forall i, In i (avars A) -> i < n) -> exists t, depth A t /\ t <= Nat.max 1 n.
Proof.
  intro H. exists (add_term_level A). assert (D : depth A (add_term_level A)) by apply add_term_level_first. split; auto.
  destruct D as (_ & _ & E). destruct (le_lt_dec (add_term_level A) 1) as [L|L]; [lia|]. specialize (H _ (E L)). lia.
Qed.
Lemma add_failures_64 M n f g r : index_order M -> wfs M f -> wfs M g -> below n f -> below n g -> n <= 64 ->
  ((r = TwosComplement -> f <> [] /\ g <> []) ->
     never_fails (worst_case_error_add M f g r) /\ never_fails (average_case_error_add M f g r) /\ never_fails (mean_squared_error_add M f g r))
  /\ (length f = length g ->
     never_fails (error_rate_add M f g)
     /\ undefined_iff (average_bit_flip_error_add M f g) (high_difference f g)
     /\ undefined_iff (worst_case_bit_flip_error_add M f g) (high_difference f g)).
Proof.
  intros HI Wf Wg Bf Bg Hn.
  assert (NF : forall X (o : res X) (P : Prop), ~ P -> undefined_iff o P -> never_fails o).
  { intros X o P NP U. destruct o as [v| | |]; [now exists v|..]; exfalso.
    - apply NP. now apply (U Undefined). - destruct (proj1 (U Exception) eq_refl). discriminate. - destruct (proj1 (U FailedAssert) eq_refl). discriminate. }
  split.
  - intro Hr. destruct (arithmetic_add_failures M f g r HI Wf Wg Hr) as (A & E & H).
    destruct (absdiff_add_spec M f g r Hr) as (A' & E' & _ & V & _). assert (A' = A) by congruence. subst A'.
    destruct (depth_below A n (absdiff_vars_below M n f g A Wf Wg Bf Bg V)) as (t & D & Ht).
    assert (S : ~ long_edge t A) by (apply short_64; auto; lia). destruct (H t D) as (H1 & H2 & H3).
    split; [|split]; eapply NF; eauto.
  - intro Len. destruct (bitwise_add_failures M f g HI Wf Wg Len) as (A & E & H).
    destruct (xor_difference_add_full M f g Len) as (A' & E' & V & _). assert (A' = A) by congruence. subst A'.
    destruct (depth_below A n (xor_vars_below M n f g A Wf Wg Bf Bg (proj2 (V Wf Wg)))) as (t & D & Ht).
    assert (S : ~ long_edge t A) by (apply short_64; auto; lia). destruct (H t D) as (H1 & H2 & H3).
    split; [eapply NF; eauto|]. split; intro e; [rewrite (H2 e)|rewrite (H3 e)]; tauto.
Qed.

Lemma relative_add_failures M n f g r : index_order M -> wfs M f -> wfs M g -> below n f -> below n g ->
  (r = TwosComplement -> f <> [] /\ g <> []) ->
  exists A, relative_add M f g r = Ok A /\ forall t, depth A t ->
    undefined_iff (wcre_add M f g r) (long_edge t A) /\ undefined_iff (acre_add M f g r) (long_edge t A).
Proof.
  intros HI Wf Wg Bf Bg Hr. destruct (relative_add_spec M n f g r Wf Wg Bf Bg Hr) as (A & E & OA & _). exists A. split; auto. intros t D.
  unfold wcre_add, acre_add. rewrite E. cbn [bind].
  destruct (wide_cases M A t HI OA D) as [[L U]|[L (h & R & _)]].
  - rewrite U. cbn [bind]. split; apply undefined_from; auto; contradiction.
  - rewrite R. cbn [bind]. destruct (decimal_sums h 0 0). split; apply undefined_from; try contradiction; eauto.
Qed.
