(** error_rate and average_bit_flip_error in the range of doubles and beyond. *)
From Coq Require Import List Bool Arith ZArith QArith Qabs Lia Lqa.
From Verif Require Import Res Cudd CuddFacts Spec SpecFacts SpecFloat Float FloatFacts Helpers HelpersFacts HelpersFacts2 Counting Metrics MetricsFacts MetricsFacts2 MetricsFacts4
  Rounded RoundedFacts RoundedFacts2 RoundedAverageFacts Ieee IeeeFacts IeeeFacts2 IeeeFacts5 Ieee3.
Import ListNotations.
Open Scope nat_scope.

Lemma to_double_fin x : (0 <= x)%Q -> (x == 0 \/ 2 ^ (-1022) <= x)%Q -> (r53 x < 2 ^ 1024)%Q -> to_double x = DFin (r53 x).
Proof.
  intros P0 Z U. unfold to_double.
  assert (S1 : negb (Qeq_bool x 0) && (binary_exponent (Qabs x) <? -1022)%Z = false).
  { destruct (Qeq_bool x 0) eqn:E; [reflexivity|]. apply Qeq_bool_neq in E. cbn [negb andb]. apply Z.ltb_ge.
    destruct Z as [Z|Z]; [contradiction|]. pose proof (p2_pos (-1022)) as PJ.
    assert (A : (Qabs x == x)%Q) by (apply Qabs_pos; exact P0). set (b := (2 ^ (-1022))%Q) in *.
    apply exponent_low; fold b; clearbody b; lra. }
  rewrite S1. clear S1.
  assert (L : (0 <= r53 x)%Q) by (apply r53_ge; [exact float_0|exact P0]).
  pose proof (p2_pos 1024) as P. set (B := (2 ^ 1024)%Q) in *. clearbody B.
  assert (T1 : Qle_bool B (r53 x) = false) by (apply not_true_is_false; rewrite Qle_bool_iff; lra).
  assert (T2 : Qle_bool (r53 x) (- B) = false) by (apply not_true_is_false; rewrite Qle_bool_iff; lra).
  now rewrite T1, T2.
Qed.
Lemma float_times z s : (Z.abs z <= 2 ^ 53)%Z -> float_number 53 (inject_Z z * 2 ^ s).
Proof. intro H. exists z, s. split; [exact H|reflexivity]. Qed.
Lemma pow2_p2 s : (inject_Z (pow2 s) == 2 ^ Z.of_nat s)%Q.
Proof. unfold pow2. rewrite p2_inj by lia. reflexivity. Qed.

Lemma count_grid b s : grid_number (Z.of_nat s - Z.of_nat (height (snd b))) (Z.of_nat s) (CountMinterm_fl r53 b s).
Proof.
  unfold CountMinterm_fl. split; [apply (countn_fl_multiple 53 r53 ltac:(lia) r53_near)|].
  pose proof (countn_fl_range 53 r53 ltac:(lia) r53_near s (snd b) (fst b)) as R. pose proof (pow2_p2 s) as E. rewrite <- E. exact R.
Qed.

Lemma flip_sum_d_same count M s h : (h <= 1022) -> forall f g r k,
  length f = length g -> (forall x y, In (x, y) (combine f g) -> count (bxor M x y) s = DFin (CountMinterm_fl r53 (bxor M x y) s) /\ height (snd (bxor M x y)) <= h) ->
  multiple (Z.of_nat s - Z.of_nat h) r -> (0 <= r <= inject_Z (Z.of_nat k) * 2 ^ Z.of_nat s)%Q ->
  (Z.of_nat (k + length f) <= 2 ^ 53)%Z -> (inject_Z (Z.of_nat (k + length f)) * 2 ^ Z.of_nat s < 2 ^ 1024)%Q ->
  exists q, flip_sum_fl r53 M f g s r = Ok q /\ flip_sum_d count M f g s (DFin r) = Ok (DFin q)
    /\ multiple (Z.of_nat s - Z.of_nat h) q /\ (0 <= q <= inject_Z (Z.of_nat (k + length f)) * 2 ^ Z.of_nat s)%Q.
Proof.
  intro Hh. induction f as [|x f IH]; intros [|y g] r k L C Mu R K U; cbn [length] in L; try discriminate; cbn [flip_sum_fl flip_sum_d].
  { exists r. cbn [length]. rewrite Nat.add_0_r. auto. }
  destruct (C x y (or_introl eq_refl)) as (C1 & C2). rewrite C1. cbn [dadd].
  destruct (count_grid (bxor M x y) s) as (G1 & G2). set (c := CountMinterm_fl r53 (bxor M x y) s) in *.
  assert (Mc : multiple (Z.of_nat s - Z.of_nat h) (r + c)) by (apply multiple_plus; [exact Mu|]; eapply multiple_le; [|exact G1]; lia).
  cbn [length] in K, U.
  assert (B : (0 <= r + c <= inject_Z (Z.of_nat (S k)) * 2 ^ Z.of_nat s)%Q).
  { replace (Z.of_nat (S k)) with (Z.of_nat k + 1)%Z by lia. rewrite inject_Z_plus. change (inject_Z 1) with 1%Q. lra. }
  assert (B' : (0 <= r53 (r + c) <= inject_Z (Z.of_nat (S k)) * 2 ^ Z.of_nat s)%Q).
  { split; [apply r53_ge; [exact float_0|apply B]|]. apply r53_le; [apply float_times; lia|apply B]. }
  assert (T : to_double (r + c) = DFin (r53 (r + c))).
  { apply to_double_fin; [apply B| |].
    - destruct (Qeq_bool (r + c) 0) eqn:E; [left; now apply Qeq_bool_iff|right]. apply Qeq_bool_neq in E.
      eapply Qle_trans; [|apply (multiple_low _ _ Mc); [apply B|exact E]]. apply p2_mono. lia.
    - eapply Qle_lt_trans; [apply B'|]. eapply Qle_lt_trans; [|exact U]. apply Qmult_le_compat_r; [rewrite <- Zle_Qle; lia|]. apply Qlt_le_weak, p2_pos. }
  rewrite T. destruct (IH g (r53 (r + c)) (S k)) as (q & Q1 & Q2 & Q3 & Q4); auto.
  - intros x' y' H. apply C. now right.
  - apply r53_multiple; [apply B|exact Mc].
  - replace (S k + length f) with (k + S (length f)) by lia. exact K.
  - replace (S k + length f) with (k + S (length f)) by lia. exact U.
  - exists q. replace (k + length (x :: f)) with (S k + length f) by (cbn [length]; lia). auto.
Qed.
Lemma both_support f g s : largest_support (f ++ g) s -> max_support g (max_support f 0) = s.
Proof.
  intros (A & B). destruct (max_support_spec f 0) as (_ & F2 & F3). destruct (max_support_spec g (max_support f 0)) as (G1 & G2 & G3).
  set (m := max_support g (max_support f 0)) in *.
  assert (U : m <= s).
  { destruct G3 as [->|(b & Hb & ->)]; [|apply A, in_or_app; auto]. destruct F3 as [->|(b & Hb & ->)]; [lia|]. apply A, in_or_app; auto. }
  assert (Lo : s <= m).
  { destruct B as [->|(b & Hb & <-)]; [lia|]. apply in_app_or in Hb as [Hb|Hb]; [specialize (F2 b Hb); lia|exact (G2 b Hb)]. }
  lia.
Qed.
Lemma dpow2_fin s : s <= 1023 -> dpow2 (Z.of_nat s) = DFin (inject_Z (pow2 s)).
Proof. intro H. unfold dpow2. destruct (1024 <=? Z.of_nat s)%Z eqn:E; [apply Z.leb_le in E; lia|reflexivity]. Qed.
Lemma pow2_nonzero s : Qeq_bool (inject_Z (pow2 s)) 0 = false.
Proof.
  apply not_true_is_false. rewrite Qeq_bool_iff, pow2_p2. pose proof (p2_pos (Z.of_nat s)). lra.
Qed.
Lemma divide_p2 j s q : multiple (Z.of_nat s - j) q -> multiple (- j) (q / inject_Z (pow2 s)).
Proof.
  intros (z & E). exists z. rewrite E, pow2_p2. pose proof (p2_pos (Z.of_nat s)) as P.
  replace (Z.of_nat s - j)%Z with (- j + Z.of_nat s)%Z by lia. rewrite p2_add. field. lra.
Qed.
Lemma quotient_d s h m q : s <= 1023 -> h <= 1022 -> (Z.of_nat m <= 2 ^ 53)%Z -> multiple (Z.of_nat s - Z.of_nat h) q -> (0 <= q <= inject_Z (Z.of_nat m) * 2 ^ Z.of_nat s)%Q ->
  ddiv (DFin q) (dpow2 (Z.of_nat s)) = DFin (r53 (q / inject_Z (pow2 s))).
Proof.
  intros Hs Hh Hm Mu R. rewrite (dpow2_fin s Hs). cbn [ddiv]. rewrite pow2_nonzero. pose proof (p2_pos (Z.of_nat s)) as P.
  assert (P' : (0 < inject_Z (pow2 s))%Q) by (rewrite pow2_p2; exact P).
  assert (B : (0 <= q / inject_Z (pow2 s) <= inject_Z (Z.of_nat m) * 2 ^ 0)%Q).
  { split; [apply Qle_shift_div_l; [exact P'|]; lra|]. apply Qle_shift_div_r; [exact P'|]. change (2 ^ 0)%Q with 1%Q. rewrite pow2_p2. lra. }
  apply to_double_fin; [apply B| |].
  - apply divide_p2 in Mu. destruct (Qeq_bool (q / inject_Z (pow2 s)) 0) eqn:E; [left; now apply Qeq_bool_iff|right]. apply Qeq_bool_neq in E.
    eapply Qle_trans; [|apply (multiple_low _ _ Mu); [apply B|exact E]]. apply p2_mono. lia.
  - eapply Qle_lt_trans; [apply r53_le; [apply (float_times (Z.of_nat m) 0); lia|apply B]|]. 
    assert (X : (inject_Z (Z.of_nat m) <= 2 ^ 53)%Q) by (rewrite p2_inj by lia; now rewrite <- Zle_Qle).
    pose proof (p2_lt 53 1024 ltac:(lia)) as Y. change (2 ^ 0)%Q with 1%Q. set (A1 := (2 ^ 1024)%Q) in *. set (A2 := (2 ^ 53)%Q) in *. clearbody A1 A2. lra.
Qed.

Definition rounded_counts (n : nat) (count : bdd -> nat -> dbl) (M : mgr) : Prop :=
  forall b k, wf M b -> depends_below n b -> k <= n -> count b k = DFin (CountMinterm_fl r53 b k).

Lemma error_rate_d_same count M n f g : n <= 1022 -> rounded_counts n count M -> wfs M f -> wfs M g -> below n f -> below n g -> length f = length g ->
  exists q, error_rate_d count M f g = Ok (DFin q) /\ error_rate_fl r53 M f g = Ok q.
Proof.
  intros Hn C Wf Wg Bf Bg L. unfold error_rate_d, error_rate_fl. destruct (miter_spec M f g bzero ltac:(lia)) as (r & -> & W & E). cbn [bind].
  assert (Wr : wf M r) by (apply W; auto with wf).
  assert (Dr : depends_below n r) by (intros a b Hab; rewrite !E, !ev_zero; cbn [orb]; eapply differ_below; eauto).
  set (s := terminal_level [f; g] - 1).
  assert (Hs : s <= n).
  { unfold s. destruct (Nat.le_gt_cases (terminal_level [f; g]) 1) as [T|T]; [lia|].
    destruct (terminal_level_attained [f; g] T) as (h & b & Hh & Hb & Hi). apply support_in in Hi.
    assert (X : wf M b /\ depends_below n b).
    { destruct Hh as [<-|[<-|[]]]; split.
      all: first [exact (proj1 (Forall_forall _ _) Wf b Hb)|exact (proj1 (Forall_forall _ _) Wg b Hb)
        |exact (proj1 (Forall_forall _ _) Bf b Hb)|exact (proj1 (Forall_forall _ _) Bg b Hb)]. }
    destruct X as [X1 X2]. pose proof (depends_below_vars M n b X1 X2 _ Hi). lia. }
  rewrite (C r s Wr Dr Hs). eexists. split; [|reflexivity]. f_equal.
  pose proof (height_below M n r Wr Dr) as Hh. destruct (count_grid r s) as [G1 G2].
  apply (quotient_d s (height (snd r)) 1); try lia; [exact G1|]. change (inject_Z (Z.of_nat 1)) with 1%Q. lra.
Qed.
Lemma flips_d_same count M n s f g : n <= 1022 -> rounded_counts n count M -> wfs M f -> wfs M g -> below n f -> below n g -> length f = length g ->
  largest_support (f ++ g) s -> (Z.of_nat (length f) <= 2 ^ 53)%Z -> (inject_Z (Z.of_nat (length f)) * 2 ^ Z.of_nat s < 2 ^ 1024)%Q ->
  exists q, average_bit_flip_error_d count M f g = Ok (DFin q) /\ average_bit_flip_error_fl r53 M f g = Ok q.
Proof.
  intros Hn C Wf Wg Bf Bg L HS Hm U. unfold average_bit_flip_error_d, average_bit_flip_error_fl. rewrite (proj2 (Nat.eqb_eq _ _) L). cbn [assert_ bind]. cbv zeta.
  rewrite (both_support f g s HS).
  assert (Hs : s <= n).
  { destruct HS as [_ [->|(b & Hb & <-)]]; [lia|]. apply support_below_size. apply in_app_or in Hb as [Hb|Hb].
    - apply (depends_below_vars M); [exact (proj1 (Forall_forall _ _) Wf b Hb)|exact (proj1 (Forall_forall _ _) Bf b Hb)].
    - apply (depends_below_vars M); [exact (proj1 (Forall_forall _ _) Wg b Hb)|exact (proj1 (Forall_forall _ _) Bg b Hb)]. }
  assert (P : forall x y, In (x, y) (combine f g) -> wf M (bxor M x y) /\ depends_below n (bxor M x y)).
  { intros x y H. pose proof (in_combine_l _ _ _ _ H) as Hx. pose proof (in_combine_r _ _ _ _ H) as Hy.
    assert (X1 : wf M x) by exact (proj1 (Forall_forall _ _) Wf x Hx). assert (Y1 : wf M y) by exact (proj1 (Forall_forall _ _) Wg y Hy).
    split; [auto with wf|]. intros a b Hab. rewrite !ev_xor. f_equal; [exact (proj1 (Forall_forall _ f) Bf x Hx a b Hab)|exact (proj1 (Forall_forall _ g) Bg y Hy a b Hab)]. }
  destruct (flip_sum_d_same count M s n Hn f g 0 0) as (q & Q1 & Q2 & Q3 & Q4); auto.
  - intros x y H. destruct (P x y H) as [P1 P2]. split; [now apply C|now apply (height_below M)].
  - exists 0%Z. change (inject_Z 0) with 0%Q. ring.
  - pose proof (p2_pos (Z.of_nat s)). change (inject_Z (Z.of_nat 0)) with 0%Q. lra.
  - rewrite Q1, Q2. cbn [bind]. eexists. split; [|reflexivity]. f_equal. apply (quotient_d s n (length f)); auto; lia.
Qed.

Lemma flips_wide count M f g : length f = length g -> (exists b, In b (f ++ g) /\ 1024 <= support_size b) ->
  average_bit_flip_error_d count M f g = Ok (DFin 0) \/ average_bit_flip_error_d count M f g = Ok DNaN.
Proof.
  intros L (b & Hb & H). unfold average_bit_flip_error_d. rewrite (proj2 (Nat.eqb_eq _ _) L). cbn [assert_ bind]. cbv zeta.
  set (s := max_support g (max_support f 0)).
  assert (Hs : 1024 <= s).
  { destruct (max_support_spec f 0) as (_ & F2 & _). destruct (max_support_spec g (max_support f 0)) as (G1 & G2 & _). fold s in G1, G2.
    apply in_app_or in Hb as [Hb|Hb]; [specialize (F2 b Hb)|specialize (G2 b Hb)]; lia. }
  assert (P : dpow2 (Z.of_nat s) = DInf false).
  { unfold dpow2. assert (B : (1024 <=? Z.of_nat s)%Z = true) by (apply Z.leb_le; lia). now rewrite B. }
  rewrite P. assert (X : forall r, exists d, flip_sum_d count M f g s r = Ok d).
  { clearbody s. clear - L. revert g L. induction f as [|x f IH]; intros [|y g] L r; cbn [flip_sum_d length] in *; eauto; try discriminate. }
  destruct (X (DFin 0)) as (d & ->). cbn [bind]. destruct d as [q|z|]; cbn [ddiv]; auto.
Qed.

Lemma flips_run count M s : (forall k, k <= 1023 -> count bone k = DFin (inject_Z (pow2 k))) -> s <= 1023 -> forall f r k,
  wfs M f -> (Z.of_nat (k + length f) <= 2 ^ 53)%Z ->
  (r = DInf false /\ (2 ^ 1024 <= inject_Z (Z.of_nat k) * 2 ^ Z.of_nat s)%Q
   \/ exists q, r = DFin q /\ (q == inject_Z (Z.of_nat k) * 2 ^ Z.of_nat s)%Q /\ (q < 2 ^ 1024)%Q) ->
  exists d, flip_sum_d count M f (map bnot f) s r = Ok d
    /\ (d = DInf false /\ (2 ^ 1024 <= inject_Z (Z.of_nat (k + length f)) * 2 ^ Z.of_nat s)%Q
        \/ exists q, d = DFin q /\ (q == inject_Z (Z.of_nat (k + length f)) * 2 ^ Z.of_nat s)%Q /\ (q < 2 ^ 1024)%Q).
Proof.
  intros C Hs. induction f as [|x f IH]; intros r k W K R; cbn [map flip_sum_d length].
  { exists r. rewrite Nat.add_0_r. auto. }
  inversion W; subst. assert (E : bxor M x (bnot x) = bone).
  { apply (canonical M); auto with wf. intro a. rewrite ev_xor, ev_not, ev_one. destruct (ev x a); reflexivity. }
  rewrite E, (C s Hs). cbn [length] in K. replace (k + S (length f)) with (S k + length f) in * by lia. apply IH; auto.
  assert (N : (inject_Z (Z.of_nat (S k)) * 2 ^ Z.of_nat s == inject_Z (Z.of_nat k) * 2 ^ Z.of_nat s + 2 ^ Z.of_nat s)%Q).
  { replace (Z.of_nat (S k)) with (Z.of_nat k + 1)%Z by lia. rewrite inject_Z_plus. change (inject_Z 1) with 1%Q. ring. }
  pose proof (p2_pos (Z.of_nat s)) as P. destruct R as [(-> & R)|(q & -> & R1 & R2)].
  - left. cbn [dadd]. split; [reflexivity|]. rewrite N. set (B := (2 ^ 1024)%Q) in *. clearbody B. lra.
  - cbn [dadd]. assert (V : (q + inject_Z (pow2 s) == inject_Z (Z.of_nat (S k)) * 2 ^ Z.of_nat s)%Q) by (rewrite N, pow2_p2, R1; reflexivity).
    assert (F : float_number 53 (q + inject_Z (pow2 s))).
    { destruct (float_times (Z.of_nat (S k)) (Z.of_nat s)) as (a & b & A1 & A2); [lia|]. exists a, b. split; [exact A1|]. now rewrite V. }
    destruct (Qlt_le_dec (q + inject_Z (pow2 s)) (2 ^ 1024)) as [D|D].
    + right. assert (Ke : (r53 (q + inject_Z (pow2 s)) == q + inject_Z (pow2 s))%Q) by (apply (round_float_keeps 53 ltac:(discriminate)); exact F).
      rewrite to_double_fin.
      * eexists. split; [reflexivity|]. split; [now rewrite Ke, V|]. rewrite Ke. exact D.
      * rewrite V. apply Qmult_le_0_compat; [rewrite <- (Zle_Qle 0); lia|lra].
      * right. rewrite V, N. assert (0 <= inject_Z (Z.of_nat k) * 2 ^ Z.of_nat s)%Q by (apply Qmult_le_0_compat; [rewrite <- (Zle_Qle 0); lia|lra]).
        pose proof (p2_mono (-1022) (Z.of_nat s) ltac:(lia)) as X. set (b := (2 ^ (-1022))%Q) in *. clearbody b. lra.
      * rewrite Ke. exact D.
    + left. rewrite <- V. split; [|exact D]. apply to_double_overflow. pose proof (p2_pos 970) as P9. set (B := (2 ^ 1024)%Q) in *. set (B9 := (2 ^ 970)%Q) in *. clearbody B B9. lra.
Qed.
Lemma flips_complement count M f s :
  (forall k, k <= 1023 -> count bone k = DFin (inject_Z (pow2 k))) -> wfs M f -> largest_support f s -> s <= 1023 -> (Z.of_nat (length f) <= 2 ^ 53)%Z ->
  ((Z.of_nat (length f) * 2 ^ Z.of_nat s < 2 ^ 1024)%Z -> exists q, average_bit_flip_error_d count M f (map bnot f) = Ok (DFin q) /\ (q == inject_Z (Z.of_nat (length f)))%Q)
  /\ ((2 ^ 1024 <= Z.of_nat (length f) * 2 ^ Z.of_nat s)%Z -> average_bit_flip_error_d count M f (map bnot f) = Ok (DInf false)).
Proof.
  intros C W HS Hs Hm. unfold average_bit_flip_error_d. rewrite map_length, Nat.eqb_refl. cbn [assert_ bind]. cbv zeta.
  assert (HS' : largest_support (f ++ map bnot f) s).
  { destruct HS as [A B]. split.
    - intros b Hb. apply in_app_or in Hb as [Hb|Hb]; [now apply A|]. apply in_map_iff in Hb as (x & <- & Hx). apply (A x Hx).
    - destruct B as [->|(b & Hb & <-)]; [auto|]. right. exists b. split; [apply in_or_app; auto|reflexivity]. }
  rewrite (both_support _ _ s HS').
  destruct (flips_run count M s C Hs f (DFin 0) 0 W) as (d & -> & D); [exact Hm| |].
  { right. exists 0%Q. split; [reflexivity|]. split; [change (inject_Z (Z.of_nat 0)) with 0%Q; ring|]. pose proof (p2_pos 1024) as P. exact P. }
  cbn [bind]. change (0 + length f) with (length f) in D. pose proof (p2_pos (Z.of_nat s)) as P.
  assert (ZQ : (inject_Z (Z.of_nat (length f)) * 2 ^ Z.of_nat s == inject_Z (Z.of_nat (length f) * 2 ^ Z.of_nat s))%Q) by (rewrite inject_Z_mult, p2_inj by lia; reflexivity).
  assert (BQ : (2 ^ 1024 == inject_Z (2 ^ 1024))%Q) by (rewrite <- (p2_inj 1024) by lia; reflexivity).
  assert (CMP : (inject_Z (Z.of_nat (length f)) * 2 ^ Z.of_nat s < 2 ^ 1024)%Q <-> (Z.of_nat (length f) * 2 ^ Z.of_nat s < 2 ^ 1024)%Z).
  { rewrite ZQ, BQ. rewrite Zlt_Qlt. reflexivity. }
  split; intro H.
  - apply CMP in H. destruct D as [(-> & D)|(q & -> & D1 & D2)]; [exfalso; apply (Qlt_not_le _ _ H D)|].
    rewrite (quotient_d s 0 (length f) q); [|auto|lia|exact Hm| |].
    + eexists. split; [reflexivity|]. assert (V : (q / inject_Z (pow2 s) == inject_Z (Z.of_nat (length f)))%Q) by (rewrite D1, pow2_p2; field; lra).
      assert (F : float_number 53 (q / inject_Z (pow2 s))).
      { destruct (float_times (Z.of_nat (length f)) 0) as (a & b & A1 & A2); [lia|]. exists a, b. split; [exact A1|]. rewrite V, <- A2. change (2 ^ 0)%Q with 1%Q. ring. }
      rewrite (round_float_keeps 53 ltac:(discriminate) _ F). exact V.
    + exists (Z.of_nat (length f)). rewrite D1. now replace (Z.of_nat s - Z.of_nat 0)%Z with (Z.of_nat s) by lia.
    + rewrite D1. split; [|apply Qle_refl]. apply Qmult_le_0_compat; [rewrite <- (Zle_Qle 0); lia|lra].
  - destruct D as [(-> & D)|(q & -> & D1 & D2)].
    + rewrite (dpow2_fin s Hs). cbn [ddiv]. unfold negative, inject_Z. cbn [Qnum]. unfold pow2. assert (X : (2 ^ Z.of_nat s <? 0)%Z = false) by (apply Z.ltb_ge; apply Z.pow_nonneg; lia).
      now rewrite X.
    + exfalso. rewrite D1 in D2. apply CMP in D2. lia.
Qed.
