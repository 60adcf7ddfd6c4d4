(** More lookback never makes an approximate adder worse *)
From Coq Require Import List Bool Arith ZArith QArith Lia Lqa.
From Verif Require Import Res Cudd CuddFacts Spec SpecFacts SpecAdder SpecBounds SpecLookback Helpers HelpersFacts Examples Counting Metrics MetricsFacts
  MetricsFacts2 MetricsFacts3 MetricsFacts4 MetricsFacts5 MetricsFacts6 RelMetrics RelFacts RelFacts2 BoundsFacts CrossFacts
  AdderFacts AdderErrorFacts AdderErrorFacts2 AdderErrorFacts3 AdderErrorFacts5 AdderErrorFacts7.
Import ListNotations.
Open Scope nat_scope.

(** ** sums over the positions where a forgotten carry is generated *)
Lemma forgets_sum restart P x y k :
  (b2q (forgets restart P x y k) == if restart k
     then sumQ (map (fun g => b2q (generates x y k g)) (seq (before restart P k) (k + 1 - P - before restart P k))) else 0)%Q.
Proof.
  destruct (forgets restart P x y k) eqn:F.
  - apply forgets_iff in F as (HR & g & Hg & G). rewrite HR. rewrite (sum_one _ _ g).
    + rewrite G. reflexivity.
    + apply seq_NoDup.
    + apply in_seq. lia.
    + intros h Hh Hn. apply in_seq in Hh. destruct (generates x y k h) eqn:Gh; [|reflexivity].
      exfalso. apply Hn. apply (generates_unique x y k); auto; lia.
  - destruct (restart k) eqn:HR; [|reflexivity]. cbn [b2q]. symmetry.
    transitivity (sumQ (map (fun _ : nat => 0%Q) (seq (before restart P k) (k + 1 - P - before restart P k)))).
    + apply sumQ_map_ext. intros g Hg. apply in_seq in Hg. destruct (generates x y k g) eqn:G; [|reflexivity].
      exfalso. assert (F' : forgets restart P x y k = true) by (apply forgets_iff; split; auto; exists g; split; auto; lia). congruence.
    + generalize (seq (before restart P k) (k + 1 - P - before restart P k)). induction l as [|z l IL]; cbn [map]; rewrite ?sumQ_cons; [reflexivity|].
      rewrite IL. reflexivity.
Qed.
Lemma sum_shift (F' F : nat -> Q) (b' b l' l : nat) : l' <= l -> (forall g, In g (seq b l) -> (0 <= F g)%Q) ->
  (forall i, i < l' -> (F' (b' + i)%nat <= F (b + (l - l') + i)%nat)%Q) -> (sumQ (map F' (seq b' l')) <= sumQ (map F (seq b l)))%Q.
Proof.
  intros L P H. replace l with ((l - l') + l') by lia. rewrite seq_app, map_app, sumQ_app.
  assert (P1 : (0 <= sumQ (map F (seq b (l - l'))))%Q).
  { assert (X : forall m, m <= l -> (0 <= sumQ (map F (seq b m)))%Q); [|apply X; lia].
    induction m as [|m IH]; intro Hm; [apply Qle_refl|]. rewrite seq_S, map_app, sumQ_app. cbn [map]. rewrite sumQ_cons, sumQ_nil.
    pose proof (P (b + m) ltac:(apply in_seq; lia)). specialize (IH ltac:(lia)). lra. }
  assert (P2 : (sumQ (map F' (seq b' l')) <= sumQ (map F (seq (b + (l - l')) l')))%Q); [|lra].
  clear P1 P. set (c := b + (l - l')) in *. clearbody c. clear L.
  induction l' as [|m IH]; [apply Qle_refl|]. rewrite !seq_S, !map_app, !sumQ_app. cbn [map]. rewrite !sumQ_cons, !sumQ_nil.
  pose proof (H m ltac:(lia)). specialize (IH ltac:(intros i Hi; apply H; lia)). lra.
Qed.

Section Pair.
Variables (N P P' : nat) (restart restart' : nat -> bool).
Hypothesis HP : P <= P'.
Hypothesis Hin : forall k, k < N -> restart' k = true -> restart k = true.
Hypothesis Hlen : forall k, k < N -> restart' k = true ->
  k + 1 - P' - before restart' P' k <= k + 1 - P - before restart P k.

Lemma lookback_less k : k < N -> lookback restart' P' k <= lookback restart P k.
Proof.
  induction k as [|k IH]; intro Hk.
  - cbn [lookback]. pose proof (Hin 0 Hk). destruct (restart' 0); [rewrite H by reflexivity; lia|lia].
  - pose proof (Hin (S k) Hk) as HI. specialize (IH ltac:(lia)). pose proof (lookback_mono restart P k) as L.
    destruct (restart' (S k)) eqn:E.
    + rewrite (start_restart restart' P' (S k) E), (start_restart restart P (S k) (HI eq_refl)). lia.
    + rewrite (start_same restart' P' (S k) E). cbn [before]. lia.
Qed.
Lemma before_less k : k <= N -> before restart' P' k <= before restart P k.
Proof. destruct k as [|k]; intro H; cbn [before]; [lia|]. apply lookback_less. lia. Qed.
Lemma before_last k : before restart P k = 0 \/ exists m, m < k /\ restart m = true /\ before restart P k = m + 1 - P.
Proof.
  induction k as [|k IH]; [now left|]. change (before restart P (S k)) with (lookback restart P k).
  destruct (restart k) eqn:E.
  - right. exists k. split; [lia|]. split; auto. now apply start_restart.
  - rewrite (start_same restart P k E). destruct IH as [IH|(m & H1 & H2 & H3)]; [now left|]. right. exists m. split; [lia|auto].
Qed.
Lemma forgets_somewhere x y g : forall k, restart k = true -> g + P <= k -> generates x y k g = true ->
  exists j, j <= k /\ forgets restart P x y j = true.
Proof.
  induction k as [k IH] using (well_founded_induction lt_wf). intros HR HG G.
  destruct (le_lt_dec (before restart P k) g) as [L|L].
  - exists k. split; auto. apply forgets_iff. split; auto. exists g. split; [lia|auto].
  - destruct (before_last k) as [E|(m & H1 & H2 & H3)]; [lia|]. destruct (IH m H1 H2) as (j & J1 & J2).
    + lia.
    + apply generates_iff in G. apply generates_iff. destruct G as (G1 & G2 & G3). repeat split; auto. intros i Hi. apply G3. lia.
    + exists j. split; [lia|auto].
Qed.
Lemma quiet_less x y : quiet restart P N x y = true -> quiet restart' P' N x y = true.
Proof.
  rewrite !quiet_iff. intros H k Hk. destruct (forgets restart' P' x y k) eqn:E; auto. exfalso.
  apply forgets_iff in E as (HR & g & Hg & G). destruct (forgets_somewhere x y g k (Hin k Hk HR) ltac:(lia) G) as (j & J1 & J2).
  rewrite H in J2 by lia. discriminate.
Qed.
Lemma loss_grows m n : m <= n -> (loss restart P m <= loss restart P n)%Z.
Proof.
  induction 1 as [|n L IH]; [lia|]. destruct (restart n && (P <=? n)) eqn:E.
  - apply andb_true_iff in E as [E1 E2]. apply Nat.leb_le in E2. rewrite loss_take by auto.
    destruct (loss_attained restart P n) as (x & y & X). pose proof (number_range n (forgets restart P x y)).
    pose proof (loss_bound restart P (n - P) x y). unfold loss in *. lia.
  - rewrite loss_skip by auto. lia.
Qed.
Lemma loss_less n : n <= N -> (loss restart' P' n <= loss restart P n)%Z.
Proof.
  induction n as [n IH] using (well_founded_induction lt_wf). intro Hn. destruct n as [|n]; [cbn; lia|].
  destruct (restart' n && (P' <=? n)) eqn:E.
  - apply andb_true_iff in E as [E1 E2]. apply Nat.leb_le in E2. rewrite loss_take by auto.
    rewrite (loss_take restart P n (Hin n ltac:(lia) E1)) by lia.
    pose proof (IH (n - P') ltac:(lia) ltac:(lia)). pose proof (loss_grows (n - P') (n - P) ltac:(lia)). lia.
  - rewrite loss_skip by auto. pose proof (IH n ltac:(lia) ltac:(lia)). pose proof (loss_grows n (S n) ltac:(lia)). lia.
Qed.
Lemma iz_le i j : i <= j -> (1 <= iz i <= iz j)%Q.
Proof.
  intro L. unfold iz, pow2. change 1%Q with (inject_Z 1). rewrite <- !Zle_Qle. split.
  - pose proof (Z.pow_pos_nonneg 2 (Z.of_nat i)). lia.
  - apply Z.pow_le_mono_r; lia.
Qed.
Lemma squares_less : (squares restart' P' N <= squares restart P N)%Q.
Proof.
  assert (X : forall a b a' b', a <= a' -> b <= b' -> (iz a * (iz b - 1) / 2 <= iz a' * (iz b' - 1) / 2)%Q).
  { intros a b a' b' L1 L2. pose proof (iz_le a a' L1). pose proof (iz_le b b' L2). unfold Qdiv. apply Qmult_le_compat_r; [|now compute].
    apply Qle_trans with (iz a' * (iz b - 1))%Q; [apply Qmult_le_compat_r; lra|apply Qmult_le_l; lra]. }
  assert (Z0 : forall a b, (0 <= iz a * (iz b - 1) / 2)%Q).
  { intros a b. pose proof (X 0 0 a b ltac:(lia) ltac:(lia)) as K. rewrite iz_0 in K. unfold Qdiv in *. lra. }
  unfold squares. apply sumQ_le. intros k Hk. apply in_seq in Hk.
  assert (NN : forall rs p, (0 <= sumQ (map (fun g => iz (k + g) + iz g * (iz (before rs p g) - 1) / 2) (seq (before rs p k) (k + 1 - p - before rs p k))))%Q).
  { intros rs p. generalize (seq (before rs p k) (k + 1 - p - before rs p k)). induction l as [|z l IL]; cbn [map]; [apply Qle_refl|].
    rewrite sumQ_cons. pose proof (iz_pos (k + z)). pose proof (Z0 z (before rs p z)). lra. }
  destruct (restart' k) eqn:E'.
  - rewrite (Hin k ltac:(lia) E'). pose proof (Hlen k ltac:(lia) E') as HL. apply sum_shift; auto.
    + intros g _. pose proof (iz_pos (k + g)). pose proof (Z0 g (before restart P g)). lra.
    + intros i Hi. set (b' := before restart' P' k) in *. set (b := before restart P k) in *.
      assert (HG : b' + i <= b + (k + 1 - P - b - (k + 1 - P' - b')) + i) by lia.
      set (g := b + (k + 1 - P - b - (k + 1 - P' - b')) + i) in *.
      apply Qplus_le_compat; [apply iz_le; lia|]. apply X; auto.
      apply Nat.le_trans with (before restart P (b' + i)); [apply before_less; lia|].
      assert (MB : forall u v, u <= v -> before restart P u <= before restart P v).
      { intros u v. induction 1 as [|v L IH]; auto. pose proof (prev_le_start restart P v). cbn [before]. lia. }
      apply MB. auto.
  - destruct (restart k); auto. apply Qle_refl.
Qed.
Lemma sum_zero (F : nat -> Q) l : (forall g, In g l -> (F g == 0)%Q) -> (sumQ (map F l) == 0)%Q.
Proof. induction l as [|z l IL]; intro H; cbn [map]; [reflexivity|]. rewrite sumQ_cons, IL, (H z); [ring|now left|]. intros g Hg. apply H. now right. Qed.
Lemma lost_weights h rs p n a :
  (inject_Z (2 * number n (forgets rs p (op1 a) (op2 a))) / inject_Z (h (Z.max 1 (total N a)))
   == sumQ (map (fun k => sumQ (map (fun g => if rs k then 2 * iz k * weight h N k g a else 0) (seq (before rs p k) (k + 1 - p - before rs p k)))) (seq 0 n)))%Q.
Proof.
  unfold weight. set (d := inject_Z (h (Z.max 1 (total N a)))). clearbody d.
  induction n as [|n IH].
  - cbn [number seq map]. rewrite sumQ_nil. change (inject_Z (2 * 0)) with 0%Q. unfold Qdiv. ring.
  - rewrite (seq_S n 0), map_app, sumQ_app. cbn [map Nat.add]. rewrite sumQ_cons, sumQ_nil, <- IH. cbn [number].
    rewrite Z.mul_add_distr_l, inject_Z_plus, !inject_Z_mult. fold (pow2 n). fold (iz n). change (inject_Z 2) with 2%Q.
    assert (B : forall b, (inject_Z (Z.b2z b) == b2q b)%Q) by (intros []; reflexivity). rewrite B, (forgets_sum rs p (op1 a) (op2 a) n).
    destruct (rs n).
    + rewrite (sumQ_map_ext (fun g => 2 * iz n * (b2q (generates (op1 a) (op2 a) n g) / d)) (fun g => (2 * iz n / d) * b2q (generates (op1 a) (op2 a) n g)))%Q
        by (intros g _; unfold Qdiv; ring).
      rewrite sumQ_scale. unfold Qdiv. ring.
    + rewrite (sum_zero (fun _ => 0%Q)) by reflexivity. unfold Qdiv. ring.
Qed.
Lemma loss_weight_less h : denominator h ->
  (average (2 * N) (fun a => inject_Z (2 * number N (forgets restart' P' (op1 a) (op2 a))) / inject_Z (h (Z.max 1 (total N a))))
   <= average (2 * N) (fun a => inject_Z (2 * number N (forgets restart P (op1 a) (op2 a))) / inject_Z (h (Z.max 1 (total N a)))))%Q.
Proof.
  intro Hh. rewrite (average_ext _ _ _ (fun a => lost_weights h restart' P' N a)), (average_ext _ _ _ (fun a => lost_weights h restart P N a)).
  rewrite (average_sum_list (2 * N) (fun k a => sumQ (map (fun g => if restart' k then 2 * iz k * weight h N k g a else 0)%Q
    (seq (before restart' P' k) (k + 1 - P' - before restart' P' k))))).
  rewrite (average_sum_list (2 * N) (fun k a => sumQ (map (fun g => if restart k then 2 * iz k * weight h N k g a else 0)%Q
    (seq (before restart P k) (k + 1 - P - before restart P k))))).
  apply sumQ_le. intros k Hk. apply in_seq in Hk. pose proof (iz_pos k) as I.
  rewrite (average_sum_list (2 * N) (fun g a => if restart' k then 2 * iz k * weight h N k g a else 0)%Q).
  rewrite (average_sum_list (2 * N) (fun g a => if restart k then 2 * iz k * weight h N k g a else 0)%Q).
  assert (W : forall g, (0 <= average (2 * N) (fun a => 2 * iz k * weight h N k g a))%Q).
  { intro g. apply average_nonneg. intro a. unfold weight. apply Qmult_le_0_compat; [lra|].
    pose proof (Hh (Z.max 1 (total N a)) (Z.max 1 (total N a)) ltac:(lia) ltac:(lia)) as [D _].
    unfold Qdiv. apply Qmult_le_0_compat; [destruct (generates _ _ _ _); cbn [b2q]; lra|]. apply Qinv_le_0_compat.
    change 0%Q with (inject_Z 0). rewrite <- Zle_Qle. lia. }
  destruct (restart' k) eqn:E'.
  - rewrite (Hin k ltac:(lia) E'). pose proof (Hlen k ltac:(lia) E') as HL. apply sum_shift; auto.
    intros i Hi. rewrite !average_scale. apply Qmult_le_l; [lra|]. apply weight_mono; auto; lia.
  - rewrite sum_zero by (intros; apply average_const). destruct (restart k).
    + generalize (seq (before restart P k) (k + 1 - P - before restart P k)). induction l as [|z l IL]; cbn [map]; [apply Qle_refl|].
      rewrite sumQ_cons. specialize (W z). lra.
    + rewrite sum_zero by (intros; apply average_const). apply Qle_refl.
Qed.
End Pair.

(** ** as stated *)
Section Better.
Variables (M : mgr) (N P P' : nat) (restart restart' : nat -> bool) (r r' s : list bdd).
Hypothesis A : approximate_adder M N restart P r.
Hypothesis A' : approximate_adder M N restart' P' r'.
Hypothesis HS : regular_adder M N = Ok s.
Hypothesis HP : P <= P'.
Hypothesis Hin : forall k, k < N -> restart' k = true -> restart k = true.
Hypothesis Hlen : forall k, k < N -> restart' k = true ->
  k + 1 - P' - before restart' P' k <= k + 1 - P - before restart P k.
Notation mean F := (average (2 * N) F).
Lemma look_mean h : denominator h ->
  (mean (fun a => inject_Z (dist (uval s a) (uval r' a)) / inject_Z (h (Z.max 1 (Z.abs (uval s a)))))
   <= mean (fun a => inject_Z (dist (uval s a) (uval r a)) / inject_Z (h (Z.max 1 (Z.abs (uval s a))))))%Q.
Proof.
  intro Hh. destruct (regular_value _ _ _ HS) as (_ & _ & V). assert (T : forall a, uval s a = total N a) by (intro a; apply V).
  pose proof (loss_weight_less N P P' restart restart' HP Hin Hlen h Hh) as L.
  rewrite (average_ext _ (fun a => inject_Z (dist (uval s a) (uval r' a)) / inject_Z (h (Z.max 1 (Z.abs (uval s a)))))%Q
    (fun a => inject_Z (2 * number N (forgets restart' P' (op1 a) (op2 a))) / inject_Z (h (Z.max 1 (total N a))))%Q).
  2:{ intro a. rewrite (two_dist M N _ _ r' s A' HS), T, Z.abs_eq by apply total_nonneg. reflexivity. }
  rewrite (average_ext _ (fun a => inject_Z (dist (uval s a) (uval r a)) / inject_Z (h (Z.max 1 (Z.abs (uval s a)))))%Q
    (fun a => inject_Z (2 * number N (forgets restart P (op1 a) (op2 a))) / inject_Z (h (Z.max 1 (total N a))))%Q).
  2:{ intro a. rewrite (two_dist M N _ _ r s A HS), T, Z.abs_eq by apply total_nonneg. reflexivity. }
  exact L.
Qed.
Lemma look_differ a : differ s r a = false -> differ s r' a = false.
Proof.
  rewrite (two_differ M N _ _ r s A HS), (two_differ M N _ _ r' s A' HS), !negb_false_iff.
  apply (quiet_less N P P' restart restart' HP Hin).
Qed.
Lemma look_flips : (sumQ (map (fun i => (inject_Z (2 ^ Z.of_nat (before restart' P' i)) - 1) / inject_Z (2 ^ Z.of_nat (i + 1))) (seq 0 (N + 1)))
  <= sumQ (map (fun i => (inject_Z (2 ^ Z.of_nat (before restart P i)) - 1) / inject_Z (2 ^ Z.of_nat (i + 1))) (seq 0 (N + 1))))%Q.
Proof.
  apply sumQ_le. intros i Hi. apply in_seq in Hi. unfold Qdiv. apply Qmult_le_compat_r.
  - apply Qplus_le_compat; [|apply Qle_refl]. rewrite <- Zle_Qle. apply Z.pow_le_mono_r; [lia|].
    pose proof (before_less N P P' restart restart' HP Hin i ltac:(lia)). lia.
  - apply Qinv_le_0_compat. change 0%Q with (inject_Z 0). rewrite <- Zle_Qle. apply Z.pow_nonneg. lia.
Qed.
Lemma look_values : no_value_worse N s r r'.
Proof.
  destruct (two_facts M N _ _ r s A HS) as (W1 & W2 & L1 & L2). destruct (two_facts M N _ _ r' s A' HS) as (W1' & _ & L1' & _).
  destruct (two_below M N _ _ r s A HS) as [C1 C2]. destruct (two_below M N _ _ r' s A' HS) as [C1' _].
  split; [|split; [|split; [|split; [|split; [|split]]]]].
  - intros a Ha. pose proof (look_differ a) as X. rewrite !differ_uval, !negb_false_iff, !Z.eqb_eq in X by lia. symmetry. apply X. auto.
  - destruct (average_bit_flip_full M (2 * N) s r W2 W1 C2 C1) as [F _]. destruct (F ltac:(lia)) as (q & F1 & F2).
    destruct (average_bit_flip_full M (2 * N) s r' W2 W1' C2 C1') as [G _]. destruct (G ltac:(lia)) as (p & G1 & G2).
    rewrite <- F2, <- G2. destruct (two_flips M N _ _ r s A HS) as (q' & F3 & F4). destruct (two_flips M N _ _ r' s A' HS) as (p' & G3 & G4).
    rewrite F1 in F3. injection F3 as <-. rewrite G1 in G3. injection G3 as <-. rewrite F4, G4. apply look_flips.
  - pose proof (look_mean (fun _ => 1%Z) ltac:(intros u v _ _; lia)) as L. change (inject_Z 1) with 1%Q in L.
    rewrite (average_ext _ (fun a => inject_Z (dist (uval s a) (uval r' a))) (fun a => inject_Z (dist (uval s a) (uval r' a)) / 1)%Q)
      by (intro; field).
    rewrite (average_ext _ (fun a => inject_Z (dist (uval s a) (uval r a))) (fun a => inject_Z (dist (uval s a) (uval r a)) / 1)%Q)
      by (intro; field).
    exact L.
  - rewrite (mean_square M N _ _ r s A HS), (mean_square M N _ _ r' s A' HS). exact (squares_less N P P' restart restart' HP Hin Hlen).
  - exact (look_mean _ denominator_id).
  - exact (look_mean _ denominator_ones).
  - exact (look_mean _ denominator_below).
Qed.
Lemma filter_le {B} (f g : B -> bool) l : (forall i, In i l -> f i = true -> g i = true) -> length (filter f l) <= length (filter g l).
Proof.
  induction l as [|z l IH]; intro H; cbn [filter]; [lia|]. specialize (IH (fun i Hi => H i (or_intror Hi))).
  pose proof (H z (or_introl eq_refl)) as Hz. destruct (f z); [rewrite Hz by reflexivity; cbn [length]; lia|]. destruct (g z); cbn [length]; lia.
Qed.
Lemma look_metrics : no_metric_worse M N s r r'.
Proof.
  destruct look_values as (V1 & V2 & V3 & V4 & V5 & V6 & V7).
  destruct (two_facts M N _ _ r s A HS) as (W1 & W2 & L1 & L2). destruct (two_facts M N _ _ r' s A' HS) as (W1' & _ & L1' & _).
  destruct (two_below M N _ _ r s A HS) as [C1 C2]. destruct (two_below M N _ _ r' s A' HS) as [C1' _].
  split; [|split; [|split; [|split; [|split]]]].
  - destruct (error_rate_full M (2 * N) s r W2 W1 C2 C1) as [F _]. destruct (F ltac:(lia)) as (q & F1 & F2 & _).
    destruct (error_rate_full M (2 * N) s r' W2 W1' C2 C1') as [G _]. destruct (G ltac:(lia)) as (p & G1 & G2 & _).
    exists p, q. repeat split; auto. rewrite F2, G2. apply average_le. intro a. pose proof (look_differ a) as X.
    destruct (differ s r a), (differ s r' a); cbn [b2q]; try lra; specialize (X eq_refl); discriminate.
  - destruct (two_flips M N _ _ r s A HS) as (q & F1 & F2). destruct (two_flips M N _ _ r' s A' HS) as (p & G1 & G2).
    exists p, q. repeat split; auto. rewrite F2, G2. apply look_flips.
  - intro HN. eexists. eexists. split; [exact (worst_flips_full M N _ _ r' s A' HS HN)|]. split; [exact (worst_flips_full M N _ _ r s A HS HN)|].
    apply inj_le, filter_le. intros i Hi. apply in_seq in Hi. rewrite !Nat.ltb_lt.
    pose proof (before_less N P P' restart restart' HP Hin i ltac:(lia)). lia.
  - intro HN. eexists. eexists. split; [exact (two_wce M N _ _ r' s A' HS HN)|]. split; [exact (two_wce M N _ _ r s A HS HN)|].
    pose proof (loss_less N P P' restart restart' HP Hin N ltac:(lia)) as B. unfold loss in B. lia.
  - intro HN. split.
    + destruct (ace_full M (2 * N) s r W2 W1 C2 C1) as [(q & _ & _ & F1 & F2 & _) _]; [rewrite L1, L2; lia|].
      destruct (ace_full M (2 * N) s r' W2 W1' C2 C1') as [(p & _ & _ & G1 & G2 & _) _]; [rewrite L1', L2; lia|].
      exists p, q. repeat split; auto. rewrite F2, G2. exact V3.
    + assert (NE : s <> []) by (intros ->; cbn in L2; lia).
      destruct (acre_bounds_exact M (2 * N) s r BaseTwo W2 W1 C2 C1 NE) as (lo & hi & F1 & F2 & F3); [discriminate|lia|].
      destruct (acre_bounds_exact M (2 * N) s r' BaseTwo W2 W1' C2 C1' NE) as (lo' & hi' & G1 & G2 & G3); [discriminate|lia|].
      exists lo, hi, lo', hi'. split; auto. split; auto. rewrite F2, F3, G2, G3. auto.
  - intros HI HN. split; [|split].
    + destruct (two_mse M N _ _ r s A HS HI HN) as (q & F1 & F2). destruct (two_mse M N _ _ r' s A' HS HI HN) as (p & G1 & G2).
      exists p, q. repeat split; auto. rewrite F2, G2. exact (squares_less N P P' restart restart' HP Hin Hlen).
    + destruct (two_wcre M N _ _ r s A HS HI HN) as (q & F1 & F2). destruct (two_wcre M N _ _ r' s A' HS HI HN) as (p & G1 & G2).
      exists p, q. repeat split; auto. rewrite F2, G2. destruct (inexact N P' restart') eqn:X; [|destruct (inexact N P restart); lra].
      assert (inexact N P restart = true) as ->; [|lra]. unfold inexact in *. apply existsb_exists in X as (k & K1 & K2).
      apply existsb_exists. exists k. split; auto. apply in_seq in K1. apply andb_true_iff in K2 as [K2 K3]. apply Nat.leb_le in K3.
      rewrite (Hin k) by (auto; lia). apply Nat.leb_le. lia.
    + destruct (acre_add_spec M (2 * N) s r BaseTwo HI W2 W1 C2 C1 HN) as (q & F1 & F2); [discriminate|].
      destruct (acre_add_spec M (2 * N) s r' BaseTwo HI W2 W1' C2 C1' HN) as (p & G1 & G2); [discriminate|].
      exists p, q. repeat split; auto. rewrite F2, G2. exact V5.
Qed.
End Better.

(** ** the same restarts; the restarts of GeAr *)
Lemma before_form restart j : exists m, m <= j /\ forall P, before restart P j = m - P.
Proof.
  induction j as [|j (m & H1 & H2)]; [exists 0; split; [lia|reflexivity]|]. destruct (restart j) eqn:E.
  - exists (j + 1). split; [lia|]. intro P. cbn [before]. now apply start_restart.
  - exists m. split; [lia|]. intro P. cbn [before]. rewrite (start_same restart P j E). apply H2.
Qed.
Lemma same_restart_better M N P P' restart r r' s :
  approximate_adder M N restart P r -> approximate_adder M N restart P' r' -> regular_adder M N = Ok s -> P <= P' ->
  no_value_worse N s r r' /\ no_metric_worse M N s r r'.
Proof.
  intros A A' HS HP.
  assert (L : forall k, k < N -> restart k = true -> k + 1 - P' - before restart P' k <= k + 1 - P - before restart P k).
  { intros k _ _. destruct (before_form restart k) as (m & H1 & H2). rewrite !H2. lia. }
  split; [eapply look_values|eapply look_metrics]; eauto.
Qed.
Lemma gda_better M N p P P' r r' s : gracefully_degrading_adder M N p P = Ok r -> gracefully_degrading_adder M N p P' = Ok r' ->
  regular_adder M N = Ok s -> P <= P' -> no_value_worse N s r r' /\ no_metric_worse M N s r r'.
Proof. intros E E' HS HP. exact (same_restart_better M N P P' _ r r' s (is_gda M N p P r E) (is_gda M N p P' r' E') HS HP). Qed.
Lemma gear_restart N R P k : 0 < R -> gear_end N R P k = true <-> R + P - 1 <= k /\ k <> N - 1 /\ (k - (R + P - 1)) mod R = 0.
Proof.
  intro HR. unfold gear_end. assert (R =? 0 = false) as -> by (apply Nat.eqb_neq; lia).
  rewrite !andb_true_iff, Nat.leb_le, negb_true_iff, Nat.eqb_neq, Nat.eqb_eq. tauto.
Qed.
Lemma gear_length N R P k : 0 < R -> k < N -> gear_end N R P k = true -> k + 1 - P - before (gear_end N R P) P k = R.
Proof.
  intros HR Hk H. apply gear_restart in H as (H1 & H2 & H3); auto.
  assert (D : k - (R + P - 1) = R * ((k - (R + P - 1)) / R)) by (apply Nat.div_exact; lia).
  destruct ((k - (R + P - 1)) / R) as [|t].
  - assert (before (gear_end N R P) P k = 0) as ->; [|lia]. destruct k as [|k]; [reflexivity|]. cbn [before].
    apply lookback_none. intros j Hj. apply not_true_iff_false. intro C. apply gear_restart in C as (C1 & _); auto. lia.
  - assert (K : R + (R + P - 1) <= k) by nia.
    assert (before (gear_end N R P) P k = k - R + 1 - P) as ->; [|lia]. destruct k as [|k]; [lia|]. cbn [before].
    apply lookback_last; [lia| |].
    + apply gear_restart; auto. split; [lia|]. split; [lia|]. replace (S k - R - (R + P - 1)) with (t * R) by nia. apply Nat.mod_mul. lia.
    + intros j Hj. apply not_true_iff_false. intro C. apply gear_restart in C as (C1 & C2 & C3); auto.
      apply Nat.div_exact in C3; [|lia]. set (u := (j - (R + P - 1)) / R) in *. clearbody u.
      assert (U1 : R * t < R * u) by (rewrite <- C3; rewrite Nat.mul_succ_r in D; lia).
      assert (U2 : R * u < R * S t) by (rewrite <- C3, <- D; lia).
      apply Nat.mul_lt_mono_pos_l in U1; auto. apply Nat.mul_lt_mono_pos_l in U2; auto. lia.
Qed.
Lemma gear_better M N R P t r r' s : generic_accuracy_reconfigurable_adder M N R P = Ok r ->
  generic_accuracy_reconfigurable_adder M N R (P + t * R) = Ok r' -> regular_adder M N = Ok s -> 0 < R ->
  no_value_worse N s r r' /\ no_metric_worse M N s r r'.
Proof.
  intros E E' HS HR.
  assert (Hin : forall k, k < N -> gear_end N R (P + t * R) k = true -> gear_end N R P k = true).
  { intros k Hk. rewrite !gear_restart by auto. intros (H1 & H2 & H3). split; [nia|]. split; auto.
    replace (k - (R + P - 1)) with (k - (R + (P + t * R) - 1) + t * R) by nia. rewrite Nat.mod_add by lia. auto. }
  assert (L : forall k, k < N -> gear_end N R (P + t * R) k = true ->
    k + 1 - (P + t * R) - before (gear_end N R (P + t * R)) (P + t * R) k <= k + 1 - P - before (gear_end N R P) P k).
  { intros k Hk H. rewrite !gear_length by auto. lia. }
  pose proof (is_gear M N R P r E) as A. pose proof (is_gear M N R _ r' E') as A'.
  assert (HP : P <= P + t * R) by lia.
  split; [eapply look_values|eapply look_metrics]; eauto.
Qed.
