(** Proofs about the mean and the spread of error_rate_efficient_sampling *)
From Coq Require Import List Bool Arith ZArith QArith Qround Qabs Lia Lqa Permutation Sorted.
From Verif Require Import Res Cudd CuddFacts Spec SpecFacts Helpers HelpersFacts HelpersFacts2 Counting AddFacts CountFacts PathFacts Metrics MetricsFacts
  MetricsFacts2 MetricsFacts3 MetricsFacts4 RelMetrics RelFacts RelFacts2 RelFacts3 RelFacts4 SpecSampling SamplingFacts SamplingFacts2 SamplingFacts3.
Import ListNotations.
Open Scope nat_scope.

Definition none (previous : list bdd) (a : asg) : bool := negb (existsb (fun b => ev b a) previous).
Lemma none_below T previous a a' : below T previous -> (forall i, i < T -> a i = a' i) -> none previous a = none previous a'.
Proof.
  intros B H. unfold none. f_equal. induction B as [|b l Hb B IH]; [reflexivity|]. cbn [existsb]. rewrite (Hb a a' H), IH. reflexivity.
Qed.

Lemma skipn_skipn {A} n m (l : list A) : skipn n (skipn m l) = skipn (n + m) l.
Proof.
  revert l. induction m as [|m IH]; intro l; [now rewrite Nat.add_0_r|]. rewrite Nat.add_succ_r. destruct l; [now rewrite !skipn_nil|]. apply IH.
Qed.

Lemma quarter x : (x * (1 - x) <= 1 # 4)%Q.
Proof.
  assert (H : (0 <= (x - (1 # 2)) * (x - (1 # 2)))%Q) by (destruct (Qlt_le_dec (x - (1 # 2)) 0); nra).
  lra.
Qed.

Section EffSampling.
Variable M : mgr.
Hypothesis HI : index_order M.
Variable r : nat.
Hypothesis Hodd : Nat.Odd r.
Let rm := Z.of_nat r.
Variables (d : list bdd) (samples : Z).
Let T := read_size M.
Hypothesis Wd : wfs M d.
Hypothesis Bd : below T d.
Hypothesis Hs : (1 <= samples < 2 ^ 31)%Z.
Variables (first maximum_rate : Q).
Let W := (maximum_rate - first)%Q.
Hypothesis PW : (0 < W)%Q.
Let beta := (inject_Z (Z.of_nat T) / inject_Z (Z.of_nat (S r)))%Q.
Let S1 := inject_Z samples.

Lemma S1_pos : (1 <= S1)%Q.
Proof. unfold S1. change 1%Q with (inject_Z 1). apply injZ_mono. lia. Qed.

Definition good_block (diff : bdd) (previous : list bdd) (x : list Z) : Q :=
  b2q (none previous (asg_ints (out (random_satisfying_input rm diff (count_minterms diff) T x)))).

Lemma good_loop_blocks diff previous l : wfs M previous -> below T previous -> forall n pos g, pos + n * T <= length l ->
  exists g', good_loop (random_sampler rm T) (draws_from l) diff previous T n pos g = Ok g'
    /\ (inject_Z g' == inject_Z g + block_sum T (good_block diff previous) n (skipn pos l))%Q.
Proof.
  intros Wp Bp. induction n as [|n IH]; intros pos g H; cbn [good_loop block_sum].
  - exists g. split; [reflexivity|ring].
  - cbn [Nat.mul] in H. rewrite firstn_seq_draws by lia.
    destruct (random_input_total rm diff T (firstn T (skipn pos l))) as (x & E & Lx & _); [rewrite firstn_length, skipn_length; lia|].
    change (random_sampler rm T diff (firstn T (skipn pos l)) = Ok x) in E. rewrite E. cbn [bind]. rewrite (any_one_spec M T) by auto. cbn [bind].
    destruct (IH (pos + T) (if existsb (fun b => ev b (asg_ints x)) previous then g else g + 1)%Z ltac:(lia)) as (g' & E' & Eg).
    exists g'. split; [exact E'|]. rewrite Eg. unfold good_block at 2. unfold random_sampler in E. rewrite E. cbn [out]. unfold none.
    rewrite skipn_skipn. replace (T + pos) with (pos + T) by lia.
    destruct (existsb _ previous); cbn [negb b2q]; [ring|]. rewrite inject_Z_plus. ring.
Qed.

(** the number of samples of an output *)
Definition count_of (rate : Q) : Z :=
  let q := (inject_Z samples * rate / (maximum_rate - first))%Q in Z.quot (Qnum q) (Zpos (Qden q)).

Lemma count_spec rate : (0 <= rate <= W)%Q ->
  (0 <= count_of rate < 2 ^ 31)%Z /\ (inject_Z (count_of rate) * W <= S1 * rate)%Q
  /\ (S1 * rate < (inject_Z (count_of rate) + 1) * W)%Q
  /\ fdiv (inject_Z samples * rate) (maximum_rate - first) = Fin (inject_Z samples * rate / (maximum_rate - first)).
Proof.
  intros Hr. pose proof S1_pos as P. unfold fdiv. fold W. destruct (Qeq_bool W 0) eqn:E; [apply Qeq_bool_iff in E; lra|].
  unfold count_of. fold W S1. cbv zeta. set (q := (S1 * rate / W)%Q).
  assert (Eq : (q * W == S1 * rate)%Q) by (unfold q; field; lra).
  assert (Q0 : (0 <= q)%Q) by (apply le_div_iff; auto; rewrite Qmult_0_l; apply Qmult_le_0_compat; lra).
  assert (Q1 : (q <= S1)%Q) by (apply div_le_iff; auto; apply Qmult_le_l'; lra).
  destruct (quot_floor q Q0) as (K0 & K1 & K2). set (k := Z.quot _ _) in *.
  assert (k <= samples)%Z by (apply (proj1 (injZ_le _ _)); unfold S1 in Q1; lra).
  split; [lia|]. split; [|split; [|reflexivity]]; rewrite <- Eq.
  - apply Qmult_le_compat_r; lra.
  - apply Qmult_lt_compat_r; lra.
Qed.

(** what the loop adds to the rate *)
Fixpoint added (rest : list (nat * Q)) (previous : list bdd) (l : list Z) : Q :=
  match rest with
  | [] => 0%Q
  | (k, rate) :: rest' =>
      let diff := nth k d bzero in
      let n := Z.to_nat (count_of rate) in
      (rate * (block_sum T (good_block diff previous) n (firstn (n * T) l) / inject_Z (Z.of_nat n)) + added rest' (previous ++ [diff]) (skipn (n * T) l))%Q
  end.
Fixpoint used (rest : list (nat * Q)) : nat :=
  match rest with
  | [] => 0
  | (_, rate) :: rest' => Z.to_nat (count_of rate) + used rest'
  end.

Lemma block_sum_firstn B n : forall l, (block_sum T B n (firstn (n * T) l) == block_sum T B n l)%Q.
Proof.
  induction n as [|n IH]; intro l; cbn [block_sum]; [reflexivity|]. cbn [Nat.mul].
  rewrite firstn_firstn. replace (Nat.min T (T + n * T)) with T by lia.
  rewrite skipn_firstn_comm. replace (T + n * T - T) with (n * T) by lia. rewrite IH. reflexivity.
Qed.

Lemma loop_added l : forall rest previous pos x, Forall (valid d) rest -> Forall (fun p => snd p <= W)%Q rest ->
  wfs M previous -> below T previous -> pos + used rest * T <= length l ->
  exists x', efficient_loop rm (draws_from l) d T samples first maximum_rate rest previous pos x = Ok x'
    /\ (x' == x + added rest previous (skipn pos l))%Q.
Proof.
  induction rest as [|[k rate] rest IH]; intros previous pos x V L Wp Bp Hl; cbn [efficient_loop added].
  - exists x. split; [reflexivity|ring].
  - inversion V as [|? ? V1 V2]; inversion L as [|? ? L1 L2]; subst.
    destruct (valid_get M d Wd Bd _ V1) as (G & Wk & Bk). cbn [fst] in G, Wk, Bk. rewrite G. cbn [bind].
    pose proof (valid_nonneg _ _ V1) as R0. cbn [snd] in R0, L1.
    destruct (count_spec rate (conj R0 L1)) as (K0 & _ & _ & ->). cbn [used] in Hl.
    change (Z.quot _ _) with (count_of rate). set (n := count_of rate) in *.
    assert (E1 : (- 2 ^ 63 <=? n)%Z = true) by (apply Z.leb_le; lia).
    assert (E2 : (n <? 2 ^ 63)%Z = true) by (apply Z.ltb_lt; lia). rewrite E1, E2. cbn [andb require_ bind].
    assert (Wp' : wfs M (previous ++ [nth k d bzero])) by (apply Forall_app; auto).
    assert (Bp' : below T (previous ++ [nth k d bzero])) by (apply Forall_app; auto). cbv zeta.
    destruct (Z.eqb_spec n 0) as [En|En].
    + rewrite En in *. change (Z.to_nat 0) with 0 in *. cbn [Nat.mul plus block_sum skipn firstn] in *.
      destruct (IH (previous ++ [nth k d bzero]) pos x V2 L2 Wp' Bp' Hl) as (x' & -> & H). exists x'. split; [reflexivity|]. rewrite H.
      change (inject_Z (Z.of_nat 0)) with 0%Q. unfold Qdiv. ring.
    + assert (E3 : (n <? 2 ^ 31)%Z = true) by (apply Z.ltb_lt; lia). rewrite E3. cbn [require_ bind].
      destruct (good_loop_blocks (nth k d bzero) previous l Wp Bp (Z.to_nat n) pos 0 ltac:(lia)) as (g & -> & Eg). cbn [bind]. cbv zeta.
      destruct (IH (previous ++ [nth k d bzero]) (pos + Z.to_nat n * T) (x + rate * (inject_Z g / inject_Z n))%Q V2 L2 Wp' Bp' ltac:(lia)) as (x' & -> & H).
      exists x'. split; [reflexivity|]. rewrite block_sum_firstn, skipn_skipn. rewrite H, Eg. rewrite Z2Nat.id by lia. replace (Z.to_nat n * T + pos) with (pos + Z.to_nat n * T) by lia.
      change (inject_Z 0) with 0%Q. unfold Qdiv. ring.
Qed.

(** ** means *)
Definition mean_of (k : nat) (previous : list bdd) : Q := expectation r T (good_block (nth k d bzero) previous).
Definition share_of (k : nat) (previous : list bdd) : Q :=
  average T (fun a => b2q (ev (nth k d bzero) a && none previous a))%Q.

Lemma good_range diff previous x : (0 <= good_block diff previous x <= 1)%Q.
Proof. unfold good_block. destruct (none _ _); cbn; lra. Qed.
Lemma good_01 diff previous x : (good_block diff previous x == 0 \/ good_block diff previous x == 1)%Q.
Proof. unfold good_block. destruct (none _ _); [right|left]; reflexivity. Qed.

Lemma mean_near k rate previous : valid d (k, rate) -> (0 < rate)%Q -> below T previous ->
  (Qabs (rate * mean_of k previous - share_of k previous) <= rate * beta)%Q.
Proof.
  intros V1 Pr Bp. destruct (valid_get M d Wd Bd _ V1) as (_ & Wk & Bk). destruct V1 as [_ V1]. cbn [fst snd] in *.
  set (diff := nth k d bzero) in *.
  assert (Hsat : exists a, ev diff a = true).
  { destruct (is_zero diff) eqn:Ez; [|now apply (is_zero_false M)]. exfalso.
    assert (frac diff == 0)%Q; [|lra]. apply (frac_zero_iff M); auto. apply (canonical M); auto with wf. intro a.
    rewrite (is_zero_sem M) in Ez by auto. rewrite Ez. reflexivity. }
  destruct (random_input_uniform M r diff T (fun x => b2q (none previous (asg_ints x))) HI Hodd Wk Bk Hsat) as (input & E & B).
  { intro x. destruct (none _ _); cbn; lra. }
  assert (Em : (mean_of k previous == expectation r T (fun l => b2q (none previous (asg_ints (input l)))))%Q).
  { unfold mean_of. apply exp_ext_in. intros l Hl. unfold good_block. fold diff. unfold rm. rewrite (E l Hl). reflexivity. }
  rewrite <- Em in B. fold beta in B.
  assert (Ec : (rate * conditional T diff (fun x => b2q (none previous (asg_ints x))) == share_of k previous)%Q).
  { unfold conditional. rewrite <- (frac_average M T diff Wk Bk), <- V1. unfold share_of. fold diff.
    rewrite (average_ext T _ (fun a => b2q (ev diff a && none previous a))%Q).
    - field. lra.
    - intro a. rewrite (none_below T previous (asg_ints (input_list T a)) a Bp).
      + destruct (ev diff a), (none previous a); reflexivity.
      + intros i Hi. unfold asg_ints, input_list. rewrite (nth_indep _ 0%Z (Z.b2z (a 0))) by (rewrite map_length, seq_length; exact Hi).
        rewrite (map_nth (fun i => Z.b2z (a i))), seq_nth by exact Hi. cbn [plus]. destruct (a i); reflexivity. }
  rewrite <- Ec. set (c := conditional _ _ _) in *. apply Qabs_range in B. destruct B as [B1 B2].
  assert (rate * (- beta) <= rate * (mean_of k previous - c))%Q by (apply Qmult_le_l; auto).
  assert (rate * (mean_of k previous - c) <= rate * beta)%Q by (apply Qmult_le_l; auto).
  apply Qabs_le; lra.
Qed.

Fixpoint added_mean (rest : list (nat * Q)) (previous : list bdd) : Q :=
  match rest with
  | [] => 0%Q
  | (k, rate) :: rest' => ((if (count_of rate =? 0)%Z then 0 else rate * mean_of k previous) + added_mean rest' (previous ++ [nth k d bzero]))%Q
  end.
Fixpoint added_share (rest : list (nat * Q)) (previous : list bdd) : Q :=
  match rest with
  | [] => 0%Q
  | (k, rate) :: rest' => (share_of k previous + added_share rest' (previous ++ [nth k d bzero]))%Q
  end.

Lemma added_moments : forall rest previous N, Forall (valid d) rest -> Forall (fun p => snd p <= W)%Q rest -> used rest * T <= N ->
  (expectation r N (added rest previous) == added_mean rest previous)%Q
  /\ (expectation r N (fun l => (added rest previous l - added_mean rest previous) * (added rest previous l - added_mean rest previous))
      <= rates rest * W / (2 * S1))%Q.
Proof.
  induction rest as [|[k rate] rest IH]; intros previous N V L HN.
  - cbn [added added_mean]. rewrite !exp_const. unfold rates. cbn [map]. rewrite sumQ_nil. split; [reflexivity|].
    unfold Qdiv. rewrite !Qmult_0_l. cbn. discriminate.
  - inversion V as [|? ? V1 V2]; inversion L as [|? ? L1 L2]; subst.
    pose proof (valid_nonneg _ _ V1) as R0. cbn [snd] in R0, L1. cbn [used] in HN.
    destruct (count_spec rate (conj R0 L1)) as (K0 & K1 & K2 & _). cbn [added added_mean]. cbv zeta. rewrite rates_cons. cbn [snd].
    set (n := Z.to_nat (count_of rate)) in *. set (diff := nth k d bzero).
    destruct (IH (previous ++ [diff]) (N - n * T) V2 L2 ltac:(nia)) as [I1 I2]. set (my := added_mean rest (previous ++ [diff])) in *.
    set (B := good_block diff previous). set (X := fun l => (rate * (block_sum T B n l / inject_Z (Z.of_nat n)))%Q).
    set (m := mean_of k previous). assert (Em : (expectation r T B == m)%Q) by reflexivity.
    set (mx := (if (count_of rate =? 0)%Z then 0 else rate * m)%Q).
    pose proof S1_pos as SP.
    assert (HX : (expectation r (n * T) X == mx)%Q /\ (expectation r (n * T) (fun l => (X l - mx) * (X l - mx)) <= rate * W / (2 * S1))%Q).
    { unfold mx. destruct (Z.eqb_spec (count_of rate) 0) as [E0|E0].
      - assert (n = 0) by (unfold n; rewrite E0; reflexivity). unfold X. rewrite H. cbn [block_sum].
        assert (Z0 : (rate * (0 / inject_Z (Z.of_nat 0)) == 0)%Q) by (unfold Qdiv; ring).
        split.
        + rewrite exp_const. exact Z0.
        + rewrite exp_const, Z0. apply Qle_shift_div_l; [lra|]. assert (0 <= rate * W)%Q by (apply Qmult_le_0_compat; lra). lra.
      - assert (Pn : (0 < inject_Z (Z.of_nat n))%Q) by (apply injZ_pos; unfold n; lia).
        assert (En : inject_Z (Z.of_nat n) = inject_Z (count_of rate)) by (unfold n; rewrite Z2Nat.id by lia; reflexivity).
        assert (Pn1 : (1 <= inject_Z (Z.of_nat n))%Q) by (change 1%Q with (inject_Z 1); apply injZ_mono; unfold n; lia).
        rewrite <- En in K1, K2. clear En. set (q := inject_Z (Z.of_nat n)) in *.
        split.
        + unfold X. rewrite (exp_ext r (n * T) _ (fun l => (rate / q) * block_sum T B n l)%Q) by (intro; field; lra).
          rewrite exp_scale, block_mean, Em. fold q. field. lra.
        + rewrite (exp_ext r (n * T) _ (fun l => (rate * rate / (q * q)) * ((block_sum T B n l - q * m) * (block_sum T B n l - q * m)))%Q)
            by (intro; unfold X; field; lra).
          rewrite exp_scale. unfold q. rewrite (block_variance r T B n m Em). fold q.
          rewrite (indicator_variance r T B m); [|intros; apply good_01|exact Em].
          assert (M4 : (m * (1 - m) <= 1 # 4)%Q) by apply quarter.
          assert (E1 : (rate * rate / (q * q) * (q * (m * (1 - m))) == (rate * rate / q) * (m * (1 - m)))%Q) by (field; lra). rewrite E1.
          assert (P1 : (0 <= rate * rate / q)%Q) by (apply le_div_iff; auto; rewrite Qmult_0_l; apply Qmult_le_0_compat; lra).
          apply (Qle_trans _ ((rate * rate / q) * (1 # 4))); [apply Qmult_le_l'; auto|].
          (* rate * S1 < 2 q W *)
          assert (K3 : (S1 * rate <= 2 * q * W)%Q) by (assert ((q + 1) * W <= 2 * q * W)%Q by (apply Qmult_le_compat_r; lra); lra).
          apply le_div_iff; [lra|]. assert (E2 : (rate * rate / q * (1 # 4) * (2 * S1) == (rate * (S1 * rate)) / (2 * q))%Q) by (field; lra).
          rewrite E2. apply div_le_iff; [lra|]. assert (rate * (S1 * rate) <= rate * (2 * q * W))%Q by (apply Qmult_le_l'; auto). lra. }
    destruct HX as [HX1 HX2]. replace N with (n * T + (N - n * T)) by nia.
    split.
    + rewrite (exp_ext r _ _ (fun l => X (firstn (n * T) l) + added rest (previous ++ [diff]) (skipn (n * T) l))%Q) by (intro; reflexivity).
      rewrite exp_plus, (exp_app_l r _ _ X), (exp_app_r r _ _ (added rest (previous ++ [diff]))). rewrite HX1, I1. reflexivity.
    + rewrite (exp_ext r _ _ (fun l => (X (firstn (n * T) l) + added rest (previous ++ [diff]) (skipn (n * T) l) - (mx + my))
         * (X (firstn (n * T) l) + added rest (previous ++ [diff]) (skipn (n * T) l) - (mx + my)))%Q) by (intro; reflexivity).
      rewrite (sum_variance r _ _ X (added rest (previous ++ [diff])) mx my HX1 I1).
      assert (E3 : ((rate + rates rest) * W / (2 * S1) == rate * W / (2 * S1) + rates rest * W / (2 * S1))%Q) by (field; lra).
      rewrite E3. lra.
Qed.

Lemma share_range k rate previous : valid d (k, rate) -> (0 <= share_of k previous <= rate)%Q.
Proof.
  intro V1. destruct (valid_get M d Wd Bd _ V1) as (_ & Wk & Bk). destruct V1 as [_ V1]. cbn [fst snd] in *.
  unfold share_of. split.
  - apply average_nonneg. intro a. destruct (_ && _); cbn; lra.
  - rewrite V1, (frac_average M T _ Wk Bk). apply average_le. intro a. destruct (ev _ a), (none previous a); cbn; lra.
Qed.

Lemma added_bias : forall rest previous, Forall (valid d) rest -> Forall (fun p => snd p <= W)%Q rest -> wfs M previous -> below T previous ->
  (Qabs (added_mean rest previous - added_share rest previous)
   <= inject_Z (Z.of_nat (length rest)) * W / S1 + rates rest * beta)%Q.
Proof.
  assert (B0 : (0 <= beta)%Q).
  { unfold beta. apply le_div_iff; [apply injZ_pos; lia|]. rewrite Qmult_0_l. apply injZ_nonneg. lia. }
  pose proof S1_pos as SP.
  induction rest as [|[k rate] rest IH]; intros previous V L Wp Bp; cbn [added_mean added_share length].
  - unfold rates. cbn [map]. rewrite sumQ_nil. change (inject_Z (Z.of_nat 0)) with 0%Q. unfold Qdiv. rewrite !Qmult_0_l. discriminate.
  - inversion V as [|? ? V1 V2]; inversion L as [|? ? L1 L2]; subst.
    pose proof (valid_nonneg _ _ V1) as R0. cbn [snd] in R0, L1.
    destruct (count_spec rate (conj R0 L1)) as (K0 & K1 & K2 & _). rewrite rates_cons. cbn [snd].
    destruct (valid_get M d Wd Bd _ V1) as (_ & Wk & Bk). cbn [fst] in Wk, Bk.
    assert (I := IH (previous ++ [nth k d bzero]) V2 L2 ltac:(apply Forall_app; auto) ltac:(apply Forall_app; auto)).
    set (my := added_mean rest _) in *. set (sy := added_share rest _) in *. apply Qabs_range in I.
    assert (EL : (inject_Z (Z.of_nat (S (length rest))) * W / S1 == inject_Z (Z.of_nat (length rest)) * W / S1 + W / S1)%Q).
    { rewrite Nat2Z.inj_succ. unfold Z.succ. rewrite inject_Z_plus. change (inject_Z 1) with 1%Q. field. lra. }
    rewrite EL. set (a := (inject_Z (Z.of_nat (length rest)) * W / S1)%Q) in *.
    assert (PWS : (0 <= W / S1)%Q) by (apply le_div_iff; lra).
    assert (RB : (0 <= rate * beta)%Q) by (apply Qmult_le_0_compat; auto).
    pose proof (share_range k rate previous V1) as SR. set (sx := share_of k previous) in *.
    assert (X : (- (W / S1 + rate * beta) <= (if (count_of rate =? 0)%Z then 0 else rate * mean_of k previous) - sx <= W / S1 + rate * beta)%Q).
    { destruct (Z.eqb_spec (count_of rate) 0) as [E0|E0].
      - rewrite E0 in K2. change (inject_Z 0) with 0%Q in K2. assert (rate <= W / S1)%Q by (apply le_div_iff; lra). lra.
      - assert (Pr : (0 < rate)%Q).
        { assert (1 <= inject_Z (count_of rate))%Q by (change 1%Q with (inject_Z 1); apply injZ_mono; lia).
          assert (1 * W <= inject_Z (count_of rate) * W)%Q by (apply Qmult_le_compat_r; lra).
          destruct (Qlt_le_dec 0 rate) as [|H2]; auto. assert (rate == 0)%Q by lra. assert (S1 * rate == 0)%Q by (rewrite H1; ring). lra. }
        pose proof (Qabs_range _ _ (mean_near k rate previous V1 Pr Bp)) as Y. fold sx in Y. lra. }
    set (x := (if (count_of rate =? 0)%Z then 0 else rate * mean_of k previous)%Q) in *.
    assert (E4 : ((rate + rates rest) * beta == rate * beta + rates rest * beta)%Q) by ring. rewrite E4.
    apply Qabs_le; lra.
Qed.

Lemma shares_sum : forall rest previous,
  (average T (fun a => b2q (negb (none previous a))) + added_share rest previous
   == average T (fun a => b2q (negb (none (previous ++ map (fun p => nth (fst p) d bzero) rest) a))))%Q.
Proof.
  induction rest as [|[k rate] rest IH]; intro previous; cbn [added_share map].
  - rewrite app_nil_r. ring.
  - specialize (IH (previous ++ [nth k d bzero])). rewrite <- app_assoc in IH. cbn [app fst] in IH |- *. rewrite <- IH.
    rewrite (average_ext T (fun a => b2q (negb (none (previous ++ [nth k d bzero]) a)))
      (fun a => b2q (negb (none previous a)) + b2q (ev (nth k d bzero) a && none previous a))%Q).
    + rewrite average_plus. unfold share_of. ring.
    + intro a. unfold none. rewrite existsb_app. cbn [existsb]. destruct (existsb _ previous), (ev _ a); cbn; reflexivity.
Qed.

Lemma used_le : forall rest, Forall (valid d) rest -> Forall (fun p => snd p <= W)%Q rest ->
  (inject_Z (Z.of_nat (used rest)) * W <= S1 * rates rest)%Q.
Proof.
  induction rest as [|[k rate] rest IH]; intros V L; cbn [used].
  - change (inject_Z (Z.of_nat 0)) with 0%Q. unfold rates. cbn [map]. rewrite sumQ_nil. lra.
  - inversion V as [|? ? V1 V2]; inversion L as [|? ? L1 L2]; subst. specialize (IH V2 L2).
    pose proof (valid_nonneg _ _ V1) as R0. cbn [snd] in R0, L1.
    destruct (count_spec rate (conj R0 L1)) as (K0 & K1 & _). rewrite rates_cons. cbn [snd].
    rewrite Nat2Z.inj_add, Z2Nat.id by lia. rewrite inject_Z_plus. lra.
Qed.
End EffSampling.

Lemma existsb_perm {A} (P : A -> bool) l l' : Permutation l l' -> existsb P l = existsb P l'.
Proof. induction 1; cbn [existsb]; [reflexivity|now rewrite IHPermutation|now rewrite !orb_assoc, (orb_comm (P y))|congruence]. Qed.

Lemma existsb_nth_seq (P : bdd -> bool) d : existsb P d = existsb (fun i => P (nth i d bzero)) (seq 0 (length d)).
Proof.
  induction d as [|b d IH]; [reflexivity|]. cbn [existsb length seq nth]. f_equal. rewrite IH, <- seq_shift. clear.
  induction (seq 0 (length d)) as [|i l IHl]; [reflexivity|]. cbn [existsb map nth]. now rewrite IHl.
Qed.

Lemma min_closer x m : (m <= 1)%Q -> let y := (if Qle_bool 1 x then 1 else x)%Q in ((y - m) * (y - m) <= (x - m) * (x - m))%Q.
Proof. intro H. cbv zeta. destruct (min_one x) as [[-> L]|[-> L]]; nra. Qed.

Lemma square_mono x y : (Qabs x <= y)%Q -> (x * x <= y * y)%Q.
Proof. intro H. apply Qabs_range in H. destruct (Qlt_le_dec x 0); nra. Qed.

Lemma efficient_sampling M sort r f g samples worst : sorts_down sort -> index_order M -> Nat.Odd r -> wfs M f -> wfs M g ->
  let n := read_size M in
  below n f -> below n g -> length f = length g -> (1 <= samples < 2 ^ 31)%Z -> two_wrong f g ->
  worst < length f -> (forall i, i < length f -> (output_rate n f g i <= output_rate n f g worst)%Q) ->
  let k := Z.to_nat samples * n in
  let rate := average n (fun a => b2q (differ f g a)) in
  let others := (sumQ (map (output_rate n f g) (seq 0 (length f))) - output_rate n f g worst)%Q in
  let bias := (inject_Z (Z.of_nat (length f - 1)) * others / inject_Z samples + others * (inject_Z (Z.of_nat n) / inject_Z (Z.of_nat (S r))))%Q in
  let bound := (others * others / (2 * inject_Z samples) + bias * bias)%Q in
  exists estimate : list Z -> Q,
    (forall l, draw_list r k l -> error_rate_efficient_sampling M sort (Z.of_nat r) (draws_from l) f g samples = Ok (estimate l))
    /\ (expectation r k (fun l => (estimate l - rate) * (estimate l - rate)) <= bound)%Q
    /\ (forall eps, (0 < eps)%Q -> probability r k (fun l => Qle_bool eps (Qabs (estimate l - rate))) <= bound / (eps * eps))%Q.
Proof.
  intros HS HI Hodd Wf Wg n Bf Bg HL Hs H2 Hw Hworst k0 rate others bias bound. subst n. set (T := read_size M) in *.
  assert (Hne : f <> []) by (intros ->; cbn in Hw; lia).
  destruct (full_parts M sort f g HS HL Wf Wg Bf Bg Hne) as (d & k & first & rest & Ed & Ld & Wd & Bd & Nd & Dd & E & V & P & O & W & Rr & Tt).
  assert (PW := proj2 (rest_pos M f g HL Wf Wg Bf Bg d k first rest V P O Rr) H2). fold T in E, Bd, Rr, Tt, W.
  set (mr := fold_left (fun s p => (s + snd p)%Q) (activations_of d T) 0%Q) in *.
  inversion V as [|? ? V1 V2]; subst. destruct (valid_get M d Wd Bd _ V1) as (G & Wk & Bk). cbn [fst] in G, Wk, Bk.
  assert (L : Forall (fun p => snd p <= mr - first)%Q rest).
  { apply Forall_forall. intros p Hp. rewrite W. apply (rates_le d); auto. }
  assert (PW' : (0 < mr - first)%Q) by lra.
  assert (Ef : (first == output_rate T f g worst)%Q).
  { destruct (Rr (k, first)) as [Rk1 Rk2]; [now left|]. cbn [fst snd] in Rk1, Rk2. pose proof (Hworst k Rk1) as H1. rewrite <- Rk2 in H1.
    assert (I : In worst (k :: map fst rest)) by (apply (Permutation_in _ P), in_seq; lia).
    change (k :: map fst rest) with (map fst ((k, first) :: rest)) in I. apply in_map_iff in I. destruct I as (p & Ep & Hp).
    destruct (Rr p Hp) as [_ Rp]. rewrite Ep in Rp. destruct Hp as [<-|Hp]; [cbn [snd] in Rp; exact Rp|]. specialize (O p Hp). lra. }
  assert (Eo : (others == rates rest)%Q) by (unfold others; fold (total_rate T f g); rewrite <- Tt, <- Ef; ring).
  assert (SP : (1 <= inject_Z samples)%Q) by (change 1%Q with (inject_Z 1); apply injZ_mono; lia).
  assert (Lr : length rest = length f - 1).
  { pose proof (Permutation_length P) as H. rewrite seq_length in H. cbn [length] in H. rewrite map_length in H. lia. }
  assert (HU : used samples first mr rest <= Z.to_nat samples).
  { pose proof (used_le M r d samples Hs first mr PW' rest V2 L) as H. rewrite W in H.
    assert (inject_Z (Z.of_nat (used samples first mr rest)) <= inject_Z samples)%Q by (apply (Qmult_le_r _ _ (rates rest)); lra).
    apply (proj1 (injZ_le _ _)) in H0. lia. }
  assert (HN : used samples first mr rest * T <= k0) by (unfold k0; apply Nat.mul_le_mono_r; exact HU).
  set (D0 := [nth k d bzero]). set (X := fun l => (first + added M r d samples first mr rest D0 l)%Q).
  set (estimate := fun l => match error_rate_efficient_sampling M sort (Z.of_nat r) (draws_from l) f g samples with Ok q => q | _ => 0%Q end).
  assert (WD0 : wfs M D0) by (constructor; auto). assert (BD0 : below T D0) by (constructor; auto).
  assert (Val : forall l, draw_list r k0 l -> error_rate_efficient_sampling M sort (Z.of_nat r) (draws_from l) f g samples = Ok (estimate l)
     /\ exists x, (x == X l)%Q /\ estimate l = (if Qle_bool 1 x then 1%Q else x)).
  { intros l [Ll _].
    destruct (loop_added M r d samples Wd Bd Hs first mr PW' l rest D0 0 first V2 L WD0 BD0 ltac:(fold T; lia)) as (x & Ex & Eq).
    unfold estimate, error_rate_efficient_sampling. rewrite Ed. cbn [bind]. fold T. cbv zeta. rewrite E. fold mr. rewrite G. cbn [bind]. fold D0.
    fold T in Ex. rewrite Ex. cbn [bind]. split; [reflexivity|]. exists x. split; [exact Eq|reflexivity]. }
  assert (R1 : (rate <= 1)%Q).
  { unfold rate. rewrite <- (average_const T 1). apply average_le. intro a. destruct (differ f g a); cbn; lra. }
  destruct (added_moments M r d samples Hs first mr PW' rest D0 k0 V2 L HN) as [M1 M2].
  pose proof (added_bias M HI r Hodd d samples Wd Bd Hs first mr PW' rest D0 V2 L WD0 BD0) as Bi. fold T in Bi.
  set (am := added_mean M r d samples first mr rest D0) in *.
  assert (Es : (first + added_share M d rest D0 == rate)%Q).
  { assert (E1 : (first == average T (fun a => b2q (negb (none D0 a))))%Q).
    { destruct V1 as [_ V1]. cbn [fst snd] in V1. rewrite V1, (frac_average M T _ Wk Bk). apply average_ext. intro a. unfold none, D0. cbn [existsb].
      destruct (ev _ a); reflexivity. }
    pose proof (shares_sum M d rest D0) as E2. fold T in E2. rewrite E1, E2. unfold rate. apply average_ext. intro a. rewrite <- Dd. unfold none. rewrite negb_involutive.
    rewrite (existsb_nth_seq (fun b => ev b a) d), Ld, (existsb_perm _ _ _ P). unfold D0. cbn [app existsb].
    replace (existsb (fun b => ev b a) (map (fun p => nth (fst p) d bzero) rest)) with (existsb (fun i => ev (nth i d bzero) a) (map fst rest)); [reflexivity|].
    clear. induction rest as [|p rest IH]; [reflexivity|]. cbn [map existsb]. now rewrite IH. }
  assert (MSE : (expectation r k0 (fun l => (estimate l - rate) * (estimate l - rate)) <= bound)%Q).
  { apply (Qle_trans _ (expectation r k0 (fun l => (X l - rate) * (X l - rate))%Q)).
    - apply exp_le_in. intros l Hl. destruct (Val l Hl) as (_ & x & Ex & ->). rewrite <- Ex. apply min_closer. exact R1.
    - rewrite (exp_ext r k0 _ (fun l => ((added M r d samples first mr rest D0 l - am) * (added M r d samples first mr rest D0 l - am)
           + ((first + am - rate) * (first + am - rate) + (- (2) * (first + am - rate)) * am))
           + (2 * (first + am - rate)) * added M r d samples first mr rest D0 l)%Q) by (intro; unfold X; ring).
      assert (M3 : (expectation r k0 (fun l => added M r d samples first mr rest D0 l) == am)%Q) by exact M1.
      rewrite !exp_plus, !exp_const, (exp_scale r k0 (2 * (first + am - rate)) (fun l => added M r d samples first mr rest D0 l)), M3.
      assert (Q2 : ((first + am - rate) * (first + am - rate) <= bias * bias)%Q).
      { apply square_mono. assert (E2 : (first + am - rate == am - added_share M d rest D0)%Q) by (rewrite <- Es; ring). rewrite E2.
        eapply Qle_trans; [exact Bi|]. unfold bias. rewrite Eo, Lr, W. apply Qle_refl. }
      assert (E3 : (others * others / (2 * inject_Z samples) == rates rest * (mr - first) / (2 * inject_Z samples))%Q) by (rewrite Eo, W; reflexivity).
      unfold bound. rewrite E3. lra. }
  exists estimate. split; [intros l Hl; apply Val; exact Hl|]. split; [exact MSE|].
  intros eps He. apply chebyshev; [exact He|exact MSE].
Qed.

(** an input that does not satisfy the function is rare *)
Lemma random_input_wrong M r f T : index_order M -> Nat.Odd r -> wf M f -> depends_below T f -> (exists a, ev f a = true) ->
  (probability r T (fun l => match random_satisfying_input (Z.of_nat r) f (count_minterms f) T l with
                             | Ok x => negb (ev f (asg_ints x)) | _ => true end)
   <= inject_Z (Z.of_nat T) / inject_Z (Z.of_nat (S r)))%Q.
Proof.
  intros HI Hodd Wf Bf Hsat.
  destruct (random_input_uniform M r f T (fun x => b2q (negb (ev f (asg_ints x)))) HI Hodd Wf Bf Hsat) as (input & E & B).
  { intro x. destruct (ev _ _); cbn; lra. }
  unfold probability. rewrite (exp_ext_in r T _ (fun l => b2q (negb (ev f (asg_ints (input l)))))) by (intros l Hl; rewrite (E l Hl); reflexivity).
  assert (C0 : (conditional T f (fun x => b2q (negb (ev f (asg_ints x)))) == 0)%Q).
  { unfold conditional. rewrite (average_ext T _ (fun _ => 0%Q)); [rewrite average_const; unfold Qdiv; ring|]. intro a.
    rewrite (Bf (asg_ints (input_list T a)) a); [destruct (ev f a); reflexivity|].
    intros i Hi. unfold asg_ints, input_list. rewrite (nth_indep _ 0%Z (Z.b2z (a 0))) by (rewrite map_length, seq_length; exact Hi).
    rewrite (map_nth (fun i => Z.b2z (a i))), seq_nth by exact Hi. cbn [plus]. destruct (a i); reflexivity. }
  rewrite C0 in B. apply Qabs_range in B. lra.
Qed.
