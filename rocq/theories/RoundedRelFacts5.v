(** Sampling the error rate with rounded doubles: results *)
From Coq Require Import List Bool Arith ZArith QArith Qabs Qround Znumtheory Lia Lqa Permutation Sorted.
From Verif Require Import Res Cudd CuddFacts Spec SpecFacts SpecFloat Float FloatFacts Helpers HelpersFacts HelpersFacts2 Counting AddFacts CountFacts PathFacts
  Metrics MetricsFacts MetricsFacts2 MetricsFacts3 MetricsFacts4 RelMetrics RelFacts RelFacts2 RelFacts3 RelFacts4 RelFacts6 MinimizeFacts3
  Rounded RoundedFacts RoundedAdd RoundedMinimizeFacts2 RoundedAverageFacts RoundedRel RoundedRelFacts RoundedRelFacts2 RoundedRelFacts4.
Import ListNotations.
Open Scope nat_scope.

Section Full.
Variable rnd : Q -> Q.
Hypothesis HR : rounds_to_nearest 53 rnd.
Variables (M : mgr) (sort : list (nat * Q) -> list (nat * Q)) (f g : list bdd).
Hypothesis HS : sorts_down sort.
Hypothesis HL : length f = length g.
Hypothesis Wf : wfs M f.
Hypothesis Wg : wfs M g.
Let T := read_size M.
Hypothesis Bf : below T f.
Hypothesis Bg : below T g.
Hypothesis Hne : f <> [].
Hypothesis HT : (Z.of_nat (length f) * 2 ^ Z.of_nat T <= 2 ^ 53)%Z.
Let rate := output_rate T f g.

Lemma full_parts_fl : exists d k first rest,
  differences M f g = Ok d /\ length d = length f /\ wfs M d /\ below T d
  /\ (forall i a, i < length f -> ev (nth i d bzero) a = wrong f g i a)
  /\ sort (activations_fl rnd d T) = (k, first) :: rest
  /\ Forall (valid d) ((k, first) :: rest) /\ Permutation (seq 0 (length f)) (k :: map fst rest)
  /\ (forall p, In p rest -> snd p <= first)%Q
  /\ (rnd (fold_left (fun s p => rnd (s + snd p)) (activations_fl rnd d T) 0 - first) == rates rest)%Q
  /\ (forall p, In p ((k, first) :: rest) -> fst p < length f /\ (snd p == rate (fst p))%Q)
  /\ (first + rates rest == total_rate T f g)%Q
  /\ grid T 1 first /\ grid T (length d) (rates rest) /\ 1 + length rest = length d.
Proof.
  assert (L1 : 1 <= length f) by (destruct f; [congruence|cbn; lia]).
  assert (HA : forall d, length d = length f -> wfs M d -> below T d ->
    Forall (valid d) (activations_fl rnd d T) /\ map fst (activations_fl rnd d T) = seq 0 (length d)).
  { intros d Ld Wd Bd. apply (activations_fl_spec rnd HR M d Wd Bd); rewrite Ld; auto. }
  destruct (full_parts_of M sort f g HS HL Wf Wg Bf Bg Hne (fun d => activations_fl rnd d T) HA)
    as (d & k & first & rest & Ed & Ld & Wd & Bd & Nd & Dd & E & V & P & O & W & R & Tt).
  specialize (HA d Ld Wd Bd).
  assert (LR : 1 + length rest = length d).
  { apply Permutation_length in P. rewrite seq_length in P. cbn [length] in P. rewrite map_length in P. lia. }
  assert (HT' : (Z.of_nat (length d) * 2 ^ Z.of_nat T <= 2 ^ 53)%Z) by now rewrite Ld.
  inversion V as [|? ? V1 V2]; subst.
  assert (GR : grid T (length d) (rates rest)).
  { apply (grid_mono T (length rest)); [lia|]. now apply (rates_grid M d Wd Bd). }
  exists d, k, first, rest. repeat (split; [assumption|]). split.
  - apply (keeps_eq rnd HR); [|now apply (small_float M d HT' (length d))].
    rewrite (fold_rates_fl rnd HR M d Wd Bd HT' _ (proj1 HA) 0 0%Q 0%Q); [|reflexivity|apply grid_zero|].
    + rewrite W. lra.
    + destruct HA as [_ HA]. apply (f_equal (@length nat)) in HA. rewrite map_length, seq_length in HA. lia.
  - repeat (split; [assumption|]). split; [|split; assumption]. exact (valid_grid M d Wd Bd _ V1).
Qed.

Lemma rates_bound d k first rest i : Permutation (seq 0 (length f)) (k :: map fst rest) -> (forall p, In p rest -> snd p <= first)%Q ->
  (forall p, In p ((k, first) :: rest) -> fst p < length f /\ (snd p == rate (fst p))%Q) -> Forall (valid d) ((k, first) :: rest) ->
  i < length f -> (rate i <= first)%Q.
Proof.
  intros P O R V Hi. assert (I : In i (k :: map fst rest)) by (apply (Permutation_in _ P), in_seq; lia).
  change (k :: map fst rest) with (map fst ((k, first) :: rest)) in I. apply in_map_iff in I. destruct I as (p & <- & Hp).
  destruct (R p Hp) as [_ <-]. destruct Hp as [<-|Hp]; [apply Qle_refl|auto].
Qed.

Lemma efficient_single_fl rm draws samples : length f = 1 ->
  exists q, error_rate_efficient_sampling_fl rnd M sort rm draws f g samples = Ok q /\ (q == rate 0)%Q.
Proof.
  intro H1. destruct full_parts_fl as (d & k & first & rest & Ed & Ld & Wd & Bd & Nd & E & V & P & O & W & R & Tt & G1 & G2 & LR).
  unfold error_rate_efficient_sampling_fl. rewrite Ed. cbn [bind]. fold T. cbv zeta. rewrite E.
  inversion V as [|? ? V1 V2]; subst. rewrite (proj1 (valid_get M d Wd Bd _ V1) : vget d k = _). cbn [bind].
  assert (rest = []) by (destruct rest; [auto|cbn in LR; lia]).
  subst rest. cbn [efficient_loop_fl bind].
  destruct (R (k, first)) as [R1 R2]; [now left|]. cbn [fst snd] in R1, R2. assert (k = 0) by lia. subst k.
  destruct V1 as [_ V1]. cbn [fst snd] in V1. pose proof (frac_le_1 (nth 0 d bzero)).
  destruct (min_one first) as [[-> L]|[-> L]]; eexists; (split; [reflexivity|]); lra.
Qed.

Lemma efficient_range_fl rm draws samples : (1 <= samples < 2 ^ 31)%Z -> two_wrong f g ->
  exists q, error_rate_efficient_sampling_fl rnd M sort rm draws f g samples = Ok q
    /\ (forall i, i < length f -> (rate i <= q)%Q) /\ (q <= 1)%Q /\ (q <= total_rate T f g)%Q.
Proof.
  intros Hs H2. destruct full_parts_fl as (d & k & first & rest & Ed & Ld & Wd & Bd & Nd & E & V & P & O & W & R & Tt & G1 & G2 & LR).
  assert (PW := proj2 (rest_pos M f g HL Wf Wg Bf Bg d k first rest V P O R) H2).
  unfold error_rate_efficient_sampling_fl. rewrite Ed. cbn [bind]. fold T. cbv zeta. rewrite E.
  pose proof (fun i => rates_bound d k first rest i P O R V) as L.
  inversion V as [|? ? V1 V2]; subst. destruct (valid_get M d Wd Bd _ V1) as (G & Wk & Bk). cbn [fst] in G. rewrite G. cbn [bind].
  set (mr := fold_left _ _ _) in *. cbn [fst] in Wk, Bk.
  assert (HT' : (Z.of_nat (length d) * 2 ^ Z.of_nat T <= 2 ^ 53)%Z) by now rewrite Ld.
  pose proof (valid_nonneg d _ V1) as F0. cbn [snd] in F0.
  destruct (efficient_loop_fl_spec rnd HR M rm draws d samples Wd Bd HT' Hs first mr (rates rest) W PW G2 rest [nth k d bzero] 0 first first 1 V2)
    as (r & Er & Hr).
  { apply Forall_forall. intros p Hp. now apply (rates_le d). }
  { auto. } { constructor; auto. } { now apply (small_float M d HT' 1); [lia|]. } { lra. } { auto. } { lia. }
  fold T in Er. rewrite Er. cbn [bind].
  assert (L1 : (first <= 1)%Q). { destruct V1 as [_ V1]. cbn [snd] in V1. rewrite V1. apply frac_le_1. }
  destruct (min_one r) as [[-> Lr]|[-> Lr]]; eexists; (split; [reflexivity|]).
  - split; [intros i Hi; specialize (L i Hi); lra|]. split; lra.
  - split; [intros i Hi; specialize (L i Hi); lra|]. split; lra.
Qed.

Lemma efficient_ub_fl rm draws samples : 2 <= length f -> ~ two_wrong f g ->
  error_rate_efficient_sampling_fl rnd M sort rm draws f g samples = UB.
Proof.
  intros H2 HN. destruct full_parts_fl as (d & k & first & rest & Ed & Ld & Wd & Bd & Nd & E & V & P & O & W & R & Tt & G1 & G2 & LR).
  pose proof (rest_pos M f g HL Wf Wg Bf Bg d k first rest V P O R) as PW.
  unfold error_rate_efficient_sampling_fl. rewrite Ed. cbn [bind]. fold T. cbv zeta. rewrite E.
  inversion V as [|? ? V1 V2]; subst. rewrite (proj1 (valid_get M d Wd Bd _ V1) : vget d k = _). cbn [bind fst].
  destruct rest as [|[k2 r2] rest]; [cbn in LR; lia|].
  cbn [efficient_loop_fl]. inversion V2 as [|? ? V3 V4]; subst. rewrite (proj1 (valid_get M d Wd Bd _ V3) : vget d k2 = _). cbn [bind].
  unfold fdiv_fl, fdiv. match goal with |- context [Qeq_bool ?x 0] => assert (E0 : Qeq_bool x 0%Q = true) end.
  { apply Qeq_bool_iff. rewrite W. pose proof (rates_nonneg d _ V2). destruct (Qlt_le_dec 0 (rates ((k2, r2) :: rest))); [tauto|lra]. }
  rewrite E0. reflexivity.
Qed.

Lemma efficient_exact_fl rm draws samples : index_order M -> (forall i, 0 < draws i <= rm)%Z -> (1 <= samples < 2 ^ 31)%Z -> two_wrong f g ->
  ((exists j, j < length f /\ forall i a, i < length f -> wrong f g i a = true -> wrong f g j a = true)
   \/ ((forall i j a, i < length f -> j < length f -> i <> j -> wrong f g i a = true -> wrong f g j a = false)
       /\ forall i, i < length f -> (rate i == 0)%Q \/ (total_rate T f g <= inject_Z samples * rate i)%Q)) ->
  exists q, error_rate_efficient_sampling_fl rnd M sort rm draws f g samples = Ok q
    /\ (q == average T (fun a => b2q (differ f g a)))%Q.
Proof.
  intros HX Hdr Hs H2 HC. destruct full_parts_fl as (d & k & first & rest & Ed & Ld & Wd & Bd & Nd & E & V & P & O & W & R & Tt & G1 & G2 & LR).
  assert (PW := proj2 (rest_pos M f g HL Wf Wg Bf Bg d k first rest V P O R) H2).
  unfold error_rate_efficient_sampling_fl. rewrite Ed. cbn [bind]. fold T. cbv zeta. rewrite E.
  pose proof (fun i => rates_bound d k first rest i P O R V) as L.
  inversion V as [|? ? V1 V2]; subst. destruct (valid_get M d Wd Bd _ V1) as (G & Wk & Bk). cbn [fst] in G. rewrite G. cbn [bind].
  set (mr := fold_left _ _ _) in *. cbn [fst] in Wk, Bk.
  assert (HT' : (Z.of_nat (length d) * 2 ^ Z.of_nat T <= 2 ^ 53)%Z) by now rewrite Ld.
  pose proof (valid_nonneg d _ V1) as F0. cbn [snd] in F0.
  destruct (R (k, first)) as [Rk1 Rk2]; [now left|]. cbn [fst snd] in Rk1, Rk2.
  assert (LE : (average T (fun a => b2q (differ f g a)) <= 1)%Q).
  { rewrite <- (average_const T 1). apply average_le. intro a. destruct (differ f g a); cbn [b2q]; lra. }
  assert (X : exists v : bool, ((if v then first else first + rates rest) == average T (fun a => b2q (differ f g a)))%Q
    /\ (v = false -> Forall (fun p => (snd p == 0)%Q \/ (rates rest <= inject_Z samples * snd p)%Q) rest)
    /\ (forall pre p post, rest = pre ++ p :: post -> forall a, ev (nth (fst p) d bzero) a = true ->
          existsb (fun b => ev b a) ([nth k d bzero] ++ map (fun p => nth (fst p) d bzero) pre) = v)).
  { destruct HC as [(j & Hj & HD)|[HD HK]].
    - exists true. pose proof (L j Hj) as Lj. rewrite Rk2 in Lj.
      destruct (nested_max M f g HL Wf Wg Bf Bg j k Hj Rk1 Lj HD) as [HDk RK]. fold T in RK. split; [|split].
      + cbv iota. rewrite Rk2. exact RK.
      + discriminate.
      + intros pre p post Erest a Ha. destruct (R p) as [R1 _]. { right. rewrite Erest. apply in_or_app. right. now left. }
        rewrite Nd in Ha by auto. cbn [app existsb]. rewrite Nd by auto. now rewrite (HDk (fst p) a).
    - exists false. split; [|split].
      + cbv iota. rewrite Tt. exact (disjoint_total M f g HL Wf Wg Bf Bg HD).
      + intros _. apply Forall_forall. intros p Hp. destruct (R p) as [R1 R2]; [now right|]. destruct (HK _ R1) as [K|K]; [left; lra|right].
        rewrite R2. lra.
      + intros pre p post Erest a Ha. destruct (R p) as [R1 _]. { right. rewrite Erest. apply in_or_app. right. now left. }
        rewrite Nd in Ha by auto.
        change ([nth k d bzero] ++ map (fun p => nth (fst p) d bzero) pre) with (map (fun p : nat * Q => nth (fst p) d bzero) ((k, first) :: pre)).
        destruct (existsb _ _) eqn:X; auto. exfalso. apply existsb_exists in X. destruct X as (b & Hb & Eb).
        apply in_map_iff in Hb. destruct Hb as (q & <- & Hq).
        assert (Rq : fst q < length f). { apply R. destruct Hq as [<-|Hq]; [now left|]. right. rewrite Erest. apply in_or_app. now left. }
        rewrite Nd in Eb by auto. rewrite (HD (fst p) (fst q) a) in Eb; auto; [discriminate|].
        intro Ee. apply (prefix_first f k first rest pre p post Erest P q Hq). auto. }
  destruct X as (v & X1 & X2 & X3).
  destruct (efficient_loop_fl_exact rnd HR M rm draws d samples Wd Bd HT' Hs first mr (rates rest) W PW G2 v HX Hdr rest [nth k d bzero] 0 first first 1 V2)
    as (r & Er & Hr); auto.
  { apply Forall_forall. intros p Hp. now apply (rates_le d). }
  { constructor; auto. } { reflexivity. } { lia. }
  fold T in Er. rewrite Er. cbn [bind].
  destruct v; rewrite X1 in Hr; destruct (min_one r) as [[-> Lr]|[-> Lr]]; eexists; (split; [reflexivity|]); lra.
Qed.
End Full.

Lemma efficient_sampling_fl_ok rnd M sort rm draws f g samples : rounds_to_nearest 53 rnd -> sorts_down sort -> wfs M f -> wfs M g ->
  below (read_size M) f -> below (read_size M) g -> length f = length g ->
  let n := read_size M in
  (Z.of_nat (length f) * 2 ^ Z.of_nat n <= 2 ^ 53)%Z -> (1 <= samples < 2 ^ 31)%Z ->
  (length f = 1 -> exists q, error_rate_efficient_sampling_fl rnd M sort rm draws f g samples = Ok q /\ (q == output_rate n f g 0)%Q)
  /\ ((exists i j, i < length f /\ j < length f /\ i <> j /\ (exists a, wrong f g i a = true) /\ (exists a, wrong f g j a = true)) ->
      exists q, error_rate_efficient_sampling_fl rnd M sort rm draws f g samples = Ok q
        /\ (forall i, i < length f -> (output_rate n f g i <= q)%Q) /\ (q <= 1)%Q
        /\ (q <= sumQ (map (output_rate n f g) (seq 0 (length f))))%Q)
  /\ (length f <> 1 -> ~ (exists i j, i < length f /\ j < length f /\ i <> j /\ (exists a, wrong f g i a = true) /\ (exists a, wrong f g j a = true)) ->
      error_rate_efficient_sampling_fl rnd M sort rm draws f g samples = UB).
Proof.
  intros HR HS Wf Wg Bf Bg HL n HT Hs. split; [|split].
  - intro H1. apply efficient_single_fl; auto. intro E. subst. discriminate.
  - intro H2. apply efficient_range_fl; auto. intro E. subst. destruct H2 as (i & j & Hi & _). cbn in Hi. lia.
  - intros H1 H2. destruct f as [|x f].
    + destruct g; [|discriminate]. unfold error_rate_efficient_sampling_fl. cbn [differences length Nat.eqb assert_ bind xor_vec].
      cbv zeta. destruct (HS (activations_fl rnd [] (read_size M))) as [HP _]. cbn [activations_fl length seq combine map] in *.
      apply Permutation_nil in HP. rewrite HP. reflexivity.
    + apply efficient_ub_fl; auto; try discriminate. cbn [length] in *. lia.
Qed.

Lemma efficient_sampling_fl_exact rnd M sort rm draws f g samples : rounds_to_nearest 53 rnd -> sorts_down sort -> index_order M -> wfs M f -> wfs M g ->
  below (read_size M) f -> below (read_size M) g -> length f = length g ->
  let n := read_size M in
  (Z.of_nat (length f) * 2 ^ Z.of_nat n <= 2 ^ 53)%Z -> (1 <= samples < 2 ^ 31)%Z -> (forall i, 0 < draws i <= rm)%Z ->
  (exists i j, i < length f /\ j < length f /\ i <> j /\ (exists a, wrong f g i a = true) /\ (exists a, wrong f g j a = true)) ->
  ((exists j, j < length f /\ forall i a, i < length f -> wrong f g i a = true -> wrong f g j a = true)
   \/ ((forall i j a, i < length f -> j < length f -> i <> j -> wrong f g i a = true -> wrong f g j a = false)
       /\ forall i, i < length f -> (output_rate n f g i == 0)%Q
            \/ (sumQ (map (output_rate n f g) (seq 0 (length f))) <= inject_Z samples * output_rate n f g i)%Q)) ->
  exists q, error_rate_efficient_sampling_fl rnd M sort rm draws f g samples = Ok q
    /\ (q == average n (fun a => b2q (differ f g a)))%Q.
Proof.
  intros HR HS HX Wf Wg Bf Bg HL n HT Hs Hd H2 C.
  apply (efficient_exact_fl rnd HR M sort f g HS HL Wf Wg Bf Bg ltac:(intro E; subst; destruct H2 as (i & j & Hi & _); cbn in Hi; lia) HT); auto.
Qed.
