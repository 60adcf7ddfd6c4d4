(** Sampling the error rate with rounded doubles *)
From Coq Require Import List Bool Arith ZArith QArith Qabs Qround Lia Lqa Permutation Sorted.
From Verif Require Import Res Cudd CuddFacts Spec SpecFacts SpecFloat Float FloatFacts Helpers HelpersFacts HelpersFacts2 Counting AddFacts CountFacts PathFacts
  Metrics MetricsFacts MetricsFacts2 MetricsFacts3 MetricsFacts4 RelMetrics RelFacts RelFacts2 RelFacts3 RelFacts4
  Rounded RoundedFacts RoundedAdd RoundedMinimizeFacts2 RoundedAverageFacts RoundedRel RoundedRelFacts.
Import ListNotations.
Open Scope nat_scope.

(** ** error_rate_sampling: one rounding *)
Lemma error_rate_sampling_fl_spec rnd M draws f g samples : length f = length g -> wfs M f -> wfs M g ->
  below (read_size M) f -> below (read_size M) g -> (1 <= samples < 2 ^ 31)%Z ->
  exists q, error_rate_sampling M draws f g samples = Ok (Fin q) /\ error_rate_sampling_fl rnd M draws f g samples = Ok (Fin (rnd q)).
Proof.
  intros HL Wf Wg Bf Bg Hs. unfold error_rate_sampling, error_rate_sampling_fl.
  destruct (differences_spec M _ f g HL Wf Wg Bf Bg) as (d & -> & Ld & Wd & Bd & Nd & Ed). cbn [bind].
  assert (E : (samples <? 2 ^ 31)%Z = true) by (apply Z.ltb_lt; lia). rewrite E. cbn [require_ bind].
  destruct (sampling_loop_spec M _ d draws Wd Bd (Z.to_nat samples) 0 0) as (e & -> & H1 & H2 & H3). cbn [bind].
  unfold fdiv_fl, fdiv. assert (P : (0 < inject_Z samples)%Q) by (apply injZ_pos; lia).
  destruct (Qeq_bool (inject_Z samples) 0) eqn:E0; [apply Qeq_bool_iff in E0; lra|]. eauto.
Qed.

(** ** error_rate_efficient_sampling *)
Section Grid.
Variable T : nat.
(** a multiple of 2^-T, at most c *)
Definition grid (c : nat) (x : Q) : Prop :=
  exists z, (0 <= z <= Z.of_nat c * 2 ^ Z.of_nat T)%Z /\ (x == inject_Z z * 2 ^ (- Z.of_nat T))%Q.
Lemma grid_eq c x y : (x == y)%Q -> grid c y -> grid c x.
Proof. intros E (z & H & X). exists z. split; auto. now rewrite E. Qed.
Lemma grid_zero c : grid c 0.
Proof. exists 0%Z. split; [|reflexivity]. split; [lia|]. apply Z.mul_nonneg_nonneg; [lia|]. apply Z.pow_nonneg. lia. Qed.
Lemma grid_plus a b x y : grid a x -> grid b y -> grid (a + b) (x + y).
Proof.
  intros (z & H & X) (w & H' & Y). exists (z + w)%Z. split; [rewrite Nat2Z.inj_add, Z.mul_add_distr_r; lia|]. rewrite X, Y, inject_Z_plus. ring.
Qed.
Lemma grid_mono a b x : a <= b -> grid a x -> grid b x.
Proof. intros L (z & H & X). exists z. split; auto. assert (0 <= 2 ^ Z.of_nat T)%Z by (apply Z.pow_nonneg; lia). nia. Qed.
Lemma grid_float p c x : (Z.of_nat c * 2 ^ Z.of_nat T <= 2 ^ p)%Z -> grid c x -> float_number p x.
Proof. intros L (z & H & X). exists z, (- Z.of_nat T)%Z. split; [rewrite Z.abs_eq; lia|auto]. Qed.
Lemma grid_frac M b : wf M b -> depends_below T b -> grid 1 (frac b).
Proof.
  intros W D. destruct b as [c nd]. pose proof (height_below M T (c, nd) W D) as Hh. cbn [snd] in Hh.
  destruct (fracn_grid nd c) as (z & Hz & E). unfold frac. cbn [fst snd]. exists (z * 2 ^ Z.of_nat (T - height nd))%Z.
  assert (P : (0 <= 2 ^ Z.of_nat (T - height nd))%Z) by (apply Z.pow_nonneg; lia).
  assert (X : (2 ^ Z.of_nat T = pow2 (height nd) * 2 ^ Z.of_nat (T - height nd))%Z).
  { unfold pow2. rewrite <- Z.pow_add_r by lia. f_equal. lia. }
  split; [rewrite X; nia|]. rewrite E, inject_Z_mult, <- Qmult_assoc. apply Qmult_comp; [reflexivity|].
  transitivity (2 ^ Z.of_nat (T - height nd) * 2 ^ (- Z.of_nat T))%Q.
  - rewrite <- p2_add. replace (Z.of_nat (T - height nd) + - Z.of_nat T)%Z with (- Z.of_nat (height nd))%Z by lia. reflexivity.
  - apply Qmult_comp; [|reflexivity]. apply p2_inj. lia.
Qed.
End Grid.

Section Efficient.
Variable rnd : Q -> Q.
Hypothesis HR : rounds_to_nearest 53 rnd.
Variable M : mgr.
Variables (rm : Z) (draws : nat -> Z) (d : list bdd) (samples : Z).
Let T := read_size M.
Hypothesis Wd : wfs M d.
Hypothesis Bd : below T d.
Hypothesis HT : (Z.of_nat (length d) * 2 ^ Z.of_nat T <= 2 ^ 53)%Z.

Let near := rn_near 53 rnd HR.
Let keeps := rn_keeps 53 rnd HR.
Let P53 : (1 <= 53)%Z := ltac:(lia).

Lemma small_float c x : c <= length d -> grid T c x -> float_number 53 x.
Proof.
  intros L G. apply (grid_float T 53 (length d)); auto. apply (grid_mono T c); auto.
Qed.
Lemma keeps_eq x y : (x == y)%Q -> float_number 53 y -> (rnd x == y)%Q.
Proof. intros E F. transitivity x; auto. apply keeps. apply (float_eq 53 x y E F). Qed.

Lemma valid_grid p : valid d p -> grid T 1 (snd p).
Proof.
  intro V. pose proof V as [V1 V2]. destruct (valid_get M d Wd Bd p V) as (_ & Wp & Bp).
  apply (grid_eq T 1 _ _ V2). now apply (grid_frac T M).
Qed.
Lemma rates_grid l : Forall (valid d) l -> grid T (length l) (rates l).
Proof.
  induction 1 as [|p l H F IH]; [apply (grid_eq T 0 _ 0); [reflexivity|apply grid_zero]|].
  rewrite rates_cons. cbn [length]. apply (grid_plus T 1); auto. now apply valid_grid.
Qed.
Lemma fold_rates_fl l : Forall (valid d) l -> forall c s s', (s == s')%Q -> grid T c s' -> c + length l <= length d ->
  (fold_left (fun s p => rnd (s + snd p))%Q l s == s' + rates l)%Q.
Proof.
  induction 1 as [|p l H F IH]; intros c s s' E G L; cbn [fold_left length] in *.
  - rewrite E. unfold rates. cbn [map]. rewrite sumQ_nil. lra.
  - rewrite (IH (c + 1) _ (s' + snd p)%Q).
    + rewrite rates_cons. lra.
    + apply keeps_eq; [now rewrite E|]. apply (small_float (c + 1)); [lia|]. apply grid_plus; auto. now apply valid_grid.
    + apply grid_plus; auto. now apply valid_grid.
    + lia.
Qed.

Lemma activations_fl_spec : 1 <= length d ->
  Forall (valid d) (activations_fl rnd d T) /\ map fst (activations_fl rnd d T) = seq 0 (length d).
Proof.
  intro H1. unfold activations_fl. rewrite combine_seq, map_map. cbn [fst snd]. split.
  - apply Forall_forall. intros p Hp. apply in_map_iff in Hp. destruct Hp as (i & <- & Hi). apply in_seq in Hi.
    unfold valid. cbn [fst snd]. split; [lia|]. rewrite Nat.sub_0_r. set (b := nth i d bzero).
    assert (Hb : In b d) by (apply nth_In; lia). pose proof Bd as B'. unfold below in B'. rewrite Forall_forall in Wd, B'.
    pose proof (height_below M T b (Wd b Hb) (B' b Hb)) as Hh.
    assert (HT' : (Z.of_nat T <= 53)%Z).
    { assert (X : (2 ^ Z.of_nat T <= 2 ^ 53)%Z) by (assert (0 < 2 ^ Z.of_nat T)%Z by (apply Z.pow_pos_nonneg; lia); nia).
      apply (Z.pow_le_mono_r_iff 2) in X; lia. }
    apply keeps_eq.
    + rewrite <- (CountMinterm_ratio b (T - 1)). unfold Qdiv. apply Qmult_comp; [|reflexivity].
      apply (CountMinterm_fl_exact 53 rnd keeps). lia.
    + apply fracn_float0. lia.
  - rewrite map_map. cbn [fst]. apply map_id.
Qed.

Hypothesis Hs : (1 <= samples < 2 ^ 31)%Z.
Variables (first maximum_rate W : Q).
Hypothesis EW : (rnd (maximum_rate - first) == W)%Q.
Hypothesis PW : (0 < W)%Q.
Hypothesis GW : grid T (length d) W.

(** the number of samples for one output *)
Lemma index_samples_fl_spec rate : (0 <= rate <= W)%Q ->
  exists q, fdiv_fl rnd (rnd (inject_Z samples * rate)) (rnd (maximum_rate - first)) = Fin q
    /\ let k := Z.quot (Qnum q) (Zpos (Qden q)) in
       (0 <= k < 2 ^ 31)%Z /\ (k = 0%Z -> (inject_Z samples * rate < W)%Q)
       /\ ((rate == 0)%Q -> k = 0%Z).
Proof.
  intro Hr. unfold fdiv_fl, fdiv. destruct (Qeq_bool (rnd (maximum_rate - first)) 0) eqn:E; [apply Qeq_bool_iff in E; lra|].
  eexists. split; [reflexivity|]. set (W' := rnd (maximum_rate - first)) in *. set (num := rnd (inject_Z samples * rate)).
  assert (PW' : (0 < W')%Q) by lra.
  assert (P : (1 <= inject_Z samples)%Q) by (apply (proj2 (injZ_le 1 samples)); lia).
  assert (S31 : (inject_Z samples <= inject_Z (2 ^ 31))%Q) by (apply (proj2 (injZ_le _ _)); lia).
  assert (X0 : (0 <= inject_Z samples * rate)%Q) by (apply Qmult_le_0_compat; lra).
  assert (N0 : (0 <= num)%Q) by (apply (rn_nonneg 53 rnd P53 HR); auto).
  assert (Q0 : (0 <= rnd (num / W'))%Q) by (apply (rn_nonneg 53 rnd P53 HR); apply le_div_iff; auto; lra).
  assert (N1 : (num <= (1 + 2 ^ (-53)) * (inject_Z samples * W))%Q).
  { pose proof (rounds_relative 53 rnd P53 HR (inject_Z samples * rate)%Q) as RE. fold num in RE. rewrite (Qabs_pos _ X0) in RE.
    pose proof (Qle_Qabs (num - inject_Z samples * rate)) as A.
    assert (L : (inject_Z samples * rate <= inject_Z samples * W)%Q) by (apply Qmult_le_l'; lra).
    change (- (53))%Z with (-53)%Z in RE. assert (0 <= 2 ^ (-53))%Q by (vm_compute; discriminate).
    set (e := (2 ^ (-53))%Q) in *. set (y := (inject_Z samples * rate)%Q) in *. set (w := (inject_Z samples * W)%Q) in *. nra. }
  assert (Q1 : (rnd (num / W') <= inject_Z samples + (1 # 2))%Q).
  { apply (near_le 53 rnd near).
    - exists (2 * samples + 1)%Z, (-1)%Z. split; [rewrite Z.abs_eq; lia|]. rewrite inject_Z_plus, inject_Z_mult.
      change (2 ^ (-1))%Q with (1 # 2)%Q. change (inject_Z 2) with 2%Q. change (inject_Z 1) with 1%Q. ring.
    - apply div_le_iff; auto. eapply Qle_trans; [exact N1|]. rewrite EW.
      assert (E1 : ((1 + 2 ^ (-53)) * (inject_Z samples * W) == (inject_Z samples + inject_Z samples * 2 ^ (-53)) * W)%Q) by ring.
      rewrite E1. apply Qmult_le_compat_r; [|lra]. apply Qplus_le_compat; [apply Qle_refl|].
      eapply Qle_trans; [apply Qmult_le_compat_r; [exact S31|vm_compute; discriminate]|]. vm_compute. discriminate. }
  destruct (quot_floor _ Q0) as (K0 & K1 & K2). cbv zeta. set (k := Z.quot _ _) in *.
  assert (k < samples + 1)%Z.
  { rewrite Zlt_Qlt. rewrite inject_Z_plus. change (inject_Z 1) with 1%Q. lra. }
  split; [lia|]. split.
  - intro E0. rewrite E0 in K2. change (inject_Z 0) with 0%Q in K2.
    destruct (Qlt_le_dec (inject_Z samples * rate) W) as [|L]; auto. exfalso.
    assert (N2 : (W <= num)%Q) by (apply (near_ge 53 rnd near); auto; apply (small_float (length d)); auto).
    assert (1 <= rnd (num / W'))%Q; [|lra]. apply (near_ge 53 rnd near).
    + apply (float_int 53 1). lia.
    + apply le_div_iff; auto. lra.
  - intro E0. assert (N2 : (num == 0)%Q) by (apply (rn_zero 53 rnd P53 HR); rewrite E0; ring).
    assert (N3 : (rnd (num / W') == 0)%Q) by (apply (rn_zero 53 rnd P53 HR); rewrite N2; field; lra).
    assert (inject_Z k <= inject_Z 0)%Q as L by (change (inject_Z 0) with 0%Q; lra).
    apply (proj1 (injZ_le _ _)) in L. lia.
Qed.

Lemma efficient_loop_fl_spec : forall rest previous pos r b c, Forall (valid d) rest ->
  Forall (fun p => snd p <= W)%Q rest -> wfs M previous -> below T previous ->
  float_number 53 r -> (0 <= r <= b)%Q -> grid T c b -> c + length rest <= length d ->
  exists r', efficient_loop_fl rnd rm draws d T samples first maximum_rate rest previous pos r = Ok r'
    /\ (r <= r' <= b + rates rest)%Q.
Proof.
  induction rest as [|[k rate] rest IH]; intros previous pos r b c V L Wp Bp Fr Hr Gb Lc; cbn [efficient_loop_fl].
  - exists r. split; auto. unfold rates. cbn [map]. rewrite sumQ_nil. lra.
  - inversion V as [|? ? V1 V2]; inversion L as [|? ? L1 L2]; subst.
    destruct (valid_get M d Wd Bd _ V1) as (G & Wk & Bk). cbn [fst] in G, Wk, Bk. rewrite G. cbn [bind].
    pose proof (valid_nonneg d _ V1) as R0. cbn [snd] in R0, L1. rewrite rates_cons. cbn [snd length] in *.
    pose proof (valid_grid _ V1) as Gr. cbn [snd] in Gr.
    assert (Gb' : grid T (c + 1) (b + rate)) by now apply grid_plus.
    destruct (index_samples_fl_spec rate (conj R0 L1)) as (q & -> & K). cbv zeta in K. set (n := Z.quot _ _) in *.
    assert (E1 : (- 2 ^ 63 <=? n)%Z = true) by (apply Z.leb_le; lia).
    assert (E2 : (n <? 2 ^ 63)%Z = true) by (apply Z.ltb_lt; lia). rewrite E1, E2. cbn [andb require_ bind].
    assert (Wp' : wfs M (previous ++ [nth k d bzero])) by (apply Forall_app; auto).
    assert (Bp' : below T (previous ++ [nth k d bzero])) by (apply Forall_app; auto).
    destruct (Z.eqb_spec n 0) as [En|En].
    + destruct (IH (previous ++ [nth k d bzero]) pos r b c V2 L2 Wp' Bp' Fr Hr Gb ltac:(lia)) as (r' & -> & H). exists r'. split; auto. lra.
    + assert (E3 : (n <? 2 ^ 31)%Z = true) by (apply Z.ltb_lt; lia). rewrite E3. cbn [require_ bind].
      destruct (good_loop_spec M T (random_sampler_fl rnd rm T) draws (nth k d bzero) previous (random_sampler_fl_total rnd rm T) Wp Bp (Z.to_nat n) pos 0)
        as (g & -> & Hg). cbn [bind].
      rewrite Z2Nat.id in Hg by lia. cbv zeta.
      set (gf := rnd (inject_Z g / inject_Z n)%Q). assert (Pn : (0 < inject_Z n)%Q) by (apply injZ_pos; lia).
      assert (G0 : (0 <= gf)%Q) by (apply (rn_nonneg 53 rnd P53 HR); apply le_div_iff; auto; rewrite Qmult_0_l; apply injZ_nonneg; lia).
      assert (G1 : (gf <= 1)%Q) by (apply (rn_le1 53 rnd P53 HR); apply div_le_iff; auto; rewrite Qmult_1_l; apply (proj2 (injZ_le _ _)); lia).
      set (t := rnd (rate * gf)%Q).
      assert (T0 : (0 <= t)%Q) by (apply (rn_nonneg 53 rnd P53 HR); apply Qmult_le_0_compat; auto).
      assert (T1 : (t <= rate)%Q).
      { apply (near_le 53 rnd near); [apply (small_float 1); [lia|auto]|].
        assert (rate * gf <= rate * 1)%Q by (apply Qmult_le_l'; auto). lra. }
      assert (R1 : (r <= rnd (r + t))%Q) by (apply (near_ge 53 rnd near); auto; lra).
      assert (R2 : (rnd (r + t) <= b + rate)%Q) by (apply (near_le 53 rnd near); [apply (small_float (c + 1)); [lia|auto]|lra]).
      destruct (IH (previous ++ [nth k d bzero]) (pos + Z.to_nat n * T) (rnd (r + t)) (b + rate)%Q (c + 1) V2 L2 Wp' Bp') as (r' & -> & H); auto; try lia.
      * apply (rn_float 53 rnd HR).
      * split; lra.
      * exists r'. split; auto. lra.
Qed.

Lemma efficient_loop_fl_exact v : index_order M -> (forall i, 0 < draws i <= rm)%Z ->
  forall rest previous pos r b c, Forall (valid d) rest ->
  Forall (fun p => snd p <= W)%Q rest -> wfs M previous -> below T previous -> (r == b)%Q -> grid T c b -> c + length rest <= length d ->
  (v = false -> Forall (fun p => (snd p == 0)%Q \/ (W <= inject_Z samples * snd p)%Q) rest) ->
  (forall pre p post, rest = pre ++ p :: post -> forall a, ev (nth (fst p) d bzero) a = true ->
     existsb (fun b => ev b a) (previous ++ map (fun p => nth (fst p) d bzero) pre) = v) ->
  exists r', efficient_loop_fl rnd rm draws d T samples first maximum_rate rest previous pos r = Ok r'
    /\ (r' == if v then b else b + rates rest)%Q.
Proof.
  intros HX Hd. induction rest as [|[k rate] rest IH]; intros previous pos r b c V L Wp Bp Er Gb Lc Hk Hv; cbn [efficient_loop_fl].
  - exists r. split; auto. unfold rates. cbn [map]. rewrite sumQ_nil. destruct v; lra.
  - inversion V as [|? ? V1 V2]; inversion L as [|? ? L1 L2]; subst.
    destruct (valid_get M d Wd Bd _ V1) as (G & Wk & Bk). cbn [fst] in G, Wk, Bk. rewrite G. cbn [bind].
    pose proof (valid_nonneg d _ V1) as R0. cbn [snd] in R0, L1. rewrite rates_cons. cbn [snd length] in *.
    pose proof (valid_grid _ V1) as Gr. cbn [snd] in Gr.
    assert (Gb' : grid T (c + 1) (b + rate)) by now apply grid_plus.
    assert (K1 : v = false -> (rate == 0)%Q \/ (W <= inject_Z samples * rate)%Q) by (intro Ev; specialize (Hk Ev); inversion Hk; auto).
    assert (K2 : v = false -> Forall (fun p => (snd p == 0)%Q \/ (W <= inject_Z samples * snd p)%Q) rest) by (intro Ev; specialize (Hk Ev); inversion Hk; auto).
    destruct (index_samples_fl_spec rate (conj R0 L1)) as (q & -> & K). cbv zeta in K. set (n := Z.quot _ _) in *.
    assert (E1 : (- 2 ^ 63 <=? n)%Z = true) by (apply Z.leb_le; lia).
    assert (E2 : (n <? 2 ^ 63)%Z = true) by (apply Z.ltb_lt; lia). rewrite E1, E2. cbn [andb require_ bind].
    assert (Wp' : wfs M (previous ++ [nth k d bzero])) by (apply Forall_app; auto).
    assert (Bp' : below T (previous ++ [nth k d bzero])) by (apply Forall_app; auto).
    assert (Hv' : forall pre p post, rest = pre ++ p :: post -> forall a, ev (nth (fst p) d bzero) a = true ->
      existsb (fun b => ev b a) ((previous ++ [nth k d bzero]) ++ map (fun p => nth (fst p) d bzero) pre) = v).
    { intros pre p post E a Ha. rewrite <- app_assoc. apply (Hv ((k, rate) :: pre) p post); auto. now rewrite E. }
    destruct (Z.eqb_spec n 0) as [En|En].
    + destruct (IH (previous ++ [nth k d bzero]) pos r b c V2 L2 Wp' Bp' Er Gb ltac:(lia) K2 Hv') as (r' & -> & H). exists r'. split; auto.
      destruct K as (_ & K3 & _). specialize (K3 En). destruct v; [exact H|]. destruct (K1 eq_refl) as [K4|K4]; [|lra]. rewrite H. lra.
    + assert (E3 : (n <? 2 ^ 31)%Z = true) by (apply Z.ltb_lt; lia). rewrite E3. cbn [require_ bind].
      assert (Sat : exists a, ev (nth k d bzero) a = true).
      { destruct (is_zero (nth k d bzero)) eqn:Ez; [|now apply (is_zero_false M)].
        exfalso. apply En. apply K. destruct V1 as [_ V1]. cbn [fst snd] in V1. rewrite V1.
        apply (frac_zero_iff M); auto. apply (canonical M); auto with wf. intro a. rewrite (is_zero_sem M) in Ez by auto. rewrite Ez. reflexivity. }
      rewrite (good_loop_exact M T rm (random_sampler_fl rnd rm T) draws (nth k d bzero) previous v Wp Bp
        (random_sampler_fl_sound 53 rnd M rm T P53 HR HX ltac:(specialize (Hd 0); lia)) Hd Wk Bk Sat);
        [|intros a Ha; rewrite <- (app_nil_r previous); apply (Hv [] (k, rate) rest); auto].
      cbn [bind]. cbv zeta. rewrite Z.add_0_l, Z2Nat.id by lia.
      assert (Pn : (0 < inject_Z n)%Q) by (apply injZ_pos; lia).
      assert (X : (rnd (r + rnd (rate * rnd (inject_Z (if v then 0 else n) / inject_Z n))) == if v then b else b + rate)%Q).
      { assert (GF : (rnd (inject_Z (if v then 0 else n) / inject_Z n) == if v then 0 else 1)%Q).
        { destruct v; apply keeps_eq; try (field; lra); [apply (float_int 53 0)|apply (float_int 53 1)]; lia. }
        assert (TT : (rnd (rate * rnd (inject_Z (if v then 0 else n) / inject_Z n)) == if v then 0 else rate)%Q).
        { destruct v; apply keeps_eq; try (rewrite GF; ring); [apply (float_int 53 0); lia|]. apply (small_float 1); [lia|auto]. }
        destruct v; apply keeps_eq; try (rewrite TT, Er; ring).
        - apply (small_float c); [lia|auto].
        - apply (small_float (c + 1)); [lia|auto]. }
      destruct (IH (previous ++ [nth k d bzero]) (pos + Z.to_nat n * T) _ (if v then b else b + rate)%Q (c + 1) V2 L2 Wp' Bp' X) as (r' & E & H); auto.
      * destruct v; [apply (grid_mono T c); [lia|auto]|auto].
      * lia.
      * rewrite E. exists r'. split; auto. rewrite H. destruct v; lra.
Qed.
End Efficient.
