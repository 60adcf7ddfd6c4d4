(** The rounds of wcre_randomized_search with doubles *)
From Coq Require Import List Bool Arith ZArith QArith Qround Qpower Lia Lqa.
From Verif Require Import Res Cudd CuddFacts Spec SpecSearch SpecFloat SpecFacts Helpers HelpersFacts HelpersFacts2 Counting AddFacts CountFacts PathFacts Metrics MetricsFacts MetricsFacts2
  MetricsFacts3 MetricsFacts4 RelMetrics RelFacts RelFacts2 RelFacts3 SearchFacts Rounded RoundedAdd RoundedMinimize RoundedRel RoundedRelFacts.
Import ListNotations.
Open Scope nat_scope.

Lemma randomized_rounds_fl rnd M clog2 rm draws f g samples r fuel x : clog2_ok clog2 -> wfs M f -> wfs M g ->
  below (read_size M) f -> below (read_size M) g -> f <> [] -> (r = TwosComplement -> g <> []) ->
  Nat.max (length f) (length g) <= 62 ->
  wcre_randomized_search_fl rnd M clog2 rm draws f g samples r fuel = Some x ->
  exists c e, x = Ok (c, e) /\ (0 < e)%Z
  /\ ((wcre_randomized_search_fl rnd M clog2 rm draws f g samples r 0 = Some x
       /\ ((inject_Z c / inject_Z e == 0)%Q \/ exists z, (inject_Z c / inject_Z e == Qpower 2 z)%Q))
      \/ exists z k m, k < fuel /\ wcre_randomized_search_fl rnd M clog2 rm draws f g samples r k = None
         /\ (m == inject_Z c / inject_Z e)%Q /\ (Qpower 2 z < m < 2 * Qpower 2 z)%Q
         /\ search_run M (fun h l => random_satisfying_input_fl rnd rm h (count_minterms_fl rnd h) (read_size M) l) asg_ints draws (read_size M)
              (wrel r f g) samples k 0 (Qpower 2 z) m).
Proof.
  intros HC Wf Wg Bf Bg Hf Hg HL HS.
  destruct (randomized_search_fl_exact M clog2 rnd rm draws f g samples r fuel x HC Wf Wg Bf Bg Hf Hg HL HS) as (c' & e' & Ex & He' & Hmax).
  exists c', e'. split; [exact Ex|]. split; [exact He'|].
  pose proof (start_shape M clog2 _ f g r HC eq_refl Wf Wg Bf Bg Hf Hg HL) as SH. revert HS. unfold wcre_randomized_search_fl.
  destruct (rs_start_spec M clog2 _ f g r HC eq_refl Wf Wg Bf Bg Hf Hg HL) as (d & f_ & Ld & Lf & Wd & Wf_ & Bd & Bf_ & V & [(c & e & E & H)|(lg & c & e & E & H & Wlg & Slg)]); rewrite E in *.
  - intros [= <-]. injection Ex as <- <-. left. split; auto.
  - intro HS. right. destruct H as (H1 & H2 & H3). destruct SH as ((z & Hz) & HB).
    assert (HF : forall a, (1 <= uval f_ a)%Z) by (intro a; destruct (V a) as (_ & ->); lia).
    assert (I0 : inv d f_ c e c e) by (repeat split; try lia).
    destruct (loop_run M clog2 HC d f_ Wd Wf_ Bd Bf_ Ld Lf HF c e H1 H2 H3 lg Wlg Slg _ draws samples (random_sampler_fl_total rnd rm (read_size M)) fuel 0 c e x I0 HS)
      as (c2 & e2 & k & m & Ex' & Hk & HN & Hm & HR).
    rewrite Ex in Ex'. injection Ex' as <- <-.
    assert (EE : forall a, ratio (uval d a) (uval f_ a) = wrel r f g a).
    { intro a. destruct (V a) as [V1 V2]. unfold ratio, wrel. now rewrite V1, V2. }
    destruct (run_ext _ _ _ _ _ _ (wrel r f g) samples EE _ _ _ _ _ HR Hz) as (m' & Hm' & HR').
    exists z, k, m'. split; [exact Hk|]. split; [exact HN|]. unfold ratio in Hm. split; [lra|]. split; [|exact HR'].
    destruct Hmax as [(a & Ha) HU]. split.
    + destruct H3 as (b & Hb). apply (better_ratio M d f_ Ld Lf HF) in Hb; [|lia]. rewrite EE in Hb. specialize (HU b). lra.
    + specialize (HB a). rewrite EE in HB. lra.
Qed.
Lemma randomized_few_rounds_fl rnd M clog2 rm draws f g samples r L : rounds_to_nearest 53 rnd -> clog2_ok clog2 -> index_order M ->
  wfs M f -> wfs M g ->
  below (read_size M) f -> below (read_size M) g -> f <> [] -> (r = TwosComplement -> g <> []) ->
  Nat.max (length f) (length g) <= 62 -> 0 < samples -> (forall i, 0 < draws i <= rm)%Z ->
  (forall a, exists q, In q L /\ (q == wrel r f g a)%Q) ->
  forall fuel, length L < fuel ->
  exists x, wcre_randomized_search_fl rnd M clog2 rm draws f g samples r fuel = Some x.
Proof.
  intros HN HC HX Wf Wg Bf Bg Hf Hg HL Hs Hd HQ fuel Hfuel. unfold wcre_randomized_search_fl.
  destruct (rs_start_spec M clog2 _ f g r HC eq_refl Wf Wg Bf Bg Hf Hg HL) as (d & f_ & Ld & Lf & Wd & Wf_ & Bd & Bf_ & V & [(c & e & -> & H)|(lg & c & e & -> & H & Wlg & Slg)]).
  - eauto.
  - destruct H as (H1 & H2 & H3).
    assert (HF : forall a, (1 <= uval f_ a)%Z) by (intro a; destruct (V a) as (_ & ->); lia).
    assert (EE : forall a, ratio (uval d a) (uval f_ a) = wrel r f g a).
    { intro a. destruct (V a) as [V1 V2]. unfold ratio, wrel. now rewrite V1, V2. }
    apply (loop_ends M clog2 HC d f_ Wd Wf_ Bd Bf_ Ld Lf HF c e H1 H2 lg Wlg Slg _ rm draws samples L); auto.
    + apply random_sampler_fl_total.
    + apply (random_sampler_fl_sound 53); auto; [lia|]. specialize (Hd 0). lia.
    + intro a. rewrite EE. apply HQ.
    + repeat split; try lia.
    + unfold above. pose proof (filter_len (fun x => negb (Qle_bool x (ratio c e))) L). lia.
Qed.
