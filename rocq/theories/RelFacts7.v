(** Exact values of error_rate_sampling and worst_case_relative_error_symbolic_division *)
From Coq Require Import List Bool Arith ZArith QArith Qround Lia Lqa.
From Verif Require Import Res Cudd CuddFacts Spec SpecFacts Helpers HelpersFacts HelpersFacts2 Counting Metrics MetricsFacts MetricsFacts2 MetricsFacts3 MetricsFacts4 RelMetrics RelFacts RelFacts2 RelFacts3 RelFacts4.
Import ListNotations.
Open Scope nat_scope.

Lemma rem_odd x : (0 <= x)%Z -> (Z.rem x 2 =? 1)%Z = Z.odd x.
Proof. intro H. rewrite Z.rem_mod_nonneg, Zmod_odd by lia. destruct (Z.odd x); reflexivity. Qed.

Lemma sample_ev M T d draws k : wfs M d -> below T d -> (forall i, 0 <= draws i)%Z ->
  existsb (fun b => ev b (asg_ints (map (fun i => Z.rem (draws i) 2) (seq (k * T) T)))) d
  = existsb (fun b => ev b (sample draws T k)) d.
Proof.
  intros W B Hd. unfold below in B. induction d as [|b d IH]; [reflexivity|]. cbn [existsb].
  inversion W; inversion B; subst. f_equal; [|auto]. apply H5. intros i Hi. unfold asg_ints, sample.
  rewrite (nth_indep _ 0%Z (Z.rem (draws 0) 2)) by (now rewrite map_length, seq_length).
  rewrite map_nth with (f := fun i => Z.rem (draws i) 2), seq_nth by auto. now apply rem_odd.
Qed.

Lemma sampling_loop_exact M T d draws : wfs M d -> below T d -> (forall i, 0 <= draws i)%Z -> forall n k e,
  sampling_loop d draws T n (k * T) e
  = Ok (e + Z.of_nat (length (filter (fun k => existsb (fun b => ev b (sample draws T k)) d) (seq k n))))%Z.
Proof.
  intros W B Hd. induction n as [|n IH]; intros k e; cbn [sampling_loop seq filter].
  - cbn [length]. f_equal. lia.
  - rewrite (any_one_spec M T) by (auto; now rewrite map_length, seq_length). cbn [bind].
    rewrite (sample_ev M T d draws k) by auto. replace (k * T + T) with (S k * T) by lia. rewrite IH.
    destruct (existsb _ d); cbn [length]; f_equal; lia.
Qed.

Lemma error_rate_sampling_exact M draws f g samples : length f = length g -> wfs M f -> wfs M g ->
  below (read_size M) f -> below (read_size M) g -> (1 <= samples < 2 ^ 31)%Z -> (forall i, 0 <= draws i)%Z ->
  exists q, error_rate_sampling M draws f g samples = Ok (Fin q)
    /\ (q == inject_Z (Z.of_nat (length (filter (fun k => differ f g (sample draws (read_size M) k)) (seq 0 (Z.to_nat samples)))))
             / inject_Z samples)%Q.
Proof.
  intros HL Wf Wg Bf Bg Hs Hd. unfold error_rate_sampling.
  destruct (differences_spec M _ f g HL Wf Wg Bf Bg) as (d & -> & Ld & Wd & Bd & Nd & Ed). cbn [bind].
  assert (E : (samples <? 2 ^ 31)%Z = true) by (apply Z.ltb_lt; lia). rewrite E. cbn [require_ bind].
  pose proof (sampling_loop_exact M _ d draws Wd Bd Hd (Z.to_nat samples) 0 0) as R. cbn [Nat.mul] in R. rewrite R. cbn [bind].
  rewrite fdiv_pos by lia. eexists. split; [reflexivity|]. rewrite Z.add_0_l.
  erewrite filter_ext; [reflexivity|]. intro k. apply Ed.
Qed.

Lemma wcre_division_exact M n f g e r : wfs M f -> wfs M g -> below n f -> below n g -> f <> [] ->
  (r = TwosComplement -> g <> []) -> Nat.max (length f) (length g) + e <= 256 ->
  exists m, wcre_symbolic_division M f g e r = Ok (inject_Z m / inject_Z (2 ^ Z.of_nat e))%Q
    /\ is_max (fun a => Qfloor (wrel r f g a * inject_Z (2 ^ Z.of_nat e))) m.
Proof.
  intros Wf Wg Bf Bg Hf Hg L. unfold wcre_symbolic_division.
  destruct (divided_spec M n f g e r Wf Wg Bf Bg Hf Hg) as (d & -> & _ & Wd & _ & V). cbn [bind].
  eexists. split; [reflexivity|].
  apply is_max_ext with (F := uval d).
  - intro a. rewrite V. unfold wrel. set (m := Z.max 1 _). assert (Hm : (0 < m)%Z) by lia. clearbody m.
    assert (E : (inject_Z (wrapped r f g a) / inject_Z m * inject_Z (2 ^ Z.of_nat e) == (wrapped r f g a * 2 ^ Z.of_nat e) # Z.to_pos m)%Q).
    { rewrite (Qmake_Qdiv (wrapped r f g a * 2 ^ Z.of_nat e)), Z2Pos.id by auto. rewrite inject_Z_mult. field.
      pose proof (injZ_pos m Hm). lra. }
    rewrite (Qfloor_comp _ _ E). cbn [Qfloor]. now rewrite Z2Pos.id.
  - apply get_max_value_bounded; auto. intro a. rewrite V. pose proof (wrapped_range r f g a Hf Hg) as H.
    assert (wrapped r f g a * 2 ^ Z.of_nat e < 2 ^ 256)%Z.
    { apply Z.lt_le_trans with (pow2 (Nat.max (length f) (length g)) * pow2 e)%Z.
      - apply Z.mul_lt_mono_pos_r; [apply pow2_pos|apply H].
      - rewrite <- pow2_add. now apply pow2_256. }
    eapply Z.le_lt_trans; [|eassumption].
    assert (0 <= wrapped r f g a * 2 ^ Z.of_nat e)%Z by (apply Z.mul_nonneg_nonneg; lia).
    apply Z.div_le_upper_bound; [lia|]. set (w := (wrapped r f g a * 2 ^ Z.of_nat e)%Z) in *. nia.
Qed.
