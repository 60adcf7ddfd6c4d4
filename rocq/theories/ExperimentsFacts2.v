(** Proofs about the sampling experiments and the errors of iscas85.cpp *)
From Coq Require Import String List Bool Arith ZArith QArith Qabs Lia Lqa.
From Verif Require Import Res Cudd CuddFacts Spec SpecFacts SpecBenchmark SpecSampling Helpers HelpersFacts HelpersFacts2
  Counting Metrics MetricsFacts MetricsFacts2 MetricsFacts3 MetricsFacts4 MetricsFacts5 MetricsFacts6 RelMetrics RelFacts RelFacts4 RelFacts6
  Operators Benchmark SamplingFacts2 SamplingFacts4 Experiments ExperimentsFacts.
Import ListNotations.
Open Scope nat_scope.

(** ** iscas85.cpp *)
Lemma iscas_error M n op level f metric : wfs M f -> below n f -> List.length f + n < 256 ->
  metric = ERROR_RATE_ \/ metric = WORST_CASE_ \/ metric = AVERAGE_CASE_ ->
  exists g q, iscas_rounded M op level f = Ok g /\ benchmark_iscas85 M op level metric f = Ok (Fin q) /\ metric_of n f g metric q.
Proof.
  intros W B HN Hm. destruct (iscas_ok M n op level f W B) as (g & E & Wg & L & Bg & _).
  exists g. unfold benchmark_iscas85, metric_value. rewrite E. cbn [bind]. unfold bdd in *.
  destruct Hm as [-> | [-> | ->]]; cbn [compute_error_metric metric_of].
  - destruct (error_rate_spec M n f g W Wg B Bg) as (q & -> & V); [unfold bdd in *; lia|]. exists q. auto.
  - destruct (wce_base_full M f g g W Wg Wg) as (m & -> & V & _); try (unfold bdd in *; lia). exists (inject_Z m). split; auto. split; [reflexivity|].
    exists m. split; [exact V|reflexivity].
  - destruct (ace_full M n f g W Wg B Bg) as [(q & _ & _ & -> & V & _) _]; [unfold bdd in *; lia|]. exists q. auto.
Qed.

(** ** sampling_methods.cpp *)
Lemma zero_wrong f i a : i < List.length f -> wrong f (repeat bzero (List.length f)) i a = ev (nth i f bzero) a.
Proof.
  intro H. unfold wrong. rewrite nth_repeat, ev_zero. now destruct (ev _ a).
Qed.
Lemma zero_differ f a : differ f (repeat bzero (List.length f)) a = existsb (fun b => ev b a) f.
Proof.
  induction f as [|b f IH]; [reflexivity|]. cbn [List.length repeat differ existsb]. rewrite IH, ev_zero. now destruct (ev b a).
Qed.
Lemma zero_rate n f i : i < List.length f -> (output_rate n f (repeat bzero (List.length f)) i == density n (nth i f bzero))%Q.
Proof. intro H. apply average_ext. intro a. now rewrite zero_wrong. Qed.
Lemma zero_wfs M n (f : list bdd) : wfs M (repeat bzero (List.length f)) /\ below n (repeat bzero (List.length f)).
Proof.
  split; apply Forall_forall; intros b Hb; apply repeat_spec in Hb; subst; [apply wf_zero|]. intros a a' _. now rewrite !ev_zero.
Qed.
Lemma nth_seq_list (f : list bdd) : map (fun i => nth i f bzero) (seq 0 (List.length f)) = f.
Proof.
  induction f as [|b f IH]; [reflexivity|]. cbn [List.length seq map nth]. f_equal. rewrite <- seq_shift, map_map. exact IH.
Qed.
Lemma densities n f : (sumQ (map (output_rate n f (repeat bzero (List.length f))) (seq 0 (List.length f))) == sumQ (map (density n) f))%Q.
Proof.
  rewrite (sumQ_map_ext _ (fun i => density n (nth i f bzero))).
  - rewrite <- (map_map (fun i => nth i f bzero) (density n)). rewrite nth_seq_list. reflexivity.
  - intros i Hi. apply in_seq in Hi. apply zero_rate. lia.
Qed.

Definition two_sat (f : list bdd) : Prop :=
  exists i j, i < List.length f /\ j < List.length f /\ i <> j
    /\ (exists a, ev (nth i f bzero) a = true) /\ (exists a, ev (nth j f bzero) a = true).
Lemma zero_two f : two_sat f <-> two_wrong f (repeat bzero (List.length f)).
Proof.
  unfold two_sat, two_wrong. split; intros (i & j & Hi & Hj & Hij & (a & Ha) & (b & Hb)); exists i, j; (split; [exact Hi|]); (split; [exact Hj|]); (split; [exact Hij|]).
  - split; [exists a|exists b]; now rewrite zero_wrong.
  - rewrite zero_wrong in Ha, Hb by auto. split; [now exists a|now exists b].
Qed.

Lemma sampling_method_ok M sort r f samples : sorts_down sort -> index_order M -> Nat.Odd r -> wfs M f ->
  let n := read_size M in
  below n f -> 1 <= n -> (1 <= samples < 2 ^ 31)%Z ->
  let k := Z.to_nat samples * n in
  let p := average n (fun a => b2q (existsb (fun b => ev b a) f)) in
  (exists X : list Z -> Q,
     (forall l, draw_list r k l -> sampling_method M sort (Z.of_nat r) (draws_from l) false samples f = Ok (Fin (X l)))
     /\ (expectation r k X == p)%Q /\ (expectation r k (fun l => (X l - p) * (X l - p)) == p * (1 - p) / inject_Z samples)%Q)
  /\ (two_sat f -> forall worst, worst < List.length f -> (forall b, In b f -> (density n b <= density n (nth worst f bzero))%Q) ->
      let others := (sumQ (map (density n) f) - density n (nth worst f bzero))%Q in
      let bias := (inject_Z (Z.of_nat (List.length f - 1)) * others / inject_Z samples
                   + others * (inject_Z (Z.of_nat n) / inject_Z (Z.of_nat (S r))))%Q in
      exists X : list Z -> Q,
        (forall l, draw_list r k l -> sampling_method M sort (Z.of_nat r) (draws_from l) true samples f = Ok (Fin (X l)))
        /\ (expectation r k (fun l => (X l - p) * (X l - p)) <= others * others / (2 * inject_Z samples) + bias * bias)%Q)
  /\ (List.length f <> 1 -> ~ two_sat f -> forall draws, sampling_method M sort (Z.of_nat r) draws true samples f = UB).
Proof.
  intros HS HI Hodd W n B Hn Hs k p. set (g := repeat bzero (List.length f)). destruct (zero_wfs M n f) as [Wg Bg]. fold g in Wg, Bg.
  assert (HL : List.length f = List.length g) by (unfold g; now rewrite repeat_length).
  assert (Ep : (average n (fun a => b2q (differ f g a)) == p)%Q).
  { apply average_ext. intro a. unfold g. rewrite zero_differ. reflexivity. }
  split; [|split].
  - destruct (plain_sampling M f g HL W Wg B Bg r Hodd samples Hs) as (X & V & E & D & _). exists X. cbv zeta in *. fold n k in V, E, D. split; [exact V|].
    split; [rewrite E; exact Ep|]. rewrite Ep in D. rewrite <- D. apply SamplingFacts.exp_ext. intro l. rewrite Ep. reflexivity.
  - intros H2 worst Hw Hworst others bias. apply zero_two in H2. fold g in H2.
    destruct (efficient_sampling M sort r f g samples worst HS HI Hodd W Wg B Bg HL Hs H2 Hw) as (X & V & D & _).
    { intros i Hi. unfold g. rewrite !zero_rate by auto. apply Hworst. now apply nth_In. }
    exists X. fold n k in V, D. split.
    + intros l Hl. unfold sampling_method. fold g. rewrite (V l Hl). reflexivity.
    + assert (Eo : (sumQ (map (output_rate n f g) (seq 0 (List.length f))) - output_rate n f g worst == others)%Q).
      { unfold g, others. rewrite densities, zero_rate by auto. reflexivity. }
      rewrite Eo in D.
      assert (Ee : (expectation r k (fun l => (X l - average n (fun a => b2q (differ f g a))) * (X l - average n (fun a => b2q (differ f g a))))
                    == expectation r k (fun l => (X l - p) * (X l - p)))%Q).
      { apply SamplingFacts.exp_ext. intro l. rewrite Ep. reflexivity. }
      rewrite <- Ee. exact D.
  - intros H1 H2 draws. unfold sampling_method. fold g. rewrite efficient_ub_all; auto. intro H. apply H2, zero_two. exact H.
Qed.

(** ** improved_sampling.cpp *)
Lemma improved_sampling_ok M sort rm d1 d2 level last samples f : sorts_down sort -> wfs M f ->
  let n := read_size M in
  below n f -> 1 <= n -> (1 <= samples < 2 ^ 31)%Z ->
  exists g rate, mapM (fun b => subset_light_child M b level last) f = Ok g
  /\ Forall2 (fun x y => forall a, ev y a = true -> ev x a = true) f g
  /\ (rate == average n (fun a => b2q (uval g a <? uval f a)%Z))%Q
  /\ (two_wrong f g -> exists x y, improved_sampling M sort rm d1 d2 level last samples f = Ok (rate, Fin x, y)
        /\ (0 <= x <= 1)%Q /\ (y <= 1)%Q
        /\ (forall i, i < List.length f -> (density n (nth i f bzero) - density n (nth i g bzero) <= y)%Q)
        /\ (y <= sumQ (map (density n) f) - sumQ (map (density n) g))%Q)
  /\ (List.length f <> 1 -> ~ two_wrong f g -> improved_sampling M sort rm d1 d2 level last samples f = UB).
Proof.
  intros HS W n B Hn Hs.
  destruct (mapM_all (fun b => subset_light_child M b level last) (wf M)
    (fun x y => kept M x y /\ forall a, ev y a = true -> ev x a = true) f) as (g & E & H); auto.
  { intros x Wx. destruct (sl_kept M x level last Wx) as (y & Ey & K & Hy). exists y. auto. }
  assert (K : Forall2 (kept M) f g) by (revert H; apply all2_impl; intros x y Hxy; apply Hxy).
  assert (D : Forall2 (fun x y => forall a, ev y a = true -> ev x a = true) f g) by (revert H; apply all2_impl; intros x y Hxy; apply Hxy).
  destruct (kept_all M n f g K B) as (Wg & L & Bg). symmetry in L.
  destruct (error_rate_spec M n f g W Wg B Bg) as (q & Eq & Vq); [unfold bdd in *; lia|].
  destruct (sampling_ranges M sort rm d1 f g samples HS Hn W Wg B Bg Hs) as [HP _]. destruct (HP L) as [(x & Ex & Rx & _) _].
  destruct (sampling_ranges M sort rm d2 f g samples HS Hn W Wg B Bg Hs) as [HE _]. destruct (HE L) as [_ [_ H2]]. clear HP HE. fold n in H2.
  assert (Er : forall i, i < List.length f -> (output_rate n f g i == density n (nth i f bzero) - density n (nth i g bzero))%Q).
  { intros i Hi. unfold output_rate, density.
    assert (N : forall a, ev (nth i g bzero) a = true -> ev (nth i f bzero) a = true).
    { clear - D Hi. revert i Hi. induction D as [|u v f g Huv D IH]; intros i Hi; [cbn in Hi; lia|]. destruct i as [|i]; cbn [nth]; [exact Huv|].
      apply IH. cbn in Hi. lia. }
    assert (X : (average n (fun a => b2q (ev (nth i f bzero) a)) == average n (fun a => b2q (wrong f g i a)) + average n (fun a => b2q (ev (nth i g bzero) a)))%Q).
    { rewrite <- average_plus. apply average_ext. intro a. specialize (N a). unfold wrong.
      destruct (ev (nth i g bzero) a), (ev (nth i f bzero) a); try reflexivity; discriminate (N eq_refl). }
    rewrite X. ring. }
  exists g, q. split; [exact E|]. split; [exact D|]. split; [|split].
  - rewrite Vq. apply average_ext. intro a. clear - D. assert (X : differ f g a = (uval g a <? uval f a)%Z).
    { induction D as [|u v f g Huv D IH]; [reflexivity|]. cbn [differ uval]. rewrite IH. specialize (Huv a).
      assert (Y : (uval g a <= uval f a)%Z) by (now apply uval_anti). apply eq_true_iff_eq. rewrite orb_true_iff, !Z.ltb_lt.
      destruct (ev u a), (ev v a); cbn [xorb Z.b2z]; try (discriminate (Huv eq_refl)); split; intros; try tauto; try lia. }
    now rewrite X.
  - intro Hw. destruct (H2 Hw) as (y & Ey & R1 & R2 & R3). exists x, y. unfold improved_sampling. rewrite E. cbn [bind]. rewrite Eq. cbn [bind].
    rewrite Ex. cbn [bind]. rewrite Ey. cbn [bind]. split; [reflexivity|]. split; [exact Rx|]. split; [exact R2|]. split.
    + intros i Hi. rewrite <- Er by exact Hi. auto.
    + eapply Qle_trans; [exact R3|]. rewrite (sumQ_map_ext _ (fun i => density n (nth i f bzero) + (-1) * density n (nth i g bzero))%Q).
      2:{ intros i Hi. apply in_seq in Hi. rewrite Er by lia. ring. }
      rewrite SamplingFacts.sumQ_map_plus, SamplingFacts.sumQ_map_scale.
      rewrite <- (map_map (fun i => nth i f bzero) (density n)), nth_seq_list.
      rewrite <- (map_map (fun i => nth i g bzero) (density n)). replace (List.length f) with (List.length g) by auto. rewrite nth_seq_list. lra.
  - intros H1 Hw. unfold improved_sampling. rewrite E. cbn [bind]. rewrite Eq. cbn [bind]. rewrite Ex. cbn [bind].
    rewrite efficient_ub_all; auto.
Qed.
