(** compute_error_metric *)
From Coq Require Import Ascii String List Bool Arith ZArith QArith Lia Lqa.
From Verif Require Import Res Cudd CuddFacts Spec SpecFacts Helpers HelpersFacts HelpersFacts2 Counting Metrics
  MetricsFacts MetricsFacts2 MetricsFacts3 MetricsFacts4 MetricsFacts5 RelMetrics RelFacts RelFacts2 RelFacts3 RelFacts4 RelFacts5 RelFacts6
  Benchmark SpecBenchmark.
Import ListNotations.
Open Scope nat_scope.

Lemma is_maxQ_le F q B : is_maxQ F q -> (forall a, F a <= B)%Q -> (q <= B)%Q.
Proof. intros [[a Ha] _] H. specialize (H a). lra. Qed.
Lemma is_maxQ_ge F q a : is_maxQ F q -> (F a <= q)%Q.
Proof. intros [_ H]. apply H. Qed.

Lemma middle_bounds lo hi x : (hi <= 2 * lo)%Q -> (lo <= x <= hi)%Q -> middle_of x ((lo + hi) / 2).
Proof.
  intros H1 [H2 H3]. unfold middle_of. assert (E : ((lo + hi) / 2 == (1 # 2) * lo + (1 # 2) * hi)%Q) by field.
  split; rewrite E; lra.
Qed.

Lemma fdiv_pos p q : (0 < q)%Z -> exists x, fdiv p (inject_Z q) = Fin x /\ (x == p / inject_Z q)%Q.
Proof.
  intro H. unfold fdiv. destruct (Qeq_bool (inject_Z q) 0) eqn:E.
  - apply Qeq_bool_eq in E. unfold Qeq in E. cbn in E. lia.
  - eexists. split; [reflexivity|]. reflexivity.
Qed.

Lemma uval_map f : forall a, uval f a = fold_right (fun b x => Z.b2z b + 2 * x)%Z 0%Z (map (fun b => ev b a) f).
Proof. induction f as [|b f IH]; intro a; cbn [uval map fold_right]; [reflexivity|]. rewrite IH. reflexivity. Qed.

Lemma top_difference_dec M f g : Forall (wf M) f -> Forall (wf M) g -> length f = length g ->
  (forall a, map (fun b => ev b a) f = map (fun b => ev b a) g) \/ exists h, top_difference f g h.
Proof.
  revert g. induction f as [|x f IH]; intros g Hf Hg L.
  - destruct g; [|discriminate]. left. reflexivity.
  - destruct g as [|y g]; [discriminate|]. injection L as L. inversion Hf as [|? ? Wx Hf']. subst. inversion Hg as [|? ? Wy Hg']. subst.
    destruct (IH g Hf' Hg' L) as [T | [h (h1 & h2 & h3)]].
    + destruct (bdd_eqb x y) eqn:E.
      * left. apply bdd_eqb_spec in E. subst y. intro a. cbn [map]. rewrite (T a). reflexivity.
      * right. exists 0. split; [cbn [length]; lia|]. split.
        -- cbn [nth]. apply (bdd_neq_witness M x y Wx Wy). apply bdd_eqb_false. exact E.
        -- intros i Hi a. cbn [length] in Hi. destruct i as [|i]; [lia|]. cbn [nth]. specialize (T a).
           rewrite <- (map_nth (fun b => ev b a) f bzero i), <- (map_nth (fun b => ev b a) g bzero i). rewrite T. reflexivity.
    + right. exists (S h). split; [cbn [length]; lia|]. split; [exact h2|].
      intros i Hi a. cbn [length] in Hi. destruct i as [|i]; [lia|]. cbn [nth]. apply h3. lia.
Qed.

Section Metric.
Variables (M : mgr) (clog2 : Z -> nat) (rand_max : Z) (draws : nat -> Z) (f g : list bdd) (fuel : nat).
Hypothesis Hclog : clog2_ok clog2.
Hypothesis Hidx : index_order M.
Hypothesis Wf : Forall (wf M) f.
Hypothesis Wg : Forall (wf M) g.
Hypothesis Bf : below (read_size M) f.
Hypothesis Bg : below (read_size M) g.
Hypothesis Hlen : length f = length g.
Hypothesis Hlen1 : 1 <= length f <= 62.
Hypothesis Hn : read_size M <= 63.
Hypothesis Hdraws : (forall i, 0 < draws i <= rand_max)%Z.
Hypothesis Hfuel : 142 <= fuel.
Hypothesis Hfuel2 : (pow2 (read_size M) < Z.of_nat fuel)%Z.
Local Notation n := (read_size M).
Local Notation compute f g m := (compute_error_metric M clog2 rand_max draws f g m fuel).

Lemma nonempty_f : f <> [].
Proof. intro E. rewrite E in Hlen1. cbn in Hlen1. lia. Qed.
Lemma nonempty_g : g <> [].
Proof. intro E. rewrite E in Hlen. cbn in Hlen. lia. Qed.

Lemma relative_max : exists x, is_maxQ (relative f g) x.
Proof.
  destruct (wcre_add_spec M n f g BaseTwo Hidx Wf Wg Bf Bg Hn ltac:(discriminate)) as (q & _ & H).
  exists q. exact H.
Qed.

Definition as_documented (m : Metric) : Prop :=
  match m with
  | WORST_CASE_RELATIVE_BINARY_SEARCH | MEAN_SQUARED_ | AVERAGE_RELATIVE_APPROX | AVERAGE_RELATIVE_ADD => False
  | _ => True
  end.

Lemma metric_documented m : as_documented m ->
  exists q, compute f g m = Some (Ok (Fin q)) /\ metric_of n f g m q.
Proof.
  pose proof nonempty_f as Nf. pose proof nonempty_g as Ng.
  assert (Hmax : Nat.max (length f) (length g) <= 62) by lia.
  destruct m; cbn [as_documented]; intro H; try contradiction; cbn [compute_error_metric metric_of]; unfold absolute.
  - destruct (wce_base_full M f g f Wf Wg Wf ltac:(lia) ltac:(lia) ltac:(lia)) as (z & E & Hz & _).
    rewrite E. unfold fin_z. cbn [bind]. eexists. split; [reflexivity|]. exists z. split; [exact Hz|reflexivity].
  - destruct (wcre_bounds_spec M n f g BaseTwo Wf Wg Bf Bg Nf ltac:(discriminate) ltac:(lia) ltac:(lia)) as (lo & hi & E & H1 & H2 & H3).
    rewrite E. cbn [bind middle nplus nscale]. eexists. split; [reflexivity|].
    destruct relative_max as [x Hx]. exists x. split; [exact Hx|]. apply middle_bounds; [exact H1|]. split.
    + apply H3. intro a. exact (is_maxQ_ge _ _ a Hx).
    + apply (is_maxQ_le _ _ hi Hx). exact H2.
  - destruct (randomized_search_terminates M clog2 rand_max draws f g 1 BaseTwo Hclog Hidx Wf Wg Bf Bg Nf ltac:(discriminate) Hmax ltac:(lia) Hdraws fuel Hfuel2) as [x Ex].
    destruct (randomized_search_exact M clog2 rand_max draws f g 1 BaseTwo fuel x Hclog Wf Wg Bf Bg Nf ltac:(discriminate) Hmax Ex) as (c & e & -> & He & Hm).
    rewrite Ex. cbn [option_map bind]. destruct (fdiv_pos (inject_Z c) e He) as (q & Eq & Hq). rewrite Eq.
    exists q. split; [reflexivity|]. destruct Hm as [[a Ha] Hb]. split.
    + exists a. rewrite Hq. exact Ha.
    + intro b. rewrite Hq. exact (Hb b).
  - destruct (wcre_add_spec M n f g BaseTwo Hidx Wf Wg Bf Bg Hn ltac:(discriminate)) as (q & E & Hq).
    rewrite E. unfold fin. cbn [bind]. exists q. split; [reflexivity|exact Hq].
  - destruct (wcre_division_spec M n f g 16 BaseTwo Wf Wg Bf Bg Nf ltac:(discriminate) ltac:(lia)) as (q & E & [a Ha] & Hb).
    rewrite E. unfold fin. cbn [bind]. exists q. split; [reflexivity|].
    destruct relative_max as [x Hx]. exists x. split; [exact Hx|].
    pose proof (is_maxQ_ge _ _ a Hx) as Hxa. unfold relative in Hxa. change (rel (uval f a) (uval g a)) with (wrel BaseTwo f g a) in Hxa.
    destruct Hx as [[b Hxb] _]. specialize (Hb b). unfold relative in Hxb. change (rel (uval f b) (uval g b)) with (wrel BaseTwo f g b) in Hxb.
    assert (E16 : (1 / inject_Z (2 ^ Z.of_nat 16) == 1 # 65536)%Q) by reflexivity.
    rewrite E16 in Hb. split; lra.
  - destruct (awce_base_full M f g 5 Wf Wg Hlen ltac:(lia) ltac:(lia)) as [H0 H1].
    destruct (wce_base_full M f g f Wf Wg Wf ltac:(lia) ltac:(lia) ltac:(lia)) as (z & _ & Hz & _).
    destruct (top_difference_dec M f g Wf Wg Hlen) as [T | [h Hh]].
    + rewrite (H0 T). unfold fin_z. cbn [bind]. eexists. split; [reflexivity|]. exists z.
      assert (Ez : z = 0%Z).
      { destruct Hz as [[a Ha] _]. rewrite <- Ha. rewrite (uval_map f a), (uval_map g a), (T a). unfold dist. rewrite Z.sub_diag. reflexivity. }
      split; [exact Hz|]. subst z. split; [apply Qle_refl|].
      intros h (h1 & (a & h2) & _). exfalso. apply h2. specialize (T a).
      rewrite <- (map_nth (fun b => ev b a) f bzero h), <- (map_nth (fun b => ev b a) g bzero h). rewrite T. reflexivity.
    + destruct (H1 h Hh) as (x & wc & E & Hwc & Hx). rewrite E. unfold fin_z. cbn [bind]. eexists. split; [reflexivity|].
      exists wc. split; [exact Hwc|]. split; [rewrite <- Zle_Qle; lia|].
      intros h' Hh'. assert (h' = h) as ->.
      { destruct Hh as (a1 & (b1 & a2) & a3). destruct Hh' as (c1 & (d1 & c2) & c3).
        destruct (Nat.lt_trichotomy h h') as [L | [L | L]]; [|symmetry; exact L|].
        - exfalso. apply c2. apply a3. lia.
        - exfalso. apply a2. apply c3. lia. }
      rewrite <- Zle_Qle. replace (Z.max 0 (Z.of_nat h - 4))%Z with (Z.of_nat (Z.to_nat (Z.of_nat h + 1 - 5))) by lia. lia.
  - destruct (ace_full M n f g Wf Wg Bf Bg ltac:(lia)) as [(q & q' & m & E & Hq & _) _].
    rewrite E. exists q. split; [reflexivity|exact Hq].
  - destruct (error_rate_full M n f g Wf Wg Bf Bg) as [H1 _]. destruct (H1 Hlen) as (q & E & Hq & _).
    rewrite E. unfold fin. cbn [bind]. exists q. split; [reflexivity|exact Hq].
  - destruct (average_bit_flip_full M n f g Wf Wg Bf Bg) as [H1 _]. destruct (H1 Hlen) as (q & E & Hq).
    rewrite E. unfold fin. cbn [bind]. exists q. split; [reflexivity|exact Hq].
  - destruct (worst_case_bit_flip_full M n f g Wf Wg Hlen) as [H1 _]. destruct H1 as (z & E & Hz); [lia|].
    rewrite E. unfold fin_z. cbn [bind]. eexists. split; [reflexivity|]. exists z. split; [exact Hz|reflexivity].
Qed.

Lemma metric_swapped m : m = AVERAGE_RELATIVE_APPROX \/ m = AVERAGE_RELATIVE_ADD ->
  exists q, compute f g m = Some (Ok (Fin q)) /\ metric_of n g f m q.
Proof.
  pose proof nonempty_g as Ng.
  intros [-> | ->]; cbn [compute_error_metric metric_of].
  - destruct (acre_bounds_spec M n g f BaseTwo Wg Wf Bg Bf Ng ltac:(discriminate) ltac:(lia)) as (lo & hi & E & H1 & H2).
    rewrite E. cbn [bind middle nplus nscale]. eexists. split; [reflexivity|].
    apply middle_bounds; [exact H1|exact H2].
  - destruct (acre_add_spec M n g f BaseTwo Hidx Wg Wf Bg Bf Hn ltac:(discriminate)) as (q & E & Hq).
    rewrite E. exists q. split; [reflexivity|exact Hq].
Qed.

Lemma metric_squared : exists q, compute f g MEAN_SQUARED_ = Some (Ok (Fin q))
  /\ (q <= average n (fun a => inject_Z (absolute f g a * absolute f g a)))%Q.
Proof.
  cbn [compute_error_metric].
  destruct (mse_spec M n f g BaseTwo Wf Wg Bf Bg ltac:(discriminate) ltac:(lia)) as (d & q & _ & E & Hq & _).
  rewrite E. exists q. split; [reflexivity|exact Hq].
Qed.

Lemma metric_search : exists x, is_maxQ (relative f g) x
  /\ ((x == 0)%Q -> compute f g WORST_CASE_RELATIVE_BINARY_SEARCH = Some (Ok (Fin 0)))
  /\ ((0 < x < 1)%Q -> compute f g WORST_CASE_RELATIVE_BINARY_SEARCH = Some UB)
  /\ ((1 <= x)%Q -> exists q, compute f g WORST_CASE_RELATIVE_BINARY_SEARCH = Some (Ok (Fin q))
        /\ (x - (1 # 20000) <= q < (3 # 2) * x)%Q).
Proof.
  cbn [compute_error_metric].
  destruct (wcre_search_full M clog2 n f g BaseTwo 16 (1 # 10000) Hclog Wf Wg Bf Bg nonempty_f ltac:(discriminate) ltac:(lia) ltac:(lia))
    as (x & Hx & H).
  { split; [vm_compute; discriminate | reflexivity]. }
  exists x. destruct (H fuel Hfuel) as (H1 & H2 & H3). split; [exact Hx|]. split; [|split].
  - intro E. rewrite (H1 E). reflexivity.
  - intro E. rewrite (H2 E). reflexivity.
  - intro E. destruct (H3 E) as (q & Eq & Hq1 & Hq2 & _). rewrite Eq. exists q. split; [reflexivity|].
    assert (Ep : ((1 # 10000) / 2 == 1 # 20000)%Q) by reflexivity. rewrite Ep in Hq1. split; lra.
Qed.
End Metric.

Lemma compute_full M clog2 rand_max draws f g fuel : clog2_ok clog2 -> index_order M ->
  Forall (wf M) f -> Forall (wf M) g -> below (read_size M) f -> below (read_size M) g ->
  length f = length g -> 1 <= length f <= 62 -> read_size M <= 63 ->
  (forall i, 0 < draws i <= rand_max)%Z -> 142 <= fuel -> (pow2 (read_size M) < Z.of_nat fuel)%Z ->
  let compute := compute_error_metric M clog2 rand_max draws f g in let n := read_size M in
  (forall m, m <> WORST_CASE_RELATIVE_BINARY_SEARCH -> m <> MEAN_SQUARED_ ->
     exists q, compute m fuel = Some (Ok (Fin q))
       /\ (m <> AVERAGE_RELATIVE_APPROX -> m <> AVERAGE_RELATIVE_ADD -> metric_of n f g m q)
       /\ (m = AVERAGE_RELATIVE_APPROX \/ m = AVERAGE_RELATIVE_ADD -> metric_of n g f m q))
  /\ (exists q, compute MEAN_SQUARED_ fuel = Some (Ok (Fin q))
       /\ (q <= average n (fun a => inject_Z (absolute f g a * absolute f g a)))%Q)
  /\ (exists x, is_maxQ (relative f g) x
       /\ ((x == 0)%Q -> compute WORST_CASE_RELATIVE_BINARY_SEARCH fuel = Some (Ok (Fin 0)))
       /\ ((0 < x < 1)%Q -> compute WORST_CASE_RELATIVE_BINARY_SEARCH fuel = Some UB)
       /\ ((1 <= x)%Q -> exists q, compute WORST_CASE_RELATIVE_BINARY_SEARCH fuel = Some (Ok (Fin q))
             /\ (x - (1 # 20000) <= q < (3 # 2) * x)%Q)).
Proof.
  intros H1 H2 H3 H4 H5 H6 H7 H8 H9 H10 H11 H12 compute n. split; [|split].
  - intros m N1 N2.
    assert (D : as_documented m \/ (m = AVERAGE_RELATIVE_APPROX \/ m = AVERAGE_RELATIVE_ADD)).
    { destruct m; cbn [as_documented]; auto; congruence. }
    destruct D as [D | D].
    + destruct (metric_documented M clog2 rand_max draws f g fuel ltac:(assumption) ltac:(assumption) ltac:(assumption) ltac:(assumption) ltac:(assumption) ltac:(assumption) ltac:(assumption) ltac:(assumption) ltac:(assumption) ltac:(assumption) ltac:(assumption) ltac:(assumption) m D) as (q & E & Hq).
      exists q. split; [exact E|]. split; [intros; exact Hq|]. intros [-> | ->]; contradiction D.
    + destruct (metric_swapped M clog2 rand_max draws f g fuel H2 H3 H4 H5 H6 H7 H8 H9 H11 m D) as (q & E & Hq).
      exists q. split; [exact E|]. split; [|intros; exact Hq]. destruct D; congruence.
  - exact (metric_squared M clog2 rand_max draws f g fuel H3 H4 H5 H6 H7 H8 H9 H11).
  - exact (metric_search M clog2 rand_max draws f g fuel H1 H3 H4 H5 H6 H7 H8 H9 H11).
Qed.


Lemma compute_bad : exists M f g, Forall (wf M) f /\ Forall (wf M) g /\ length f = length g
  /\ below (read_size M) f /\ below (read_size M) g
  /\ forall m clog2 rand_max draws fuel, m = AVERAGE_RELATIVE_APPROX \/ m = AVERAGE_RELATIVE_ADD ->
     exists q, compute_error_metric M clog2 rand_max draws f g m fuel = Some (Ok (Fin q))
       /\ ~ metric_of (read_size M) f g m q.
Proof.
  exists (id_mgr 1), [bone; bzero], [bone; bvar 0].
  assert (B : forall i, depends_below 1 (bvar 0) /\ depends_below i bone /\ depends_below i bzero).
  { intro i. split; [|split]; intros a b H; try reflexivity. unfold ev, bvar. cbn [fst snd evn]. rewrite (H 0) by lia. reflexivity. }
  split; [|split; [|split; [|split; [|split]]]].
  - repeat constructor.
  - constructor; [exact I|]. constructor; [|constructor]. cbn. repeat split; try lia.
  - reflexivity.
  - constructor; [apply (B 1)|]. constructor; [apply (B 1)|constructor].
  - constructor; [apply (B 1)|]. constructor; [apply (B 1)|constructor].
  - intros m clog2 rand_max draws fuel [-> | ->]; eexists; (split; [vm_compute; reflexivity|]).
    + vm_compute. intros [H _]. apply H. reflexivity.
    + vm_compute. discriminate.
Qed.
