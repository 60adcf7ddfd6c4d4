(** The relative error search and efficient sampling with rounded doubles: consequences and witnesses *)
From Coq Require Import List Bool Arith ZArith QArith Qabs Znumtheory Zpow_facts Lia Lqa Permutation Sorted.
From Verif Require Import Res Cudd CuddFacts Spec SpecFacts SpecFloat Float FloatFacts Helpers HelpersFacts HelpersFacts2 Counting AddFacts CountFacts
  Metrics MetricsFacts RelMetrics RelFacts RelFacts2 RelFacts3 RelFacts4 RelFacts6 RelFacts7 MinimizeFacts3 OperatorFacts
  Rounded RoundedFacts RoundedAdd RoundedMinimizeFacts RoundedMinimizeFacts2 RoundedAverageFacts RoundedRel RoundedRelFacts RoundedRelFacts2 RoundedRelFacts4.
Import ListNotations.
Open Scope nat_scope.

(** ** wcre_search *)
Lemma wcre_search_fl_full rnd M clog2 n f g r e precision (sb : nat) : keeps_floats 53 rnd -> clog2_ok clog2 -> wfs M f -> wfs M g -> below n f -> below n g ->
  f <> [] -> (r = TwosComplement -> g <> []) -> 16 <= e ->
  (1 # 65536 <= precision < 1)%Q -> (2 ^ (- Z.of_nat sb) <= precision)%Q -> Nat.max (length f) (length g) + sb + 1 <= 53 ->
  exists top, is_maxQ (wrel r f g) top /\
  forall fuel, 142 <= fuel ->
  ((top == 0)%Q -> exists q, wcre_search_fl rnd M clog2 f g e precision r fuel = Some (Ok q) /\ (q == 0)%Q)
  /\ ((0 < top < 1)%Q -> wcre_search_fl rnd M clog2 f g e precision r fuel = Some UB)
  /\ ((1 <= top)%Q -> exists q, wcre_search_fl rnd M clog2 f g e precision r fuel = Some (Ok q)
        /\ (top - precision / 2 <= q)%Q /\ (q < (3 # 2) * top)%Q
        /\ ((forall a, (wrel r f g a == top)%Q) -> (q <= top + precision / 2)%Q)).
Proof.
  intros K HC Wf Wg Bf Bg Hf Hg He Hp Hsb HL.
  destruct (wcre_search_full M clog2 n f g r e precision HC Wf Wg Bf Bg Hf Hg ltac:(lia) He Hp) as (top & Ht & H). exists top. split; auto.
  intros fuel Hfuel. destruct (H fuel Hfuel) as (H1 & H2 & H3).
  pose proof (wcre_search_fl_same 53 rnd M clog2 n f g r e precision (Z.of_nat sb) K HC Wf Wg Bf Bg Hf Hg ltac:(lia) He ltac:(lia) Hsb ltac:(lia) fuel) as X.
  split; [|split].
  - intro E. rewrite (H1 E) in X. destruct (wcre_search_fl rnd M clog2 f g e precision r fuel) as [[q| | |]|]; cbn [relopt relres] in X; try contradiction.
    exists q. auto.
  - intro E. rewrite (H2 E) in X. destruct (wcre_search_fl rnd M clog2 f g e precision r fuel) as [[q| | |]|]; cbn [relopt relres] in X; try contradiction. auto.
  - intro E. destruct (H3 E) as (q & Eq & Q1 & Q2 & Q3). rewrite Eq in X.
    destruct (wcre_search_fl rnd M clog2 f g e precision r fuel) as [[q'| | |]|]; cbn [relopt relres] in X; try contradiction.
    exists q'. split; auto. split; [lra|]. split; [lra|]. intro A. specialize (Q3 A). lra.
Qed.

Lemma not_float_third p x z : (3 * x == inject_Z z)%Q -> ~ (3 | z)%Z -> ~ float_number p x.
Proof.
  intros E N (m & e & _ & X). apply N. destruct (Z_le_gt_dec 0 e) as [L|L].
  - exists (m * 2 ^ e)%Z. apply inject_Z_injective. rewrite <- E, X, (p2_inj e L), !inject_Z_mult. change (inject_Z 3) with 3%Q. ring.
  - assert (Y : (3 * m = z * 2 ^ (- e))%Z).
    { apply inject_Z_injective. rewrite !inject_Z_mult, <- E, X, <- (p2_inj (- e)) by lia. change (inject_Z 3) with 3%Q.
      assert (P : (2 ^ e * 2 ^ (- e) == 1)%Q) by (rewrite <- p2_add; replace (e + - e)%Z with 0%Z by lia; reflexivity).
      transitivity (3 * (inject_Z m * (2 ^ e * 2 ^ (- e))))%Q; [rewrite P; ring|ring]. }
    apply (Gauss 3 (2 ^ (- e)) z).
    + exists m. lia.
    + apply rel_prime_Zpower_r; [lia|]. apply rel_prime_sym. apply prime_rel_prime; [exact prime_2|]. intros [k Hk]. lia.
Qed.

Definition const_bits (n : nat) (z : Z) : list bdd := map (fun i => if Z.testbit z (Z.of_nat i) then bone else bzero) (seq 0 n).
Lemma const_bits_wf M n z : wfs M (const_bits n z).
Proof.
  apply Forall_forall. intros b Hb. apply in_map_iff in Hb. destruct Hb as (i & <- & _). destruct (Z.testbit z (Z.of_nat i)); auto with wf.
Qed.
Lemma const_bits_below k n z : below k (const_bits n z).
Proof.
  apply Forall_forall. intros b Hb. apply in_map_iff in Hb. destruct Hb as (i & <- & _). intros a a' _. destruct (Z.testbit z (Z.of_nat i)); reflexivity.
Qed.

Lemma wcre_search_fl_stuck : exists (f g : list bdd) (top : Q),
  Forall (wf (id_mgr 1)) f /\ Forall (wf (id_mgr 1)) g /\ length f = 41 /\ length g = 41
  /\ (forall a, (rel (uval f a) (uval g a) == top)%Q) /\ (1 <= top)%Q
  /\ forall rnd clog2, rounds_to_nearest 53 rnd -> clog2_ok clog2 ->
     forall fuel, wcre_search_fl rnd (id_mgr 1) clog2 f g 16 (1 # 10000) BaseTwo fuel = None.
Proof.
  exists (const_bits 41 3), (const_bits 41 (3 * 2 ^ 39 + 4)), ((3 * 2 ^ 39 + 1) # 3)%Q.
  split; [apply const_bits_wf|]. split; [apply const_bits_wf|]. split; [reflexivity|]. split; [reflexivity|].
  split; [intro a; vm_compute; reflexivity|]. split; [vm_compute; discriminate|].
  intros rnd clog2 HR HC fuel.
  apply (wcre_search_fl_never 53 rnd (id_mgr 1) clog2 1 _ _ BaseTwo 16 (1 # 10000) ((3 * 2 ^ 39 + 1) # 3) 39); auto; try lia.
  - apply const_bits_wf.
  - apply const_bits_wf.
  - apply const_bits_below.
  - apply const_bits_below.
  - discriminate.
  - discriminate.
  - cbn. lia.
  - intro a. vm_compute. reflexivity.
  - apply (not_float_third 53 _ (3 * 2 ^ 39 + 1)); [vm_compute; reflexivity|]. intros [k Hk]. lia.
  - vm_compute. discriminate.
  - vm_compute. reflexivity.
Qed.

(** ** Efficient sampling: a small rate is lost in the sum *)
Fixpoint chain (v k : nat) : node := match k with O => One | S k' => Nd v (chain (S v) k') true One end.
Lemma chain_count rnd s : rounds_to_nearest 53 rnd -> forall k v,
  (countn_fl rnd (inject_Z (pow2 s)) (chain v k) false == 2 ^ (Z.of_nat s - Z.of_nat k))%Q.
Proof.
  intro HR. pose proof (rn_keeps 53 rnd HR) as K.
  assert (F : forall e, float_number 53 (2 ^ e)%Q).
  { intro e. exists 1%Z, e. split; [vm_compute; discriminate|]. change (inject_Z 1) with 1%Q. ring. }
  induction k as [|k IH]; intro v; cbn [chain countn_fl xorb].
  - unfold pow2. rewrite <- p2_inj by lia. replace (Z.of_nat s - Z.of_nat 0)%Z with (Z.of_nat s) by lia. reflexivity.
  - assert (H1 : (rnd (countn_fl rnd (inject_Z (pow2 s)) (chain (S v) k) false * (1 # 2)) == 2 ^ (Z.of_nat s - Z.of_nat (S k)))%Q).
    { apply (keeps_eq rnd HR); [|apply F]. rewrite IH. change (1 # 2)%Q with (2 ^ (-1))%Q. rewrite <- p2_add.
      replace (Z.of_nat s - Z.of_nat k + -1)%Z with (Z.of_nat s - Z.of_nat (S k))%Z by lia. reflexivity. }
    assert (H2 : (rnd (0 * (1 # 2)) == 0)%Q) by (apply (rn_zero 53 rnd ltac:(lia) HR); reflexivity).
    apply (keeps_eq rnd HR); [|apply F]. rewrite H1, H2. ring.
Qed.

(** the conjunction of 55 variables *)
Definition conj55 : bdd := (false, chain 0 55).
Lemma conj55_wf : wf (id_mgr 55) conj55.
Proof.
  assert (E : conj55 = fold_right (band (id_mgr 55)) bone (map bvar (seq 0 55))) by (vm_compute; reflexivity).
  rewrite E. generalize (seq 0 55). intro l. induction l as [|i l IH]; cbn [map fold_right]; auto with wf.
Qed.
Global Opaque conj55.

Lemma efficient_lost : exists (M : mgr) (f g : list bdd),
  index_order M /\ Forall (wf M) f /\ Forall (wf M) g /\ length f = length g /\ below (read_size M) f /\ below (read_size M) g
  /\ read_size M = 55 /\ length f = 2
  /\ (exists a, wrong f g 0 a = true) /\ (exists a, wrong f g 1 a = true)
  /\ (forall sort rm draws samples, sorts_down sort -> (1 <= samples < 2 ^ 31)%Z ->
        exists q, error_rate_efficient_sampling M sort rm draws f g samples = Ok q /\ (q == 1)%Q)
  /\ (forall rnd sort rm draws samples, rounds_to_nearest 53 rnd -> sorts_down sort ->
        error_rate_efficient_sampling_fl rnd M sort rm draws f g samples = UB).
Proof.
  set (f := [bone; conj55]). set (g := [bzero; bzero]).
  assert (Wf : wfs (id_mgr 55) f) by (repeat apply Forall_cons; auto using conj55_wf with wf).
  assert (Wg : wfs (id_mgr 55) g) by (repeat apply Forall_cons; auto with wf).
  assert (Bf : below 55 f).
  { repeat apply Forall_cons; auto; [intros a b _; reflexivity|].
    apply dep_vars. intros i Hi. apply Nat.ltb_lt. revert i Hi. apply forallb_forall. vm_compute. reflexivity. }
  assert (Bg : below 55 g) by (repeat (constructor; [intros a b _; reflexivity|]); constructor).
  assert (W0 : exists a, wrong f g 0 a = true) by (exists (fun _ => true); vm_compute; reflexivity).
  assert (W1 : exists a, wrong f g 1 a = true) by (exists (fun _ => true); vm_compute; reflexivity).
  exists (id_mgr 55), f, g. split; [intro i; reflexivity|].
  split; [exact Wf|]. split; [exact Wg|]. split; [reflexivity|]. split; [exact Bf|]. split; [exact Bg|]. split; [reflexivity|]. split; [reflexivity|].
  split; [exact W0|]. split; [exact W1|]. split.
  - intros sort rm draws samples HS Hs.
    destruct (efficient_range (id_mgr 55) sort f g HS eq_refl Wf Wg Bf Bg ltac:(discriminate) rm draws samples Hs) as (q & E & H1 & H2 & _).
    { exists 0, 1. cbn [f length]. repeat split; auto; lia. }
    exists q. split; [exact E|]. specialize (H1 0 ltac:(cbn; lia)). apply Qle_antisym; [exact H2|].
    apply (Qle_trans _ (average 55 (fun _ => 1%Q))); [rewrite average_const; apply Qle_refl|]. exact H1.
  - intros rnd sort rm draws samples HR HS. unfold error_rate_efficient_sampling_fl.
    assert (Ed : differences (id_mgr 55) f g = Ok [bone; conj55]) by (vm_compute; reflexivity).
    rewrite Ed. cbn [bind]. change (read_size (id_mgr 55)) with 55. cbv zeta.
    set (v0 := rnd (CountMinterm_fl rnd bone (55 - 1) / inject_Z (pow2 (55 - 1)))%Q).
    set (v1 := rnd (CountMinterm_fl rnd conj55 (55 - 1) / inject_Z (pow2 (55 - 1)))%Q).
    change (activations_fl rnd [bone; conj55] 55) with [(0, v0); (1, v1)].
    assert (V0 : (v0 == 1)%Q).
    { apply (keeps_eq rnd HR); [reflexivity|]. apply (float_int 53 1). lia. }
    assert (V1 : (v1 == 2 ^ (-55))%Q).
    { apply (keeps_eq rnd HR).
      - transitivity (2 ^ (Z.of_nat 54 - Z.of_nat 55) / inject_Z (pow2 (55 - 1)))%Q; [|vm_compute; reflexivity].
        unfold Qdiv. apply Qmult_comp; [|reflexivity]. exact (chain_count rnd 54 HR 55 0).
      - exists 1%Z, (-55)%Z. split; [vm_compute; discriminate|reflexivity]. }
    cbn [fold_left snd]. set (mr := rnd (rnd (0 + v0) + v1)%Q).
    assert (MR : (mr == 1)%Q).
    { assert (R0 : (rnd (0 + v0) == 1)%Q) by (apply (keeps_eq rnd HR); [rewrite V0; reflexivity|apply (float_int 53 1); lia]).
      assert (X : (rnd (0 + v0) + v1 == 1 + 2 ^ (-55))%Q) by now rewrite R0, V1.
      assert (F1 : float_number 53 1) by (apply (float_int 53 1); lia).
      assert (L : (1 <= mr)%Q).
      { apply (near_ge 53 rnd (rn_near 53 rnd HR)); auto. rewrite X. vm_compute. discriminate. }
      pose proof (rn_near 53 rnd HR (rnd (0 + v0) + v1)%Q 1%Q F1) as N. fold mr in N.
      assert (A : (Qabs (rnd (0 + v0) + v1 - 1) == 2 ^ (-55))%Q).
      { rewrite X. reflexivity. }
      rewrite A in N.
      pose proof (Qle_Qabs (- (rnd (0 + v0)%Q + v1 - mr))%Q) as B. rewrite Qabs_opp in B.
      assert (U : (mr <= 1 + 2 ^ (-54))%Q).
      { assert (T2 : (2 ^ (-54) == 2 ^ (-55) + 2 ^ (-55))%Q) by (vm_compute; reflexivity). rewrite T2. lra. }
      destruct (Qlt_le_dec 1 mr) as [Lt|]; [|lra]. exfalso.
      pose proof (float_gap 53 1 mr ltac:(lia) F1 (rn_float 53 rnd HR _) ltac:(lra) Lt) as G.
      assert (C : (1 + 2 ^ (-54) < 1 * (1 + 2 ^ (- (53))))%Q) by (vm_compute; reflexivity). lra. }
    destruct (HS [(0, v0); (1, v1)]) as [HP HO].
    apply Permutation_length_2_inv in HP. destruct HP as [-> | E2].
    + cbn [bind vget nth_error efficient_loop_fl]. unfold fdiv_fl, fdiv.
      assert (Z0 : Qeq_bool (rnd (mr - v0)%Q) 0 = true).
      { apply Qeq_bool_iff. apply (rn_zero 53 rnd ltac:(lia) HR). rewrite MR, V0. reflexivity. }
      rewrite Z0. reflexivity.
    + exfalso. rewrite E2 in HO. inversion HO as [|? ? _ HF]; subst. inversion HF as [|? ? H _]; subst. cbn [snd] in H.
      rewrite V0, V1 in H. vm_compute in H. now apply H.
Qed.
