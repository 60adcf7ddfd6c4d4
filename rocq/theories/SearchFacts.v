(** The rounds of wcre_randomized_search *)
From Coq Require Import List Bool Arith ZArith QArith Qround Qpower Lia Lqa.
From Verif Require Import Res Cudd CuddFacts Spec SpecSearch SpecFacts Helpers HelpersFacts HelpersFacts2 Counting AddFacts CountFacts PathFacts Metrics MetricsFacts MetricsFacts2
  MetricsFacts3 MetricsFacts4 RelMetrics RelFacts RelFacts2 RelFacts3.
Import ListNotations.
Open Scope nat_scope.

Definition ratio (c e : Z) : Q := (inject_Z c / inject_Z e)%Q.
Lemma ratio_lt c e c' e' : (0 < e)%Z -> (0 < e')%Z -> ((ratio c e < ratio c' e')%Q <-> (c * e' < c' * e)%Z).
Proof.
  intros H H'. unfold ratio. assert (P : (0 < inject_Z e)%Q) by now apply injZ_pos. assert (P' : (0 < inject_Z e')%Q) by now apply injZ_pos.
  rewrite Zlt_Qlt, !inject_Z_mult.
  assert (E1 : (inject_Z c == inject_Z c / inject_Z e * inject_Z e)%Q) by (field; lra).
  assert (E2 : (inject_Z c' == inject_Z c' / inject_Z e' * inject_Z e')%Q) by (field; lra).
  set (x := (inject_Z c / inject_Z e)%Q) in *. set (y := (inject_Z c' / inject_Z e')%Q) in *. rewrite E1, E2.
  assert (PP : (0 < inject_Z e * inject_Z e')%Q) by (apply Qmult_lt_0_compat; auto).
  setoid_replace (x * inject_Z e * inject_Z e')%Q with (x * (inject_Z e * inject_Z e'))%Q by ring.
  setoid_replace (y * inject_Z e' * inject_Z e)%Q with (y * (inject_Z e * inject_Z e'))%Q by ring.
  symmetry. now apply Qmult_lt_r.
Qed.
Lemma ratio_le c e c' e' : (0 < e)%Z -> (0 < e')%Z -> ((ratio c e <= ratio c' e')%Q <-> (c * e' <= c' * e)%Z).
Proof.
  intros H H'. pose proof (ratio_lt c' e' c e H' H) as [A B]. split; intro L.
  - destruct (Z_lt_le_dec (c' * e) (c * e')) as [X|X]; [|lia]. apply B in X. lra.
  - destruct (Qlt_le_dec (ratio c' e') (ratio c e)) as [X|X]; [|auto]. apply A in X. lia.
Qed.
Lemma ratio_scale c e k : (0 < k)%Z -> (0 < e)%Z -> (ratio (c * k) (e * k) == ratio c e)%Q.
Proof. intros. apply Qle_antisym; apply ratio_le; try lia; nia. Qed.

Lemma best_of_refl q : best_of q [] q.
Proof. unfold best_of. split; [lra|]. split; [constructor|left; lra]. Qed.
Lemma best_of_proper q p l q' : (q == p)%Q -> best_of q l q' -> best_of p l q'.
Proof. intros E (A & B & C). unfold best_of. split; [lra|]. split; [auto|]. destruct C as [C|C]; [left; lra|auto]. Qed.

Lemma u256_id z : (0 <= z < 2 ^ 128)%Z -> u256 z = z.
Proof. intro H. unfold u256. apply Z.mod_small. assert (2 ^ 128 < 2 ^ 256)%Z by (vm_compute; reflexivity). lia. Qed.
Lemma prod_128 x y : (0 <= x < 2 ^ 64)%Z -> (0 <= y < 2 ^ 64)%Z -> (0 <= x * y < 2 ^ 128)%Z.
Proof. intros H1 H2. split; [nia|]. change (2 ^ 128)%Z with (2 ^ 64 * 2 ^ 64)%Z. nia. Qed.

Section Rounds.
Variable M : mgr.
Variable clog2 : Z -> nat.
Hypothesis HC : clog2_ok clog2.
Variables d f_ : list bdd.
Hypothesis Wd : wfs M d.
Hypothesis Wf : wfs M f_.
Let T := read_size M.
Hypothesis Bd : below T d.
Hypothesis Bf : below T f_.
Hypothesis Ld : length d <= 63.
Hypothesis Lf : length f_ <= 63.
Let D := uval d.
Let F := uval f_.
Hypothesis HF : forall a, (1 <= F a)%Z.
Let E (a : asg) : Q := ratio (D a) (F a).

Lemma better_ratio c e a : (0 < e)%Z -> (better d f_ c e a <-> (ratio c e < E a)%Q).
Proof. intro H. unfold better, E. rewrite ratio_lt; [reflexivity|lia|]. pose proof (HF a). unfold F in *. lia. Qed.

Lemma samples_best pick draws greater : total_sampler T pick -> forall samples pos c e, (0 <= c < 2 ^ 64)%Z -> (0 < e < 2 ^ 64)%Z ->
  exists c' e' w, rs_samples pick draws d f_ greater T samples pos c e = Ok (c', e')
    /\ (forall i, i < samples -> pick greater (map draws (seq (pos + i * T) T)) = Ok (w i))
    /\ best_of (ratio c e) (map (fun i => E (asg_ints (w i))) (seq 0 samples)) (ratio c' e').
Proof.
  intro HP. induction samples as [|s IH]; intros pos c e Hc He; cbn [rs_samples].
  - exists c, e, (fun _ => []). split; [auto|]. split; [intros; lia|]. apply best_of_refl.
  - destruct (HP greater (map draws (seq pos T))) as (l & El & Ll & _); [now rewrite map_length, seq_length|]. rewrite El.
    cbn [bind]. rewrite (eval_long M d f_ Ld Lf d l Wd Bd Ld Ll), (eval_long M d f_ Ld Lf f_ l Wf Bf Lf Ll). cbn [bind].
    fold (D (asg_ints l)) (F (asg_ints l)). set (a := asg_ints l) in *.
    pose proof (D_range M d f_ Ld Lf a) as RD. pose proof (F_range M d f_ Ld Lf HF a) as RF. fold (D a) in RD. fold (F a) in RF.
    assert (P64 : (2 ^ 63 < 2 ^ 64)%Z) by (vm_compute; reflexivity).
    rewrite (u256_id (c * F a)), (u256_id (D a * e)) by (apply prod_128; lia).
    assert (STEP : forall c1 e1, (0 <= c1 < 2 ^ 64)%Z -> (0 < e1 < 2 ^ 64)%Z -> (ratio c e <= ratio c1 e1)%Q -> (E a <= ratio c1 e1)%Q ->
      (ratio c1 e1 == ratio c e \/ E a == ratio c1 e1)%Q ->
      exists c' e' w, rs_samples pick draws d f_ greater T s (pos + T) c1 e1 = Ok (c', e')
        /\ (forall i, i < S s -> pick greater (map draws (seq (pos + i * T) T)) = Ok (w i))
        /\ best_of (ratio c e) (map (fun i => E (asg_ints (w i))) (seq 0 (S s))) (ratio c' e')).
    { intros c1 e1 H1 H2 B1 B2 B3. destruct (IH (pos + T) c1 e1 H1 H2) as (c' & e' & w & A1 & A2 & A3 & A4 & A5).
      exists c', e', (fun i => match i with O => l | S j => w j end). split; [exact A1|]. split.
      - intros [|i] Hi; [rewrite Nat.add_0_r; exact El|]. specialize (A2 i ltac:(lia)). rewrite <- A2. do 2 f_equal. f_equal. lia.
      - cbn [seq map]. rewrite <- seq_shift, map_map. fold a. split; [lra|]. split; [constructor; [lra|exact A4]|].
        destruct A5 as [A5|A5]; [|right; right; exact A5]. destruct B3 as [B3|B3]; [left; lra|right; left; lra]. }
    destruct (Z.ltb_spec (c * F a) (D a * e)) as [L|L].
    + assert (P128 : (2 ^ 64 < 2 ^ 128)%Z) by (vm_compute; reflexivity).
      rewrite (u256_id (D a)), (u256_id (F a)) by lia. apply STEP; [lia|lia| |apply Qle_refl|right; reflexivity].
      apply Qlt_le_weak. apply ratio_lt; lia.
    + apply STEP; [lia|lia|apply Qle_refl| |left; reflexivity]. apply ratio_le; lia.
Qed.

Variables c0 e0 : Z.
Hypothesis Hc0 : (0 <= c0 < 2 ^ 64)%Z.
Hypothesis He0 : (0 < e0 < 2 ^ 64)%Z.
Hypothesis H0 : exists a, better d f_ c0 e0 a.
Variable lg : bdd.
Hypothesis Wlg : wf M lg.
Hypothesis Slg : forall a, ev lg a = true <-> better d f_ c0 e0 a.

Lemma loop_run pick draws samples : total_sampler T pick -> forall fuel pos c e x, inv d f_ c0 e0 c e ->
  rs_loop M clog2 pick draws d f_ lg samples fuel pos c e = Some x ->
  exists c' e' k m, x = Ok (c', e') /\ k < fuel /\ rs_loop M clog2 pick draws d f_ lg samples k pos c e = None
    /\ (m == ratio c' e')%Q /\ search_run M pick asg_ints draws T E samples k pos (ratio c e) m.
Proof.
  intro HP. induction fuel as [|fuel IH]; intros pos c e x HI; cbn [rs_loop]; [discriminate|].
  destruct HI as (I1 & I2 & I34).
  destruct (gcd_reduce M d f_ Ld Lf c e) as (k & Hk & Ec & Ee & Hcn & Hen); try lia.
  set (c1 := (c / Z.gcd c e)%Z) in *. set (e1 := (e / Z.gcd c e)%Z) in *.
  assert (HI : inv d f_ c0 e0 c1 e1) by (apply (inv_scale M d f_ Ld Lf c0 e0 Hc0 He0 c1 e1 k); auto; rewrite <- Ec, <- Ee; repeat split; auto; tauto).
  destruct HI as (J1 & J2 & J3 & J4).
  assert (R1 : (ratio c e == ratio c1 e1)%Q) by (rewrite Ec, Ee; apply ratio_scale; lia).
  destruct (greater_spec M clog2 HC d f_ Wd Wf Ld Lf HF c0 e0 He0 lg Wlg Slg c1 e1 J1 J2) as (g & Eg & Wg & Sg). rewrite Eg. specialize (Sg J3).
  destruct (is_zero g) eqn:Z0.
  - intros [= <-]. rewrite (is_zero_sem M) in Z0 by auto.
    assert (NB : forall a, (E a <= ratio c1 e1)%Q).
    { intro a. destruct (Qlt_le_dec (ratio c1 e1) (E a)) as [L|L]; auto.
      apply better_ratio in L; [|lia]. apply Sg in L. rewrite Z0 in L. discriminate. }
    destruct J4 as [J4|(a & A1 & A2 & A3)].
    + exfalso. destruct H0 as (a & Ha). specialize (NB a). apply better_ratio in Ha; [|lia].
      assert (X : (ratio c1 e1 <= ratio c0 e0)%Q) by (apply ratio_le; lia). lra.
    + pose proof (D_range M d f_ Ld Lf a). pose proof (F_range M d f_ Ld Lf HF a). unfold long_pair. rewrite !to_long_ok by lia. cbn [bind].
      exists c1, e1, 0, (ratio c e). split; [reflexivity|]. split; [lia|]. split; [reflexivity|]. split; [exact R1|].
      apply run_done. intro b. rewrite R1. apply NB.
  - destruct (samples_best pick draws g HP samples pos c1 e1 J1 J2) as (c2 & e2 & w & Er & Hw & HB). fold T. rewrite Er. intro HS.
    destruct (rs_samples_spec M d f_ Wd Wf Bd Bf Ld Lf HF pick draws g HP samples pos c1 e1 J1 J2) as (c3 & e3 & E3 & H). fold T in E3. rewrite Er in E3. injection E3 as <- <-.
    apply IH in HS.
    + destruct HS as (c' & e' & n & m & -> & Hn & Hrun & Hm & Hr). exists c', e', (S n), m. split; [reflexivity|]. split; [lia|].
      split; [|split; [exact Hm|]].
      * cbn [rs_loop]. fold c1 e1. rewrite Eg, Z0. fold T. rewrite Er. exact Hrun.
      * apply (run_round M pick asg_ints draws T E samples n pos (ratio c e) (ratio c2 e2) m g w); auto.
        -- intro a. rewrite Sg, better_ratio by lia. now rewrite R1.
        -- now apply (is_zero_false M).
        -- apply (best_of_proper (ratio c1 e1)); auto. now rewrite R1.
    + destruct H as [[-> ->]|(a & -> & -> & Hb)]; [repeat split; auto; lia|].
      pose proof (D_range M d f_ Ld Lf a). pose proof (F_range M d f_ Ld Lf HF a). assert (P64 : (2 ^ 63 < 2 ^ 64)%Z) by (vm_compute; reflexivity).
      repeat split; try lia.
      * unfold better in Hb. destruct (Z_lt_le_dec (uval d a * e0) (c0 * uval f_ a)) as [L|L]; auto. exfalso.
        assert (c0 * e1 * uval f_ a <= c1 * e0 * uval f_ a)%Z by nia. nia.
      * right. exists a. repeat split; lia.
Qed.

(** a round for every value of the error at most *)
Definition above (L : list Q) (q : Q) : nat := length (filter (fun x => negb (Qle_bool x q)) L).
Lemma above_spec x q : negb (Qle_bool x q) = true <-> (q < x)%Q.
Proof.
  rewrite negb_true_iff. split; intro H.
  - apply Qnot_le_lt. intro X. apply Qle_bool_iff in X. congruence.
  - destruct (Qle_bool x q) eqn:B; auto. apply Qle_bool_iff in B. lra.
Qed.
Lemma above_lt L q q' x : (q < q')%Q -> In x L -> (x == q')%Q -> above L q' < above L q.
Proof.
  intros H HI Hx. unfold above.
  assert (LE : forall l, length (filter (fun x => negb (Qle_bool x q')) l) <= length (filter (fun x => negb (Qle_bool x q)) l)).
  { induction l as [|y l IHl]; cbn [filter]; auto. destruct (negb (Qle_bool y q')) eqn:A.
    - assert (negb (Qle_bool y q) = true) as -> by (apply above_spec; apply above_spec in A; lra). cbn [length]. lia.
    - destruct (negb (Qle_bool y q)); cbn [length]; lia. }
  induction L as [|y L IHL]; [contradiction|]. cbn [filter]. destruct HI as [->|HI].
  - assert (negb (Qle_bool x q) = true) as -> by (apply above_spec; lra).
    assert (negb (Qle_bool x q') = false) as ->.
    { destruct (negb (Qle_bool x q')) eqn:A; auto. apply above_spec in A. lra. }
    cbn [length]. specialize (LE L). lia.
  - specialize (IHL HI). destruct (negb (Qle_bool y q')) eqn:A.
    + assert (negb (Qle_bool y q) = true) as -> by (apply above_spec; apply above_spec in A; lra). cbn [length]. lia.
    + destruct (negb (Qle_bool y q)); cbn [length]; lia.
Qed.
Lemma above_proper L q q' : (q == q')%Q -> above L q = above L q'.
Proof.
  intro H. unfold above. f_equal. apply filter_ext. intro x. f_equal. apply eq_true_iff_eq. rewrite !Qle_bool_iff. now rewrite H.
Qed.
Lemma loop_ends pick rm draws samples L : total_sampler T pick -> sound_sampler M T rm pick -> (forall i, 0 < draws i <= rm)%Z -> 0 < samples ->
  (forall a, exists q, In q L /\ (q == E a)%Q) ->
  forall fuel pos c e, inv d f_ c0 e0 c e -> above L (ratio c e) < fuel ->
  exists x, rs_loop M clog2 pick draws d f_ lg samples fuel pos c e = Some x.
Proof.
  intros HX Hrm Hdr Hsm HL. induction fuel as [|fuel IH]; intros pos c e HI Hf; [lia|]. cbn [rs_loop].
  destruct HI as (I1 & I2 & I34).
  destruct (gcd_reduce M d f_ Ld Lf c e) as (k & Hk & Ec & Ee & Hcn & Hen); try lia.
  set (c1 := (c / Z.gcd c e)%Z) in *. set (e1 := (e / Z.gcd c e)%Z) in *.
  assert (HI : inv d f_ c0 e0 c1 e1) by (apply (inv_scale M d f_ Ld Lf c0 e0 Hc0 He0 c1 e1 k); auto; rewrite <- Ec, <- Ee; repeat split; auto; tauto).
  destruct HI as (J1 & J2 & J3 & J4).
  assert (R1 : (ratio c e == ratio c1 e1)%Q) by (rewrite Ec, Ee; apply ratio_scale; lia).
  destruct (greater_spec M clog2 HC d f_ Wd Wf Ld Lf HF c0 e0 He0 lg Wlg Slg c1 e1 J1 J2) as (g & -> & Wg & Sg). specialize (Sg J3).
  destruct (is_zero g) eqn:Z0; [eauto|].
  assert (Bg : depends_below T g).
  { intros a b Hab. assert (Q : better d f_ c1 e1 a <-> better d f_ c1 e1 b).
    { unfold better. rewrite (below_uval T d a b), (below_uval T f_ a b) by auto. reflexivity. }
    rewrite <- !Sg in Q. destruct (ev g a), (ev g b); auto; [symmetry|]; now apply Q. }
  destruct (rs_samples_progress M d f_ Wd Wf Bd Bf Ld Lf HF pick rm draws g samples pos c1 e1) as (c2 & e2 & Er & a & -> & -> & Hb); auto.
  { now apply (is_zero_false M). }
  { intros a Ha. now apply Sg. }
  fold T. fold T in Er. rewrite Er. apply IH.
  - pose proof (D_range M d f_ Ld Lf a). pose proof (F_range M d f_ Ld Lf HF a). assert (P64 : (2 ^ 63 < 2 ^ 64)%Z) by (vm_compute; reflexivity).
    repeat split; try lia.
    + unfold better in Hb. destruct (Z_lt_le_dec (uval d a * e0) (c0 * uval f_ a)) as [L0|L0]; auto. exfalso.
      assert (c0 * e1 * uval f_ a <= c1 * e0 * uval f_ a)%Z by nia. nia.
    + right. exists a. repeat split; lia.
  - destruct (HL a) as (q & Iq & Eq). apply better_ratio in Hb; [|lia].
    change (ratio (uval d a) (uval f_ a)) with (E a).
    assert (above L (E a) < above L (ratio c e)); [|lia]. apply (above_lt L _ _ q); auto. lra.
Qed.

(** the doubling loops end with a power of two *)
Lemma counter_shape : forall fuel k b, (pow2 k < 2 ^ 63)%Z -> (exists a, better d f_ (pow2 k) 1 a) ->
  grow_counter M clog2 d f_ fuel (pow2 k) = Ok b ->
  match b with
  | Exact c e => e = 1%Z /\ exists j, c = pow2 j
  | Lower c e => e = 1%Z /\ (exists j, c = pow2 j) /\ forall a, (E a < 2 * ratio c e)%Q
  end.
Proof.
  induction fuel as [|fuel IH]; intros k b Hb (a & Ha); cbn [grow_counter]; [discriminate|].
  pose proof (pow2_pos k) as Hp.
  assert (EQ : u256 (pow2 k * 2) = pow2 (S k)).
  { rewrite pow2_S. unfold u256. assert (2 ^ 64 < 2 ^ 256)%Z by (vm_compute; reflexivity).
    change (2 ^ 64)%Z with (2 * 2 ^ 63)%Z in H. rewrite Z.mod_small; lia. }
  rewrite EQ.
  assert (Hs : (pow2 (S k) < 2 ^ 64)%Z) by (rewrite pow2_S; change (2 ^ 64)%Z with (2 * 2 ^ 63)%Z; lia).
  destruct (ge_both_spec M clog2 HC d f_ Wd Wf Ld Lf (pow2 (S k)) 1) as (ge & -> & S); [pose proof (pow2_pos (S k)); lia|lia|]. cbn [bind].
  destruct ge as [[|] [|]]; cbn [fst snd negb].
  - intros [= <-]. split; eauto.
  - destruct S as (x & S). apply IH; eauto. unfold better in S. pose proof (HF x) as HFx. pose proof (D_range M d f_ Ld Lf x). unfold F in HFx. pose proof (pow2_pos (Datatypes.S k)). nia.
  - contradiction.
  - intros [= <-]. rewrite pow2_S, Z.mul_comm, Z.div_mul by lia. split; [auto|]. split; [eauto|]. intro x. specialize (S x).
    unfold E. setoid_replace (2 * ratio (pow2 k) 1)%Q with (ratio (pow2 (Datatypes.S k)) 1).
    + apply ratio_lt; [pose proof (HF x); lia|lia|]. unfold D, F. lia.
    + unfold ratio. rewrite pow2_S, inject_Z_mult. unfold Qdiv. ring.
Qed.
Lemma denominator_shape : forall fuel k b, (exists a, (0 < D a)%Z) -> (forall a, D a * pow2 k < F a)%Z ->
  grow_denominator M clog2 d f_ fuel (pow2 k) = Ok b ->
  match b with
  | Exact c e => c = 1%Z /\ exists j, e = pow2 j
  | Lower c e => c = 1%Z /\ (exists j, e = pow2 j) /\ forall a, (E a < 2 * ratio c e)%Q
  end.
Proof.
  intros fuel k b (a0 & Ha0). revert k b. induction fuel as [|fuel IH]; intros k b Ha; cbn [grow_denominator]; [discriminate|].
  assert (Hb : (pow2 k < 2 ^ 63)%Z).
  { specialize (Ha a0). pose proof (F_range M d f_ Ld Lf HF a0). fold (F a0) in H. pose proof (pow2_pos k). nia. }
  pose proof (pow2_pos k) as Hp.
  assert (EQ : u256 (pow2 k * 2) = pow2 (S k)).
  { rewrite pow2_S. unfold u256. assert (2 ^ 64 < 2 ^ 256)%Z by (vm_compute; reflexivity).
    change (2 ^ 64)%Z with (2 * 2 ^ 63)%Z in H. rewrite Z.mod_small; lia. }
  rewrite EQ.
  assert (Hs : (pow2 (S k) < 2 ^ 64)%Z) by (rewrite pow2_S; change (2 ^ 64)%Z with (2 * 2 ^ 63)%Z; lia).
  pose proof (pow2_pos (S k)) as Hp'.
  destruct (ge_both_spec M clog2 HC d f_ Wd Wf Ld Lf 1 (pow2 (S k))) as (ge & -> & S); [lia|lia|]. cbn [bind].
  destruct ge as [[|] [|]]; cbn [fst snd negb].
  - intros [= <-]. split; eauto.
  - intros [= <-]. split; [auto|]. split; [eauto|]. intro x. specialize (Ha x).
    unfold E. setoid_replace (2 * ratio 1 (pow2 (Datatypes.S k)))%Q with (ratio 1 (pow2 k)).
    + apply ratio_lt; [pose proof (HF x); lia|lia|]. lia.
    + unfold ratio. rewrite pow2_S, inject_Z_mult. field. assert (0 < inject_Z (pow2 k))%Q by now apply injZ_pos. lra.
  - contradiction.
  - apply IH. intro a. specialize (S a). unfold D, F. lia.
Qed.
End Rounds.

Definition two_power (q : Q) : Prop := exists z, (q == Qpower 2 z)%Q.
Lemma pow2_qpower j : (inject_Z (pow2 j) == Qpower 2 (Z.of_nat j))%Q.
Proof. unfold pow2. rewrite Zpower_Qpower by lia. reflexivity. Qed.
Lemma two_power_up j : two_power (ratio (pow2 j) 1).
Proof. exists (Z.of_nat j). unfold ratio. rewrite pow2_qpower. change (inject_Z 1) with 1%Q. field. Qed.
Lemma two_power_down j : two_power (ratio 1 (pow2 j)).
Proof. exists (- Z.of_nat j)%Z. unfold ratio. rewrite pow2_qpower, Qpower_opp. change (inject_Z 1) with 1%Q. unfold Qdiv. ring. Qed.

Lemma run_ext M draw read rand T error error' samples : (forall a, error a = error' a) ->
  forall k pos q p m, search_run M draw read rand T error samples k pos q m -> (q == p)%Q ->
  exists m', (m' == m)%Q /\ search_run M draw read rand T error' samples k pos p m'.
Proof.
  intros HE k pos q p m H. revert p. induction H as [pos q H|k pos q q' m h w H1 H2 H3 H4 H5 H6 IH]; intros p Hp.
  - exists p. split; [lra|]. apply run_done. intro a. rewrite <- HE, <- Hp. apply H.
  - destruct (IH q' (Qeq_refl _)) as (m' & Hm & HR). exists m'. split; [exact Hm|].
    apply (run_round M draw read rand T error' samples k pos p q' m' h w); auto.
    + intro a. rewrite H2, <- HE, Hp. reflexivity.
    + apply (best_of_proper q); auto. rewrite <- (map_ext _ _ (fun i => HE (read (w i)))). exact H5.
Qed.
Lemma run_proper M draw read rand T error samples k pos q m : search_run M draw read rand T error samples k pos q m ->
  forall a, (error a <= m)%Q.
Proof. induction 1; auto. Qed.

Lemma start_shape M clog2 n f g r : clog2_ok clog2 -> n = read_size M -> wfs M f -> wfs M g -> below n f -> below n g ->
  f <> [] -> (r = TwosComplement -> g <> []) -> Nat.max (length f) (length g) <= 62 ->
  match rs_start M clog2 f g r with
  | Ok (inl (c, e)) => (ratio c e == 0)%Q \/ two_power (ratio c e)
  | Ok (inr (d, f_, lg, c, e)) => two_power (ratio c e) /\ forall a, (ratio (uval d a) (uval f_ a) < 2 * ratio c e)%Q
  | _ => True
  end.
Proof.
  intros HC Hn Wf Wg Bf Bg Hf Hg HL. subst n.
  destruct (rel_parts M _ f g r Wf Wg Bf Bg Hf Hg) as (d & fa & f_ & Ed & Ea & Em & Ld & La & Lm & Wd & Wa & Wm & Bd & Ba & Bm & V).
  assert (L1 : length d <= 63) by lia. assert (L2 : length f_ <= 63) by lia.
  assert (HF : forall a, (1 <= uval f_ a)%Z) by (intro a; destruct (V a) as (_ & _ & ->); lia).
  unfold rs_start. rewrite Ed, Ea. cbn [bind]. rewrite Em. cbn [bind].
  destruct (forallb is_zero d) eqn:Ez; [left; reflexivity|].
  apply (all_zero_false M) in Ez; auto.
  destruct (ge_both_spec M clog2 HC d f_ Wd Wm L1 L2 1 1 ltac:(lia) ltac:(lia)) as (ge & -> & SP). cbn [bind].
  destruct ge as [[|] [|]]; cbn [fst snd].
  - right. exact (two_power_up 0).
  - pose proof (counter_shape M clog2 HC d f_ Wd Wm L1 L2 HF (S (length d)) 0) as CS. change (pow2 0) with 1%Z in CS.
    destruct (grow_counter M clog2 d f_ (S (length d)) 1) as [[c e|c e]| | |] eqn:G; cbn [bind]; auto.
    + destruct (CS _ ltac:(reflexivity) SP eq_refl) as (-> & j & ->). unfold long_pair, to_long.
      destruct (pow2 j <? 2 ^ 63)%Z; cbn [bind]; auto. cbn [Z.ltb]. destruct (1 <? 2 ^ 63)%Z; cbn [bind]; auto. right. apply two_power_up.
    + destruct (CS _ ltac:(reflexivity) SP eq_refl) as (-> & (j & ->) & B).
      destruct (bdd_multiply_constant_u256 M clog2 d 1) as [x| | |]; cbn [bind]; auto.
      destruct (bdd_multiply_constant_u256 M clog2 f_ _) as [y| | |]; cbn [bind]; auto. split; [apply two_power_up|exact B].
  - contradiction.
  - assert (SP' : forall a, (uval d a * pow2 0 < uval f_ a)%Z) by (intro a; specialize (SP a); change (pow2 0) with 1%Z; lia).
    pose proof (fun b => denominator_shape M clog2 HC d f_ Wd Wm L1 L2 HF (S (length f_)) 0 b Ez SP') as CS. change (pow2 0) with 1%Z in CS.
    destruct (grow_denominator M clog2 d f_ (S (length f_)) 1) as [[c e|c e]| | |] eqn:G; cbn [bind]; auto.
    + destruct (CS _ eq_refl) as (-> & j & ->). unfold long_pair, to_long.
      destruct (1 <? 2 ^ 63)%Z; cbn [bind]; auto. destruct (pow2 j <? 2 ^ 63)%Z; cbn [bind]; auto. right. apply two_power_down.
    + destruct (CS _ eq_refl) as (-> & (j & ->) & B).
      destruct (bdd_multiply_constant_u256 M clog2 d _) as [x| | |]; cbn [bind]; auto.
      destruct (bdd_multiply_constant_u256 M clog2 f_ _) as [y| | |]; cbn [bind]; auto. split; [apply two_power_down|exact B].
Qed.

Lemma randomized_rounds M clog2 rm draws f g samples r fuel x : clog2_ok clog2 -> wfs M f -> wfs M g ->
  below (read_size M) f -> below (read_size M) g -> f <> [] -> (r = TwosComplement -> g <> []) ->
  Nat.max (length f) (length g) <= 62 ->
  wcre_randomized_search M clog2 rm draws f g samples r fuel = Some x ->
  exists c e, x = Ok (c, e) /\ (0 < e)%Z
  /\ ((wcre_randomized_search M clog2 rm draws f g samples r 0 = Some x
       /\ ((inject_Z c / inject_Z e == 0)%Q \/ exists z, (inject_Z c / inject_Z e == Qpower 2 z)%Q))
      \/ exists z k m, k < fuel /\ wcre_randomized_search M clog2 rm draws f g samples r k = None
         /\ (m == inject_Z c / inject_Z e)%Q /\ (Qpower 2 z < m < 2 * Qpower 2 z)%Q
         /\ search_run M (fun h l => random_satisfying_input rm h (count_minterms h) (read_size M) l) asg_ints draws (read_size M)
              (wrel r f g) samples k 0 (Qpower 2 z) m).
Proof.
  intros HC Wf Wg Bf Bg Hf Hg HL HS.
  destruct (randomized_search_exact M clog2 rm draws f g samples r fuel x HC Wf Wg Bf Bg Hf Hg HL HS) as (c' & e' & Ex & He' & Hmax).
  exists c', e'. split; [exact Ex|]. split; [exact He'|].
  pose proof (start_shape M clog2 _ f g r HC eq_refl Wf Wg Bf Bg Hf Hg HL) as SH. revert HS. unfold wcre_randomized_search.
  destruct (rs_start_spec M clog2 _ f g r HC eq_refl Wf Wg Bf Bg Hf Hg HL) as (d & f_ & Ld & Lf & Wd & Wf_ & Bd & Bf_ & V & [(c & e & E & H)|(lg & c & e & E & H & Wlg & Slg)]); rewrite E in *.
  - intros [= <-]. injection Ex as <- <-. left. split; auto.
  - intro HS. right. destruct H as (H1 & H2 & H3). destruct SH as ((z & Hz) & HB).
    assert (HF : forall a, (1 <= uval f_ a)%Z) by (intro a; destruct (V a) as (_ & ->); lia).
    assert (I0 : inv d f_ c e c e) by (repeat split; try lia).
    destruct (loop_run M clog2 HC d f_ Wd Wf_ Bd Bf_ Ld Lf HF c e H1 H2 H3 lg Wlg Slg _ draws samples (random_sampler_total rm (read_size M)) fuel 0 c e x I0 HS)
      as (c2 & e2 & k & m & Ex' & Hk & HN & Hm & HR).
    rewrite Ex in Ex'. injection Ex' as <- <-.
    assert (EE : forall a, ratio (uval d a) (uval f_ a) = wrel r f g a).
    { intro a. destruct (V a) as [V1 V2]. unfold ratio, wrel. now rewrite V1, V2. }
    destruct (run_ext _ _ _ _ _ _ (wrel r f g) samples EE _ _ _ _ _ HR Hz) as (m' & Hm' & HR').
    exists z, k, m'. split; [exact Hk|]. split; [exact HN|]. unfold ratio in Hm. split; [lra|]. split; [|exact HR'].
    destruct Hmax as [(a & Ha) HU]. split.
    + destruct H3 as (b & Hb). apply (better_ratio M d f_ Ld Lf HF) in Hb; [|lia]. rewrite EE in Hb. specialize (HU b). lra.
    + specialize (HB a). rewrite EE in HB. lra.
Qed.
Lemma randomized_few_rounds M clog2 rm draws f g samples r L : clog2_ok clog2 -> index_order M ->
  wfs M f -> wfs M g ->
  below (read_size M) f -> below (read_size M) g -> f <> [] -> (r = TwosComplement -> g <> []) ->
  Nat.max (length f) (length g) <= 62 -> 0 < samples -> (forall i, 0 < draws i <= rm)%Z ->
  (forall a, exists q, In q L /\ (q == wrel r f g a)%Q) ->
  forall fuel, length L < fuel ->
  exists x, wcre_randomized_search M clog2 rm draws f g samples r fuel = Some x.
Proof.
  intros HC HX Wf Wg Bf Bg Hf Hg HL Hs Hd HQ fuel Hfuel. unfold wcre_randomized_search.
  destruct (rs_start_spec M clog2 _ f g r HC eq_refl Wf Wg Bf Bg Hf Hg HL) as (d & f_ & Ld & Lf & Wd & Wf_ & Bd & Bf_ & V & [(c & e & -> & H)|(lg & c & e & -> & H & Wlg & Slg)]).
  - eauto.
  - destruct H as (H1 & H2 & H3).
    assert (HF : forall a, (1 <= uval f_ a)%Z) by (intro a; destruct (V a) as (_ & ->); lia).
    assert (EE : forall a, ratio (uval d a) (uval f_ a) = wrel r f g a).
    { intro a. destruct (V a) as [V1 V2]. unfold ratio, wrel. now rewrite V1, V2. }
    apply (loop_ends M clog2 HC d f_ Wd Wf_ Bd Bf_ Ld Lf HF c e H1 H2 lg Wlg Slg _ rm draws samples L); auto.
    + apply random_sampler_total.
    + apply random_sampler_sound; auto. specialize (Hd 0). lia.
    + intro a. rewrite EE. apply HQ.
    + repeat split; try lia.
    + unfold above. pose proof (filter_len (fun x => negb (Qle_bool x (ratio c e))) L). lia.
Qed.
