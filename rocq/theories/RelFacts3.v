(** Facts about wcre_randomized_search *)
From Coq Require Import List Bool Arith ZArith QArith Qround Lia Lqa.
From Verif Require Import Res Cudd CuddFacts Spec SpecFacts Helpers HelpersFacts HelpersFacts2 Counting AddFacts CountFacts PathFacts Metrics MetricsFacts MetricsFacts2 MetricsFacts3 MetricsFacts4 RelMetrics RelFacts RelFacts2.
Import ListNotations.
Open Scope nat_scope.

(** random_satisfying_input returns some input for every sequence of draws *)
Lemma rsi_total rm root T : forall k level c nd draws, level + k = T -> length draws = k ->
  In (c, nd) (reachable root) ->
  exists l, rsi_loop rm (count_minterms root) T k level c nd draws = Ok l /\ length l = k
    /\ Forall (fun x => x = 0 \/ x = 1)%Z l.
Proof.
  induction k as [|k IH]; intros level c nd draws HT HL Hr; cbn [rsi_loop].
  - exists []. auto.
  - destruct draws as [|x draws]; [discriminate|]. injection HL as HL.
    destruct (Nat.ltb_spec level (node_level nd T)) as [Hlt|Hge].
    + destruct (IH (S level) c nd draws) as (l & -> & Ll & Fl); auto; [lia|]. cbn [bind].
      eexists. split; [reflexivity|]. split; [cbn; lia|]. constructor; auto.
      pose proof (Z.mod_pos_bound x 2). lia.
    + destruct nd as [|v t d e]; [cbn [node_level] in Hge; lia|].
      assert (R1 : In (c, t) (reachable root)).
      { apply (edges_trans _ _ (c, Nd v t d e)); auto. cbn. right. apply in_or_app. left. apply in_edges_refl. }
      assert (R2 : In (xorb c d, e) (reachable root)).
      { apply (edges_trans _ _ (c, Nd v t d e)); auto. cbn. right. apply in_or_app. right. apply in_edges_refl. }
      destruct (count_minterms_at root _ R1) as (w1 & -> & _). destruct (count_minterms_at root _ R2) as (w2 & -> & _).
      cbn [bind]. destruct (le_ratio _ _ _).
      * destruct (IH (S level) c t draws) as (l & -> & Ll & Fl); auto; [lia|]. cbn [bind].
        eexists. split; [reflexivity|]. split; [cbn; lia|]. constructor; auto.
      * destruct (IH (S level) (xorb c d) e draws) as (l & -> & Ll & Fl); auto; [lia|]. cbn [bind].
        eexists. split; [reflexivity|]. split; [cbn; lia|]. constructor; auto.
Qed.

Lemma random_input_total rm f T draws : length draws = T ->
  exists l, random_satisfying_input rm f (count_minterms f) T draws = Ok l /\ length l = T
    /\ Forall (fun x => x = 0 \/ x = 1)%Z l.
Proof. intro H. apply rsi_total; auto. unfold reachable. destruct f. apply in_edges_refl. Qed.

(** the properties of a sampler that the searches need *)
Definition total_sampler (T : nat) (pick : sampler) : Prop := forall f draws, length draws = T ->
  exists l, pick f draws = Ok l /\ length l = T /\ Forall (fun x => x = 0 \/ x = 1)%Z l.
Definition sound_sampler (M : mgr) (T : nat) (rm : Z) (pick : sampler) : Prop := forall f draws, wf M f -> depends_below T f ->
  (exists a, ev f a = true) -> length draws = T -> Forall (fun d => 0 < d <= rm)%Z draws ->
  exists l, pick f draws = Ok l /\ length l = T /\ Forall (fun x => x = 0 \/ x = 1)%Z l /\ ev f (asg_ints l) = true.
Lemma random_sampler_total rm T : total_sampler T (random_sampler rm T).
Proof. intros f draws H. apply random_input_total. exact H. Qed.
Lemma random_sampler_sound M rm T : index_order M -> (0 < rm)%Z -> sound_sampler M T rm (random_sampler rm T).
Proof. intros HI Hrm f draws Wf Bf Hs HL Hd. apply (random_satisfying_input_full M); auto. Qed.

Lemma all_zero_iff M f : wfs M f -> (forallb is_zero f = true <-> forall a, uval f a = 0%Z).
Proof.
  induction 1 as [|b f Wb Wf IH]; cbn [forallb uval]; [tauto|].
  rewrite andb_true_iff, IH, (is_zero_sem M) by auto. split.
  - intros [H1 H2] a. rewrite H1, H2. reflexivity.
  - intro H. split; intro a; specialize (H a); pose proof (uval_range f a); destruct (ev b a); cbn [Z.b2z] in H; auto; lia.
Qed.
Lemma all_zero_false M f : wfs M f -> forallb is_zero f = false -> exists a, (0 < uval f a)%Z.
Proof.
  induction 1 as [|b f Wb Wf IH]; cbn [forallb uval]; [discriminate|].
  rewrite andb_false_iff. intros [H|H].
  - apply (is_zero_false M) in H; auto. destruct H as [a H]. exists a. rewrite H. pose proof (uval_range f a). cbn [Z.b2z]. lia.
  - destruct (IH H) as [a Ha]. exists a. pose proof (b2z_range (ev b a)). lia.
Qed.

Lemma to_long_ok z : (z < 2 ^ 63)%Z -> to_long z = Ok z.
Proof. intro H. unfold to_long. destruct (Z.ltb_spec z (2 ^ 63)); [auto|lia]. Qed.

Section Search.
Variable M : mgr.
Variable clog2 : Z -> nat.
Hypothesis HC : clog2_ok clog2.
Variables d f_ : list bdd.
Hypothesis Wd : wfs M d.
Hypothesis Wf : wfs M f_.
Let T := read_size M.
Hypothesis Bd : below T d.
Hypothesis Bf : below T f_.
Hypothesis Ld : length d <= 63.
Hypothesis Lf : length f_ <= 63.
Let D := uval d.
Let F := uval f_.
Hypothesis HF : forall a, (1 <= F a)%Z.

Lemma D_range a : (0 <= D a < 2 ^ 63)%Z.
Proof. unfold D. pose proof (uval_range d a). pose proof (pow2_le _ _ Ld) as P. change (pow2 63) with (2 ^ 63)%Z in P. lia. Qed.
Lemma F_range a : (1 <= F a < 2 ^ 63)%Z.
Proof. split; auto. unfold F. pose proof (uval_range f_ a). pose proof (pow2_le _ _ Lf) as P. change (pow2 63) with (2 ^ 63)%Z in P. lia. Qed.

Lemma eval_long (f : list bdd) l : wfs M f -> below T f -> length f <= 63 -> length l = T ->
  eval f l = Ok (uval f (asg_ints l)).
Proof.
  intros W B L Hl. rewrite eval_spec.
  - unfold as_long. pose proof (uval_range f (asg_ints l)). pose proof (pow2_le _ _ L) as P. change (pow2 63) with (2 ^ 63)%Z in P.
    destruct (Z.ltb_spec (uval f (asg_ints l)) (2 ^ 63)); [reflexivity|lia].
  - intros b i Hb Hi. rewrite Hl. apply (below_vars M T f i); auto. exists b. auto.
  - lia.
Qed.

(** the value c/e is exceeded at an input *)
Definition better (c e : Z) (a : asg) : Prop := (c * F a < D a * e)%Z.

Lemma ge_both_spec c e : (0 <= c < 2 ^ 64)%Z -> (0 <= e < 2 ^ 64)%Z ->
  exists ge, has_greater_equal_both M clog2 d f_ c e = Ok ge
    /\ match ge with
       | (true, false) => exists a, better c e a
       | (true, true) => (forall a, D a * e <= c * F a)%Z /\ exists a, (D a * e = c * F a)%Z
       | (false, false) => forall a, (D a * e < c * F a)%Z
       | (false, true) => False
       end.
Proof.
  intros Hc He. unfold has_greater_equal_both.
  assert (P : (2 ^ 64 < 2 ^ 256)%Z) by (vm_compute; reflexivity).
  destruct (multiply_u256_spec M clog2 d e HC ltac:(lia)) as (x & -> & _ & Wx & Vx). cbn [bind].
  destruct (multiply_u256_spec M clog2 f_ c HC ltac:(lia)) as (y & -> & _ & Wy & Vy). cbn [bind].
  eexists. split; [reflexivity|]. pose proof (exists_greater_equals_spec M x y (Wx Wd) (Wy Wf)) as S.
  unfold classified in S. destruct (exists_greater_equals M x y) as [[|] [|]]; auto.
  - destruct S as (S1 & a & S2). split.
    + intro b. specialize (S1 b). rewrite Vx, Vy in S1. unfold D, F. lia.
    + exists a. rewrite Vx, Vy in S2. unfold D, F. lia.
  - destruct S as (a & S). exists a. rewrite Vx, Vy in S. unfold better, D, F. lia.
  - intro a. specialize (S a). rewrite Vx, Vy in S. unfold D, F. lia.
Qed.

Definition exact_value (c e : Z) : Prop :=
  (0 <= c < 2 ^ 63)%Z /\ (0 < e < 2 ^ 63)%Z /\ (forall a, D a * e <= c * F a)%Z /\ exists a, (D a * e = c * F a)%Z.
Definition lower_value (c e : Z) : Prop :=
  (0 <= c < 2 ^ 64)%Z /\ (0 < e < 2 ^ 64)%Z /\ exists a, better c e a.
Definition bracket_ok (b : bracket) : Prop :=
  match b with Exact c e => exact_value c e | Lower c e => lower_value c e end.

Lemma pow2_pow2_lt j k : (pow2 j < pow2 k)%Z -> j < k.
Proof. intro H. destruct (le_lt_dec k j) as [L|L]; auto. apply pow2_le in L. lia. Qed.

Lemma grow_counter_spec : forall fuel k, fuel + k = S (length d) -> (exists a, better (pow2 k) 1 a) ->
  exists b, grow_counter M clog2 d f_ fuel (pow2 k) = Ok b /\ bracket_ok b.
Proof.
  induction fuel as [|fuel IH]; intros k Hk (a & Ha).
  - exfalso. unfold better in Ha. pose proof (F_range a). pose proof (uval_range d a) as R. fold (D a) in R.
    pose proof (pow2_pos k). assert (pow2 k < pow2 (length d))%Z by nia. apply pow2_pow2_lt in H1. lia.
  - cbn [grow_counter].
    assert (Hb : (pow2 k < 2 ^ 63)%Z).
    { unfold better in Ha. pose proof (F_range a). pose proof (D_range a). pose proof (pow2_pos k). nia. }
    pose proof (pow2_pos k) as Hp.
    assert (E : u256 (pow2 k * 2) = pow2 (S k)).
    { rewrite pow2_S. unfold u256. assert (2 ^ 64 < 2 ^ 256)%Z by (vm_compute; reflexivity).
      change (2 ^ 64)%Z with (2 * 2 ^ 63)%Z in H. rewrite Z.mod_small; lia. }
    rewrite E.
    assert (Hs : (pow2 (S k) < 2 ^ 64)%Z) by (rewrite pow2_S; change (2 ^ 64)%Z with (2 * 2 ^ 63)%Z; lia).
    destruct (ge_both_spec (pow2 (S k)) 1) as (ge & -> & S); [pose proof (pow2_pos (S k)); lia|lia|]. cbn [bind].
    destruct ge as [[|] [|]]; cbn [fst snd negb].
    + eexists. split; [reflexivity|]. destruct S as (S1 & x & S2). cbn [bracket_ok]. unfold exact_value.
      pose proof (F_range x). pose proof (D_range x). pose proof (pow2_pos (S k)).
      repeat split; eauto; try lia.
    + apply IH; auto. lia.
    + contradiction.
    + eexists. split; [reflexivity|]. cbn [bracket_ok]. unfold lower_value. rewrite pow2_S, Z.mul_comm, Z.div_mul by lia.
      repeat split; eauto; lia.
Qed.

Lemma grow_denominator_spec : (exists a, (0 < D a)%Z) -> forall fuel k, fuel + k = S (length f_) ->
  (forall a, D a * pow2 k < F a)%Z ->
  exists b, grow_denominator M clog2 d f_ fuel (pow2 k) = Ok b /\ bracket_ok b.
Proof.
  intros (a0 & Ha0). induction fuel as [|fuel IH]; intros k Hk Ha.
  - exfalso. specialize (Ha a0). pose proof (F_range a0). pose proof (uval_range f_ a0) as R. fold (F a0) in R.
    pose proof (pow2_pos k). assert (pow2 k < pow2 (length f_))%Z by nia. apply pow2_pow2_lt in H1. lia.
  - cbn [grow_denominator].
    assert (Hb : (pow2 k < 2 ^ 63)%Z).
    { specialize (Ha a0). pose proof (F_range a0). pose proof (pow2_pos k). nia. }
    pose proof (pow2_pos k) as Hp.
    assert (E : u256 (pow2 k * 2) = pow2 (S k)).
    { rewrite pow2_S. unfold u256. assert (2 ^ 64 < 2 ^ 256)%Z by (vm_compute; reflexivity).
      change (2 ^ 64)%Z with (2 * 2 ^ 63)%Z in H. rewrite Z.mod_small; lia. }
    rewrite E.
    assert (Hs : (pow2 (S k) < 2 ^ 64)%Z) by (rewrite pow2_S; change (2 ^ 64)%Z with (2 * 2 ^ 63)%Z; lia).
    pose proof (pow2_pos (S k)) as Hp'.
    destruct (ge_both_spec 1 (pow2 (S k))) as (ge & -> & S); [lia|lia|]. cbn [bind].
    destruct ge as [[|] [|]]; cbn [fst snd negb].
    + eexists. split; [reflexivity|]. destruct S as (S1 & x & S2). cbn [bracket_ok]. unfold exact_value.
      pose proof (F_range x). pose proof (D_range x).
      assert (0 < D x)%Z by nia. repeat split; eauto; try lia.
    + eexists. split; [reflexivity|]. cbn [bracket_ok]. unfold lower_value. repeat split; auto; lia.
    + contradiction.
    + apply IH; [lia|]. intro a. specialize (S a). lia.
Qed.

(** ** one round of sampling *)
Lemma ratio_trans c e c1 e1 c2 e2 : (0 < e)%Z -> (0 < e1)%Z -> (0 < e2)%Z ->
  (c * e1 < c1 * e -> c1 * e2 < c2 * e1 -> c * e2 < c2 * e)%Z.
Proof.
  intros H H1 H2 A B.
  assert (c * e1 * e2 < c1 * e * e2)%Z by (apply Z.mul_lt_mono_pos_r; auto).
  assert (c1 * e2 * e < c2 * e1 * e)%Z by (apply Z.mul_lt_mono_pos_r; auto).
  assert (c * e2 * e1 < c2 * e * e1)%Z by nia. apply (Z.mul_lt_mono_pos_r e1); auto.
Qed.

Lemma u256_small z : (0 <= z < 2 ^ 128)%Z -> u256 z = z.
Proof. intro H. unfold u256. apply Z.mod_small. assert (2 ^ 128 < 2 ^ 256)%Z by (vm_compute; reflexivity). lia. Qed.

Lemma prod128 x y : (0 <= x < 2 ^ 64)%Z -> (0 <= y < 2 ^ 64)%Z -> (0 <= x * y < 2 ^ 128)%Z.
Proof. intros H1 H2. split; [nia|]. change (2 ^ 128)%Z with (2 ^ 64 * 2 ^ 64)%Z. nia. Qed.

Lemma rs_samples_spec pick draws greater : total_sampler T pick -> forall samples pos c e, (0 <= c < 2 ^ 64)%Z -> (0 < e < 2 ^ 64)%Z ->
  exists c' e', rs_samples pick draws d f_ greater T samples pos c e = Ok (c', e')
    /\ ((c' = c /\ e' = e) \/ exists a, c' = D a /\ e' = F a /\ better c e a).
Proof.
  intro HP. induction samples as [|s IH]; intros pos c e Hc He; cbn [rs_samples].
  - exists c, e. auto.
  - destruct (HP greater (map draws (seq pos T))) as (l & -> & Ll & _).
    { now rewrite map_length, seq_length. }
    cbn [bind]. rewrite (eval_long d l), (eval_long f_ l) by auto. cbn [bind].
    fold (D (asg_ints l)) (F (asg_ints l)). set (a := asg_ints l).
    pose proof (D_range a) as RD. pose proof (F_range a) as RF.
    assert (P64 : (2 ^ 63 < 2 ^ 64)%Z) by (vm_compute; reflexivity).
    rewrite (u256_small (c * F a)), (u256_small (D a * e)) by (apply prod128; lia).
    destruct (Z.ltb_spec (c * F a) (D a * e)) as [L|L].
    + assert (P128 : (2 ^ 64 < 2 ^ 128)%Z) by (vm_compute; reflexivity).
      rewrite (u256_small (D a)), (u256_small (F a)) by lia.
      destruct (IH (pos + T) (D a) (F a)) as (c' & e' & -> & H); try lia.
      exists c', e'. split; auto. right. destruct H as [[-> ->]|(a' & -> & -> & H)]; [exists a; auto|].
      exists a'. repeat split; auto. unfold better in *. pose proof (F_range a').
      apply (ratio_trans c e (D a) (F a) (D a') (F a')); lia.
    + apply IH; auto.
Qed.

Lemma rs_samples_progress pick rm draws greater samples pos c e : total_sampler T pick -> sound_sampler M T rm pick ->
  (forall i, 0 < draws i <= rm)%Z -> wf M greater -> depends_below T greater -> (exists a, ev greater a = true) ->
  (forall a, ev greater a = true -> better c e a) -> (0 <= c < 2 ^ 64)%Z -> (0 < e < 2 ^ 64)%Z -> 0 < samples ->
  exists c' e', rs_samples pick draws d f_ greater T samples pos c e = Ok (c', e')
    /\ exists a, c' = D a /\ e' = F a /\ better c e a.
Proof.
  intros HI Hrm Hd Wg Bg Hs HB Hc He Hn. destruct samples as [|s]; [lia|]. cbn [rs_samples].
  destruct (Hrm greater (map draws (seq pos T))) as (l & -> & Ll & _ & Hl); auto.
  { now rewrite map_length, seq_length. }
  { apply Forall_forall. intros x Hx. apply in_map_iff in Hx. destruct Hx as (i & <- & _). auto. }
  cbn [bind]. rewrite (eval_long d l), (eval_long f_ l) by auto. cbn [bind].
  fold (D (asg_ints l)) (F (asg_ints l)). specialize (HB _ Hl). set (a := asg_ints l) in *.
  pose proof (D_range a) as RD. pose proof (F_range a) as RF.
  assert (P64 : (2 ^ 63 < 2 ^ 64)%Z) by (vm_compute; reflexivity).
  assert (P128 : (2 ^ 64 < 2 ^ 128)%Z) by (vm_compute; reflexivity).
  rewrite (u256_small (c * F a)), (u256_small (D a * e)) by (apply prod128; lia). unfold better in HB.
  destruct (Z.ltb_spec (c * F a) (D a * e)) as [L|L]; [|lia].
  rewrite (u256_small (D a)), (u256_small (F a)) by lia.
  destruct (rs_samples_spec pick draws greater HI s (pos + T) (D a) (F a)) as (c' & e' & -> & H); try lia.
  exists c', e'. split; auto. destruct H as [[-> ->]|(a' & -> & -> & H)]; [exists a; auto|].
  exists a'. repeat split; auto. unfold better in *. pose proof (F_range a').
  apply (ratio_trans c e (D a) (F a) (D a') (F a')); lia.
Qed.

(** ** the randomized loop *)
Variables c0 e0 : Z.
Hypothesis Hc0 : (0 <= c0 < 2 ^ 64)%Z.
Hypothesis He0 : (0 < e0 < 2 ^ 64)%Z.
Hypothesis H0 : exists a, better c0 e0 a.
Variable lg : bdd.
Hypothesis Wlg : wf M lg.
Hypothesis Slg : forall a, ev lg a = true <-> better c0 e0 a.

Definition inv (c e : Z) : Prop :=
  (0 <= c < 2 ^ 64)%Z /\ (0 < e < 2 ^ 64)%Z /\ (c0 * e <= c * e0)%Z
  /\ ((c * e0 = c0 * e)%Z \/ exists a, (D a * e = c * F a)%Z /\ (c <= D a)%Z /\ (e <= F a)%Z).

Lemma gcd_reduce c e : (0 <= c)%Z -> (0 < e)%Z ->
  exists k, (0 < k)%Z /\ c = (c / Z.gcd c e * k)%Z /\ e = (e / Z.gcd c e * k)%Z /\ (0 <= c / Z.gcd c e)%Z /\ (0 < e / Z.gcd c e)%Z.
Proof.
  intros Hc He. exists (Z.gcd c e). pose proof (Z.gcd_nonneg c e).
  assert (Z.gcd c e <> 0)%Z by (intro E; apply Z.gcd_eq_0_r in E; lia).
  destruct (Z.gcd_divide_l c e) as [x Hx]. destruct (Z.gcd_divide_r c e) as [y Hy].
  assert (E1 : (c / Z.gcd c e = x)%Z) by (rewrite Hx at 1; apply Z.div_mul; auto).
  assert (E2 : (e / Z.gcd c e = y)%Z) by (rewrite Hy at 1; apply Z.div_mul; auto).
  rewrite E1, E2. repeat split; auto; try lia; nia.
Qed.

Lemma inv_scale c e k : (0 < k)%Z -> (0 <= c)%Z -> (0 < e)%Z -> inv (c * k) (e * k) -> inv c e.
Proof.
  intros Hk Hc He (I1 & I2 & I3 & I4). repeat split; try nia.
  destruct I4 as [I4|(a & I4 & I5 & I6)]; [left; nia|right]. exists a. repeat split; nia.
Qed.

Lemma better_scale c e k a : (0 < k)%Z -> (better (c * k) (e * k) a <-> better c e a).
Proof. intro Hk. unfold better. split; intro; nia. Qed.

Lemma greater_spec c e : (0 <= c < 2 ^ 64)%Z -> (0 < e < 2 ^ 64)%Z ->
  exists g, (bdd_denom <- bdd_multiply_constant_u256 M clog2 (mask M d lg) e ;;
             bdd_counter <- bdd_multiply_constant_u256 M clog2 (mask M f_ lg) c ;;
             Ok (greater_than M bdd_denom bdd_counter)) = Ok g
    /\ wf M g /\ (c0 * e <= c * e0 -> forall a, ev g a = true <-> better c e a)%Z.
Proof.
  intros Hc He. assert (P : (2 ^ 64 < 2 ^ 256)%Z) by (vm_compute; reflexivity).
  destruct (multiply_u256_spec M clog2 (mask M d lg) e HC ltac:(lia)) as (x & -> & _ & Wx & Vx). cbn [bind].
  destruct (multiply_u256_spec M clog2 (mask M f_ lg) c HC ltac:(lia)) as (y & -> & _ & Wy & Vy). cbn [bind].
  eexists. split; [reflexivity|]. split.
  - apply greater_than_wf; [apply Wx|apply Wy]; apply mask_wf; auto.
  - intros Hce a. rewrite greater_than_spec, Vx, Vy, !mask_uval, Z.ltb_lt. fold (D a) (F a).
    pose proof (F_range a). destruct (ev lg a) eqn:El.
    + unfold better. lia.
    + split; [lia|]. intro Hb. assert (ev lg a = true); [|congruence]. apply Slg. unfold better in *.
      destruct (Z_lt_le_dec (c0 * F a) (D a * e0)) as [|L]; auto. exfalso.
      assert (c0 * e * F a <= c * e0 * F a)%Z by nia. nia.
Qed.

Lemma rs_loop_exact pick draws samples : total_sampler T pick -> forall fuel pos c e x, inv c e ->
  rs_loop M clog2 pick draws d f_ lg samples fuel pos c e = Some x ->
  exists c' e', x = Ok (c', e') /\ exact_value c' e'.
Proof.
  intro HP. induction fuel as [|fuel IH]; intros pos c e x HI; cbn [rs_loop]; [discriminate|].
  destruct HI as (I1 & I2 & I34).
  destruct (gcd_reduce c e) as (k & Hk & Ec & Ee & Hcn & Hen); try lia.
  set (c1 := (c / Z.gcd c e)%Z) in *. set (e1 := (e / Z.gcd c e)%Z) in *.
  assert (HI : inv c1 e1) by (apply (inv_scale c1 e1 k); auto; rewrite <- Ec, <- Ee; repeat split; auto; tauto).
  destruct HI as (J1 & J2 & J3 & J4).
  destruct (greater_spec c1 e1 J1 J2) as (g & -> & Wg & Sg). specialize (Sg J3).
  destruct (is_zero g) eqn:Z0.
  - intros [= <-]. rewrite (is_zero_sem M) in Z0 by auto.
    assert (NB : forall a, (D a * e1 <= c1 * F a)%Z).
    { intro a. destruct (Z_lt_le_dec (c1 * F a) (D a * e1)) as [L|L]; auto.
      specialize (Z0 a). apply Sg in L. congruence. }
    destruct J4 as [J4|(a & A1 & A2 & A3)].
    + exfalso. destruct H0 as (a & Ha). specialize (NB a). unfold better in Ha. pose proof (F_range a).
      assert (c1 * e0 * F a = c0 * e1 * F a)%Z by now rewrite J4. nia.
    + pose proof (D_range a). pose proof (F_range a). exists c1, e1. unfold long_pair.
      rewrite !to_long_ok by lia. cbn [bind]. split; auto. unfold exact_value. repeat split; auto; try lia. exists a. auto.
  - destruct (rs_samples_spec pick draws g HP samples pos c1 e1 J1 J2) as (c2 & e2 & E & H). fold T. rewrite E.
    apply IH. destruct H as [[-> ->]|(a & -> & -> & Hb)]; [repeat split; auto; lia|].
    pose proof (D_range a). pose proof (F_range a). assert (P64 : (2 ^ 63 < 2 ^ 64)%Z) by (vm_compute; reflexivity).
    repeat split; try lia.
    + unfold better in Hb. destruct (Z_lt_le_dec (D a * e0) (c0 * F a)) as [L|L]; auto. exfalso.
      assert (c0 * e1 * F a <= c1 * e0 * F a)%Z by nia. nia.
    + right. exists a. repeat split; lia.
Qed.

Definition betterb (c e : Z) (a : asg) : bool := (c * F a <? D a * e)%Z.

Lemma count_lt n (s t : asg -> bool) a : (forall b, s b = true -> t b = true) -> t a = true -> s a = false ->
  (forall b b', (forall i, i < n -> b i = b' i) -> s b = s b' /\ t b = t b') ->
  count_inputs n s < count_inputs n t.
Proof.
  intros Hst Ta Sa Dp. unfold count_inputs.
  assert (Hin := in_restrict n a).
  assert (E : forall i, i < n -> asg_of (restrict n a) i = a i).
  { intros i Hi. apply restrict_spec; auto. }
  destruct (Dp (asg_of (restrict n a)) a E) as [E1 E2]. rewrite Ta in E2. rewrite Sa in E1.
  revert Hin E1 E2. generalize (restrict n a) as l0. clear - Hst. intros l0 Hin E1 E2.
  induction (all_inputs n) as [|l ls IH]; [contradiction|]. cbn [filter].
  assert (LE : forall ls, length (filter (fun l => s (asg_of l)) ls) <= length (filter (fun l => t (asg_of l)) ls)).
  { clear - Hst. induction ls as [|l ls IH]; cbn [filter]; auto. destruct (s (asg_of l)) eqn:Es; [rewrite (Hst _ Es); cbn; lia|].
    destruct (t (asg_of l)); cbn; lia. }
  destruct Hin as [->|Hin].
  - rewrite E1, E2. cbn. specialize (LE ls). lia.
  - specialize (IH Hin). destruct (s (asg_of l)) eqn:Es; [rewrite (Hst _ Es); cbn; lia|]. destruct (t (asg_of l)); cbn; lia.
Qed.

Lemma rs_loop_terminates pick rm draws samples : total_sampler T pick -> sound_sampler M T rm pick -> (forall i, 0 < draws i <= rm)%Z -> 0 < samples ->
  forall fuel pos c e, inv c e -> count_inputs T (betterb c e) < fuel ->
  exists x, rs_loop M clog2 pick draws d f_ lg samples fuel pos c e = Some x.
Proof.
  intros HX Hrm Hdr Hsm. induction fuel as [|fuel IH]; intros pos c e HI Hf; [lia|]. cbn [rs_loop].
  destruct HI as (I1 & I2 & I34).
  destruct (gcd_reduce c e) as (k & Hk & Ec & Ee & Hcn & Hen); try lia.
  set (c1 := (c / Z.gcd c e)%Z) in *. set (e1 := (e / Z.gcd c e)%Z) in *.
  assert (HI : inv c1 e1) by (apply (inv_scale c1 e1 k); auto; rewrite <- Ec, <- Ee; repeat split; auto; tauto).
  destruct HI as (J1 & J2 & J3 & J4).
  destruct (greater_spec c1 e1 J1 J2) as (g & -> & Wg & Sg). specialize (Sg J3).
  destruct (is_zero g) eqn:Z0; [eauto|].
  assert (Bg : depends_below T g).
  { intros a b Hab. assert (Q : better c1 e1 a <-> better c1 e1 b).
    { unfold better, D, F. rewrite (below_uval T d a b), (below_uval T f_ a b) by auto. reflexivity. }
    rewrite <- !Sg in Q. destruct (ev g a), (ev g b); auto; [symmetry|]; now apply Q. }
  destruct (rs_samples_progress pick rm draws g samples pos c1 e1) as (c2 & e2 & E & a & -> & -> & Hb); auto.
  { now apply (is_zero_false M). }
  { intros a Ha. now apply Sg. }
  fold T. rewrite E. apply IH.
  - pose proof (D_range a). pose proof (F_range a). assert (P64 : (2 ^ 63 < 2 ^ 64)%Z) by (vm_compute; reflexivity).
    repeat split; try lia.
    + unfold better in Hb. destruct (Z_lt_le_dec (D a * e0) (c0 * F a)) as [L|L]; auto. exfalso.
      assert (c0 * e1 * F a <= c1 * e0 * F a)%Z by nia. nia.
    + right. exists a. repeat split; lia.
  - assert (count_inputs T (betterb (D a) (F a)) < count_inputs T (betterb c e)); [|lia].
    apply (count_lt T _ _ a).
    + intros b. unfold betterb. rewrite !Z.ltb_lt. intro H. rewrite Ec, Ee. apply better_scale; auto.
      unfold better in *. pose proof (F_range a). pose proof (F_range b).
      apply (ratio_trans c1 e1 (D a) (F a) (D b) (F b)); lia.
    + unfold betterb. apply Z.ltb_lt. rewrite Ec, Ee. now apply better_scale.
    + unfold betterb. apply Z.ltb_ge. lia.
    + intros b b' Hbb. unfold betterb, D, F. rewrite (below_uval T d b b'), (below_uval T f_ b b') by auto. auto.
Qed.

(** with no samples per round the loop never ends *)
Lemma rs_loop_no_samples pick draws : forall fuel pos c e, (0 <= c < 2 ^ 64)%Z -> (0 < e < 2 ^ 64)%Z ->
  (c * e0 = c0 * e)%Z -> rs_loop M clog2 pick draws d f_ lg 0 fuel pos c e = None.
Proof.
  induction fuel as [|fuel IH]; intros pos c e I1 I2 I3; cbn [rs_loop]; [auto|].
  destruct (gcd_reduce c e) as (k & Hk & Ec & Ee & Hcn & Hen); try lia.
  set (c1 := (c / Z.gcd c e)%Z) in *. set (e1 := (e / Z.gcd c e)%Z) in *.
  assert (J1 : (0 <= c1 < 2 ^ 64)%Z) by nia. assert (J2 : (0 < e1 < 2 ^ 64)%Z) by nia.
  assert (J3 : (c1 * e0 = c0 * e1)%Z) by nia.
  destruct (greater_spec c1 e1 J1 J2) as (g & -> & Wg & Sg). specialize (Sg ltac:(lia)).
  destruct (is_zero g) eqn:Z0.
  - exfalso. rewrite (is_zero_sem M) in Z0 by auto. destruct H0 as (a & Ha).
    assert (B : better c1 e1 a).
    { unfold better in *. pose proof (F_range a). assert (c1 * F a * e0 < D a * e1 * e0)%Z; [|nia].
      assert (c0 * F a * e1 < D a * e0 * e1)%Z by nia. nia. }
    apply Sg in B. rewrite Z0 in B. discriminate.
  - cbn [rs_samples]. apply IH; auto.
Qed.
End Search.

Lemma filter_len {A} (p : A -> bool) l : length (filter p l) <= length l.
Proof. induction l; cbn [filter]; [auto|]. destruct (p a); cbn [length]; lia. Qed.

Lemma rs_start_spec M clog2 n f g r : clog2_ok clog2 -> n = read_size M -> wfs M f -> wfs M g -> below n f -> below n g ->
  f <> [] -> (r = TwosComplement -> g <> []) -> Nat.max (length f) (length g) <= 62 ->
  exists d f_, length d <= 63 /\ length f_ <= 63 /\ wfs M d /\ wfs M f_ /\ below n d /\ below n f_
    /\ (forall a, uval d a = wrapped r f g a /\ uval f_ a = Z.max 1 (Z.abs (value r f a)))
    /\ ((exists c e, rs_start M clog2 f g r = Ok (inl (c, e)) /\ exact_value d f_ c e)
        \/ exists lg c e, rs_start M clog2 f g r = Ok (inr (d, f_, lg, c, e)) /\ lower_value d f_ c e /\ wf M lg
             /\ forall a, ev lg a = true <-> better d f_ c e a).
Proof.
  intros HC Hn Wf Wg Bf Bg Hf Hg HL. subst n.
  destruct (rel_parts M _ f g r Wf Wg Bf Bg Hf Hg) as (d & fa & f_ & Ed & Ea & Em & Ld & La & Lm & Wd & Wa & Wm & Bd & Ba & Bm & V).
  exists d, f_. assert (L1 : length d <= 63) by lia. assert (L2 : length f_ <= 63) by lia.
  assert (HF : forall a, (1 <= uval f_ a)%Z) by (intro a; destruct (V a) as (_ & _ & ->); lia).
  repeat (split; [auto; intro a; destruct (V a) as (V1 & V2 & V3); auto; fail|]).
  unfold rs_start. rewrite Ed, Ea. cbn [bind]. rewrite Em. cbn [bind].
  destruct (forallb is_zero d) eqn:Ez.
  { left. exists 0%Z, 1%Z. split; auto. rewrite (all_zero_iff M) in Ez by auto.
    unfold exact_value. split; [lia|]. split; [lia|]. split; [intro a; rewrite Ez; lia|].
    exists (fun _ => false). rewrite Ez. lia. }
  apply (all_zero_false M) in Ez; auto.
  destruct (ge_both_spec M clog2 HC d f_ Wd Wm L1 L2 1 1 ltac:(lia) ltac:(lia)) as (ge & -> & SP). cbn [bind].
  assert (CONT : forall b, bracket_ok d f_ b ->
    (exists c e, match b with
      | Exact c e => p <- long_pair c e ;; Ok (inl p)
      | Lower counter denominator =>
          bdd_denom <- bdd_multiply_constant_u256 M clog2 d denominator ;;
          bdd_counter <- bdd_multiply_constant_u256 M clog2 f_ counter ;;
          Ok (inr (d, f_, greater_than M bdd_denom bdd_counter, counter, denominator))
      end = Ok (inl (c, e)) /\ exact_value d f_ c e)
    \/ exists lg c e, match b with
      | Exact c e => p <- long_pair c e ;; Ok (inl p)
      | Lower counter denominator =>
          bdd_denom <- bdd_multiply_constant_u256 M clog2 d denominator ;;
          bdd_counter <- bdd_multiply_constant_u256 M clog2 f_ counter ;;
          Ok (inr (d, f_, greater_than M bdd_denom bdd_counter, counter, denominator))
      end = Ok (inr (d, f_, lg, c, e)) /\ lower_value d f_ c e /\ wf M lg
             /\ forall a, ev lg a = true <-> better d f_ c e a).
  { intros [c e|c e] Hb; cbn [bracket_ok] in Hb.
    - left. exists c, e. split; auto. destruct Hb as (H1 & H2 & _). unfold long_pair. rewrite !to_long_ok by lia. reflexivity.
    - right. destruct Hb as (H1 & H2 & H3). assert (P : (2 ^ 64 < 2 ^ 256)%Z) by (vm_compute; reflexivity).
      destruct (multiply_u256_spec M clog2 d e HC ltac:(lia)) as (x & -> & _ & Wx & Vx). cbn [bind].
      destruct (multiply_u256_spec M clog2 f_ c HC ltac:(lia)) as (y & -> & _ & Wy & Vy). cbn [bind].
      eexists _, c, e. split; [reflexivity|]. split; [repeat split; auto; lia|]. split; [apply greater_than_wf; auto|].
      intro a. rewrite greater_than_spec, Vx, Vy, Z.ltb_lt. unfold better. lia. }
  destruct ge as [[|] [|]]; cbn [fst snd].
  - left. exists 1%Z, 1%Z. split; auto. unfold exact_value. destruct SP as (S1 & S2). repeat split; auto; lia.
  - destruct (grow_counter_spec M clog2 HC d f_ Wd Wm L1 L2 HF (S (length d)) 0) as (b & E & Hb); [lia|exact SP|].
    change (pow2 0) with 1%Z in E. rewrite E. cbn [bind]. apply CONT; auto.
  - contradiction.
  - destruct (grow_denominator_spec M clog2 HC d f_ Wd Wm L1 L2 HF Ez (S (length f_)) 0) as (b & E & Hb); [lia| |].
    { intro a. specialize (SP a). change (pow2 0) with 1%Z. lia. }
    change (pow2 0) with 1%Z in E. rewrite E. cbn [bind]. apply CONT; auto.
Qed.

Lemma exact_max d f_ r f g c e : (forall a, uval d a = wrapped r f g a /\ uval f_ a = Z.max 1 (Z.abs (value r f a))) ->
  exact_value d f_ c e -> is_maxQ (wrel r f g) (inject_Z c / inject_Z e) /\ (0 < e)%Z.
Proof.
  intros V (H1 & H2 & H3 & x & H4). assert (P : (0 < inject_Z e)%Q) by (apply injZ_pos; lia). split; [|lia]. split.
  - exists x. unfold wrel. destruct (V x) as [V1 V2]. rewrite <- V1, <- V2.
    assert (0 < inject_Z (uval f_ x))%Q by (apply injZ_pos; rewrite V2; lia).
    apply Qle_antisym.
    + apply div_le_iff; auto. setoid_replace (inject_Z c / inject_Z e * inject_Z (uval f_ x))%Q with (inject_Z (c * uval f_ x) / inject_Z e)%Q.
      2:{ rewrite inject_Z_mult. field. lra. }
      apply le_div_iff; auto. rewrite <- inject_Z_mult, H4. apply Qle_refl.
    + apply le_div_iff; auto. setoid_replace (inject_Z c / inject_Z e * inject_Z (uval f_ x))%Q with (inject_Z (c * uval f_ x) / inject_Z e)%Q.
      2:{ rewrite inject_Z_mult. field. lra. }
      apply div_le_iff; auto. rewrite <- inject_Z_mult, H4. apply Qle_refl.
  - intro a. unfold wrel. destruct (V a) as [V1 V2]. rewrite <- V1, <- V2.
    assert (0 < inject_Z (uval f_ a))%Q by (apply injZ_pos; rewrite V2; lia).
    apply div_le_iff; auto. setoid_replace (inject_Z c / inject_Z e * inject_Z (uval f_ a))%Q with (inject_Z (c * uval f_ a) / inject_Z e)%Q.
    2:{ rewrite inject_Z_mult. field. lra. }
    apply le_div_iff; auto. rewrite <- inject_Z_mult. apply (proj2 (injZ_le _ _)). apply H3.
Qed.

Theorem randomized_search_exact M clog2 rm draws f g samples r fuel x : clog2_ok clog2 -> wfs M f -> wfs M g ->
  below (read_size M) f -> below (read_size M) g -> f <> [] -> (r = TwosComplement -> g <> []) ->
  Nat.max (length f) (length g) <= 62 ->
  wcre_randomized_search M clog2 rm draws f g samples r fuel = Some x ->
  exists c e, x = Ok (c, e) /\ (0 < e)%Z /\ is_maxQ (wrel r f g) (inject_Z c / inject_Z e).
Proof.
  intros HC Wf Wg Bf Bg Hf Hg HL. unfold wcre_randomized_search.
  destruct (rs_start_spec M clog2 _ f g r HC eq_refl Wf Wg Bf Bg Hf Hg HL) as (d & f_ & Ld & Lf & Wd & Wf_ & Bd & Bf_ & V & [(c & e & -> & H)|(lg & c & e & -> & H & Wlg & Slg)]).
  - intros [= <-]. exists c, e. split; auto. apply and_comm, (exact_max d f_); auto.
  - intro E. destruct H as (H1 & H2 & H3).
    assert (HF : forall a, (1 <= uval f_ a)%Z) by (intro a; destruct (V a) as (_ & ->); lia).
    apply (rs_loop_exact M clog2 HC d f_ Wd Wf_ Bd Bf_ Ld Lf HF c e H1 H2 H3 lg Wlg Slg) in E; [|apply random_sampler_total|].
    + destruct E as (c' & e' & -> & H). exists c', e'. split; auto. apply and_comm, (exact_max d f_); auto.
    + repeat split; try lia.
Qed.

Theorem randomized_search_terminates M clog2 rm draws f g samples r : clog2_ok clog2 -> index_order M ->
  wfs M f -> wfs M g ->
  below (read_size M) f -> below (read_size M) g -> f <> [] -> (r = TwosComplement -> g <> []) ->
  Nat.max (length f) (length g) <= 62 -> 0 < samples -> (forall i, 0 < draws i <= rm)%Z ->
  forall fuel, (pow2 (read_size M) < Z.of_nat fuel)%Z ->
  exists x, wcre_randomized_search M clog2 rm draws f g samples r fuel = Some x.
Proof.
  intros HC HX Wf Wg Bf Bg Hf Hg HL Hs Hd fuel Hfuel. unfold wcre_randomized_search.
  destruct (rs_start_spec M clog2 _ f g r HC eq_refl Wf Wg Bf Bg Hf Hg HL) as (d & f_ & Ld & Lf & Wd & Wf_ & Bd & Bf_ & V & [(c & e & -> & H)|(lg & c & e & -> & H & Wlg & Slg)]).
  - eauto.
  - destruct H as (H1 & H2 & H3).
    assert (HF : forall a, (1 <= uval f_ a)%Z) by (intro a; destruct (V a) as (_ & ->); lia).
    apply (rs_loop_terminates M clog2 HC d f_ Wd Wf_ Bd Bf_ Ld Lf HF c e H1 H2 lg Wlg Slg _ rm); auto.
    + apply random_sampler_total.
    + apply random_sampler_sound; auto. specialize (Hd 0). lia.
    + repeat split; try lia.
    + unfold count_inputs. pose proof (filter_len (fun l => betterb d f_ c e (asg_of l)) (all_inputs (read_size M))).
      pose proof (all_inputs_length (read_size M)). lia.
Qed.

(** with no samples per round it returns early or never *)
Theorem randomized_search_no_samples M clog2 rm draws f g r : clog2_ok clog2 -> wfs M f -> wfs M g ->
  below (read_size M) f -> below (read_size M) g -> f <> [] -> (r = TwosComplement -> g <> []) ->
  Nat.max (length f) (length g) <= 62 ->
  wcre_randomized_search M clog2 rm draws f g 0 r 0 = None ->
  forall fuel, wcre_randomized_search M clog2 rm draws f g 0 r fuel = None.
Proof.
  intros HC Wf Wg Bf Bg Hf Hg HL. unfold wcre_randomized_search.
  destruct (rs_start_spec M clog2 _ f g r HC eq_refl Wf Wg Bf Bg Hf Hg HL) as (d & f_ & Ld & Lf & Wd & Wf_ & Bd & Bf_ & V & [(c & e & -> & H)|(lg & c & e & -> & H & Wlg & Slg)]).
  - discriminate.
  - intros _ fuel. destruct H as (H1 & H2 & H3).
    assert (HF : forall a, (1 <= uval f_ a)%Z) by (intro a; destruct (V a) as (_ & ->); lia).
    apply (rs_loop_no_samples M clog2 HC d f_ Wd Wf_ Ld Lf HF c e H1 H2 H3 lg Wlg Slg); auto.
Qed.
