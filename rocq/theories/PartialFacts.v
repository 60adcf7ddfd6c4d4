(** How far the results of approximate_worst_case_error and mean_squared_value are from the exact ones *)
From Coq Require Import List Bool Arith ZArith QArith Qround Lia Lqa.
From Verif Require Import Res Cudd CuddFacts Spec SpecFacts Helpers HelpersFacts HelpersFacts2 Counting Metrics MetricsFacts MetricsFacts2 MetricsFacts3 MetricsFacts4 MetricsFacts6 SpecPartial.
Import ListNotations.
Open Scope nat_scope.

(** ** constants *)
Lemma constant_value N z a : (0 <= z < 2 ^ Z.of_nat N)%Z -> uval (constant_number N z) a = z.
Proof.
  intro Hz. pose proof (uval_bits z a N 0) as H. unfold constant_number. rewrite bitsum_spec, pow2_0, Nat.add_0_l, Z.mod_1_r in H.
  unfold pow2 in H. rewrite Z.mod_small in H by lia. lia.
Qed.
Lemma constant_wf M N z : Forall (wf M) (constant_number N z).
Proof. apply Forall_forall. intros x Hx. apply in_map_iff in Hx. destruct Hx as (i & <- & _). destruct (Z.testbit z _); auto with wf. Qed.
Lemma constant_length N z : length (constant_number N z) = N.
Proof. unfold constant_number. now rewrite map_length, seq_length. Qed.
Lemma constant_bit N z i a : i < N -> ev (nth i (constant_number N z) bzero) a = Z.testbit z (Z.of_nat i).
Proof.
  intro H. unfold constant_number. set (F := fun i => if Z.testbit z (Z.of_nat i) then bone else bzero).
  rewrite (nth_indep _ bzero (F 0)) by (rewrite map_length, seq_length; auto). rewrite map_nth, seq_nth by auto. unfold F. cbn [plus].
  destruct (Z.testbit z (Z.of_nat i)); reflexivity.
Qed.

(** ** approximate_worst_case_error *)
Lemma max_of_constants N x y s : (0 <= x < 2 ^ Z.of_nat N)%Z -> (0 <= y < 2 ^ Z.of_nat N)%Z -> forall m,
  is_max (fun a => dist (uval (constant_number N x) a / 2 ^ Z.of_nat s) (uval (constant_number N y) a / 2 ^ Z.of_nat s)) m <->
  m = dist (x / 2 ^ Z.of_nat s) (y / 2 ^ Z.of_nat s).
Proof.
  intros Hx Hy m. split.
  - intros [(a & <-) _]. now rewrite !constant_value.
  - intros ->. split; [exists (fun _ => false)|intro a]; rewrite !constant_value by auto; lia.
Qed.
Lemma top_of_constants N x y : (2 ^ Z.of_nat N <= x < 2 ^ Z.of_nat (S N))%Z -> (0 <= y < 2 ^ Z.of_nat N)%Z ->
  top_difference (constant_number (S N) x) (constant_number (S N) y) N.
Proof.
  intros Hx Hy. split; [rewrite constant_length; lia|]. split.
  - exists (fun _ => false). rewrite !constant_bit by lia.
    assert (Ty : Z.testbit y (Z.of_nat N) = false).
    { rewrite Z.testbit_false by lia. rewrite Z.div_small by lia. reflexivity. }
    assert (Tx : Z.testbit x (Z.of_nat N) = true).
    { rewrite Z.testbit_true by lia. replace (x / 2 ^ Z.of_nat N)%Z with 1%Z; [reflexivity|].
      apply Z.div_unique with (r := (x - 2 ^ Z.of_nat N)%Z); [|lia]. rewrite Nat2Z.inj_succ, Z.pow_succ_r in Hx by lia. lia. }
    rewrite Tx, Ty. discriminate.
  - rewrite constant_length. intros i Hi. lia.
Qed.
Lemma awce_constants M N n x y : (1 <= n)%Z -> S N <= 256 -> (2 ^ Z.of_nat N <= x < 2 ^ Z.of_nat (S N))%Z -> (0 <= y < 2 ^ Z.of_nat N)%Z ->
  let s := Z.to_nat (Z.of_nat N + 1 - n) in
  approximate_worst_case_error M (constant_number (S N) x) (constant_number (S N) y) n BaseTwo
  = Ok ((dist (x / 2 ^ Z.of_nat s) (y / 2 ^ Z.of_nat s) + 1) * 2 ^ Z.of_nat s - 1)%Z.
Proof.
  intros Hn HN Hx Hy s.
  pose proof (Z.pow_le_mono_r 2 (Z.of_nat N) (Z.of_nat (S N)) ltac:(lia) ltac:(lia)) as PP.
  pose proof (Z.pow_pos_nonneg 2 (Z.of_nat N) ltac:(lia) ltac:(lia)) as P0.
  destruct (awce_base_value M (constant_number (S N) x) (constant_number (S N) y) n N) as (m & Hm & E);
    rewrite ?constant_length; auto using constant_wf, top_of_constants.
  fold s in Hm, E. rewrite E. apply max_of_constants in Hm; [|lia|lia]. now rewrite Hm.
Qed.
Lemma max_dist_constants N x y : (0 <= x < 2 ^ Z.of_nat N)%Z -> (0 <= y < 2 ^ Z.of_nat N)%Z ->
  is_max (fun a => dist (uval (constant_number N x) a) (uval (constant_number N y) a)) (dist x y).
Proof. intros Hx Hy. split; [exists (fun _ => false)|intro a]; rewrite !constant_value by auto; lia. Qed.

(** the largest possible excess for a worst case error of 1 ... *)
Lemma awce_worst M N n : (1 <= n <= Z.of_nat N + 1)%Z -> S N <= 256 ->
  let f := constant_number (S N) (2 ^ Z.of_nat N) in let g := constant_number (S N) (2 ^ Z.of_nat N - 1) in
  top_difference f g N /\ is_max (fun a => dist (uval f a) (uval g a)) 1
  /\ approximate_worst_case_error M f g n BaseTwo = Ok (2 ^ (Z.of_nat N + 2 - n) - 1)%Z.
Proof.
  intros Hn HN. pose proof (Z.pow_pos_nonneg 2 (Z.of_nat N) ltac:(lia) ltac:(lia)) as P0.
  assert (PS : (2 ^ Z.of_nat (S N) = 2 * 2 ^ Z.of_nat N)%Z) by (rewrite Nat2Z.inj_succ, Z.pow_succ_r by lia; reflexivity).
  cbv zeta. split; [apply top_of_constants; lia|]. split.
  { pose proof (max_dist_constants (S N) (2 ^ Z.of_nat N) (2 ^ Z.of_nat N - 1) ltac:(lia) ltac:(lia)) as D.
    replace (dist (2 ^ Z.of_nat N) (2 ^ Z.of_nat N - 1)) with 1%Z in D by (unfold dist; lia). exact D. }
  rewrite awce_constants by lia. set (s := Z.to_nat (Z.of_nat N + 1 - n)). assert (Es : Z.of_nat s = (Z.of_nat N + 1 - n)%Z) by lia.
  rewrite Es. set (t := (Z.of_nat N + 1 - n)%Z) in *. assert (EN : Z.of_nat N = (n - 1 + t)%Z) by lia.
  pose proof (Z.pow_pos_nonneg 2 t ltac:(lia) ltac:(lia)) as Pt.
  assert (E : (2 ^ Z.of_nat N = 2 ^ (n - 1) * 2 ^ t)%Z) by (rewrite EN; apply Z.pow_add_r; lia).
  f_equal. rewrite E, Z.div_mul by lia.
  replace (2 ^ (n - 1) * 2 ^ t - 1)%Z with ((2 ^ t - 1) + (2 ^ (n - 1) - 1) * 2 ^ t)%Z by ring.
  rewrite Z.div_add, Z.div_small by lia. replace (Z.of_nat N + 2 - n)%Z with (Z.succ t) by lia. rewrite Z.pow_succ_r by lia.
  unfold dist. replace (2 ^ (n - 1) - (0 + (2 ^ (n - 1) - 1)))%Z with 1%Z by ring. cbn [Z.abs]. lia.
Qed.
(** ... and if the highest differing bits do not cancel *)
Lemma awce_worst_top M N n : (2 <= n <= Z.of_nat N + 1)%Z -> S N <= 256 ->
  let s := (Z.of_nat N + 1 - n)%Z in
  let f := constant_number (S N) (2 ^ Z.of_nat N + 2 ^ s) in let g := constant_number (S N) (2 ^ s - 1) in
  top_difference f g N /\ is_max (fun a => dist (uval f a) (uval g a)) (2 ^ Z.of_nat N + 1)
  /\ approximate_worst_case_error M f g n BaseTwo = Ok (2 ^ Z.of_nat N + 1 + (2 ^ (s + 1) - 2))%Z.
Proof.
  intros Hn HN t. pose proof (Z.pow_pos_nonneg 2 (Z.of_nat N) ltac:(lia) ltac:(lia)) as P0.
  assert (PS : (2 ^ Z.of_nat (S N) = 2 * 2 ^ Z.of_nat N)%Z) by (rewrite Nat2Z.inj_succ, Z.pow_succ_r by lia; reflexivity).
  assert (Pt0 : (0 < 2 ^ t)%Z) by (apply Z.pow_pos_nonneg; lia).
  assert (Pt : (2 ^ t < 2 ^ Z.of_nat N)%Z) by (apply Z.pow_lt_mono_r; lia).
  cbv zeta. split; [apply top_of_constants; lia|]. split.
  { pose proof (max_dist_constants (S N) (2 ^ Z.of_nat N + 2 ^ t) (2 ^ t - 1) ltac:(lia) ltac:(lia)) as D.
    replace (dist (2 ^ Z.of_nat N + 2 ^ t) (2 ^ t - 1)) with (2 ^ Z.of_nat N + 1)%Z in D by (unfold dist; lia). exact D. }
  rewrite awce_constants by lia. set (s := Z.to_nat (Z.of_nat N + 1 - n)). assert (Es : Z.of_nat s = t) by lia. rewrite Es.
  assert (EN : Z.of_nat N = (n - 1 + t)%Z) by lia.
  assert (E : (2 ^ Z.of_nat N = 2 ^ (n - 1) * 2 ^ t)%Z) by (rewrite EN at 1; apply Z.pow_add_r; lia).
  f_equal. rewrite E. replace (2 ^ (n - 1) * 2 ^ t + 2 ^ t)%Z with ((2 ^ (n - 1) + 1) * 2 ^ t)%Z by ring.
  rewrite Z.div_mul, (Z.div_small (2 ^ t - 1)) by lia. replace (t + 1)%Z with (Z.succ t) by lia. rewrite Z.pow_succ_r by lia.
  pose proof (Z.pow_pos_nonneg 2 (n - 1) ltac:(lia) ltac:(lia)). unfold dist. rewrite Z.sub_0_r, Z.abs_eq by lia. ring.
Qed.

(** ** mean_squared_value *)
Definition dq (l : list Q) : Q := fold_right (fun x r => x + 2 * r)%Q 0%Q l.
Lemma digits_gap (F : bdd -> Z) (G : bdd -> Q) (K : Q) l : (0 < K)%Q ->
  (forall x, In x l -> inject_Z (F x) <= G x /\ G x < inject_Z (F x) + K)%Q ->
  (inject_Z (digits (map F l)) <= dq (map G l))%Q
  /\ (l <> [] -> dq (map G l) < inject_Z (digits (map F l)) + K * (inject_Z (pow2 (length l)) - 1))%Q
  /\ ((dq (map G l) == inject_Z (digits (map F l)))%Q <-> forall x, In x l -> (G x == inject_Z (F x))%Q).
Proof.
  intro PK. induction l as [|x l IH]; intro H.
  - cbn. split; [apply Qle_refl|]. split; [congruence|]. split; [intros _ x []|reflexivity].
  - destruct (IH (fun y Hy => H y (or_intror Hy))) as (I1 & I2 & I3). destruct (H x (or_introl eq_refl)) as [X1 X2].
    cbn [map length]. unfold dq in *. unfold digits in *. cbn [fold_right].
    set (A := fold_right (fun x r => x + 2 * r)%Q 0%Q (map G l)) in *. set (B := fold_right (fun x r => x + 2 * r)%Z 0%Z (map F l)) in *.
    rewrite inject_Z_plus, inject_Z_mult. change (inject_Z 2) with 2%Q. split; [lra|]. split.
    + intros _. rewrite pow2_S, inject_Z_mult. change (inject_Z 2) with 2%Q. destruct l as [|y l'].
      * change A with 0%Q. change B with 0%Z. change (pow2 (length (@nil bdd))) with 1%Z. change (inject_Z 1) with 1%Q. change (inject_Z 0) with 0%Q.
        setoid_replace (K * (2 * 1 - 1))%Q with K by ring. lra.
      * specialize (I2 ltac:(discriminate)). set (w := inject_Z (pow2 (length (y :: l')))) in *. 
        setoid_replace (K * (2 * w - 1))%Q with (2 * (K * (w - 1)) + K)%Q by ring. lra.
    + split.
      * intro E. assert (E1 : (A == inject_Z B)%Q) by lra. intros y [<-|Hy]; [lra|]. now apply I3.
      * intro E. assert (E1 : (A == inject_Z B)%Q) by (apply I3; intros y Hy; apply E; now right). specialize (E x (or_introl eq_refl)). lra.
Qed.
Lemma average_square n f : forall l,
  (average n (fun a => inject_Z (uval l a * uval f a)) == dq (map (fun x => dq (map (fun y => average n (fun a => b2q (ev x a && ev y a))) f)) l))%Q.
Proof.
  induction l as [|x l IH].
  - cbn [map dq fold_right uval]. rewrite (average_ext n _ (fun _ => 0 * 0)%Q) by (intro; reflexivity). rewrite average_scale. ring.
  - unfold dq in *. cbn [map fold_right]. rewrite <- IH.
    rewrite (average_ext n _ (fun a => inject_Z (Z.b2z (ev x a) * uval f a) + 2 * inject_Z (uval l a * uval f a))%Q).
    2:{ intro a. cbn [uval]. rewrite Z.mul_add_distr_r, inject_Z_plus, <- Z.mul_assoc, (inject_Z_mult 2). reflexivity. }
    rewrite average_plus, average_scale. apply Qplus_comp; [|reflexivity]. clear IH l.
    induction f as [|y f IH].
    + cbn [map fold_right uval]. rewrite (average_ext n _ (fun _ => 0 * 0)%Q) by (intro; rewrite Z.mul_0_r; reflexivity). rewrite average_scale. ring.
    + cbn [map fold_right]. rewrite <- IH.
      rewrite (average_ext n _ (fun a => b2q (ev x a && ev y a) + 2 * inject_Z (Z.b2z (ev x a) * uval f a))%Q).
      2:{ intro a. cbn [uval]. destruct (ev x a), (ev y a); cbn [andb b2q Z.b2z]; rewrite ?Z.mul_1_l, ?Z.mul_0_l, ?Z.add_0_l, ?inject_Z_plus, ?inject_Z_mult; try reflexivity; ring. }
      now rewrite average_plus, average_scale.
Qed.
Lemma dq_scale c (F : bdd -> Q) l : (dq (map (fun x => c * F x) l) == c * dq (map F l))%Q.
Proof. unfold dq. induction l as [|x l IH]; cbn [map fold_right]; [ring|]. rewrite IH. ring. Qed.
Lemma dq_ext (F G : bdd -> Q) l : (forall x, In x l -> F x == G x)%Q -> (dq (map F l) == dq (map G l))%Q.
Proof.
  unfold dq. induction l as [|x l IH]; intro H; cbn [map fold_right]; [reflexivity|].
  rewrite IH by (intros; apply H; now right). now rewrite (H x (or_introl eq_refl)).
Qed.
Lemma floor_gap q : (inject_Z (Qfloor q) <= q /\ q < inject_Z (Qfloor q) + 1)%Q.
Proof.
  split; [apply Qfloor_le|]. pose proof (Qlt_floor q) as H. rewrite inject_Z_plus in H. exact H.
Qed.
Lemma floor_integral q : (q == inject_Z (Qfloor q))%Q <-> exists z, (q == inject_Z z)%Q.
Proof. split; [eauto|]. intros (z & E). rewrite (Qfloor_comp _ _ E), Qfloor_Z. exact E. Qed.

Lemma truncated_gap n s f :
  let e := average n (fun a => inject_Z (uval f a * uval f a)) in
  (truncated_square n s f <= e)%Q
  /\ (f <> [] -> e - truncated_square n s f < inject_Z ((2 ^ Z.of_nat (length f) - 1) * (2 ^ Z.of_nat (length f) - 1)) / inject_Z (2 ^ Z.of_nat s))%Q
  /\ ((truncated_square n s f == e)%Q <-> forall x y, In x f -> In y f -> exists z, (inject_Z (2 ^ Z.of_nat s) * average n (fun a => b2q (ev x a && ev y a)) == inject_Z z)%Q).
Proof.
  cbv zeta. set (p := fun x y => average n (fun a => b2q (ev x a && ev y a))).
  set (c := inject_Z (2 ^ Z.of_nat s)). assert (Pc : (0 < c)%Q) by (apply (pow2Q_pos s)).
  set (w := inject_Z (pow2 (length f))).
  assert (Inner : forall x, (inject_Z (digits (map (both_count n s x) f)) <= dq (map (fun y => c * p x y) f))%Q
     /\ (f <> [] -> dq (map (fun y => c * p x y) f) < inject_Z (digits (map (both_count n s x) f)) + 1 * (w - 1))%Q
     /\ ((dq (map (fun y => c * p x y) f) == inject_Z (digits (map (both_count n s x) f)))%Q
           <-> forall y, In y f -> (c * p x y == inject_Z (both_count n s x y))%Q)).
  { intro x. apply (digits_gap (both_count n s x) (fun y => c * p x y)%Q 1 f); [lra|]. intros y _. apply floor_gap. }
  assert (E : (average n (fun a => inject_Z (uval f a * uval f a)) == dq (map (fun x => dq (map (fun y => c * p x y) f)) f) / c)%Q).
  { rewrite average_square. change (dq (map (fun x => dq (map (p x) f)) f) == dq (map (fun x => dq (map (fun y => c * p x y)%Q f)) f) / c)%Q. rewrite (dq_ext (fun x => dq (map (fun y => c * p x y)%Q f)) (fun x => c * dq (map (p x) f))%Q)
      by (intros x _; apply dq_scale). rewrite dq_scale. field. lra. }
  destruct f as [|b f'].
  { cbn [length map] in *. split; [apply Qle_lteq; right|split; [congruence|]].
    - rewrite E. unfold truncated_square. cbn. field. split; exact (Qnot_eq_sym _ _ (Qlt_not_eq _ _ Pc)).
    - split; [intros _ x y []|]. intros _. rewrite E. reflexivity. }
  set (f := b :: f') in *. assert (Hne : f <> []) by discriminate.
  assert (W1 : (1 < w)%Q).
  { unfold w. change 1%Q with (inject_Z 1). rewrite <- Zlt_Qlt. unfold f. cbn [length]. rewrite pow2_S. pose proof (pow2_pos (length f')). lia. }
  destruct (digits_gap (fun x => digits (map (both_count n s x) f)) (fun x => dq (map (fun y => c * p x y)%Q f)) (w - 1)%Q f ltac:(lra)) as (O1 & O2 & O3).
  { intros x _. destruct (Inner x) as (I1 & I2 & _). specialize (I2 Hne). split; [exact I1|]. lra. }
  specialize (O2 Hne). fold w in O2.
  set (A := dq (map (fun x => dq (map (fun y => c * p x y)%Q f)) f)) in *. set (B := digits (map (fun x => digits (map (both_count n s x) f)) f)) in *.
  assert (ET : truncated_square n s f = (inject_Z B / c)%Q) by reflexivity. rewrite ET.
  split; [rewrite E; apply Qmult_le_compat_r; [exact O1|apply Qlt_le_weak, Qinv_lt_0_compat, Pc]|]. split.
  - intros _. rewrite E. setoid_replace (A / c - inject_Z B / c)%Q with ((A - inject_Z B) / c)%Q by (field; lra).
    apply Qmult_lt_compat_r; [apply Qinv_lt_0_compat, Pc|]. fold (pow2 (length f)). rewrite inject_Z_mult.
    unfold Z.sub. rewrite inject_Z_plus. fold w. change (inject_Z (- (1))) with (- (1))%Q. setoid_replace ((w + - (1)) * (w + - (1)))%Q with ((w - 1) * (w - 1))%Q by ring. lra.
  - assert (EQ : (inject_Z B / c == average n (fun a => inject_Z (uval f a * uval f a)))%Q <-> (A == inject_Z B)%Q).
    { rewrite E. split; intro H; [|rewrite H; reflexivity].
      setoid_replace A with (A / c * c)%Q by (field; lra). rewrite <- H. field. lra. }
    rewrite EQ, O3. split.
    + intros H x y Hx Hy. apply floor_integral. apply (proj1 (proj2 (proj2 (Inner x))) (H x Hx) y Hy).
    + intros H x Hx. apply (Inner x). intros y Hy. apply floor_integral. apply H; auto.
Qed.

Lemma mean_squared_value_gap M n f s : wfs M f -> below n f -> (forall b, In b f -> 2 * length f + support_size b <= 256) ->
  largest_support f s ->
  exists q, mean_squared_value M f = Fin q /\
  let e := average n (fun a => inject_Z (uval f a * uval f a)) in
  (q <= e)%Q
  /\ (f <> [] -> e - q < inject_Z ((2 ^ Z.of_nat (length f) - 1) * (2 ^ Z.of_nat (length f) - 1)) / inject_Z (2 ^ Z.of_nat s))%Q
  /\ ((q == e)%Q <-> forall x y, In x f -> In y f -> exists z, (inject_Z (2 ^ Z.of_nat s) * average n (fun a => b2q (ev x a && ev y a)) == inject_Z z)%Q).
Proof.
  intros W B H HL. destruct (mean_squared_value_exact M n f s W B H HL) as (q & E & Eq). exists q. split; [exact E|].
  destruct (truncated_gap n s f) as (G1 & G2 & G3). cbv zeta. rewrite Eq. auto.
Qed.
Lemma mean_squared_error_gap M n f g r : wfs M f -> wfs M g -> below n f -> below n g ->
  (r = TwosComplement -> f <> [] /\ g <> []) -> 2 * Nat.max (length f) (length g) + 2 + n <= 256 ->
  exists d q, bdd_absolute_difference M f g r = Ok d /\ (forall a, uval d a = wrapped r f g a) /\ mean_squared_error M f g r = Ok (Fin q)
  /\ forall s, largest_support d s ->
  let e := average n (fun a => inject_Z (wrapped r f g a * wrapped r f g a)) in
  (q <= e)%Q
  /\ (d <> [] -> e - q < inject_Z ((2 ^ Z.of_nat (length d) - 1) * (2 ^ Z.of_nat (length d) - 1)) / inject_Z (2 ^ Z.of_nat s))%Q
  /\ ((q == e)%Q <-> forall x y, In x d -> In y d -> exists z, (inject_Z (2 ^ Z.of_nat s) * average n (fun a => b2q (ev x a && ev y a)) == inject_Z z)%Q).
Proof.
  intros Wf Wg Bf Bg Hr H. destruct (mse_exact M n f g r Wf Wg Bf Bg Hr H) as (d & q & E & V & R & T).
  exists d, q. split; [exact E|]. split; [exact V|]. split; [exact R|]. intros s Hs. cbv zeta. specialize (T s Hs).
  destruct (truncated_gap n s d) as (G1 & G2 & G3).
  assert (EV : (average n (fun a => inject_Z (wrapped r f g a * wrapped r f g a)) == average n (fun a => inject_Z (uval d a * uval d a)))%Q)
    by (apply average_ext; intro a; now rewrite V).
  rewrite T, EV. auto.
Qed.
