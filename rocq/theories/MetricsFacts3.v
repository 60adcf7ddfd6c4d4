(** Proofs about the worst case error and its approximation. *)
From Coq Require Import List Bool Arith ZArith QArith Qabs Qround Lia Lqa.
From Verif Require Import Res Cudd CuddFacts Spec SpecFacts Helpers HelpersFacts HelpersFacts2 Counting AddFacts CountFacts PathFacts Metrics MetricsFacts MetricsFacts2.
Import ListNotations.
Open Scope nat_scope.

Lemma wce_base_full M f g h : wfs M f -> wfs M g -> wfs M h -> length f <= 256 -> length g <= 256 -> length h <= 256 ->
  exists m, worst_case_error M f g BaseTwo = Ok m
    /\ is_max (fun a => dist (uval f a) (uval g a)) m
    /\ (m = 0%Z <-> forall a, uval f a = uval g a)
    /\ worst_case_error M g f BaseTwo = Ok m
    /\ (exists m1 m2, worst_case_error M f h BaseTwo = Ok m1 /\ worst_case_error M h g BaseTwo = Ok m2 /\ (m <= m1 + m2)%Z)
    /\ (forall n, index_order M -> below n f -> below n g -> n <= 63 -> worst_case_error_add M f g BaseTwo = Ok m).
Proof.
  intros Wf Wg Wh Lf Lg Lh.
  destruct (wce_base_spec M f g Wf Wg Lf Lg) as (m & R & HM). exists m. split; [exact R|]. split; [exact HM|].
  split.
  { rewrite (is_max_zero _ (fun a => proj1 (dist_uval_lt f g a)) m HM). unfold dist. split; intros H a; specialize (H a); lia. }
  split.
  { destruct (wce_base_spec M g f Wg Wf Lg Lf) as (m' & R' & HM'). rewrite R'. f_equal.
    apply (is_max_unique (fun a => dist (uval f a) (uval g a))); auto.
    apply is_max_ext with (2 := HM'). intro a. apply dist_sym. }
  split.
  { destruct (wce_base_spec M f h Wf Wh Lf Lh) as (m1 & R1 & [_ H1]).
    destruct (wce_base_spec M h g Wh Wg Lh Lg) as (m2 & R2 & [_ H2]).
    exists m1, m2. split; [auto|]. split; [auto|]. destruct HM as [(a & <-) _]. specialize (H1 a). specialize (H2 a).
    unfold dist in *. lia. }
  intros n HI Bf Bg Hn. destruct (wce_add_spec M n f g BaseTwo) as (m' & R' & HM'); auto; [discriminate|].
  rewrite R'. f_equal. exact (is_max_unique _ _ _ HM' HM).
Qed.

(** two's complement *)
Lemma wce_twos_spec M f g : wfs M f -> wfs M g -> f <> [] -> g <> [] -> length f <= 256 -> length g <= 256 ->
  exists m, worst_case_error M f g TwosComplement = Ok m
    /\ is_max (fun a => Z.min (dist (sval f a) (sval g a)) (pow2 (Nat.max (length f) (length g)) - dist (sval f a) (sval g a))) m.
Proof.
  intros Wf Wg Nf Ng Lf Lg. unfold worst_case_error. destruct (absdiff_twos M f g Nf Ng) as (r & -> & Lr & Wr & E). cbn [bind].
  eexists; split; [reflexivity|]. apply is_max_ext with (F := uval r); [exact E|]. apply get_max_value_bounded; auto.
  intro a. pose proof (uval_range r a) as U. rewrite Lr in U. pose proof (pow2_256 (Nat.max (length f) (length g)) ltac:(lia)). lia.
Qed.

Lemma wce_twos_full M f g : wfs M f -> wfs M g -> f <> [] -> g <> [] -> length f <= 256 -> length g <= 256 ->
  (exists m, worst_case_error M f g TwosComplement = Ok m
    /\ is_max (fun a => Z.min (dist (sval f a) (sval g a)) (pow2 (Nat.max (length f) (length g)) - dist (sval f a) (sval g a))) m
    /\ ((forall a, 2 * dist (sval f a) (sval g a) <= pow2 (Nat.max (length f) (length g)))%Z ->
        is_max (fun a => dist (sval f a) (sval g a)) m))
  /\ (forall n, index_order M -> below n f -> below n g -> n <= 63 ->
      exists m, worst_case_error_add M f g TwosComplement = Ok m /\ is_max (fun a => dist (sval f a) (sval g a)) m).
Proof.
  intros Wf Wg Nf Ng Lf Lg. split.
  - destruct (wce_twos_spec M f g) as (m & R & HM); auto. exists m. split; [exact R|]. split; [exact HM|].
    intro H. apply is_max_ext with (2 := HM). intro a. specialize (H a). lia.
  - intros n HI Bf Bg Hn. apply (wce_add_spec M n f g TwosComplement); auto.
Qed.

(** ** Normalised worst case error *)
Lemma Qdiv_unit x d : (0 <= x)%Z -> (x <= d)%Z -> (0 < d)%Z -> (0 <= inject_Z x / inject_Z d <= 1)%Q.
Proof.
  intros H0 H1 Hd. assert (D : (0 < inject_Z d)%Q) by (change 0%Q with (inject_Z 0); now rewrite <- Zlt_Qlt).
  split.
  - apply Qle_shift_div_l; auto. rewrite Qmult_0_l. change 0%Q with (inject_Z 0). now rewrite <- Zle_Qle.
  - apply Qle_shift_div_r; auto. rewrite Qmult_1_l. now rewrite <- Zle_Qle.
Qed.

Lemma wce_percent_full M f g r : wfs M f -> wfs M g -> length f = length g -> 1 <= length f <= 256 ->
  exists m q, worst_case_error M f g r = Ok m /\ worst_case_error_percent M f g r = Ok (Fin q)
    /\ (0 <= q <= 1)%Q
    /\ (length f <= 53 -> (q == inject_Z m / inject_Z (2 ^ Z.of_nat (length f) - 1))%Q)
    /\ (53 < length f -> (q == inject_Z m / inject_Z (2 ^ Z.of_nat (length f)))%Q).
Proof.
  intros Wf Wg L H. set (w := length f) in *.
  assert (Nf : f <> []) by (intro E; unfold w in H; rewrite E in H; cbn in H; lia).
  assert (Ng : g <> []) by (intro E; rewrite E in L; cbn in L; lia).
  assert (HM : exists m, worst_case_error M f g r = Ok m /\ (0 <= m <= pow2 w - 1)%Z).
  { destruct r.
    - destruct (wce_base_spec M f g) as (m & R & [(a & E) _]); auto; [fold w; lia|lia|]. exists m. split; [auto|].
      pose proof (dist_uval_lt f g a) as D. rewrite <- L in D. fold w in D. rewrite Nat.max_id in D. lia.
    - destruct (wce_twos_spec M f g) as (m & R & [(a & E) _]); auto; [fold w; lia|lia|]. exists m. split; [auto|].
      pose proof (sval_dist_lt f g a Nf Ng) as D. rewrite <- L in *. fold w in D. fold w in E. rewrite Nat.max_id in D, E. lia. }
  destruct HM as (m & R & Hm). unfold worst_case_error_percent. rewrite R. cbn [bind]. fold w. unfold pow_minus_one.
  assert (P : (2 <= pow2 w)%Z) by (change 2%Z with (pow2 1); apply pow2_le; lia).
  change (2 ^ Z.of_nat w)%Z with (pow2 w).
  destruct (w <=? 53) eqn:E.
  - apply Nat.leb_le in E. rewrite fdiv_pos by lia. exists m, (inject_Z m / inject_Z (pow2 w - 1))%Q.
    split; [auto|]. split; [auto|]. split; [apply Qdiv_unit; lia|]. split; [reflexivity|]. intro; lia.
  - apply Nat.leb_gt in E. rewrite fdiv_pos by lia. exists m, (inject_Z m / inject_Z (pow2 w))%Q.
    split; [auto|]. split; [auto|]. split; [apply Qdiv_unit; lia|]. split; [intro; lia|reflexivity].
Qed.

(** ** Approximate worst case error *)
Lemma awce_phase2 n h l : forall F G, (0 <= h)%Z -> let s := Z.to_nat (h + 1 - n) in s <= length l ->
  awce_loop l n h F G = (F ++ map fst (firstn (length l - s) l), G ++ map snd (firstn (length l - s) l), h, (Z.of_nat s - 1)%Z).
Proof.
  cbv zeta. induction l as [|[x y] l IH]; intros F G Hh Hs; cbn [awce_loop length] in *.
  - cbn [firstn map]. rewrite !app_nil_r. replace (Z.to_nat (h + 1 - n)) with 0 by lia. reflexivity.
  - replace (h =? -1)%Z with false by (symmetry; apply Z.eqb_neq; lia). cbn [andb].
    replace (0 <=? h)%Z with true by (symmetry; apply Z.leb_le; lia). cbn [andb].
    destruct (n <=? h - Z.of_nat (length l))%Z eqn:E.
    + apply Z.leb_le in E. replace (S (length l) - Z.to_nat (h + 1 - n)) with 0 by lia. cbn [firstn map].
      rewrite !app_nil_r. repeat f_equal. lia.
    + apply Z.leb_gt in E. rewrite IH by lia.
      replace (S (length l) - Z.to_nat (h + 1 - n)) with (S (length l - Z.to_nat (h + 1 - n))) by lia.
      cbn [firstn map fst snd]. rewrite <- !app_assoc. reflexivity.
Qed.

Lemma awce_same l n : forall F G, (forall p, In p l -> bdd_eqb (fst p) (snd p) = true) ->
  awce_loop l n (-1) F G = (F ++ map fst l, G ++ map snd l, (-1)%Z, (-1)%Z).
Proof.
  induction l as [|[x y] l IH]; intros F G H; cbn [awce_loop]; [now rewrite !app_nil_r|].
  pose proof (H (x, y) (or_introl eq_refl)) as E. cbn [fst snd] in E. rewrite E. change (-1 =? -1)%Z with true. cbn [negb andb]. change (0 <=? -1)%Z with false. cbn [andb].
  rewrite IH by (intros; apply H; now right). cbn [map fst snd]. rewrite <- !app_assoc. reflexivity.
Qed.

Lemma awce_phase1 n d l : (1 <= n)%Z -> forall h F G, h < length l ->
  bdd_eqb (fst (nth h (rev l) d)) (snd (nth h (rev l) d)) = false ->
  (forall i, h < i < length l -> bdd_eqb (fst (nth i (rev l) d)) (snd (nth i (rev l) d)) = true) ->
  let s := Z.to_nat (Z.of_nat h + 1 - n) in
  awce_loop l n (-1) F G = (F ++ map fst (firstn (length l - s) l), G ++ map snd (firstn (length l - s) l), Z.of_nat h, (Z.of_nat s - 1)%Z).
Proof.
  intros Hn. cbv zeta. induction l as [|[x y] l IH]; intros h F G Hh Hd Heq; cbn [length] in Hh; [lia|].
  cbn [awce_loop]. cbn [rev] in Hd, Heq.
  destruct (Nat.eq_dec h (length l)) as [->|Hne].
  - rewrite app_nth2, rev_length, Nat.sub_diag in Hd by (rewrite rev_length; lia). cbn [nth fst snd] in Hd.
    rewrite Hd. change (-1 =? -1)%Z with true. cbn [negb andb].
    replace (0 <=? Z.of_nat (length l))%Z with true by (symmetry; apply Z.leb_le; lia). cbn [andb].
    replace (n <=? Z.of_nat (length l) - Z.of_nat (length l))%Z with false by (symmetry; apply Z.leb_gt; lia).
    rewrite awce_phase2 by (cbv zeta; lia). cbn [length].
    replace (S (length l) - Z.to_nat (Z.of_nat (length l) + 1 - n)) with (S (length l - Z.to_nat (Z.of_nat (length l) + 1 - n))) by lia.
    cbn [firstn map fst snd]. rewrite <- !app_assoc. reflexivity.
  - pose proof (Heq (length l) ltac:(cbn [length]; lia)) as E.
    rewrite app_nth2, rev_length, Nat.sub_diag in E by (rewrite rev_length; lia). cbn [nth fst snd] in E.
    rewrite E. change (-1 =? -1)%Z with true. cbn [negb andb]. change (0 <=? -1)%Z with false. cbn [andb].
    assert (Hd' : bdd_eqb (fst (nth h (rev l) d)) (snd (nth h (rev l) d)) = false)
      by (rewrite app_nth1 in Hd by (rewrite rev_length; lia); exact Hd).
    assert (Heq' : forall i, h < i < length l -> bdd_eqb (fst (nth i (rev l) d)) (snd (nth i (rev l) d)) = true)
      by (intros i Hi; specialize (Heq i ltac:(cbn [length]; lia)); rewrite app_nth1 in Heq by (rewrite rev_length; lia); exact Heq).
    rewrite (IH h (F ++ [x]) (G ++ [y]) ltac:(lia) Hd' Heq').
    cbn [length].
    replace (S (length l) - Z.to_nat (Z.of_nat h + 1 - n)) with (S (length l - Z.to_nat (Z.of_nat h + 1 - n))) by lia.
    cbn [firstn map fst snd]. rewrite <- !app_assoc. reflexivity.
Qed.

Lemma map_fst_combine {A B} (f : list A) : forall (g : list B), length f = length g -> map fst (combine f g) = f.
Proof. induction f as [|x f IH]; intros [|y g] H; cbn [length] in H; try discriminate; auto. cbn. f_equal. auto. Qed.
Lemma map_snd_combine {A B} (f : list A) : forall (g : list B), length f = length g -> map snd (combine f g) = g.
Proof. induction f as [|x f IH]; intros [|y g] H; cbn [length] in H; try discriminate; auto. cbn. f_equal. auto. Qed.
Lemma rev_firstn_rev {A} s (l : list A) : rev (firstn (length l - s) (rev l)) = skipn s l.
Proof.
  rewrite firstn_rev, rev_involutive. destruct (le_lt_dec s (length l)).
  - f_equal. lia.
  - replace (length l - (length l - s)) with (length l) by lia. rewrite !skipn_all2; auto; lia.
Qed.

Lemma wf_bdd_eqb M x y : wf M x -> wf M y -> (bdd_eqb x y = true <-> forall a, ev x a = ev y a).
Proof. intros Hx Hy. apply (bdd_eqb_sem M); auto. Qed.

Lemma Forall_nth_wf M f i : wfs M f -> wf M (nth i f bzero).
Proof.
  intro H. destruct (le_lt_dec (length f) i); [rewrite nth_overflow; auto with wf|].
  rewrite Forall_forall in H. apply H. now apply nth_In.
Qed.

Lemma vec_canonical M f : forall g, wfs M f -> wfs M g -> (forall a, map (fun b => ev b a) f = map (fun b => ev b a) g) -> f = g.
Proof.
  induction f as [|x f IH]; intros [|y g] Wf Wg H; auto; try (specialize (H (fun _ => false)); discriminate).
  inversion Wf; inversion Wg; subst. f_equal.
  - apply (canonical M); auto. intro a. specialize (H a). now injection H.
  - apply IH; auto. intro a. specialize (H a). now injection H.
Qed.
Lemma in_combine_same {A} (f : list A) x y : In (x, y) (combine f f) -> x = y.
Proof. induction f as [|z f IH]; cbn; [tauto|]. intros [E|H]; [congruence|auto]. Qed.

(** outcome of the loop for vectors of equal length *)
Lemma awce_same_full M f g n : wfs M f -> wfs M g ->
  (forall a, map (fun b => ev b a) f = map (fun b => ev b a) g) ->
  exists F G e, awce_loop (rev (combine f g)) n (-1) [] [] = (F, G, (-1)%Z, e).
Proof.
  intros Wf Wg H. rewrite <- (vec_canonical M f g Wf Wg H). rewrite awce_same; [eauto|].
  intros [x y] Hp. apply in_rev in Hp. apply in_combine_same in Hp. subst. cbn [fst snd].
  now apply (proj2 (bdd_eqb_spec y y)).
Qed.

Lemma awce_diff_full M f g n h : wfs M f -> wfs M g -> length f = length g -> (1 <= n)%Z -> top_difference f g h ->
  let s := Z.to_nat (Z.of_nat h + 1 - n) in
  exists F G, awce_loop (rev (combine f g)) n (-1) [] [] = (F, G, Z.of_nat h, (Z.of_nat s - 1)%Z)
    /\ rev F = skipn s f /\ rev G = skipn s g /\ s <= h.
Proof.
  intros Wf Wg L Hn (Hh & (a & Ha) & Heq). cbv zeta.
  assert (LC : length (combine f g) = length f) by (rewrite combine_length; lia).
  assert (NC : forall i, i < length f -> nth i (combine f g) (bzero, bzero) = (nth i f bzero, nth i g bzero))
    by (intros; apply combine_nth; auto).
  rewrite (awce_phase1 n (bzero, bzero)) with (h := h); auto.
  - cbn [app]. do 2 eexists. split; [reflexivity|]. rewrite rev_length.
    rewrite <- !map_rev, rev_firstn_rev.
    split; [rewrite <- skipn_map, map_fst_combine; auto|]. split; [rewrite <- skipn_map, map_snd_combine; auto|]. lia.
  - rewrite rev_length. lia.
  - rewrite rev_involutive, NC by auto. cbn [fst snd].
    destruct (bdd_eqb (nth h f bzero) (nth h g bzero)) eqn:E; auto. exfalso. apply Ha.
    apply (proj1 (bdd_eqb_spec _ _)) in E. now rewrite E.
  - intros i Hi. rewrite rev_length, LC in Hi. rewrite rev_involutive, NC by lia. cbn [fst snd].
    apply (wf_bdd_eqb M); auto using Forall_nth_wf.
Qed.

Lemma uval_skipn s f a : (uval f a = uval (firstn s f) a + pow2 (Nat.min s (length f)) * uval (skipn s f) a)%Z.
Proof. rewrite <- (firstn_skipn s f) at 1. rewrite uval_app, firstn_length. reflexivity. Qed.
Lemma uval_firstn_range s f a : (0 <= uval (firstn s f) a < pow2 s)%Z.
Proof.
  pose proof (uval_range (firstn s f) a). pose proof (pow2_le (length (firstn s f)) s ltac:(rewrite firstn_length; lia)). lia.
Qed.

Lemma wfs_skipn M s (f : list bdd) : wfs M f -> wfs M (skipn s f).
Proof. intro H. rewrite <- (firstn_skipn s f) in H. apply Forall_app in H. tauto. Qed.

(** the final formula *)
Lemma awce_finish m s w : (0 <= m < pow2 (w - s))%Z -> s <= w -> w <= 256 ->
  u256 (u256 (u256 (m + 1) * shl256 s) - 1) = ((m + 1) * pow2 s - 1)%Z.
Proof.
  intros Hm Hs Hw. unfold shl256, u256. fold (pow2 s).
  rewrite <- Zmult_mod, Zminus_mod_idemp_l. apply Z.mod_small.
  assert (P : (pow2 (w - s) * pow2 s = pow2 w)%Z) by (rewrite <- pow2_add; f_equal; lia).
  pose proof (pow2_pos s). pose proof (pow2_256 w Hw).
  assert ((m + 1) * pow2 s <= pow2 (w - s) * pow2 s)%Z by (apply Z.mul_le_mono_nonneg_r; lia).
  assert (1 * pow2 s <= (m + 1) * pow2 s)%Z by (apply Z.mul_le_mono_nonneg_r; lia). lia.
Qed.

Lemma awce_bounds (V W A B : asg -> Z) s m wc : (forall a, exists x y, V a = x + pow2 s * A a /\ W a = y + pow2 s * B a
     /\ 0 <= x < pow2 s /\ 0 <= y < pow2 s)%Z ->
  is_max (fun a => dist (A a) (B a)) m -> is_max (fun a => dist (V a) (W a)) wc ->
  (wc <= (m + 1) * pow2 s - 1 <= wc + pow2 (S s) - 2)%Z.
Proof.
  intros H [(a & Ea) HA] [(b & Eb) HB]. rewrite pow2_S. split.
  - destruct (H b) as (x & y & E1 & E2 & Hx & Hy). specialize (HA b). rewrite <- Eb. unfold dist in *. rewrite E1, E2.
    assert (pow2 s * (A b - B b) <= pow2 s * m)%Z by (apply Z.mul_le_mono_nonneg_l; lia).
    assert (pow2 s * (B b - A b) <= pow2 s * m)%Z by (apply Z.mul_le_mono_nonneg_l; lia). lia.
  - destruct (H a) as (x & y & E1 & E2 & Hx & Hy). specialize (HB a). unfold dist in *. rewrite E1, E2 in HB.
    assert (pow2 s * m = Z.abs (pow2 s * (A a - B a)))%Z by (rewrite <- Ea, Z.abs_mul, (Z.abs_eq (pow2 s)) by lia; reflexivity).
    lia.
Qed.

Lemma awce_assert (f g : list bdd) n : length f = length g -> (1 <= n)%Z -> (length f =? length g) && (1 <=? n)%Z = true.
Proof. intros L Hn. apply andb_true_iff. split; [now apply Nat.eqb_eq|now apply Z.leb_le]. Qed.

Lemma awce_base_full M f g n : wfs M f -> wfs M g -> length f = length g -> length f <= 256 -> (1 <= n)%Z ->
  ((forall a, map (fun b => ev b a) f = map (fun b => ev b a) g) -> approximate_worst_case_error M f g n BaseTwo = Ok 0%Z)
  /\ (forall h, top_difference f g h -> let s := Z.to_nat (Z.of_nat h + 1 - n) in
      exists x wc, approximate_worst_case_error M f g n BaseTwo = Ok x
        /\ is_max (fun a => dist (uval f a) (uval g a)) wc
        /\ (wc <= x <= wc + 2 ^ (Z.of_nat s + 1) - 2)%Z).
Proof.
  intros Wf Wg L Hw Hn. unfold approximate_worst_case_error. rewrite awce_assert by auto. cbn [assert_ bind]. split.
  - intro H. destruct (awce_same_full M f g n Wf Wg H) as (F & G & e & ->). reflexivity.
  - intros h Hh. cbv zeta. destruct (awce_diff_full M f g n h Wf Wg L Hn Hh) as (F & G & -> & EF & EG & Hs).
    cbv zeta in *. set (s := Z.to_nat (Z.of_nat h + 1 - n)) in *.
    replace (Z.of_nat h =? -1)%Z with false by (symmetry; apply Z.eqb_neq; lia). cbn [bind]. rewrite EF, EG.
    destruct Hh as (Hh & _).
    destruct (wce_base_spec M (skipn s f) (skipn s g)) as (m & R & HM); auto using wfs_skipn; [rewrite skipn_length; lia..|].
    unfold worst_case_error in R. destruct (bdd_absolute_difference M (skipn s f) (skipn s g) BaseTwo) as [d| | |]; try discriminate.
    cbn [bind] in *. injection R as ->.
    destruct (wce_base_spec M f g) as (wc & _ & HW); auto; [lia|].
    replace (Z.to_nat (Z.of_nat s - 1 + 1)) with s by lia.
    exists ((m + 1) * pow2 s - 1)%Z, wc. split; [|split; [exact HW|]].
    + f_equal. apply awce_finish with (w := length f); try lia.
      destruct HM as [(a & <-) _]. pose proof (dist_uval_lt (skipn s f) (skipn s g) a) as D.
      rewrite !skipn_length, <- L, Nat.max_id in D. exact D.
    + replace (2 ^ (Z.of_nat s + 1))%Z with (pow2 (S s)) by (unfold pow2; f_equal; lia).
      apply (awce_bounds (uval f) (uval g) (uval (skipn s f)) (uval (skipn s g))); auto.
      intro a. exists (uval (firstn s f) a), (uval (firstn s g) a).
      pose proof (uval_skipn s f a) as U1. pose proof (uval_skipn s g a) as U2.
      rewrite Nat.min_l in U1, U2 by lia. auto using uval_firstn_range.
Qed.

(** two's complement with equal sign bits *)
Lemma list_snoc {A} (l : list A) : l <> [] -> exists l' x, l = l' ++ [x].
Proof. intro H. destruct (exists_last H) as (l' & x & E). eauto. Qed.
Lemma tl_rev_combine {A B} (f : list A) (g : list B) x y : length f = length g ->
  tl (rev (combine (f ++ [x]) (g ++ [y]))) = rev (combine f g).
Proof.
  intro L. assert (E : combine (f ++ [x]) (g ++ [y]) = combine f g ++ [(x, y)]).
  { revert g L. induction f as [|z f IH]; intros [|u g] L; cbn [length] in L; try discriminate; auto. cbn. f_equal. auto. }
  rewrite E, rev_app_distr. reflexivity.
Qed.

Lemma awce_twos_full M f0 g0 sf sg n : wfs M f0 -> wfs M g0 -> wf M sf -> wf M sg -> length f0 = length g0 -> length f0 < 256 -> (1 <= n)%Z ->
  (forall a, ev sf a = ev sg a) ->
  ((forall a, map (fun b => ev b a) f0 = map (fun b => ev b a) g0) ->
     approximate_worst_case_error M (f0 ++ [sf]) (g0 ++ [sg]) n TwosComplement = Ok 0%Z)
  /\ (forall h, top_difference f0 g0 h -> let s := Z.to_nat (Z.of_nat h + 1 - n) in
      exists x wc, approximate_worst_case_error M (f0 ++ [sf]) (g0 ++ [sg]) n TwosComplement = Ok x
        /\ is_max (fun a => dist (sval (f0 ++ [sf]) a) (sval (g0 ++ [sg]) a)) wc
        /\ (wc <= x <= wc + 2 ^ (Z.of_nat s + 1) - 2)%Z).
Proof.
  intros Wf Wg Wsf Wsg L Hw Hn Hs. unfold approximate_worst_case_error. rewrite awce_assert by (rewrite ?app_length; auto; lia).
  cbn [assert_ bind]. rewrite tl_rev_combine by auto. split.
  - intro H. destruct (awce_same_full M f0 g0 n Wf Wg H) as (F & G & e & ->). reflexivity.
  - intros h Hh. cbv zeta. destruct (awce_diff_full M f0 g0 n h Wf Wg L Hn Hh) as (F & G & -> & EF & EG & Hsh).
    cbv zeta in *. set (s := Z.to_nat (Z.of_nat h + 1 - n)) in *.
    replace (Z.of_nat h =? -1)%Z with false by (symmetry; apply Z.eqb_neq; lia).
    assert (VB : forall (l : list bdd) x, vback (l ++ [x]) = Ok x) by (intros; apply vback_app).
    rewrite !VB. cbn [bind]. rewrite EF, EG. destruct Hh as (Hh & _).
    destruct (wce_twos_spec M (skipn s f0 ++ [sf]) (skipn s g0 ++ [sg])) as (m & R & HM).
    { apply Forall_app. split; auto using wfs_skipn. }
    { apply Forall_app. split; auto using wfs_skipn. }
    { intro E. now apply app_eq_nil in E. }
    { intro E. now apply app_eq_nil in E. }
    { rewrite app_length, skipn_length. cbn. lia. }
    { rewrite app_length, skipn_length. cbn. lia. }
    unfold worst_case_error in R.
    destruct (bdd_absolute_difference M (skipn s f0 ++ [sf]) (skipn s g0 ++ [sg]) TwosComplement) as [d| | |]; try discriminate.
    cbn [bind] in *. injection R as ->.
    assert (HD : forall l l' a, length l = length l' -> dist (sval (l ++ [sf]) a) (sval (l' ++ [sg]) a) = dist (uval l a) (uval l' a)).
    { intros l l' a E. rewrite !sval_app, Hs, E. unfold dist. f_equal. ring. }
    assert (LS : length (skipn s f0) = length (skipn s g0)) by (rewrite !skipn_length; lia).
    assert (HM' : is_max (fun a => dist (uval (skipn s f0) a) (uval (skipn s g0) a)) m).
    { apply is_max_ext with (2 := HM). intro a. rewrite HD by auto.
      pose proof (dist_uval_lt (skipn s f0) (skipn s g0) a) as D. rewrite !app_length, <- LS, Nat.max_id in *. cbn [length].
      rewrite pow2_add. change (pow2 1) with 2%Z. lia. }
    destruct (wce_base_spec M f0 g0) as (wc & _ & HW); auto; [lia|lia|].
    replace (Z.to_nat (Z.of_nat s - 1 + 1)) with s by lia.
    exists ((m + 1) * pow2 s - 1)%Z, wc. split; [|split].
    + f_equal. apply awce_finish with (w := length f0); try lia.
      destruct HM' as [(a & <-) _]. pose proof (dist_uval_lt (skipn s f0) (skipn s g0) a) as D.
      rewrite !skipn_length, <- L, Nat.max_id in D. exact D.
    + apply is_max_ext with (2 := HW). intro a. symmetry. now apply HD.
    + replace (2 ^ (Z.of_nat s + 1))%Z with (pow2 (S s)) by (unfold pow2; f_equal; lia).
      apply (awce_bounds (uval f0) (uval g0) (uval (skipn s f0)) (uval (skipn s g0))); auto.
      intro a. exists (uval (firstn s f0) a), (uval (firstn s g0) a).
      pose proof (uval_skipn s f0 a) as U1. pose proof (uval_skipn s g0 a) as U2.
      rewrite Nat.min_l in U1, U2 by lia. auto using uval_firstn_range.
Qed.

Lemma awce_relative M f g n h x wc : wfs M f -> wfs M g -> length f = length g -> length f <= 256 -> (1 <= n)%Z ->
  top_difference f g h -> is_max (fun a => dist (uval f a) (uval g a)) wc -> (2 ^ Z.of_nat h <= wc)%Z ->
  approximate_worst_case_error M f g n BaseTwo = Ok x ->
  (wc * 2 ^ n <= x * 2 ^ n <= wc * (2 ^ n + 4))%Z /\ ((Z.of_nat h < n)%Z -> x = wc).
Proof.
  intros Wf Wg L Hw Hn Hh HM Hc R.
  destruct (awce_base_full M f g n Wf Wg L Hw Hn) as [_ H]. destruct (H h Hh) as (x' & wc' & R' & HM' & B).
  rewrite R in R'. injection R' as <-. rewrite <- (is_max_unique _ _ _ HM HM') in B.
  assert (P : (0 < 2 ^ n)%Z) by (apply Z.pow_pos_nonneg; lia).
  destruct (Z_lt_le_dec (Z.of_nat h) n) as [Hlt|Hge].
  - replace (Z.to_nat (Z.of_nat h + 1 - n)) with 0 in B by lia. change (2 ^ (Z.of_nat 0 + 1))%Z with 2%Z in B.
    assert (x = wc) by lia. subst x. split; [|auto]. assert (0 <= 2 ^ Z.of_nat h)%Z by (apply Z.pow_nonneg; lia). nia.
  - split; [|lia]. rewrite Z2Nat.id in B by lia.
    assert (E : (2 ^ (Z.of_nat h + 1 - n + 1) * 2 ^ n = 4 * 2 ^ Z.of_nat h)%Z).
    { rewrite <- Z.pow_add_r by lia. replace (Z.of_nat h + 1 - n + 1 + n)%Z with (2 + Z.of_nat h)%Z by lia.
      rewrite Z.pow_add_r by lia. reflexivity. }
    nia.
Qed.
