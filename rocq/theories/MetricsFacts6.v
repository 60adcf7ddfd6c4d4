(** Exact values of approximate_worst_case_error and mean_squared_value *)
From Coq Require Import List Bool Arith ZArith QArith Qround Lia Lqa.
From Verif Require Import Res Cudd CuddFacts Spec SpecFacts Helpers HelpersFacts HelpersFacts2 Counting Metrics MetricsFacts MetricsFacts2 MetricsFacts3 MetricsFacts4.
Import ListNotations.
Open Scope nat_scope.

Lemma uval_div s f a : s <= length f -> (uval f a / 2 ^ Z.of_nat s = uval (skipn s f) a)%Z.
Proof.
  intro H. fold (pow2 s). rewrite (uval_skipn s f a), Nat.min_l by auto.
  pose proof (uval_firstn_range s f a). pose proof (pow2_pos s).
  rewrite Z.mul_comm, Z.div_add, Z.div_small by lia. lia.
Qed.
Lemma sval_div s f b a : s <= length f -> (sval (f ++ [b]) a / 2 ^ Z.of_nat s = sval (skipn s f ++ [b]) a)%Z.
Proof.
  intro H. fold (pow2 s). rewrite !sval_app, (uval_skipn s f a), Nat.min_l, skipn_length by auto.
  pose proof (uval_firstn_range s f a). pose proof (pow2_pos s).
  replace (pow2 (length f)) with (pow2 s * pow2 (length f - s))%Z by (rewrite <- pow2_add; f_equal; lia).
  match goal with |- (?x / _)%Z = ?y => replace x with (uval (firstn s f) a + y * pow2 s)%Z by ring end.
  rewrite Z.div_add, Z.div_small by lia. lia.
Qed.

Lemma awce_base_value M f g n h : wfs M f -> wfs M g -> length f = length g -> length f <= 256 -> (1 <= n)%Z ->
  top_difference f g h -> let s := Z.to_nat (Z.of_nat h + 1 - n) in
  exists m, is_max (fun a => dist (uval f a / 2 ^ Z.of_nat s) (uval g a / 2 ^ Z.of_nat s)) m
    /\ approximate_worst_case_error M f g n BaseTwo = Ok ((m + 1) * 2 ^ Z.of_nat s - 1)%Z.
Proof.
  intros Wf Wg L Hw Hn Hh. unfold approximate_worst_case_error. rewrite awce_assert by auto. cbn [assert_ bind].
  cbv zeta. destruct (awce_diff_full M f g n h Wf Wg L Hn Hh) as (F & G & -> & EF & EG & Hs).
  cbv zeta in *. set (s := Z.to_nat (Z.of_nat h + 1 - n)) in *.
  replace (Z.of_nat h =? -1)%Z with false by (symmetry; apply Z.eqb_neq; lia). cbn [bind]. rewrite EF, EG.
  destruct Hh as (Hh & _).
  destruct (wce_base_spec M (skipn s f) (skipn s g)) as (m & R & HM); auto using wfs_skipn; [rewrite skipn_length; lia..|].
  unfold worst_case_error in R. destruct (bdd_absolute_difference M (skipn s f) (skipn s g) BaseTwo) as [d| | |]; try discriminate.
  cbn [bind] in *. injection R as ->. replace (Z.to_nat (Z.of_nat s - 1 + 1)) with s by lia.
  exists m. split.
  - apply is_max_ext with (2 := HM). intro a. now rewrite !uval_div by lia.
  - f_equal. apply awce_finish with (w := length f); try lia.
    destruct HM as [(a & <-) _]. pose proof (dist_uval_lt (skipn s f) (skipn s g) a) as D.
    rewrite !skipn_length, <- L, Nat.max_id in D. exact D.
Qed.

Lemma awce_twos_value M f0 g0 sf sg n : wfs M f0 -> wfs M g0 -> wf M sf -> wf M sg -> length f0 = length g0 -> length f0 < 256 -> (1 <= n)%Z ->
  ((forall a, map (fun b => ev b a) f0 = map (fun b => ev b a) g0) ->
     approximate_worst_case_error M (f0 ++ [sf]) (g0 ++ [sg]) n TwosComplement = Ok 0%Z)
  /\ (forall h, top_difference f0 g0 h -> let s := Z.to_nat (Z.of_nat h + 1 - n) in
      let d := fun a => dist (sval (f0 ++ [sf]) a / 2 ^ Z.of_nat s) (sval (g0 ++ [sg]) a / 2 ^ Z.of_nat s) in
      exists m, is_max (fun a => Z.min (d a) (2 ^ Z.of_nat (length f0 + 1 - s) - d a)) m
        /\ approximate_worst_case_error M (f0 ++ [sf]) (g0 ++ [sg]) n TwosComplement = Ok ((m + 1) * 2 ^ Z.of_nat s - 1)%Z).
Proof.
  intros Wf Wg Wsf Wsg L Hw Hn. unfold approximate_worst_case_error. rewrite awce_assert by (rewrite ?app_length; auto; lia).
  cbn [assert_ bind]. rewrite tl_rev_combine by auto. split.
  - intro H. destruct (awce_same_full M f0 g0 n Wf Wg H) as (F & G & e & ->). reflexivity.
  - intros h Hh. cbv zeta. destruct (awce_diff_full M f0 g0 n h Wf Wg L Hn Hh) as (F & G & -> & EF & EG & Hsh).
    cbv zeta in *. set (s := Z.to_nat (Z.of_nat h + 1 - n)) in *.
    replace (Z.of_nat h =? -1)%Z with false by (symmetry; apply Z.eqb_neq; lia).
    assert (VB : forall (l : list bdd) x, vback (l ++ [x]) = Ok x) by (intros; apply vback_app).
    rewrite !VB. cbn [bind]. rewrite EF, EG. destruct Hh as (Hh & _).
    destruct (wce_twos_spec M (skipn s f0 ++ [sf]) (skipn s g0 ++ [sg])) as (m & R & HM).
    { apply Forall_app. split; auto using wfs_skipn. }
    { apply Forall_app. split; auto using wfs_skipn. }
    { intro E. now apply app_eq_nil in E. }
    { intro E. now apply app_eq_nil in E. }
    { rewrite app_length, skipn_length. cbn. lia. }
    { rewrite app_length, skipn_length. cbn. lia. }
    unfold worst_case_error in R.
    destruct (bdd_absolute_difference M (skipn s f0 ++ [sf]) (skipn s g0 ++ [sg]) TwosComplement) as [d| | |]; try discriminate.
    cbn [bind] in *. injection R as ->. replace (Z.to_nat (Z.of_nat s - 1 + 1)) with s by lia.
    assert (HM' : is_max (fun a => Z.min (dist (sval (f0 ++ [sf]) a / 2 ^ Z.of_nat s) (sval (g0 ++ [sg]) a / 2 ^ Z.of_nat s))
        (pow2 (length f0 + 1 - s) - dist (sval (f0 ++ [sf]) a / 2 ^ Z.of_nat s) (sval (g0 ++ [sg]) a / 2 ^ Z.of_nat s))) m).
    { apply is_max_ext with (2 := HM). intro a. rewrite !sval_div by lia. rewrite !app_length, !skipn_length, <- L, Nat.max_id.
      cbn [length]. replace (length f0 - s + 1) with (length f0 + 1 - s) by lia. reflexivity. }
    exists m. split; [exact HM'|].
    f_equal. apply awce_finish with (w := length f0 + 1); try lia.
    destruct HM' as [(a & <-) _]. clear HM.
    pose proof (sval_dist_lt (skipn s f0 ++ [sf]) (skipn s g0 ++ [sg]) a) as D.
    rewrite <- !sval_div, !app_length, !skipn_length, <- L, Nat.max_id in D by lia. cbn [length] in D.
    replace (length f0 - s + 1) with (length f0 + 1 - s) in D by lia.
    specialize (D ltac:(intro E; now apply app_eq_nil in E) ltac:(intro E; now apply app_eq_nil in E)).
    set (x := dist _ _) in *. clearbody x. lia.
Qed.

(** ** the mean of the square *)
Lemma tc_floor s b : tc s b = Qfloor (CountMinterm b s).
Proof.
  unfold tc. destruct (CountMinterm_range b s) as [H _]. generalize dependent (CountMinterm b s). intros q H.
  assert (N : (0 <= Qnum q)%Z) by (unfold Qle in H; cbn in H; lia).
  rewrite Z.quot_div_nonneg by lia. destruct q. reflexivity.
Qed.
Lemma tc_both M n s x y : wf M x -> wf M y -> depends_below n x -> depends_below n y -> tc s (band M x y) = both_count n s x y.
Proof.
  intros Wx Wy Bx By. rewrite tc_floor. unfold both_count, CountMinterm. apply Qfloor_comp. fold (pow2 s).
  rewrite (frac_average M n (band M x y)) by auto using depends_below_and with wf.
  rewrite Qmult_comm. apply Qmult_comp; [reflexivity|]. apply average_ext. intro a. now rewrite ev_and.
Qed.
Lemma both_count_sym n s x y : both_count n s x y = both_count n s y x.
Proof.
  unfold both_count. apply Qfloor_comp. apply Qmult_comp; [reflexivity|]. apply average_ext. intro a. now rewrite andb_comm.
Qed.
Lemma rz_digits M n s x f : wf M x -> depends_below n x -> wfs M f -> below n f -> rz M s x f = digits (map (both_count n s x) f).
Proof.
  intros Wx Bx. induction f as [|y f IH]; intros W B; cbn [rz map digits fold_right]; [reflexivity|].
  inversion W; subst. apply below_cons in B. destruct B as [B1 B2]. rewrite (tc_both M n), IH by auto. reflexivity.
Qed.
Lemma digits_column n s x f l : digits (map (fun z => digits (map (both_count n s z) (x :: f))) l)
  = (digits (map (both_count n s x) l) + 2 * digits (map (fun z => digits (map (both_count n s z) f)) l))%Z.
Proof.
  induction l as [|z l IH]; [reflexivity|].
  change (digits (map (fun z => digits (map (both_count n s z) (x :: f))) (z :: l)))
    with (both_count n s z x + 2 * digits (map (both_count n s z) f) + 2 * digits (map (fun z => digits (map (both_count n s z) (x :: f))) l))%Z.
  change (digits (map (both_count n s x) (z :: l))) with (both_count n s x z + 2 * digits (map (both_count n s x) l))%Z.
  change (digits (map (fun z => digits (map (both_count n s z) f)) (z :: l)))
    with (digits (map (both_count n s z) f) + 2 * digits (map (fun z => digits (map (both_count n s z) f)) l))%Z.
  rewrite IH, (both_count_sym n s z x). ring.
Qed.
Lemma sz_digits M n s f : wfs M f -> below n f -> sz M s f = digits (map (fun x => digits (map (both_count n s x) f)) f).
Proof.
  induction f as [|x f IH]; intros W B; [reflexivity|].
  inversion W; subst. apply below_cons in B. destruct B as [B1 B2]. cbn [sz].
  rewrite (tc_both M n), (rz_digits M n), IH by auto.
  change (digits (map (fun z => digits (map (both_count n s z) (x :: f))) (x :: f)))
    with (both_count n s x x + 2 * digits (map (both_count n s x) f) + 2 * digits (map (fun z => digits (map (both_count n s z) (x :: f))) f))%Z.
  rewrite digits_column. ring.
Qed.
Lemma largest_support_unique f s t : largest_support f s -> largest_support f t -> s = t.
Proof.
  assert (G : forall s t, largest_support f s -> largest_support f t -> s <= t).
  { intros s' t' [_ [->|(b & Hb & <-)]] [H _]; [lia|auto]. }
  intros. apply Nat.le_antisymm; auto.
Qed.

Lemma mean_squared_value_exact M n f s : wfs M f -> below n f -> (forall b, In b f -> 2 * length f + support_size b <= 256) ->
  largest_support f s -> exists q, mean_squared_value M f = Fin q /\ (q == truncated_square n s f)%Q.
Proof.
  intros W B H HL. unfold mean_squared_value.
  destruct (max_support_spec f 0) as (_ & L2 & L3).
  assert (Es : max_support f 0 = s).
  { apply (largest_support_unique f); auto. split; [auto|]. destruct L3 as [E|(b & Hb & E)]; [auto|right; eauto]. }
  rewrite Es in *. clear Es.
  assert (Hs : length f + length f + s <= 256 /\ s < 256 \/ f = []).
  { destruct f as [|x f]; [auto|]. left.
    destruct L3 as [->|(b & Hb & ->)]; [specialize (H x (or_introl eq_refl)); cbn [length] in *; lia|].
    specialize (H b Hb). cbn [length] in *. lia. }
  assert (E : square_sum M f 0 s 0 = sz M s f /\ shl256 s = pow2 s).
  { rewrite square_sum_mod by (unfold N256; lia). rewrite pow2_0, !Z.mul_1_l, Z.add_0_l.
    pose proof (sz_range M s f) as R. destruct Hs as [[Hs Hs']|E].
    - pose proof (pow2_256 _ Hs) as P. rewrite !pow2_add in P. pose proof (pow2_pos s). pose proof (pow2_pos (length f)). pose proof (pow2_lt s 256 Hs').
      split.
      + apply Z.mod_small. unfold N256. split; [lia|].
        assert ((pow2 (length f) - 1) * (pow2 (length f) - 1) * pow2 s < pow2 (length f) * pow2 (length f) * pow2 s)%Z; [|lia].
        apply Z.mul_lt_mono_pos_r; [lia|]. nia.
      + unfold shl256, u256. fold (pow2 s). apply Z.mod_small. unfold pow2 in *. change (Z.of_nat 256) with 256%Z in *. lia.
    - subst f. destruct L3 as [->|(b & [] & _)]. split; reflexivity. }
  destruct E as [-> ->]. rewrite fdiv_pos by apply pow2_pos. eexists; split; [reflexivity|].
  unfold truncated_square. rewrite (sz_digits M n) by auto. reflexivity.
Qed.

Lemma mse_exact M n f g r : wfs M f -> wfs M g -> below n f -> below n g ->
  (r = TwosComplement -> f <> [] /\ g <> []) -> 2 * Nat.max (length f) (length g) + 2 + n <= 256 ->
  exists d q, bdd_absolute_difference M f g r = Ok d /\ (forall a, uval d a = wrapped r f g a)
    /\ mean_squared_error M f g r = Ok (Fin q) /\ forall s, largest_support d s -> (q == truncated_square n s d)%Q.
Proof.
  intros Wf Wg Bf Bg Hr H. unfold mean_squared_error.
  destruct (absdiff_any M n f g r) as (d & -> & L & W & B & E); auto. cbn [bind].
  destruct (max_support_spec d 0) as (_ & L2 & L3). 
  assert (HL : largest_support d (max_support d 0)) by (split; [auto|]; destruct L3 as [E0|(b & Hb & E0)]; [auto|right; eauto]).
  destruct (mean_squared_value_exact M n d (max_support d 0) W B) as (q & -> & Eq); auto.
  - intros b Hb. unfold below in B. rewrite Forall_forall in W, B. pose proof (support_size_below M n b (W b Hb) (B b Hb)). lia.
  - exists d, q. split; [auto|]. split; [auto|]. split; [auto|]. intros s Hs.
    now rewrite (largest_support_unique d s _ Hs HL).
Qed.
