(** The minimisation helper with doubles: what the bounds mean for the exact errors. *)
From Coq Require Import List Bool Arith ZArith QArith Qabs Lia Lqa.
From Verif Require Import Res Cudd CuddFacts Spec SpecFacts SpecFloat Float Helpers HelpersFacts HelpersFacts2 Counting Metrics MetricsFacts MetricsFacts2
  MetricsFacts3 MetricsFacts4 MetricsFacts5 MetricsFacts6 AddFacts CountFacts RelMetrics RelFacts Operators Examples AdderFacts Minimize SpecMinimize MinimizeFacts MinimizeFacts2 MinimizeFacts3
  MinimizeFacts4 Rounded RoundedFacts RoundedFacts2 RoundedAdd RoundedAddFacts RoundedAddFacts2 RoundedMinimize RoundedMinimizeFacts RoundedMinimizeFacts2
  RoundedMinimizeFacts3 RoundedAverageFacts RoundedOperatorFacts.
Import ListNotations.
Open Scope nat_scope.

(** ** the operators *)
Section Fit.
Variable rnd : Q -> Q.
Variable M : mgr.
Lemma single_fits_fl n len i j op : i < len -> fits M n len (single_operator_fl rnd M i j op).
Proof.
  intros Hi f (W & B & L). destruct (nth_error f i) as [b|] eqn:Eb; [|apply nth_error_None in Eb; lia].
  pose proof (proj1 (Forall_nth_error _ _) W i b Eb) as Wb. pose proof (proj1 (Forall_nth_error _ _) B i b Eb) as Bb.
  destruct (apply_operator_fl_fit rnd M b op j Wb) as (r & Er & Wr & Dr).
  unfold single_operator_fl, vget. rewrite Eb. cbn [bind]. rewrite Er. cbn [bind].
  destruct (vset_ok f i r ltac:(lia)) as (f' & E). exists f'. split; auto. destruct (vset_spec f i r f' E) as (L' & _ & N).
  assert (K : forall P : bdd -> Prop, Forall P f -> P r -> Forall P f').
  { intros P HP HR. apply Forall_nth_error. intros m x Hx. rewrite N in Hx. destruct (m =? i); [congruence|].
    exact (proj1 (Forall_nth_error _ _) HP m x Hx). }
  split; [now apply K|]. split; [apply K; auto; now apply Dr|lia].
Qed.
Lemma multi_fits_fl n len j op : fits M n len (fun f => apply_operator_all_fl rnd M f op j j).
Proof.
  intros f (W & B & L). unfold apply_operator_all_fl. destruct (mapM_ok (fun b => apply_operator_fl rnd M b op j j) f) as (f' & E).
  { intros b Hb. rewrite Forall_forall in W. destruct (apply_operator_fl_fit rnd M b op j (W b Hb)) as (r & E & _). eauto. }
  exists f'. split; auto. destruct (mapM_nth _ _ _ E) as [L' N].
  assert (K : forall P : bdd -> Prop, (forall b r, In b f -> apply_operator_fl rnd M b op j j = Ok r -> P r) -> Forall P f').
  { intros P HP. apply Forall_nth_error. intros m x Hx. destruct (nth_error f m) as [b|] eqn:Eb.
    - destruct (N m b Eb) as (y & Hy & Ey). rewrite Hx in Hy. injection Hy as <-. apply (HP b); auto. eapply nth_error_In; eauto.
    - apply nth_error_None in Eb. assert (m < length f') by (apply nth_error_Some; congruence). lia. }
  rewrite Forall_forall in W. unfold below in B. rewrite Forall_forall in B. split; [|split; [|lia]]; apply K; intros b r Hb Er;
    destruct (apply_operator_fl_fit rnd M b op j (W b Hb)) as (r' & Er' & Wr & Dr); rewrite Er in Er'; injection Er' as <-; auto.
Qed.
Lemma generated_fits_fl n function ops op : In op (generate_single_bdd_operators_fl rnd M function ops)
  \/ In op (generate_multi_bdd_operators_fl rnd M function ops) -> fits M n (length function) op.
Proof.
  intros [H|H].
  - unfold generate_single_bdd_operators_fl in H. apply in_flat_map in H. destruct H as (i & Hi & H). apply in_seq in Hi.
    apply in_flat_map in H. destruct H as (j & _ & H). apply in_map_iff in H. destruct H as (o & <- & _). apply single_fits_fl. lia.
  - unfold generate_multi_bdd_operators_fl in H. apply in_flat_map in H. destruct H as (j & _ & H).
    apply in_map_iff in H. destruct H as (o & <- & _). apply multi_fits_fl.
Qed.
Lemma random_fits_fl n len T ops count : forall rands gens, random_loop_fl rnd M rands T ops count = Ok gens ->
  length gens = count /\ forall op, In op gens -> fits M n len op.
Proof.
  induction count as [|count IH]; intros rands gens H; cbn [random_loop_fl] in H; [injection H as <-; split; auto; intros op []|].
  destruct rands as [|r1 [|r2 rands]]; try discriminate.
  destruct (require_ _) as [[]| | |]; cbn [bind] in H; try discriminate.
  destruct (vget _ _) as [o| | |]; cbn [bind] in H; try discriminate.
  destruct (require_ _) as [[]| | |]; cbn [bind] in H; try discriminate. cbv zeta in H.
  destruct (random_loop_fl _ _ _ _ _ _) as [rest| | |] eqn:E; cbn [bind] in H; try discriminate. injection H as <-.
  destruct (IH _ _ E) as [L F]. split; [cbn [length]; lia|]. intros op [<-|Hop]; auto. apply multi_fits_fl.
Qed.
(** the random operators *)
Lemma random_nth_fl T ops : forall count rands gens, random_loop_fl rnd M rands T ops count = Ok gens ->
  length gens = count /\ 2 * count <= length rands /\ forall k, k < count -> ops <> [] /\ 0 < T /\ exists op r r',
    nth_error rands (2 * k) = Some r /\ nth_error rands (2 * k + 1) = Some r' /\ nth_error ops (r mod length ops) = Some op
    /\ nth_error gens k = Some (fun f => apply_operator_all_fl rnd M f op (r' mod T) (r' mod T)).
Proof.
  induction count as [|count IH]; intros rands gens H; cbn [random_loop_fl] in H.
  { injection H as <-. split; auto. split; [lia|]. intros k Hk. lia. }
  destruct rands as [|r1 [|r2 rands]]; try discriminate.
  destruct (length ops =? 0) eqn:E0; cbn [negb require_ bind] in H; [discriminate|]. apply Nat.eqb_neq in E0.
  destruct (vget ops (r1 mod length ops)) as [op| | |] eqn:Eo; cbn [bind] in H; try discriminate. apply vget_iff in Eo.
  destruct (T =? 0) eqn:ET; cbn [negb require_ bind] in H; [discriminate|]. apply Nat.eqb_neq in ET. cbv zeta in H.
  destruct (random_loop_fl rnd M rands T ops count) as [rest| | |] eqn:ER; cbn [bind] in H; try discriminate. injection H as <-.
  destruct (IH rands rest ER) as (I1 & I2 & I3). cbn [length]. split; [lia|]. split; [lia|]. intros k Hk.
  split; [intros ->; now apply E0|]. split; [lia|]. destruct k as [|k].
  - exists op, r1, r2. cbn [nth_error Nat.mul Nat.add]. auto.
  - destruct (I3 k ltac:(lia)) as (_ & _ & op' & r & r' & J1 & J2 & J3 & J4). exists op', r, r'.
    replace (2 * S k) with (S (S (2 * k))) by lia. replace (S (S (2 * k)) + 1) with (S (S (2 * k + 1))) by lia. auto.
Qed.
Lemma random_outcome_fl rands function ops count : 2 * count <= length rands -> 0 < count ->
  (ops = [] \/ function = [] -> generate_random_operators_fl rnd M rands function ops count = UB)
  /\ (ops <> [] -> function <> [] -> exists gens, generate_random_operators_fl rnd M rands function ops count = Ok gens).
Proof.
  intros L C. unfold generate_random_operators_fl.
  assert (ZT : function = [] -> terminal_level [function] = 0) by (intros ->; reflexivity).
  assert (PT : function <> [] -> terminal_level [function] <> 0).
  { destruct function as [|b f]; [congruence|]. intros _. unfold terminal_level. cbn [fold_left].
    assert (MON : forall l m, m <= fold_left (fun m b => Nat.max m (list_max0 (support b) + 1)) l m).
    { induction l as [|y l IH]; intro m; cbn [fold_left]; [lia|]. eapply Nat.le_trans; [|apply IH]. lia. }
    specialize (MON f (Nat.max 0 (list_max0 (support b) + 1))). lia. }
  set (T := terminal_level [function]) in *. clearbody T. split.
  - intro D. assert (D' : ops = [] \/ T = 0) by (destruct D; auto). clear D PT ZT. rename D' into D. destruct count as [|count]; [lia|].
    destruct rands as [|r1 [|r2 rands]]; cbn [length] in L; try lia. cbn [random_loop_fl].
    destruct D as [D|D]; subst; [reflexivity|]. destruct (length ops =? 0) eqn:E0; cbn [negb require_ bind]; auto. apply Nat.eqb_neq in E0.
    destruct (vget_ok ops (r1 mod length ops)) as (op & Eo & _); [now apply Nat.mod_upper_bound|]. rewrite Eo. reflexivity.
  - intros HO HF. pose proof (PT HF) as HT. clear C PT ZT. revert rands L. induction count as [|count IH]; intros rands L; cbn [random_loop_fl]; [eauto|].
    destruct rands as [|r1 [|r2 rands]]; cbn [length] in L; try lia.
    assert (length ops <> 0) by (destruct ops; [congruence|discriminate]).
    assert (length ops =? 0 = false) as -> by (now apply Nat.eqb_neq). cbn [negb require_ bind].
    destruct (vget_ok ops (r1 mod length ops)) as (op & Eo & _); [now apply Nat.mod_upper_bound|]. rewrite Eo. cbn [bind].
    assert (T =? 0 = false) as -> by (apply Nat.eqb_neq; lia). cbn [negb require_ bind]. cbv zeta.
    destruct (IH rands) as (rest & ER); [lia|]. rewrite ER. cbn [bind]. eauto.
Qed.
End Fit.

(** ** the metrics *)
Section Metrics.
Variable rnd : Q -> Q.
Hypothesis R : rounds_to_nearest 53 rnd.
Notation u := (2 ^ (-53))%Q.
Lemma keeps53 : keeps_floats 53 rnd.
Proof. now apply rounds_keeps. Qed.
Lemma rel53 : relative_error u rnd.
Proof. exact (rounds_relative 53 rnd ltac:(lia) R). Qed.
Lemma u53 : (0 <= u < 1)%Q.
Proof. split; vm_compute; congruence. Qed.
Lemma u53' : (0 <= u <= 1)%Q.
Proof. pose proof u53. lra. Qed.
Lemma is_maxQ_unique F x y : is_maxQ F x -> is_maxQ F y -> (x == y)%Q.
Proof.
  intros [(a & A) X] [(b & B) Y]. specialize (X b). specialize (Y a). apply Qle_antisym; lra.
Qed.
Lemma relative_add_fl_rnd M f g r A : relative_add_fl rnd M f g r = Ok A -> forall a, exists x, (aev A a == rnd x)%Q.
Proof.
  unfold relative_add_fl. destruct (absolute_difference_add_fl rnd M f g r) as [D| | |]; cbn [bind]; try discriminate.
  destruct (bdd_abs M f r) as [fa| | |]; cbn [bind]; try discriminate.
  destruct (bdd_forest_to_add_fl rnd M fa BaseTwo) as [B| | |]; cbn [bind]; try discriminate.
  intros [= <-] a. eexists. unfold adiv_fl. apply (apply_sem M (fun p q => rnd (p / q)%Q)).
Qed.
Lemma wcre_add_fl_float M n f g q : index_order M -> wfs M f -> wfs M g -> below n f -> below n g -> n <= 63 ->
  length f <= 53 -> length g <= 53 -> wcre_add_fl rnd M f g BaseTwo = Ok q -> float_number 53 q.
Proof.
  intros HM Wf Wg Bf Bg Hn Lf Lg. unfold wcre_add_fl.
  destruct (relative_add_fl_spec u rnd u53 keeps53 rel53 M n f g BaseTwo Wf Wg Bf Bg ltac:(discriminate) Lf Lg) as (A & EA & OA & VA & SA).
  rewrite EA. cbn [bind]. destruct (histogram_use M A n HM OA VA Hn) as (tv & -> & HV & _). cbn [bind].
  intros [= <-]. destruct (fold_qmax tv 0%Q) as (H1 & H2 & H3). cbv zeta in *. set (x := fold_left _ tv 0%Q) in *. destruct H3 as [H3|H3].
  - exists 0%Z, 0%Z. split; [apply Z.pow_nonneg; lia|]. rewrite H3. reflexivity.
  - apply HV in H3. destruct H3 as (b & <-). destruct (relative_add_fl_rnd M f g BaseTwo A EA b) as (y & E).
    apply (float_eq 53 _ (rnd y)); auto. apply R.
Qed.
Lemma rnd_within k x y : (0 <= y)%Q -> within u k x y -> within u (k + 1) (rnd x) y.
Proof. intros Y H. rewrite Nat.add_1_r. apply (within_rnd u u53' rnd rel53); auto. Qed.
Lemma metric_means_fl M n f g kind : fit M n (length f) f -> fit M n (length f) g -> admissible_fl M n (length f) kind ->
  exists v x, metric_function_fl rnd M kind f g = Ok (Fin v) /\ float_number 53 v /\ metric_function M kind f g = Ok (Fin x)
    /\ within u (roundings n (length f) kind) v x.
Proof.
  intros Ff Fg [A A']. destruct (metric_means M n f g kind Ff Fg A) as (x & Ex & [X0 X1] & _).
  destruct Ff as (Wf & Bf & _). destruct Fg as (Wg & Bg & L). symmetry in L.
  assert (NR : BaseTwo = TwosComplement -> f <> [] /\ g <> []) by discriminate.
  pose proof keeps53 as KF. pose proof rel53 as RE. pose proof u53 as U. pose proof u53' as U'.
  assert (FL : forall z, float_number 53 (rnd z)) by (intro z; apply R).
  assert (W1 : forall y, (0 <= y)%Q -> within u 1 (rnd y) y).
  { intros y Y. apply (within_rnd u U' rnd RE 0); auto. apply (within_refl u U'); auto. }
  assert (W0 : forall y z, (y == z)%Q -> (0 <= z)%Q -> within u 0 y z).
  { intros y z E Z0. apply (within_eq u 0 z z); [now symmetry|reflexivity|]. now apply (within_refl u U'). }
  destruct kind; cbn [metric_function metric_function_fl admissible roundings cap] in *.
  - destruct (worst_case_error M f g BaseTwo) as [m| | |] eqn:E; cbn [bind] in *; try discriminate. injection Ex as <-.
    exists (rnd (inject_Z m)), (inject_Z m). split; auto. split; auto. split; auto.
    destruct (length f <=? 53) eqn:L5; [|now apply W1]. apply Nat.leb_le in L5. apply W0; auto. apply KF. apply float_small.
    change 0%Q with (inject_Z 0) in X0. rewrite <- Zle_Qle in X0, X1.
    assert (2 ^ Z.of_nat (length f) <= 2 ^ 53)%Z by (apply Z.pow_le_mono_r; lia). lia.
  - unfold worst_case_error_percent_fl. unfold worst_case_error_percent in Ex.
    destruct (wce_base_full M f g g Wf Wg Wg ltac:(lia) ltac:(lia) ltac:(lia)) as (m & E & [(a & MX) MU] & _). rewrite E in *. cbn [bind] in *.
    pose proof (dist_range f g a L) as DR. rewrite MX in DR.
    assert (P : (0 < pow_minus_one (length f))%Q).
    { unfold pow_minus_one. change 0%Q with (inject_Z 0). rewrite <- Zlt_Qlt.
      assert (2 ^ 1 <= 2 ^ Z.of_nat (length f))%Z by (apply Z.pow_le_mono_r; lia). destruct (length f <=? 53); lia. }
    assert (D : forall y, fdiv y (pow_minus_one (length f)) = Fin (y / pow_minus_one (length f))).
    { intro y. unfold fdiv. destruct (Qeq_bool _ 0) eqn:E0; auto. apply Qeq_bool_eq in E0. lra. }
    unfold fdiv_fl. rewrite D in *. injection Ex as <-. eexists. exists (inject_Z m / pow_minus_one (length f))%Q. split; [reflexivity|].
    split; [apply FL|]. split; [unfold worst_case_error_percent; rewrite E; cbn [bind]; now rewrite D|].
    assert (M0 : (0 <= inject_Z m)%Q) by (change 0%Q with (inject_Z 0); rewrite <- Zle_Qle; lia).
    assert (Y0 : (0 <= / pow_minus_one (length f))%Q) by (apply Qinv_le_0_compat; lra).
    assert (K : forall k, within u k (rnd (inject_Z m)) (inject_Z m) ->
      within u (S k) (rnd (rnd (inject_Z m) / pow_minus_one (length f)))%Q (inject_Z m / pow_minus_one (length f))%Q).
    { intros k Hk. apply (within_rnd u U' rnd RE); [exact X0|]. unfold Qdiv. apply (within_scale u); auto. }
    destruct (length f <=? 53) eqn:L5; [|apply (K 1), W1; auto]. apply Nat.leb_le in L5. apply (K 0). apply W0; auto. apply KF. apply float_small.
    assert (2 ^ Z.of_nat (length f) <= 2 ^ 53)%Z by (apply Z.pow_le_mono_r; lia). lia.
  - destruct A as [HI N6]. destruct (wcre_add_fl_spec u rnd U KF RE M n f g BaseTwo HI Wf Wg Bf Bg N6 NR A' ltac:(lia)) as (q & m & E & MX & W).
    destruct (wcre_add_spec M n f g BaseTwo HI Wf Wg Bf Bg N6 NR) as (y & Ey & MY). rewrite Ey in Ex. cbn [bind] in Ex. injection Ex as <-.
    rewrite E, Ey. cbn [bind]. exists q, y. split; auto. split; [now apply (wcre_add_fl_float M n f g q HI Wf Wg Bf Bg N6 A' ltac:(lia))|]. split; auto.
    apply (within_eq u 1 q m); [reflexivity|exact (is_maxQ_unique _ _ _ MX MY)|exact W].
  - destruct (n <=? 53) eqn:N5; [apply Nat.leb_le in N5|].
    + destruct (averages_exact 53 rnd KF M n f g BaseTwo Wf Wg Bf Bg NR ltac:(lia)) as [E _]. rewrite E, Ex. cbn [bind to_double].
      exists (rnd x), x. auto.
    + destruct (ace_fl_spec 53 rnd ltac:(lia) R M n f g BaseTwo Wf Wg Bf Bg NR ltac:(lia)) as (q & E & W).
      destruct (ace_spec M n f g BaseTwo Wf Wg Bf Bg NR ltac:(lia)) as (y & Ey & EQ). rewrite Ey in Ex. injection Ex as ->.
      rewrite E. cbn [bind to_double]. exists (rnd q), x. split; auto. split; auto. split; auto. apply rnd_within; auto.
      eapply (within_eq u); [reflexivity|symmetry; exact EQ|exact W].
  - destruct A as [HI N6]. destruct (acre_add_fl_spec u rnd U KF RE M n f g BaseTwo HI Wf Wg Bf Bg N6 NR A' ltac:(lia)) as (q & E & W).
    destruct (acre_add_spec M n f g BaseTwo HI Wf Wg Bf Bg N6 NR) as (y & Ey & EQ). rewrite Ey in Ex. injection Ex as ->.
    rewrite E. cbn [bind to_double]. exists (rnd q), x. split; auto. split; auto. split; auto. apply (rnd_within 1); auto.
    eapply (within_eq u); [reflexivity|symmetry; exact EQ|exact W].
  - destruct A as [HI N6]. destruct (acre_add_fl_spec u rnd U KF RE M n f g BaseTwo HI Wf Wg Bf Bg N6 NR A' ltac:(lia)) as (q & E & W).
    destruct (acre_add_spec M n f g BaseTwo HI Wf Wg Bf Bg N6 NR) as (y & Ey & EQ). rewrite Ey in Ex. injection Ex as ->.
    rewrite E. cbn [bind to_double]. exists (rnd q), x. split; auto. split; auto. split; auto. apply (rnd_within 1); auto.
    eapply (within_eq u); [reflexivity|symmetry; exact EQ|exact W].
  - destruct A.
  - destruct (error_rate_full M n f g Wf Wg Bf Bg) as [H _]. destruct (H L) as (y & Ey & EQ & _). rewrite Ey in Ex. cbn [bind] in Ex. injection Ex as ->.
    rewrite Ey. destruct (metrics_fl_relative u rnd M n f g U' RE Wf Wg Bf Bg L) as [(q & E & W) _]. rewrite E. cbn [bind].
    exists q, x. split; auto. split.
    { unfold error_rate_fl in E. destruct (miter _ _ _ _); cbn [bind] in E; try discriminate. injection E as <-. apply FL. }
    split; auto. destruct (n <=? 53) eqn:N5; [apply Nat.leb_le in N5|].
    + destruct (metrics_fl_exact rnd M n f g KF Wf Wg Bf Bg L N5) as [(q' & E' & EQ') _]. rewrite E in E'. injection E' as <-.
      apply W0; auto. now rewrite EQ, EQ'.
    + eapply (within_eq u); [reflexivity|symmetry; exact EQ|exact W].
  - destruct (average_bit_flip_full M n f g Wf Wg Bf Bg) as [H _]. destruct (H L) as (y & Ey & EQ). rewrite Ey in Ex. cbn [bind] in Ex. injection Ex as ->.
    rewrite Ey. destruct (metrics_fl_relative u rnd M n f g U' RE Wf Wg Bf Bg L) as [_ (q & E & W)]. rewrite E. cbn [bind].
    exists q, x. split; auto. split.
    { unfold average_bit_flip_error_fl in E. destruct (assert_ _); cbn [bind] in E; try discriminate.
      destruct (flip_sum_fl _ _ _ _ _ _); cbn [bind] in E; try discriminate. injection E as <-. apply FL. }
    split; auto. destruct (n <=? 53) eqn:N5; [apply Nat.leb_le in N5; destruct (_ <=? _)%Z eqn:S5; [apply Z.leb_le in S5|]|]; cbn [andb].
    + destruct (metrics_fl_exact rnd M n f g KF Wf Wg Bf Bg L N5) as [_ H']. destruct (H' S5) as (q' & E' & EQ'). rewrite E in E'. injection E' as <-.
      apply W0; auto. now rewrite EQ, EQ'.
    + eapply (within_eq u); [reflexivity|symmetry; exact EQ|exact W].
    + eapply (within_eq u); [reflexivity|symmetry; exact EQ|exact W].
  - destruct (add_metrics_exact rnd M f g KF Wf Wg) as (_ & H & _). rewrite H by lia.
    destruct (worst_case_bit_flip_error M f g) as [m| | |]; cbn [bind] in *; try discriminate. injection Ex as <-.
    exists (rnd (inject_Z m)), (inject_Z m). split; auto. split; auto. split; auto. apply W0; auto. apply KF, float_small.
    change 0%Q with (inject_Z 0) in X0. rewrite <- Zle_Qle in X0, X1. lia.
Qed.

(** ** the helper *)
Section Guarantee.
Variables (M : mgr) (n : nat) (function : list bdd) (metrics : list SimpleMetricDimension) (mode : OperatorConstructionMode)
  (ops : list Operator) (rands : list nat) (count : nat) (pop_all : bool).
Hypothesis wff : Forall (wf M) function.
Hypothesis bel : below n function.
Hypothesis has_metric : metrics <> [].
Hypothesis grid_pos : Forall (fun m => (0 < m_grid_size m)%Z) metrics.
Hypothesis bound_pos : Forall (fun m => (0 < m_bound m)%Q) metrics.
Hypothesis grid_vol : (volume (map m_grid_size metrics) < 2 ^ 64)%Z.
Hypothesis grid_sum : (sum_list (map m_grid_size metrics) <= 2 ^ 53)%Z.
Notation dims := (map (fun m => Dim (m_grid_size m) (metric_function_fl rnd M (m_metric m)) (m_bound m)) metrics).
Lemma dimsf_grid : map grid_size dims = map m_grid_size metrics.
Proof. rewrite map_map. reflexivity. Qed.
Lemma dimsf_pos : Forall (fun m => (0 < grid_size m)%Z) dims.
Proof. apply Forall_map. exact grid_pos. Qed.
Lemma dimsf_some : dims <> [].
Proof. destruct metrics; [congruence|discriminate]. Qed.
Lemma fitf_function : fit M n (length function) function.
Proof. repeat split; auto. Qed.
Definition gens_fl : res (list OperatorFunction) :=
  match mode with
  | SINGLE_BDD => Ok (generate_single_bdd_operators_fl rnd M function ops)
  | MULTI_BDD => Ok (generate_multi_bdd_operators_fl rnd M function ops)
  | RANDOM => generate_random_operators_fl rnd M rands function ops count
  end.
Lemma gens_fit_fl l : gens_fl = Ok l -> forall op, In op l -> fits M n (length function) op.
Proof.
  unfold gens_fl. destruct mode.
  - intros [= <-] op H. eapply generated_fits_fl; eauto.
  - intros [= <-] op H. eapply generated_fits_fl; eauto.
  - intro H. apply (random_fits_fl rnd M n (length function)) in H. apply H.
Qed.
Lemma helper_fl_split fuel r : bucket_minimize_helper_fl rnd M fuel function metrics mode ops rands count pop_all = Some (Ok r) ->
  exists l buckets, gens_fl = Ok l /\ bucket_greedy_minimize_fl rnd function dims l pop_all fuel = Some (Ok buckets)
    /\ smallest_function buckets = Ok (snd (fst r)) /\ snd r = buckets /\ fst (fst r) = nodeCount function.
Proof.
  unfold bucket_minimize_helper_fl. cbv zeta. fold gens_fl. destruct gens_fl as [l| | |]; try discriminate.
  destruct (bucket_greedy_minimize_fl _ _ _ _ _ _) as [[buckets| | |]|] eqn:E; cbn [bind]; try discriminate.
  destruct (smallest_function buckets) as [s| | |] eqn:Es; cbn [bind]; try discriminate.
  intros [= <-]. exists l, buckets. auto.
Qed.
Lemma nth_index i : i < Z.to_nat (volume (map grid_size dims)) -> exists index, in_box (map grid_size dims) index /\ row_major (map grid_size dims) index = Z.of_nat i.
Proof.
  intro H. assert (GP : Forall (fun b => (0 < b)%Z) (map grid_size dims)) by (apply Forall_map; exact dimsf_pos).
  destruct (flat_onto (map grid_size dims) GP (Z.of_nat i) ltac:(lia)) as (index & B & E). exists index. split; auto. now rewrite row_major_at.
Qed.
Lemma helper_fl_guarantee fuel original smallest buckets :
  bucket_minimize_helper_fl rnd M fuel function metrics mode ops rands count pop_all = Some (Ok (original, smallest, buckets)) ->
  original = nodeCount function
  /\ In smallest buckets /\ (forall b, In b buckets -> bdd_size smallest <= bdd_size b)
  /\ forall b, In b buckets ->
       bdd_size b = nodeCount (b_function b) /\ bdd_size b <= original
       /\ Forall (wf M) (b_function b) /\ below n (b_function b) /\ length (b_function b) = length function
       /\ forall m, In m metrics -> admissible_fl M n (length function) (m_metric m) -> float_number 53 (m_bound m) ->
            forall B, (m_bound m < qpow (1 - u) (roundings n (length function) (m_metric m)) * B)%Q ->
            error_below (m_metric m) n function (b_function b) B.
Proof.
  intro H. destruct (helper_fl_split fuel _ H) as (l & bs & EG & EB & ES & E1 & E2). cbn [fst snd] in *. subst bs.
  destruct (smallest_spec _ _ ES) as [S1 S2]. split; auto. split; auto. split; auto. intros b Hb.
  assert (NF : forall x, nearest_float 53 x (rnd x)) by (intro x; apply R).
  destruct (buckets_sound_fl u rnd u53 keeps53 NF rel53 function dims l pop_all dimsf_some dimsf_pos
    ltac:(rewrite dimsf_grid; exact grid_vol) ltac:(rewrite dimsf_grid; exact grid_sum) fuel buckets EB) as (L & G).
  apply In_nth_error in Hb. destruct Hb as (i & Hi).
  destruct (nth_index i) as (index & B & E). { rewrite <- L. apply nth_error_Some. congruence. }
  destruct (G i b index Hi B E) as (G1 & G2 & G3 & G4 & G5).
  destruct (derived_fit M n l function (b_function b) (gens_fit_fl l EG) fitf_function G1) as (F1 & F2 & F3).
  split; auto. split; [lia|]. split; auto. split; auto. split; auto. intros m Hm A FB B' HB.
  assert (BP : (0 < m_bound m)%Q) by (rewrite Forall_forall in bound_pos; now apply bound_pos).
  assert (QP : (0 < qpow (1 - u) (roundings n (length function) (m_metric m)))%Q) by (apply qpow_pos; reflexivity).
  destruct (is_empty b) eqn:Ee.
  { rewrite (proj1 (G4 eq_refl)). apply error_self. nra. }
  destruct (G5 eq_refl) as (_ & LV & G6). apply In_nth_error in Hm. destruct Hm as (k & Hk).
  assert (Hd : nth_error dims k = Some (Dim (m_grid_size m) (metric_function_fl rnd M (m_metric m)) (m_bound m)))
    by (now apply (map_nth_error (fun m => Dim (m_grid_size m) (metric_function_fl rnd M (m_metric m)) (m_bound m)))).
  assert (KL : k < length dims) by (apply nth_error_Some; congruence).
  destruct (nth_error (metric_values b) k) as [v|] eqn:Ev.
  2:{ apply nth_error_None in Ev. lia. }
  assert (LI : length index = length dims) by (rewrite (in_box_length _ _ B), map_length; reflexivity).
  destruct (nth_error index k) as [x|] eqn:Ex.
  2:{ apply nth_error_None in Ex. lia. }
  destruct (G6 k _ v x Hd Ev Ex) as (EM & G7). cbn [metric bound] in *. destruct (G7 BP) as (G8 & _).
  destruct (metric_means_fl M n function (b_function b) (m_metric m) fitf_function ltac:(repeat split; auto) A) as (v' & y & EM' & FV & EX & [WI _]).
  rewrite EM in EM'. injection EM' as <-. destruct (G8 FV FB) as [VB _].
  destruct (metric_means M n function (b_function b) (m_metric m) fitf_function ltac:(repeat split; auto) (proj1 A)) as (y' & EY & _ & V).
  rewrite EX in EY. injection EY as <-. apply V.
  apply (Qmult_lt_l _ _ (qpow (1 - u) (roundings n (length function) (m_metric m)))); auto. lra.
Qed.
Lemma helper_fl_measured fuel original smallest buckets :
  bucket_minimize_helper_fl rnd M fuel function metrics mode ops rands count pop_all = Some (Ok (original, smallest, buckets)) ->
  forall b m, In b buckets -> In m metrics -> float_number 53 (m_bound m) ->
  b_function b = function \/ exists v, metric_function_fl rnd M (m_metric m) function (b_function b) = Ok (Fin v)
    /\ (float_number 53 v -> (v <= m_bound m)%Q).
Proof.
  intros H b m Hb Hm FB. destruct (helper_fl_split fuel _ H) as (l & bs & EG & EB & ES & E1 & E2). cbn [fst snd] in *. subst bs.
  assert (NF : forall x, nearest_float 53 x (rnd x)) by (intro x; apply R).
  destruct (buckets_sound_fl u rnd u53 keeps53 NF rel53 function dims l pop_all dimsf_some dimsf_pos
    ltac:(rewrite dimsf_grid; exact grid_vol) ltac:(rewrite dimsf_grid; exact grid_sum) fuel buckets EB) as (L & G).
  apply In_nth_error in Hb. destruct Hb as (i & Hi).
  destruct (nth_index i) as (index & B & E). { rewrite <- L. apply nth_error_Some. congruence. }
  destruct (G i b index Hi B E) as (G1 & G2 & G3 & G4 & G5).
  assert (BP : (0 < m_bound m)%Q) by (rewrite Forall_forall in bound_pos; now apply bound_pos).
  destruct (is_empty b) eqn:Ee; [left; now destruct (G4 eq_refl)|right].
  destruct (G5 eq_refl) as (_ & LV & G6). apply In_nth_error in Hm. destruct Hm as (k & Hk).
  assert (Hd : nth_error dims k = Some (Dim (m_grid_size m) (metric_function_fl rnd M (m_metric m)) (m_bound m)))
    by (now apply (map_nth_error (fun m => Dim (m_grid_size m) (metric_function_fl rnd M (m_metric m)) (m_bound m)))).
  assert (KL : k < length dims) by (apply nth_error_Some; congruence).
  destruct (nth_error (metric_values b) k) as [v|] eqn:Ev; [|apply nth_error_None in Ev; lia].
  assert (LI : length index = length dims) by (rewrite (in_box_length _ _ B), map_length; reflexivity).
  destruct (nth_error index k) as [x|] eqn:Ex; [|apply nth_error_None in Ex; lia].
  destruct (G6 k _ v x Hd Ev Ex) as (EM & G7). cbn [metric bound] in *. destruct (G7 BP) as (G8 & _). exists v. split; auto.
  intro FV. now apply G8.
Qed.
Lemma helper_fl_mean_squared fuel original smallest buckets :
  bucket_minimize_helper_fl rnd M fuel function metrics mode ops rands count pop_all = Some (Ok (original, smallest, buckets)) ->
  forall b m, In b buckets -> In m metrics -> m_metric m = MEAN_SQUARED -> float_number 53 (m_bound m) ->
  2 * length function + 2 + n <= 256 -> n <= 53 ->
  forall B, (m_bound m < (1 - u) * B)%Q ->
  exists d, bdd_absolute_difference M function (b_function b) BaseTwo = Ok d
    /\ (forall a, uval d a = dist (uval function a) (uval (b_function b) a))
    /\ (forall s, largest_support d s -> (truncated_square n s d < B)%Q)
    /\ ((exists x, In x d /\ forall i, vars_in d i -> In i (varsn (snd x))) ->
        error_below MEAN_SQUARED n function (b_function b) B).
Proof.
  intros H b m Hb Hm K FB S N5 B HB.
  destruct (helper_fl_guarantee fuel original smallest buckets H) as (_ & _ & _ & G).
  destruct (G b Hb) as (_ & _ & W & Bl & L & _).
  assert (BP : (0 < m_bound m)%Q) by (rewrite Forall_forall in bound_pos; now apply bound_pos).
  assert (UP : (0 < 1 - u)%Q) by reflexivity.
  assert (S' : 2 * Nat.max (length function) (length (b_function b)) + 2 + n <= 256) by (rewrite L, Nat.max_id; exact S).
  destruct (mse_exact M n function (b_function b) BaseTwo wff W bel Bl ltac:(discriminate) S') as (d & q & E1 & E2 & E3 & E4).
  destruct (mse_spec M n function (b_function b) BaseTwo wff W bel Bl ltac:(discriminate) S') as (d' & q' & F1 & F2 & F3 & F4).
  rewrite E1 in F1. injection F1 as <-. rewrite E3 in F2. injection F2 as <-.
  assert (Q : (q < B)%Q).
  { destruct (helper_fl_measured fuel original smallest buckets H b m Hb Hm FB) as [E|(v & Ev & Lv)].
    - rewrite E in F3. eapply Qle_lt_trans; [exact F3|]. apply (error_self MEAN_SQUARED n function B). nra.
    - rewrite K in Ev. cbn [metric_function_fl] in Ev.
      destruct (averages_exact 53 rnd keeps53 M n function (b_function b) BaseTwo wff W bel Bl ltac:(discriminate) ltac:(lia)) as [_ EX].
      rewrite EX, E3 in Ev. cbn [bind to_double] in Ev. injection Ev as <-. specialize (Lv (proj1 (R q))).
      destruct (Qlt_le_dec q 0) as [N|N]; [nra|].
      destruct (rnd_bounds u rnd rel53 q N) as [RB _]. nra. }
  exists d. split; auto. split; auto. split.
  - intros s Hs. now rewrite <- (E4 s Hs).
  - intro X. cbn [error_below]. unfold average_below. rewrite <- (F4 X). exact Q.
Qed.
Lemma helper_fl_ok fuel : Z.to_nat (volume (map m_grid_size metrics)) * nodeCount function + 1 <= fuel ->
  (mode = RANDOM -> 2 * count <= length rands /\ (0 < count -> ops <> [] /\ function <> [])) ->
  Forall (fun m => admissible_fl M n (length function) (m_metric m)
    /\ (qpow (1 + u) (roundings n (length function) (m_metric m) + 2) * inject_Z (m_grid_size m) * cap (length function) (m_metric m) / m_bound m < inject_Z (2 ^ 64))%Q) metrics ->
  exists r, bucket_minimize_helper_fl rnd M fuel function metrics mode ops rands count pop_all = Some (Ok r).
Proof.
  intros F NR HA.
  assert (EG : exists l, gens_fl = Ok l).
  { unfold gens_fl. destruct mode; eauto. destruct (NR eq_refl) as [N1 N2]. destruct count as [|k]; [exists []; reflexivity|].
    destruct (N2 ltac:(lia)). apply random_outcome_fl; auto; lia. }
  destruct EG as (l & EG).
  assert (NF : forall x, nearest_float 53 x (rnd x)) by (intro x; apply R).
  pose proof (follows rnd keeps53 function dims l pop_all dimsf_some dimsf_pos
    ltac:(rewrite dimsf_grid; exact grid_vol) ltac:(rewrite dimsf_grid; exact grid_sum) fuel) as FO.
  assert (GE : map grid_size (map (adjust rnd) dims) = map m_grid_size metrics) by (rewrite !map_map; reflexivity).
  destruct (minimize_ok function (map (adjust rnd) dims) l pop_all) with (fuel := fuel) as (buckets & EB).
  - intro X. apply map_eq_nil in X. now apply dimsf_some in X.
  - apply Forall_map. exact dimsf_pos.
  - rewrite GE. exact grid_vol.
  - now rewrite GE.
  - intros g op HD HI. pose proof (derived_fit M n l function g (gens_fit_fl l EG) fitf_function HD) as FG.
    destruct (gens_fit_fl l EG op HI g FG) as (g' & E & _). eauto.
  - intros g d HD HI. apply in_map_iff in HI. destruct HI as (d' & <- & HI). apply in_map_iff in HI. destruct HI as (m & <- & Hm).
    cbn [metric bound grid_size adjust].
    rewrite Forall_forall in HA. destruct (HA m Hm) as [A C].
    pose proof (derived_fit M n l function g (gens_fit_fl l EG) fitf_function HD) as FG.
    destruct (metric_means_fl M n function g (m_metric m) fitf_function FG A) as (v & y & E & _ & EY & W).
    destruct (metric_means M n function g (m_metric m) fitf_function FG (proj1 A)) as (y' & EY' & [V0 V1] & _).
    rewrite EY in EY'. injection EY' as <-. rewrite E. cbn [bind adjusted]. eexists. split; [reflexivity|]. cbn [bound grid_size].
    assert (BP : (0 < m_bound m)%Q) by (rewrite Forall_forall in bound_pos; now apply bound_pos).
    assert (GP : (0 < m_grid_size m)%Z) by (rewrite Forall_forall in grid_pos; now apply grid_pos).
    assert (GQ : (0 < inject_Z (m_grid_size m))%Q) by (change 0%Q with (inject_Z 0); now rewrite <- Zlt_Qlt).
    assert (GL : (m_grid_size m <= 2 ^ 53)%Z).
    { pose proof (grid_le dims dimsf_pos ltac:(rewrite dimsf_grid; exact grid_sum) (Dim (m_grid_size m) (metric_function_fl rnd M (m_metric m)) (m_bound m))) as K.
      cbn [grid_size] in K. apply K. apply in_map_iff. eauto. }
    set (k := roundings n (length function) (m_metric m)) in *.
    assert (YB : (0 <= inject_Z (m_grid_size m) * y / m_bound m)%Q).
    { unfold Qdiv. apply Qmult_le_0_compat; [apply Qmult_le_0_compat; lra|apply Qinv_le_0_compat; lra]. }
    assert (WX : within u (S (S k)) (rnd (rnd (rnd (inject_Z (m_grid_size m)) * v) / m_bound m)) (inject_Z (m_grid_size m) * y / m_bound m)).
    { apply (within_rnd u u53' rnd rel53); auto. unfold Qdiv. apply (within_scale u); [apply Qinv_le_0_compat; lra|].
      apply (within_rnd u u53' rnd rel53); [apply Qmult_le_0_compat; lra|].
      apply (within_eq u k (v * inject_Z (m_grid_size m)) (y * inject_Z (m_grid_size m))); [|ring|apply (within_scale u); [lra|exact W]].
      rewrite (keeps53 (inject_Z (m_grid_size m))); [ring|apply float_small; lia]. }
    set (q := rnd (rnd (rnd (inject_Z (m_grid_size m)) * v) / m_bound m)) in *.
    pose proof (within_nonneg u u53' _ _ _ YB WX) as Q0.
    split; [|split; auto].
    + unfold Qdiv. apply Qmult_le_0_compat; [apply Qmult_le_0_compat; lra|apply Qinv_le_0_compat; lra].
    + assert (EQ : (inject_Z (m_grid_size m) * (q * m_bound m / inject_Z (m_grid_size m)) / m_bound m == q)%Q).
      { field. split; intro X; lra. }
      rewrite EQ. eapply Qle_lt_trans; [apply WX|]. eapply Qle_lt_trans; [|exact C].
      replace (k + 2) with (S (S k)) by lia. set (z := qpow (1 + u) (S (S k))).
      assert (0 <= z)%Q by (unfold z; apply qpow_nonneg; vm_compute; congruence).
      unfold Qdiv. rewrite Qmult_assoc. apply Qmult_le_compat_r; [|apply Qinv_le_0_compat; lra]. rewrite Qmult_assoc.
      rewrite !(Qmult_comm (z * inject_Z (m_grid_size m))). apply Qmult_le_compat_r; [exact V1|apply Qmult_le_0_compat; lra].
  - rewrite EB in FO. unfold bucket_minimize_helper_fl. cbv zeta. fold gens_fl. rewrite EG.
    destruct (bucket_greedy_minimize_fl rnd function dims l pop_all fuel) as [[bs| | |]|] eqn:EF; cbn [relopt relres] in FO; try contradiction.
    cbn [bind]. destruct bs as [|b bs]; [|cbn [smallest_function bind]; eauto].
    exfalso. destruct (buckets_sound_fl u rnd u53 keeps53 NF rel53 function dims l pop_all dimsf_some dimsf_pos
      ltac:(rewrite dimsf_grid; exact grid_vol) ltac:(rewrite dimsf_grid; exact grid_sum) fuel [] EF) as (L & _).
    cbn [length] in L. rewrite dimsf_grid in L.
    assert (0 < volume (map m_grid_size metrics))%Z by (apply volume_pos; now apply Forall_map). lia.
Qed.
End Guarantee.
End Metrics.

(** ** a bound that is exceeded *)
Definition third : Q := round_float 53 (1 # 3).
Lemma percent_bound_exceeded : exists (M : mgr) (n fuel : nat) (function : list bdd) (m : SimpleMetricDimension)
    (ops : list Operator) (r : nat * Bucket * list Bucket),
  Forall (wf M) function /\ below n function /\ m_metric m = WORST_CASE_PERCENT /\ (m_grid_size m = 7)%Z /\ (0 < m_bound m)%Q /\ float_number 53 (m_bound m)
  /\ bucket_minimize_helper_fl (round_float 53) M fuel function [m] SINGLE_BDD ops [] 0 true = Some (Ok r)
  /\ (exists b, In b (snd r) /\ metric_values b = [m_bound m]
       /\ exists a, (m_bound m < inject_Z (dist (uval function a) (uval (b_function b) a)) / inject_Z (2 ^ Z.of_nat (length function) - 1))%Q)
  /\ exists r', bucket_minimize_helper M fuel function [m] SINGLE_BDD ops [] 0 true = Some (Ok r')
       /\ forall b, In b (snd r') -> b_function b = function.
Proof.
  exists (id_mgr 2), 2, 100, [bvar 0; bvar 1], (SimpleDim WORST_CASE_PERCENT third 7), [NEGATIVE_COFACTOR].
  destruct (bucket_minimize_helper_fl (round_float 53) (id_mgr 2) 100 [bvar 0; bvar 1] [SimpleDim WORST_CASE_PERCENT third 7] SINGLE_BDD [NEGATIVE_COFACTOR] [] 0 true)
    as [[r| | |]|] eqn:E; try (vm_compute in E; discriminate). exists r.
  split; [exact (Forall_cons _ (wf_var _ 0) (Forall_cons _ (wf_var _ 1) (Forall_nil _)))|]. split.
  { constructor; [|constructor; [|constructor]]; apply dep_vars; intros i [<-|[]]; lia. }
  split; [reflexivity|]. split; [reflexivity|]. split; [reflexivity|].
  split; [apply (rounds_float 53 ltac:(lia))|]. split; [reflexivity|]. split.
  - destruct r as [[o s] l]. vm_compute in E. injection E as _ _ <-. eexists. split; [do 6 right; left; reflexivity|].
    split; [vm_compute; reflexivity|]. exists (fun _ => true). vm_compute. reflexivity.
  - clear E. eexists. split; [vm_compute; reflexivity|]. cbn [snd]. intros b Hb. vm_compute in Hb.
    repeat (destruct Hb as [<-|Hb]; [reflexivity|]). destruct Hb.
Qed.

(** ** summaries for doubles *)
Lemma buckets_fl rnd : rounds_to_nearest 53 rnd -> forall function metrics operators pop_all,
  metrics <> [] -> Forall (fun m => (0 < grid_size m)%Z) metrics -> (volume (map grid_size metrics) < 2 ^ 64)%Z ->
  (fold_right Z.add 0 (map grid_size metrics) <= 2 ^ 53)%Z ->
  forall fuel buckets, bucket_greedy_minimize_fl rnd function metrics operators pop_all fuel = Some (Ok buckets) ->
  length buckets = Z.to_nat (volume (map grid_size metrics)) /\
  forall i b index, nth_error buckets i = Some b -> in_box (map grid_size metrics) index -> row_major (map grid_size metrics) index = Z.of_nat i ->
    derived operators function (b_function b) /\ bdd_size b = nodeCount (b_function b) /\ bdd_size b <= nodeCount function
    /\ (is_empty b = true -> b_function b = function /\ metric_values b = repeat 0%Q (length metrics))
    /\ (is_empty b = false -> bdd_size b < nodeCount function /\ length (metric_values b) = length metrics
        /\ forall k m v x, nth_error metrics k = Some m -> nth_error (metric_values b) k = Some v -> nth_error index k = Some x ->
             metric m function (b_function b) = Ok (Fin v)
             /\ ((0 < bound m)%Q ->
                 (float_number 53 v -> float_number 53 (bound m) ->
                   (v <= bound m)%Q /\ ((exists j, grid_size m = 2 ^ Z.of_nat j)%Z -> (v < bound m)%Q))
                 /\ ((0 <= v)%Q -> exists c, (0 <= c <= x)%Z /\ (pop_all = false -> c = x)
                       /\ (inject_Z c * bound m / inject_Z (grid_size m) <= qpow (1 + 2 ^ (-53)) 2 * v)%Q
                       /\ (qpow (1 - 2 ^ (-53)) 2 * v < (inject_Z c + 1) * bound m / inject_Z (grid_size m))%Q))).
Proof.
  intros R function metrics operators pop_all H1 H2 H3 H4.
  exact (buckets_sound_fl (2 ^ (-53)) rnd u53 (keeps53 rnd R) (fun x => proj2 (R x)) (rel53 rnd R) function metrics operators pop_all H1 H2 H3 H4).
Qed.
Lemma terminates_fl rnd : rounds_to_nearest 53 rnd -> forall function metrics operators pop_all,
  metrics <> [] -> Forall (fun m => (0 < grid_size m)%Z) metrics -> (volume (map grid_size metrics) < 2 ^ 64)%Z ->
  (fold_right Z.add 0 (map grid_size metrics) <= 2 ^ 53)%Z ->
  forall fuel, Z.to_nat (volume (map grid_size metrics)) * nodeCount function + 1 <= fuel ->
  bucket_greedy_minimize_fl rnd function metrics operators pop_all fuel <> None.
Proof.
  intros R function metrics operators pop_all H1 H2 H3 H4.
  exact (search_enough_fl rnd (keeps53 rnd R) function metrics operators pop_all H1 H2 H3 H4).
Qed.
Lemma averages_fl rnd : rounds_to_nearest 53 rnd -> forall M n f g r,
  Forall (wf M) f -> Forall (wf M) g -> below n f -> below n g -> (r = TwosComplement -> f <> [] /\ g <> []) ->
  (n <= 53 -> average_case_error_fl rnd M f g r = average_case_error M f g r /\ mean_squared_error_fl rnd M f g r = mean_squared_error M f g r)
  /\ (Nat.max (length f) (length g) + n < 256 ->
      exists q, average_case_error_fl rnd M f g r = Ok (Fin q) /\ within (2 ^ (-53)) (2 * n) q (average n (fun a => inject_Z (wrapped r f g a))))
  /\ (2 * Nat.max (length f) (length g) + 2 + n <= 256 ->
      exists d q, bdd_absolute_difference M f g r = Ok d /\ mean_squared_error_fl rnd M f g r = Ok (Fin q)
        /\ (0 <= q <= qpow (1 + 2 ^ (-53)) (2 * n) * average n (fun a => inject_Z (wrapped r f g a * wrapped r f g a)))%Q
        /\ ((exists b, In b d /\ forall i, vars_in d i -> In i (varsn (snd b))) ->
            within (2 ^ (-53)) (2 * n) q (average n (fun a => inject_Z (wrapped r f g a * wrapped r f g a))))).
Proof.
  intros R M n f g r Wf Wg Bf Bg Hr. split; [|split].
  - intro N. apply (averages_exact 53 rnd (keeps53 rnd R) M n); auto. lia.
  - intro H. apply (ace_fl_spec 53 rnd ltac:(lia) R M n f g r); auto.
  - intro H. apply (mse_fl_spec 53 rnd ltac:(lia) R M n f g r); auto.
Qed.
Lemma percent_fl rnd : rounds_to_nearest 53 rnd -> forall M f g r,
  Forall (wf M) f -> Forall (wf M) g -> length f = length g -> 1 <= length f <= 256 ->
  exists m q, worst_case_error M f g r = Ok m /\ worst_case_error_percent_fl rnd M f g r = Ok (Fin q)
    /\ (length f <= 53 -> within (2 ^ (-53)) 1 q (inject_Z m / inject_Z (2 ^ Z.of_nat (length f) - 1)))
    /\ (53 < length f -> within (2 ^ (-53)) 2 q (inject_Z m / inject_Z (2 ^ Z.of_nat (length f)))).
Proof.
  intros R M f g r Wf Wg L H. destruct (wce_percent_full M f g r Wf Wg L H) as (m & x & E1 & E2 & X01 & X1 & X2).
  assert (P : (0 < pow_minus_one (length f))%Q).
  { unfold pow_minus_one. change 0%Q with (inject_Z 0). rewrite <- Zlt_Qlt.
    assert (2 ^ 1 <= 2 ^ Z.of_nat (length f))%Z by (apply Z.pow_le_mono_r; lia). destruct (length f <=? 53); lia. }
  assert (D : forall y, fdiv y (pow_minus_one (length f)) = Fin (y / pow_minus_one (length f))).
  { intro y. unfold fdiv. destruct (Qeq_bool _ 0) eqn:E0; auto. apply Qeq_bool_eq in E0. lra. }
  unfold worst_case_error_percent in E2. unfold worst_case_error_percent_fl, fdiv_fl. rewrite E1 in *. cbn [bind] in *. rewrite D in *. injection E2 as <-.
  assert (M0 : (0 <= inject_Z m)%Q).
  { destruct X01 as [X0 _]. assert (EM : (inject_Z m == inject_Z m / pow_minus_one (length f) * pow_minus_one (length f))%Q) by (field; lra).
    rewrite EM. apply Qmult_le_0_compat; lra. }
  exists m. eexists. split; [reflexivity|]. split; [reflexivity|].
  assert (K : forall k, within (2 ^ (-53)) k (rnd (inject_Z m)) (inject_Z m) ->
    within (2 ^ (-53)) (S k) (rnd (rnd (inject_Z m) / pow_minus_one (length f)))%Q (inject_Z m / pow_minus_one (length f))%Q).
  { intros k Hk. apply (within_rnd _ u53' rnd (rel53 rnd R)); [apply X01|]. unfold Qdiv. apply (within_scale (2 ^ (-53))); auto. apply Qinv_le_0_compat. lra. }
  assert (PQ : forall k c, (pow_minus_one (length f) == inject_Z c)%Q -> within (2 ^ (-53)) k (rnd (rnd (inject_Z m) / pow_minus_one (length f)))%Q (inject_Z m / pow_minus_one (length f))%Q ->
    within (2 ^ (-53)) k (rnd (rnd (inject_Z m) / pow_minus_one (length f)))%Q (inject_Z m / inject_Z c)%Q).
  { intros k c E W. eapply (within_eq (2 ^ (-53))); [reflexivity|rewrite <- E; reflexivity|exact W]. }
  split; intro L5; (apply PQ; [unfold pow_minus_one|]).
  - assert (length f <=? 53 = true) as -> by (now apply Nat.leb_le). reflexivity.
  - apply (K 0). apply (within_eq (2 ^ (-53)) 0 (inject_Z m) (inject_Z m)); [|reflexivity|now apply (within_refl _ u53')].
    symmetry. apply (keeps53 rnd R), float_small. destruct X01 as [_ Xu].
    assert (inject_Z m <= inject_Z (2 ^ 53))%Q.
    { assert (EM : (inject_Z m == inject_Z m / pow_minus_one (length f) * pow_minus_one (length f))%Q) by (field; lra). rewrite EM.
      apply Qle_trans with (1 * pow_minus_one (length f))%Q; [apply Qmult_le_compat_r; lra|]. rewrite Qmult_1_l. unfold pow_minus_one. rewrite <- Zle_Qle.
      assert (2 ^ Z.of_nat (length f) <= 2 ^ 53)%Z by (apply Z.pow_le_mono_r; lia). destruct (length f <=? 53); lia. }
    rewrite <- Zle_Qle in *. change 0%Q with (inject_Z 0) in M0. rewrite <- Zle_Qle in M0. lia.
  - assert (length f <=? 53 = false) as -> by (apply Nat.leb_gt; lia). reflexivity.
  - apply (K 1). apply (within_rnd _ u53' rnd (rel53 rnd R) 0); auto. now apply (within_refl _ u53').
Qed.
