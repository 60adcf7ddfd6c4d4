(** The operators generated for the minimisation with doubles, and its failures. *)
From Coq Require Import List Bool Arith ZArith QArith Lia Lqa.
From Verif Require Import Res Cudd CuddFacts Spec SpecFloat Float Helpers HelpersFacts Counting Metrics RelMetrics Operators Examples AdderFacts LevelFacts
  Minimize SpecMinimize SpecRoundedMinimize MinimizeFacts MinimizeFacts2 MinimizeFacts3 MinimizeFacts4 MinimizeFacts5 MinimizeFacts9 MinimizeFacts11 FailureFacts
  Rounded RoundedAdd RoundedMinimize RoundedMinimizeFacts RoundedMinimizeFacts2 RoundedMinimizeFacts3 RoundedMinimizeFacts4 RoundedOperatorFacts RoundedFacts2.
Import ListNotations.
Open Scope nat_scope.

(** ** generated operators *)
Section Generated.
Variable rnd : Q -> Q.
Variable M : mgr.
Lemma single_apply_fl i j op f : (length f <= i -> single_operator_fl rnd M i j op f = UB)
  /\ forall b r, nth_error f i = Some b -> apply_operator_fl rnd M b op j j = Ok r ->
       exists f', single_operator_fl rnd M i j op f = Ok f' /\ length f' = length f /\ nth_error f' i = Some r
         /\ forall m, m <> i -> nth_error f' m = nth_error f m.
Proof.
  unfold single_operator_fl. split.
  - intro H. assert (vget f i = UB) as ->; [|reflexivity]. unfold vget. apply nth_error_None in H. now rewrite H.
  - intros b r Hb Hr. pose proof Hb as Hg. apply vget_iff in Hg. rewrite Hg. cbn [bind]. rewrite Hr. cbn [bind].
    destruct (vset_ok f i r) as (f' & E); [apply nth_error_Some; congruence|]. exists f'. split; auto.
    destruct (vset_spec _ _ _ _ E) as (L & _ & N). split; auto. split.
    + specialize (N i). now rewrite Nat.eqb_refl in N.
    + intros m Hm. rewrite N. apply Nat.eqb_neq in Hm. now rewrite Hm.
Qed.
Lemma single_levels_fl function ops T : levels_of function T -> let K := length ops in
  let gens := generate_single_bdd_operators_fl rnd M function ops in
  length gens = length function * (T * K)
  /\ forall i j k op, i < length function -> j < T -> nth_error ops k = Some op ->
     exists g, nth_error gens (i * (T * K) + (j * K + k)) = Some g
       /\ forall f, (length f <= i -> g f = UB)
          /\ forall b r, nth_error f i = Some b -> apply_operator_fl rnd M b op j j = Ok r ->
             exists f', g f = Ok f' /\ length f' = length f /\ nth_error f' i = Some r
               /\ forall m, m <> i -> nth_error f' m = nth_error f m.
Proof.
  intro HT. rewrite (levels_of_terminal _ _ HT). clear HT T. set (T := terminal_level [function]). intros K gens.
  assert (L1 : forall i j, length (map (fun op => single_operator_fl rnd M i j op) ops) = K) by (intros; apply map_length).
  assert (L2 : forall i, length (flat_map (fun j => map (fun op => single_operator_fl rnd M i j op) ops) (seq 0 T)) = T * K)
    by (intros i; rewrite (length_flat_map _ K) by apply L1; now rewrite seq_length).
  split.
  - unfold gens, generate_single_bdd_operators_fl. fold T. rewrite (length_flat_map _ (T * K)) by apply L2. now rewrite seq_length.
  - intros i j k op Hi Hj Hk. assert (KK : k < K) by (apply nth_error_Some; congruence). exists (single_operator_fl rnd M i j op). split.
    + unfold gens, generate_single_bdd_operators_fl. fold T. rewrite (nth_flat_map _ (T * K)) with (x := i); [|apply L2|now apply nth_seq|nia].
      rewrite (nth_flat_map _ K) with (x := j); [|apply L1|now apply nth_seq|exact KK]. now apply map_nth_error.
    + intro f. apply single_apply_fl.
Qed.
Lemma all_apply_fl op j f : Forall (wf M) f -> exists f', apply_operator_all_fl rnd M f op j j = Ok f' /\ length f' = length f
  /\ forall i b, nth_error f i = Some b -> exists r, nth_error f' i = Some r /\ apply_operator_fl rnd M b op j j = Ok r.
Proof.
  intro Hf. destruct (mapM_ok (fun b => apply_operator_fl rnd M b op j j) f) as (f' & E).
  { intros b Hb. rewrite Forall_forall in Hf. destruct (apply_operator_fl_fit rnd M b op j (Hf b Hb)) as (r & E & _). eauto. }
  exists f'. split; auto. destruct (mapM_nth _ _ _ E) as [L N]. split; auto.
Qed.
Lemma multi_levels_fl function ops T : levels_of function T -> let K := length ops in
  let gens := generate_multi_bdd_operators_fl rnd M function ops in
  length gens = T * K
  /\ forall j k op, j < T -> nth_error ops k = Some op ->
     exists g, nth_error gens (j * K + k) = Some g
       /\ forall f, Forall (wf M) f -> exists f', g f = Ok f' /\ length f' = length f
          /\ forall i b, nth_error f i = Some b -> exists r, nth_error f' i = Some r /\ apply_operator_fl rnd M b op j j = Ok r.
Proof.
  intro HT. rewrite (levels_of_terminal _ _ HT). clear HT T. set (T := terminal_level [function]). intros K gens.
  assert (L1 : forall j, length (map (fun op f => apply_operator_all_fl rnd M f op j j) ops) = K) by (intros; apply map_length).
  split.
  - unfold gens, generate_multi_bdd_operators_fl. fold T. rewrite (length_flat_map _ K) by apply L1. now rewrite seq_length.
  - intros j k op Hj Hk. assert (KK : k < K) by (apply nth_error_Some; congruence). exists (fun f => apply_operator_all_fl rnd M f op j j). split.
    + unfold gens, generate_multi_bdd_operators_fl. fold T. rewrite (nth_flat_map _ K) with (x := j); [|apply L1|now apply nth_seq|exact KK].
      apply (map_nth_error (fun op f => apply_operator_all_fl rnd M f op j j)). exact Hk.
    + intros f Hf. now apply all_apply_fl.
Qed.
Lemma random_levels_fl function ops T rands count : levels_of function T ->
  (forall gens, generate_random_operators_fl rnd M rands function ops count = Ok gens ->
     length gens = count /\ 2 * count <= length rands
     /\ forall k, k < count -> exists r r' op g,
          nth_error rands (2 * k) = Some r /\ nth_error rands (2 * k + 1) = Some r' /\ nth_error ops (r mod length ops) = Some op
          /\ 0 < T /\ nth_error gens k = Some g
          /\ forall f, Forall (wf M) f -> exists f', g f = Ok f' /\ length f' = length f
               /\ forall i b, nth_error f i = Some b ->
                    exists x, nth_error f' i = Some x /\ apply_operator_fl rnd M b op (r' mod T) (r' mod T) = Ok x)
  /\ (2 * count <= length rands -> 0 < count ->
       (ops = [] \/ function = [] -> generate_random_operators_fl rnd M rands function ops count = UB)
       /\ (ops <> [] -> function <> [] -> exists gens, generate_random_operators_fl rnd M rands function ops count = Ok gens)).
Proof.
  intro HT. split; [|apply random_outcome_fl]. rewrite (levels_of_terminal _ _ HT). intros gens H.
  destruct (random_nth_fl rnd M _ _ _ _ _ H) as (L1 & L2 & N). split; auto. split; auto. intros k Hk.
  destruct (N k Hk) as (_ & TP & op & r & r' & N1 & N2 & N3 & N4). exists r, r', op. eexists. split; [exact N1|]. split; [exact N2|].
  split; [exact N3|]. split; [exact TP|]. split; [exact N4|]. intros f Hf. now apply all_apply_fl.
Qed.

(** ** failures *)
Lemma random_quiet_fl T ops : forall count rands, quiet (random_loop_fl rnd M rands T ops count).
Proof.
  induction count as [|count IH]; intros rands; cbn [random_loop_fl]; [apply quiet_ok|].
  destruct rands as [|r1 [|r2 rands]]; [apply quiet_ub..|]. qt. apply IH.
Qed.
Lemma random_fails_fl T ops : forall count rands, random_loop_fl rnd M rands T ops count = UB ->
  length rands < 2 * count \/ (0 < count /\ (ops = [] \/ T = 0)).
Proof.
  induction count as [|count IH]; intros rands H; cbn [random_loop_fl] in H; [discriminate|].
  destruct rands as [|r1 [|r2 rands]]; [left; cbn [length]; lia..|].
  destruct (length ops =? 0) eqn:E0; cbn [negb require_ bind] in H.
  { right. split; [lia|]. left. apply Nat.eqb_eq in E0. now apply length_zero_iff_nil. }
  apply Nat.eqb_neq in E0. destruct (vget_ok ops (r1 mod length ops)) as (op & E & _); [now apply Nat.mod_upper_bound|]. rewrite E in H. cbn [bind] in H.
  destruct (T =? 0) eqn:E1; cbn [negb require_ bind] in H; [right; split; [lia|]; right; now apply Nat.eqb_eq|].
  cbv zeta in H. destruct (random_loop_fl rnd M rands T ops count) as [l| | |] eqn:ER; cbn [bind] in H; try discriminate.
  destruct (IH rands ER) as [H1|[H1 H2]]; [left; cbn [length]; lia|right; split; [lia|auto]].
Qed.
Lemma quiet_forest_fl f r : quiet (bdd_forest_to_add_fl rnd M f r).
Proof. unfold bdd_forest_to_add_fl. cbv zeta. destruct (rev _); qt. destruct (forest_loop_fl _ _ _ _ _). qt. Qed.
Lemma quiet_relative_fl f g r : quiet (relative_add_fl rnd M f g r).
Proof. unfold relative_add_fl, absolute_difference_add_fl. qt; apply quiet_forest_fl. Qed.
Lemma metric_quiet_fl kind f g : length f = length g -> quiet (metric_function_fl rnd M kind f g).
Proof.
  intro L. assert (LE : length f =? length g = true) by (now apply Nat.eqb_eq).
  assert (AC : quiet (acre_add_fl rnd M f g BaseTwo)).
  { unfold acre_add_fl. apply quiet_bind; [apply quiet_relative_fl|intros A _]. apply quiet_bind; [apply quiet_values|intros tv _]. destruct (decimal_sums _ _ _). qt. }
  destruct kind; unfold metric_function_fl.
  - unfold worst_case_error. qt.
  - unfold worst_case_error_percent_fl, worst_case_error. qt.
  - unfold wcre_add_fl. qt. apply quiet_relative_fl.
  - unfold average_case_error_fl. qt.
  - qt.
  - qt.
  - unfold mean_squared_error_fl. qt.
  - unfold error_rate_fl. qt. generalize bzero. clear - L. revert g L. induction f as [|x f IH]; intros [|y g] L b; cbn [miter]; qt.
    cbn [length] in L. apply IH. lia.
  - unfold average_bit_flip_error_fl. rewrite LE. cbn [assert_ bind]. cbv zeta. qt.
    generalize (max_support g (max_support f 0)), 0%Q. clear - L. revert g L.
    induction f as [|x f IH]; intros [|y g] L s q; cbn [flip_sum_fl]; qt. cbn [length] in L. apply IH. lia.
  - unfold worst_case_bit_flip_error_fl. rewrite LE. cbn [assert_ bind]. qt.
    + generalize (aconst 0). clear - L. revert g L. induction f as [|x f IH]; intros [|y g] L a; cbn [flip_add_fl]; qt. cbn [length] in L. apply IH. lia.
    + apply quiet_const.
Qed.
End Generated.

Lemma adjusted_no_cell rnd m x : (0 < grid_size m)%Z -> no_cell (grid_size m) (adjusted rnd m x) (bound m) ->
  no_rounded_cell rnd (grid_size m) x (bound m).
Proof.
  intros G. destruct x as [v|]; cbn [adjusted no_cell no_rounded_cell]; auto. cbv zeta.
  destruct (Qeq_dec (bound m) 0) as [E|E]; [auto|].
  assert (GQ : ~ (inject_Z (grid_size m) == 0)%Q).
  { change 0%Q with (inject_Z 0). rewrite inject_Z_injective. lia. }
  set (q := rnd (rnd (rnd (inject_Z (grid_size m)) * v) / bound m)%Q).
  assert (EQ : (inject_Z (grid_size m) * (q * bound m / inject_Z (grid_size m)) / bound m == q)%Q) by (field; auto).
  rewrite EQ. auto.
Qed.
Lemma adjusted_caused rnd function metrics operators e : Forall (fun m => (0 < grid_size m)%Z) metrics ->
  caused function (map (adjust rnd) metrics) operators e -> rounded_caused rnd function metrics operators e.
Proof.
  intros G (g & HD & H). exists g. split; auto. destruct H as [H|(m' & Hm & H)]; [auto|]. right.
  apply in_map_iff in Hm. destruct Hm as (m & <- & Hm). exists m. split; auto. cbn [adjust metric grid_size bound] in H.
  destruct (fails_cases (metric m function g)) as [(v & E)|(e' & F)].
  - right. rewrite E in *. cbn [bind] in H. destruct H as [H|(He & value & HV & NC)]; [now apply fails_ok in H|].
    split; auto. injection HV as <-. exists v. split; auto. apply adjusted_no_cell; auto. rewrite Forall_forall in G. auto.
  - left. destruct H as [H|(He & value & HV & NC)].
    + assert (e = e') as -> by (eapply fails_fun; [exact H|]; now apply fails_bind). exact F.
    + exfalso. pose proof (fails_bind e' (metric m function g) (fun x => Ok (adjusted rnd m x)) F) as K. rewrite HV in K. now apply fails_ok in K.
Qed.
Lemma search_failures_fl : forall (rnd : Q -> Q), rounds_to_nearest 53 rnd ->
  forall (function : list bdd) (metrics : list MetricDimension) (operators : list OperatorFunction) (pop_all : bool),
  metrics <> [] -> Forall (fun m => (0 < grid_size m)%Z) metrics -> (volume (map grid_size metrics) < 2 ^ 64)%Z ->
  (fold_right Z.add 0 (map grid_size metrics) <= 2 ^ 53)%Z ->
  forall fuel r, bucket_greedy_minimize_fl rnd function metrics operators pop_all fuel = Some r ->
  (forall e, fails e r -> rounded_caused rnd function metrics operators e)
  /\ (forall op e, In op operators -> fails e (op function) -> exists e', fails e' r).
Proof.
  intros rnd R function metrics operators pop_all HM HG HV HS fuel r H.
  pose proof (follows rnd (keeps53 rnd R) function metrics operators pop_all HM HG HV HS fuel) as F. rewrite H in F.
  assert (GE : map grid_size (map (adjust rnd) metrics) = map grid_size metrics) by (rewrite map_map; reflexivity).
  destruct (bucket_greedy_minimize function (map (adjust rnd) metrics) operators pop_all fuel) as [r'|] eqn:E; cbn [relopt] in F; [|contradiction].
  assert (FF : forall e, fails e r <-> fails e r').
  { intro e. destruct r, r'; cbn [relres] in F; try contradiction; split; intro K; try (now apply fails_ok in K); destruct e; try discriminate K; reflexivity. }
  destruct (search_failures function (map (adjust rnd) metrics) operators pop_all) with (fuel := fuel) (r := r') as [S1 S2]; auto.
  - intro X. now apply map_eq_nil in X.
  - now apply Forall_map.
  - now rewrite GE.
  - split.
    + intros e K. apply adjusted_caused; auto. apply S1. now apply FF.
    + intros op e Ho K. destruct (S2 op e Ho K) as (e' & K'). exists e'. now apply FF.
Qed.
Lemma misuse_fl rnd function metrics operators pop_all fuel :
  (metrics = [] -> bucket_greedy_minimize_fl rnd function metrics operators pop_all fuel = Some Throw)
  /\ (In 0%Z (map grid_size metrics) -> bucket_greedy_minimize_fl rnd function metrics operators pop_all fuel = Some UB).
Proof.
  split; [intros ->; reflexivity|]. intro H. unfold bucket_greedy_minimize_fl, bucket_grid_size. rewrite (create_zero _ H).
  destruct metrics as [|m ms]; [destruct H|reflexivity].
Qed.
Lemma helper_failures_fl : forall (rnd : Q -> Q), rounds_to_nearest 53 rnd ->
  forall (M : mgr) (n : nat) (function : list bdd) (metrics : list SimpleMetricDimension) (mode : OperatorConstructionMode)
    (ops : list Operator) (rands : list nat) (count : nat) (pop_all : bool),
  Forall (wf M) function -> below n function -> metrics <> [] -> Forall (fun m => (0 < m_grid_size m)%Z) metrics ->
  (volume (map m_grid_size metrics) < 2 ^ 64)%Z -> (fold_right Z.add 0 (map m_grid_size metrics) <= 2 ^ 53)%Z ->
  forall fuel r e, bucket_minimize_helper_fl rnd M fuel function metrics mode ops rands count pop_all = Some r -> fails e r ->
  e = Undefined
  /\ ((mode = RANDOM /\ (length rands < 2 * count \/ (0 < count /\ (ops = [] \/ function = []))))
      \/ exists m g, In m metrics /\ Forall (wf M) g /\ below n g /\ length g = length function
           /\ (metric_function_fl rnd M (m_metric m) function g = UB
               \/ exists value, metric_function_fl rnd M (m_metric m) function g = Ok value
                    /\ no_rounded_cell rnd (m_grid_size m) value (m_bound m))).
Proof.
  intros rnd R M n function metrics mode ops rands count pop_all W B HM HG HV HS fuel r e H F.
  set (dims := map (fun m => Dim (m_grid_size m) (metric_function_fl rnd M (m_metric m)) (m_bound m)) metrics).
  assert (DG : map grid_size dims = map m_grid_size metrics) by (unfold dims; rewrite map_map; reflexivity).
  assert (HG' : Forall (fun m => (0 < grid_size m)%Z) dims) by (unfold dims; now apply Forall_map).
  assert (GV : (volume (map grid_size dims) < 2 ^ 64)%Z) by (now rewrite DG).
  assert (GS : (fold_right Z.add 0 (map grid_size dims) <= 2 ^ 53)%Z) by (now rewrite DG).
  assert (DN : dims <> []) by (unfold dims; destruct metrics; [congruence|discriminate]).
  unfold bucket_minimize_helper_fl in H. cbv zeta in H. fold dims in H. fold (gens_fl rnd M function mode ops rands count) in H.
  assert (FT : fit M n (length function) function) by (repeat split; auto).
  destruct (gens_fl rnd M function mode ops rands count) as [l| | |] eqn:EG.
  - pose proof (gens_fit_fl rnd M n function mode ops rands count l EG) as FL.
    destruct (bucket_greedy_minimize_fl rnd function dims l pop_all fuel) as [r'|] eqn:EB; [|discriminate]. injection H as <-.
    destruct (fails_cases r') as [(buckets & ->)|(e' & F')].
    + cbn [bind] in F. exfalso. destruct buckets as [|b bs]; [|cbn [smallest_function bind] in F; now apply fails_ok in F].
      assert (NF : forall x, nearest_float 53 x (rnd x)) by (intro x; apply R).
      destruct (buckets_sound_fl _ rnd u53 (keeps53 rnd R) NF (rel53 rnd R) function dims l pop_all DN HG' GV GS fuel [] EB) as (L & _).
      cbn [length] in L. rewrite DG in L. assert (0 < volume (map m_grid_size metrics))%Z by (apply volume_pos; now apply Forall_map). lia.
    + assert (e = e') as -> by (eapply fails_fun; [exact F|]; now apply fails_bind).
      destruct (search_failures_fl rnd R function dims l pop_all DN HG' GV GS fuel r' EB) as [SF _].
      destruct (SF e' F') as (g & HD & CA).
      pose proof (derived_fit M n l function g FL FT HD) as FG.
      destruct CA as [(op & IO & FO)|(d & ID & CA)].
      * exfalso. destruct (FL op IO g FG) as (g' & E & _). rewrite E in FO. now apply fails_ok in FO.
      * unfold dims in ID. apply in_map_iff in ID. destruct ID as (m & <- & IM). cbn [metric grid_size bound] in CA.
        destruct FG as (W' & B' & L').
        assert (Q : quiet (metric_function_fl rnd M (m_metric m) function g)) by (apply metric_quiet_fl; congruence).
        assert (e' = Undefined) as -> by (destruct CA as [CA|[CA _]]; [eapply quiet_fails; eauto|auto]).
        split; auto. right. exists m, g. split; auto. split; auto. split; auto. split; auto.
        destruct CA as [CA|[_ CA]]; [left; exact CA|right; exact CA].
  - injection H as <-. assert (e = Undefined) as -> by (eapply quiet_fails; [apply quiet_ub|exact F]). split; auto. left.
    unfold gens_fl in EG. destruct mode; try discriminate. split; auto. unfold generate_random_operators_fl in EG.
    destruct (random_fails_fl _ _ _ _ _ _ EG) as [H|[H1 [H2|H2]]]; [now left|right; auto..]. split; auto. right. now apply terminal_level_pos.
  - exfalso. unfold gens_fl in EG. destruct mode; try discriminate. unfold generate_random_operators_fl in EG.
    apply (proj1 (random_quiet_fl rnd M (terminal_level [function]) ops count rands)). exact EG.
  - exfalso. unfold gens_fl in EG. destruct mode; try discriminate. unfold generate_random_operators_fl in EG.
    apply (proj2 (random_quiet_fl rnd M (terminal_level [function]) ops count rands)). exact EG.
Qed.

(** ** the choice of the random operators without rounding *)
Lemma random_nth M T ops : forall count rands gens, random_loop M rands T ops count = Ok gens ->
  length gens = count /\ 2 * count <= length rands /\ forall k, k < count -> 0 < T /\ exists op r r',
    nth_error rands (2 * k) = Some r /\ nth_error rands (2 * k + 1) = Some r' /\ nth_error ops (r mod length ops) = Some op
    /\ nth_error gens k = Some (fun f => apply_operator_all M f op (r' mod T) (r' mod T)).
Proof.
  induction count as [|count IH]; intros rands gens H; cbn [random_loop] in H.
  { injection H as <-. split; auto. split; [lia|]. intros k Hk. lia. }
  destruct rands as [|r1 [|r2 rands]]; try discriminate.
  destruct (length ops =? 0) eqn:E0; cbn [negb require_ bind] in H; [discriminate|]. apply Nat.eqb_neq in E0.
  destruct (vget ops (r1 mod length ops)) as [op| | |] eqn:Eo; cbn [bind] in H; try discriminate. apply vget_iff in Eo.
  destruct (T =? 0) eqn:ET; cbn [negb require_ bind] in H; [discriminate|]. apply Nat.eqb_neq in ET. cbv zeta in H.
  destruct (random_loop M rands T ops count) as [rest| | |] eqn:ER; cbn [bind] in H; try discriminate. injection H as <-.
  destruct (IH rands rest ER) as (I1 & I2 & I3). cbn [length]. split; [lia|]. split; [lia|]. intros k Hk.
  split; [lia|]. destruct k as [|k].
  - exists op, r1, r2. cbn [nth_error Nat.mul Nat.add]. auto.
  - destruct (I3 k ltac:(lia)) as (_ & op' & r & r' & J1 & J2 & J3 & J4). exists op', r, r'.
    replace (2 * S k) with (S (S (2 * k))) by lia. replace (S (S (2 * k)) + 1) with (S (S (2 * k + 1))) by lia. auto.
Qed.
Lemma random_choice_levels M function ops T rands count gens : levels_of function T ->
  generate_random_operators M rands function ops count = Ok gens ->
  length gens = count /\ 2 * count <= length rands
  /\ forall k, k < count -> exists r r' op g,
       nth_error rands (2 * k) = Some r /\ nth_error rands (2 * k + 1) = Some r' /\ nth_error ops (r mod length ops) = Some op
       /\ 0 < T /\ nth_error gens k = Some g
       /\ forall f, Forall (wf M) f -> exists f', g f = Ok f' /\ length f' = length f
            /\ forall i b, nth_error f i = Some b ->
                 exists x, nth_error f' i = Some x /\ apply_operator M b op (r' mod T) (r' mod T) = Ok x.
Proof.
  intros HT H. rewrite (levels_of_terminal _ _ HT).
  destruct (random_nth M _ _ _ _ _ H) as (L1 & L2 & N). split; auto. split; auto. intros k Hk.
  destruct (N k Hk) as (TP & op & r & r' & N1 & N2 & N3 & N4). exists r, r', op. eexists. split; [exact N1|]. split; [exact N2|].
  split; [exact N3|]. split; [exact TP|]. split; [exact N4|]. intros f Hf. set (level := r' mod terminal_level [function]).
  destruct (mapM_ok (fun b => apply_operator M b op level level) f) as (f' & E').
  { intros b Hb. rewrite Forall_forall in Hf. destruct (apply_operator_spec M b op level (Hf b Hb)) as (x & E' & _). eauto. }
  exists f'. split; auto. destruct (mapM_nth _ _ _ E') as [L' N']. split; auto.
Qed.
