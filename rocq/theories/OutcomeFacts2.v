(** Exactly when the error metrics fail, exact and with rounding. *)
From Coq Require Import List Bool Arith ZArith QArith Qround Qabs Lia Lqa.
From Verif Require Import Res Cudd Helpers Counting Metrics RelMetrics Operators Rounded RoundedAdd RoundedMinimize RoundedRel Spec SpecFloat SpecMinimize
  SpecOutcomes CuddFacts HelpersFacts RoundedFacts RoundedRelFacts RoundedAverageFacts MinimizeFacts9 MinimizeFacts11 RelFacts3 RelFacts4 FailureFacts OutcomeFacts.
Import ListNotations.
Open Scope nat_scope.

Lemma fails_bind {A B} (r : res A) (k : A -> res B) e : (forall v, r = Ok v -> exists w, k v = Ok w) -> fails e (bind r k) <-> fails e r.
Proof.
  intro H. destruct r as [v| | |]; cbn [bind].
  - destruct (H v eq_refl) as (w & ->). split; intro F; destruct e; discriminate F.
  - split; intro F; destruct e; (discriminate F || reflexivity).
  - split; intro F; destruct e; (discriminate F || reflexivity).
  - split; intro F; destruct e; (discriminate F || reflexivity).
Qed.
Lemma undefined_bind {A B} (r : res A) (k : A -> res B) P : undefined_iff r P -> (forall v, r = Ok v -> exists w, k v = Ok w) -> undefined_iff (bind r k) P.
Proof. intros U H e. rewrite fails_bind by exact H. apply U. Qed.

(** ** Loops over two vectors *)
Lemma miter_ok M f : forall g b, length f <= length g -> exists d, miter M f g b = Ok d.
Proof. induction f as [|x f IH]; intros [|y g] b L; cbn [miter length] in *; eauto; try lia; apply IH; lia. Qed.
Lemma miter_ub M f : forall g b, length g < length f -> miter M f g b = UB.
Proof. induction f as [|x f IH]; intros [|y g] b L; cbn [miter length] in *; auto; try lia; apply IH; lia. Qed.
Lemma flip_sum_ok M f : forall g s q, length f = length g -> exists d, flip_sum M f g s q = Ok d.
Proof. induction f as [|x f IH]; intros [|y g] s q L; cbn [flip_sum length] in *; eauto; try discriminate; apply IH; lia. Qed.
Lemma flip_sum_fl_ok rnd M f : forall g s q, length f = length g -> exists d, flip_sum_fl rnd M f g s q = Ok d.
Proof. induction f as [|x f IH]; intros [|y g] s q L; cbn [flip_sum_fl length] in *; eauto; try discriminate; apply IH; lia. Qed.

(** ** The quotients of vectors *)
Definition no_quotient (f g : list bdd) (r : NumberRepresentation) : Prop := f = [] \/ (r = TwosComplement /\ g = []).
Lemma no_quotient_dec f g r : no_quotient f g r \/ ~ no_quotient f g r.
Proof. unfold no_quotient. destruct (nil_dec f), (nil_dec g), (rep_dec r TwosComplement); tauto. Qed.
Lemma abs_any M f r : f <> [] -> exists d, bdd_abs M f r = Ok d /\ d <> [].
Proof.
  intro H. destruct r; [exists f; split; [reflexivity|exact H]|]. destruct (abs_ok M f H) as (d & E & L). exists d. split; [exact E|].
  intros ->. destruct f; [congruence|discriminate].
Qed.
Lemma max_one_any M f : f <> [] -> exists d, bdd_max_one M f = Ok d /\ d <> [].
Proof. intro H. destruct (max_one_ok M f H) as (d & E & L). exists d. split; [exact E|]. intros ->. destruct f; [congruence|discriminate]. Qed.
Lemma diff_any M f g r : ~ no_quotient f g r -> exists d, bdd_absolute_difference M f g r = Ok d.
Proof.
  intro N. destruct (diff_ok M f g r) as (d & E & _); [|eauto]. intros ->. unfold no_quotient in N. split; intros ->; apply N; auto.
Qed.
Lemma no_quotient_ub {A} M f g r (k : list bdd -> list bdd -> res A) : no_quotient f g r ->
  (d <- bdd_absolute_difference M f g r ;; a <- bdd_abs M f r ;; o <- bdd_max_one M a ;; k d o) = UB.
Proof.
  intros [-> |[-> ->]].
  - destruct r; [|now rewrite diff_ub by auto]. destruct (diff_ok M [] g BaseTwo) as (d & -> & _); [discriminate|]. reflexivity.
  - now rewrite diff_ub by auto.
Qed.
Lemma quotient_ok {A} M f g r (k : list bdd -> list bdd -> res A) : (forall d o, o <> [] -> exists v, k d o = Ok v) -> ~ no_quotient f g r ->
  exists v, (d <- bdd_absolute_difference M f g r ;; a <- bdd_abs M f r ;; o <- bdd_max_one M a ;; k d o) = Ok v.
Proof.
  intros K N. destruct (diff_any M f g r N) as (d & ->). destruct (abs_any M f r) as (a & -> & Na); [intro X; apply N; left; exact X|].
  cbn [bind]. destruct (max_one_any M a Na) as (o & -> & No). cbn [bind]. now apply K.
Qed.
Lemma divided_undefined M f g e r : undefined_iff (divided M f g e r) (no_quotient f g r).
Proof.
  apply undefined_from; [apply no_quotient_ub| |apply no_quotient_dec]. apply quotient_ok. intros d o _. destruct (divide_ok M d o e) as (x & E & _). eauto.
Qed.

(** ** approximate_worst_case_error *)
Lemma approximate_ok M f g n r : length f = length g -> (1 <= n)%Z -> exists v, approximate_worst_case_error M f g n r = Ok v.
Proof.
  intros L Hn. unfold approximate_worst_case_error. apply Nat.eqb_eq in L. rewrite L. apply Z.leb_le in Hn. rewrite Hn. cbn [andb assert_ bind]. cbv zeta.
  destruct f as [|x f].
  - destruct r; cbn; eauto.
  - destruct g as [|y g]; [discriminate|]. destruct (awce_loop _ _ _ _ _) as [[[a b] s] e]. destruct (_ =? _)%Z; [eauto|].
    destruct r; cbn [bind].
    + destruct (diff_ok M (rev a) (rev b) BaseTwo) as (d & -> & _); [discriminate|]. cbn [bind]. eauto.
    + destruct (vback_ok (x :: f)) as (u & ->); [discriminate|]. destruct (vback_ok (y :: g)) as (v & ->); [discriminate|]. cbn [bind].
      destruct (diff_ok M (rev a ++ [u]) (rev b ++ [v]) TwosComplement) as (d & -> & _).
      * intros _. split; intro X; apply app_eq_nil in X; destruct X; discriminate.
      * cbn [bind]. eauto.
Qed.

(** ** The exact and the rounded metrics *)
Lemma metric_outcomes : forall (rnd dec : Q -> Q) (M : mgr) (f g : list bdd) (r : NumberRepresentation) (n : Z) (extra : nat),
  undefined_iff (error_rate M f g) (length g < length f)
  /\ undefined_iff (error_rate_fl rnd M f g) (length g < length f)
  /\ abort_iff (average_bit_flip_error M f g) (length f <> length g)
  /\ abort_iff (average_bit_flip_error_fl rnd M f g) (length f <> length g)
  /\ undefined_iff (worst_case_error M f g r) (r = TwosComplement /\ (f = [] \/ g = []))
  /\ undefined_iff (worst_case_error_percent M f g r) (r = TwosComplement /\ (f = [] \/ g = []))
  /\ undefined_iff (worst_case_error_percent_fl rnd M f g r) (r = TwosComplement /\ (f = [] \/ g = []))
  /\ undefined_iff (average_case_error M f g r) (r = TwosComplement /\ (f = [] \/ g = []))
  /\ undefined_iff (average_case_error_fl rnd M f g r) (r = TwosComplement /\ (f = [] \/ g = []))
  /\ undefined_iff (mean_squared_error M f g r) (r = TwosComplement /\ (f = [] \/ g = []))
  /\ undefined_iff (mean_squared_error_fl rnd M f g r) (r = TwosComplement /\ (f = [] \/ g = []))
  /\ abort_iff (approximate_worst_case_error M f g n r) (length f <> length g \/ (n < 1)%Z)
  /\ undefined_iff (wcre_bounds M f g r) (f = [] \/ (r = TwosComplement /\ g = []))
  /\ undefined_iff (wcre_bounds_fl dec M f g r) (f = [] \/ (r = TwosComplement /\ g = []))
  /\ undefined_iff (acre_bounds M f g r) (f = [] \/ (r = TwosComplement /\ g = []))
  /\ undefined_iff (acre_bounds_fl rnd dec M f g r) (f = [] \/ (r = TwosComplement /\ g = []))
  /\ undefined_iff (wcre_symbolic_division M f g extra r) (f = [] \/ (r = TwosComplement /\ g = []))
  /\ undefined_iff (wcre_symbolic_division_fl dec M f g extra r) (f = [] \/ (r = TwosComplement /\ g = []))
  /\ undefined_iff (acre_symbolic_division M f g extra r) (f = [] \/ (r = TwosComplement /\ g = []))
  /\ undefined_iff (acre_symbolic_division_fl rnd dec M f g extra r) (f = [] \/ (r = TwosComplement /\ g = [])).
Proof.
  intros rnd dec M f g r n extra.
  destruct (helper_outcomes M (fun _ => 0) f g r 0 0 extra) as (_ & _ & _ & D & _).
  assert (MI : undefined_iff (miter M f g bzero) (length g < length f)).
  { apply undefined_from; [apply miter_ub|intro N; apply miter_ok; lia|lia]. }
  assert (WC : undefined_iff (worst_case_error M f g r) (r = TwosComplement /\ (f = [] \/ g = []))) by (apply undefined_bind; eauto).
  assert (DV : undefined_iff (divided M f g extra r) (no_quotient f g r)) by apply divided_undefined.
  assert (DL : length f <> length g \/ ~ length f <> length g) by lia.
  split; [apply undefined_bind; eauto|]. split; [apply undefined_bind; eauto|].
  split.
  { apply abort_from; [intro L|intro L|exact DL]; unfold average_bit_flip_error.
    - apply Nat.eqb_neq in L. now rewrite L.
    - assert (E : length f = length g) by lia. destruct (flip_sum_ok M f g (max_support g (max_support f 0)) 0 E) as (x & H).
      apply Nat.eqb_eq in E. rewrite E. cbn [assert_ bind]. cbv zeta. rewrite H. cbn [bind]. eauto. }
  split.
  { apply abort_from; [intro L|intro L|exact DL]; unfold average_bit_flip_error_fl.
    - apply Nat.eqb_neq in L. now rewrite L.
    - assert (E : length f = length g) by lia. destruct (flip_sum_fl_ok rnd M f g (max_support g (max_support f 0)) 0 E) as (x & H).
      apply Nat.eqb_eq in E. rewrite E. cbn [assert_ bind]. cbv zeta. rewrite H. cbn [bind]. eauto. }
  split; [exact WC|]. split; [apply undefined_bind; eauto|]. split; [apply undefined_bind; eauto|].
  split; [apply undefined_bind; eauto|]. split; [apply undefined_bind; eauto|]. split; [apply undefined_bind; eauto|]. split; [apply undefined_bind; eauto|].
  split.
  { apply abort_from; [|intro N; apply approximate_ok; lia|lia]. intro H. unfold approximate_worst_case_error. destruct (length f =? length g) eqn:E.
    - apply Nat.eqb_eq in E. destruct H as [H|H]; [lia|]. apply Z.leb_gt in H. rewrite H. reflexivity.
    - reflexivity. }
  split.
  { apply undefined_from; [| |apply no_quotient_dec].
    - apply (no_quotient_ub M f g r (fun d o => maximum_relative_value_bounds M d o)).
    - apply (quotient_ok M f g r (fun d o => maximum_relative_value_bounds M d o)). intros d o No. unfold maximum_relative_value_bounds.
      destruct (max_one_any M o No) as (x & -> & _). cbn [bind]. eauto. }
  split.
  { apply undefined_from; [| |apply no_quotient_dec].
    - apply (no_quotient_ub M f g r (fun d o => maximum_relative_value_bounds_fl dec M d o)).
    - apply (quotient_ok M f g r (fun d o => maximum_relative_value_bounds_fl dec M d o)). intros d o No. unfold maximum_relative_value_bounds_fl.
      destruct (max_one_any M o No) as (x & -> & _). cbn [bind]. eauto. }
  split.
  { apply undefined_from; [| |apply no_quotient_dec].
    - apply (no_quotient_ub M f g r (fun d o => Ok (acre_bounds_loop M d (rev o) bone (Fin 0) (Fin 0)))).
    - apply (quotient_ok M f g r (fun d o => Ok (acre_bounds_loop M d (rev o) bone (Fin 0) (Fin 0)))). eauto. }
  split.
  { apply undefined_from; [| |apply no_quotient_dec].
    - apply (no_quotient_ub M f g r (fun d o => Ok (acre_bounds_loop_fl rnd dec M d (rev o) bone (Fin 0) (Fin 0)))).
    - apply (quotient_ok M f g r (fun d o => Ok (acre_bounds_loop_fl rnd dec M d (rev o) bone (Fin 0) (Fin 0)))). eauto. }
  split; [apply undefined_bind; eauto|]. split; [apply undefined_bind; eauto|]. split; [apply undefined_bind; eauto|]. apply undefined_bind; eauto.
Qed.

(** ** Sampling *)
Lemma sampling_outcomes : forall (rnd : Q -> Q) (M : mgr) (draws : nat -> Z) (f g : list bdd) (samples : Z) (e : failure),
  wfs M f -> wfs M g -> below (read_size M) f -> below (read_size M) g ->
  (fails e (error_rate_sampling M draws f g samples) <->
     (e = FailedAssert /\ length f <> length g) \/ (e = Undefined /\ length f = length g /\ (2 ^ 31 <= samples)%Z))
  /\ (fails e (error_rate_sampling_fl rnd M draws f g samples) <->
     (e = FailedAssert /\ length f <> length g) \/ (e = Undefined /\ length f = length g /\ (2 ^ 31 <= samples)%Z)).
Proof.
  intros rnd M draws f g samples e Wf Wg Bf Bg. unfold error_rate_sampling, error_rate_sampling_fl.
  destruct (Nat.eq_dec (length f) (length g)) as [L|L].
  2:{ rewrite differences_abort by exact L. cbn [bind]. split; split.
      1,3: intro F; destruct e; try discriminate F; left; auto.
      all: intros [[-> _]|[-> [X _]]]; [reflexivity|contradiction]. }
  destruct (differences_spec M _ f g L Wf Wg Bf Bg) as (d & -> & Ld & Wd & Bd & Nd & Ed). cbn [bind].
  destruct (samples <? 2 ^ 31)%Z eqn:E; cbn [require_ bind].
  - apply Z.ltb_lt in E. destruct (sampling_loop_spec M _ d draws Wd Bd (Z.to_nat samples) 0 0%Z) as (e' & -> & _). cbn [bind]. split; split.
    1,3: intro F; destruct e; discriminate F.
    all: intros [[-> X]|[-> [_ X]]]; [contradiction|lia].
  - apply Z.ltb_ge in E. split; split.
    1,3: intro F; destruct e; try discriminate F; right; auto.
    all: intros [[-> X]|[-> _]]; [contradiction|reflexivity].
Qed.

(** ** The rounded metrics on ADDs and the rounded searches have no other failure than undefined behaviour *)
Lemma quiet_forest_fl rnd M f r : quiet (bdd_forest_to_add_fl rnd M f r).
Proof. unfold bdd_forest_to_add_fl. cbv zeta. destruct (rev _); [qt|]. destruct (forest_loop_fl _ _ _ _ _). qt. Qed.
Lemma quiet_xor_add_fl rnd M f g : quiet (xor_difference_add_fl rnd M f g).
Proof. unfold xor_difference_add_fl. qt; [apply quiet_xor|apply quiet_forest_fl]. Qed.
Lemma quiet_abs_add_fl rnd M f g r : quiet (absolute_difference_add_fl rnd M f g r).
Proof. unfold absolute_difference_add_fl. qt; apply quiet_forest_fl. Qed.
Lemma quiet_relative_fl rnd M f g r : quiet (relative_add_fl rnd M f g r).
Proof. unfold relative_add_fl. qt; first [apply quiet_abs_add_fl|apply quiet_forest_fl]. Qed.
Lemma quiet_flip_add_fl rnd M f : forall g a, quiet (flip_add_fl rnd M f g a).
Proof. induction f as [|x f IH]; intros [|y g] a; cbn [flip_add_fl]; qt. apply IH. Qed.
Lemma quiet_efficient_fl rnd rm draws d T samples first mx rest : forall previous pos a, quiet (efficient_loop_fl rnd rm draws d T samples first mx rest previous pos a).
Proof.
  induction rest as [|[k rate] rest IH]; intros previous pos a; cbn [efficient_loop_fl]; [qt|]. apply quiet_bind; [qt|intros diff _].
  destruct (fdiv_fl _ _ _) as [q|]; [|qt]. cbv zeta. apply quiet_bind; [qt|intros ? _]. destruct (_ =? _)%Z; [apply IH|].
  apply quiet_bind; [qt|intros ? _]. apply quiet_bind; [apply quiet_good; apply random_sampler_fl_total|intros gs _]. apply IH.
Qed.
Lemma quiet_randomized_fl rnd M clog2 rm draws f g samples r fuel : oquiet (wcre_randomized_search_fl rnd M clog2 rm draws f g samples r fuel).
Proof.
  unfold wcre_randomized_search_fl. pose proof (quiet_rs_start M clog2 f g r) as Q.
  destruct (rs_start M clog2 f g r) as [[p|[[[[d f_] lg] c] e]]| | |]; try pass Q; [cbn [oquiet]; qt|]. apply quiet_rs_loop. apply random_sampler_fl_total.
Qed.
Lemma nearest_le p rnd x y : rounds_to_nearest p rnd -> float_number p y -> (x <= y)%Q -> (rnd x <= y)%Q.
Proof.
  intros R F H. destruct (R x) as [_ N]. specialize (N y F). rewrite (Qabs_neg (x - y)) in N by lra.
  pose proof (Qle_Qabs (rnd x - x)) as A. rewrite Qabs_Qminus in A. lra.
Qed.
Lemma nearest_ge p rnd x y : rounds_to_nearest p rnd -> float_number p y -> (y <= x)%Q -> (y <= rnd x)%Q.
Proof.
  intros R F H. destruct (R x) as [_ N]. specialize (N y F). rewrite (Qabs_pos (x - y)) in N by lra.
  pose proof (Qle_Qabs (x - rnd x)) as A. lra.
Qed.

Lemma quiet_ws_bisect_fl rnd M clog2 d f precision fuel : rounds_to_nearest 53 rnd -> forall min max lg, (min <= inject_Z (2 ^ 128))%Q ->
  (max <= inject_Z (2 ^ 128))%Q -> oquiet (ws_bisect_fl rnd M clog2 d f precision fuel min max lg).
Proof.
  intro R. assert (B : (inject_Z (2 ^ 128) <= inject_Z (2 ^ 256))%Q) by (vm_compute; discriminate).
  assert (F8 : float_number 53 (inject_Z (2 ^ 128))) by (exists 1%Z, 128%Z; split; [vm_compute; discriminate|reflexivity]).
  assert (F9 : float_number 53 (inject_Z (2 ^ 129))) by (exists 1%Z, 129%Z; split; [vm_compute; discriminate|reflexivity]).
  assert (T : (inject_Z (2 ^ 129) == inject_Z (2 ^ 128) + inject_Z (2 ^ 128))%Q) by reflexivity.
  induction fuel as [|fuel IH]; intros min max lg H1 H2; cbn [ws_bisect_fl]; destruct (Qle_bool _ _); try (cbn [oquiet]; qt); try exact I.
  assert (M1 : (rnd (min + max) <= inject_Z (2 ^ 129))%Q) by (apply (nearest_le 53 rnd); auto; lra).
  assert (M2 : (rnd (rnd (min + max) / 2) <= inject_Z (2 ^ 128))%Q).
  { apply (nearest_le 53 rnd); auto. apply Qle_shift_div_r; [reflexivity|]. lra. }
  cbv zeta. set (mid := rnd (rnd (min + max) / 2)%Q) in *. pose proof (quiet_double M clog2 (mask M f lg) mid 16 ltac:(lra)) as Q.
  destruct (bdd_multiply_constant_double _ _ _ _ _) as [mu| | |]; try pass Q. destruct (snd _); [cbn [oquiet]; qt|].
  destruct (fst _); apply IH; auto.
Qed.
Lemma quiet_ws_start M clog2 f g e r : quiet (ws_start M clog2 f g e r) /\ forall d f_ min max lg, ws_start M clog2 f g e r = Ok (inr (d, f_, min, max, lg)) ->
    (0 <= min <= max)%Q /\ (max <= inject_Z (2 ^ 128))%Q.
Proof.
  unfold ws_start. split.
  - apply quiet_bind; [qt|intros a _]. apply quiet_bind; [apply quiet_max_one|intros f_ _]. apply quiet_bind; [qt|intros d _].
    destruct (forallb _ _); [qt|]. cbv zeta. apply quiet_bind; [apply quiet_ws_double; lia|intros [q|[[mi ma] lg]] _]; qt.
  - intros d f_ min max lg H. destruct (bdd_abs M f r) as [a| | |]; cbn [bind] in H; try discriminate.
    destruct (bdd_max_one M a) as [f1| | |]; cbn [bind] in H; try discriminate.
    destruct (bdd_absolute_difference M f g r) as [d1| | |]; cbn [bind] in H; try discriminate.
    destruct (forallb _ _); [discriminate|]. cbv zeta in H.
    destruct (ws_double _ _ _ _ _ _) as [[q|[[mi ma] l]]| | |] eqn:E; cbn [bind] in H; try discriminate.
    injection H as <- <- <- <- <-. eapply (proj2 (quiet_ws_double _ _ _ _ _ 1 ltac:(lia))). exact E.
Qed.
Lemma quiet_search_fl rnd M clog2 f g e precision r fuel : rounds_to_nearest 53 rnd -> oquiet (wcre_search_fl rnd M clog2 f g e precision r fuel).
Proof.
  intro R. unfold wcre_search_fl. destruct (quiet_ws_start M clog2 f g e r) as [Q1 Q2].
  destruct (ws_start M clog2 f g e r) as [[q|[[[[d f_] mi] ma] lg]]| | |]; try pass Q1; [cbn [oquiet]; qt|].
  destruct (Q2 _ _ _ _ _ eq_refl) as [H1 H2]. apply quiet_ws_bisect_fl; auto. lra.
Qed.

Lemma rounded_outcomes : forall (rnd : Q -> Q) (M : mgr) (clog2 : Z -> nat) (sort : list (nat * Q) -> list (nat * Q)) (rand_max : Z) (draws : nat -> Z)
    (f g : list bdd) (r : NumberRepresentation) (samples : Z),
  only_undefined (error_rate_add_fl rnd M f g) /\ only_undefined (average_bit_flip_error_add_fl rnd M f g)
  /\ only_undefined (worst_case_bit_flip_error_add_fl rnd M f g) /\ only_undefined (worst_case_error_add_fl rnd M f g r)
  /\ only_undefined (average_case_error_add_fl rnd M f g r) /\ only_undefined (mean_squared_error_add_fl rnd M f g r)
  /\ only_undefined (wcre_add_fl rnd M f g r) /\ only_undefined (acre_add_fl rnd M f g r)
  /\ (length f = length g -> only_undefined (worst_case_bit_flip_error_fl rnd M f g)
        /\ only_undefined (error_rate_efficient_sampling_fl rnd M sort rand_max draws f g samples))
  /\ (length f <> length g -> fails FailedAssert (worst_case_bit_flip_error_fl rnd M f g)
        /\ fails FailedAssert (error_rate_efficient_sampling_fl rnd M sort rand_max draws f g samples)).
Proof.
  intros rnd M clog2 sort rm draws f g r samples.
  pose proof (quiet_xor_add_fl rnd M f g) as XA. pose proof (quiet_abs_add_fl rnd M f g r) as AD. pose proof (quiet_relative_fl rnd M f g r) as RE.
  split; [apply quiet_only; unfold error_rate_add_fl; qt; destruct (nonzero_sums _ _ _); qt|].
  split; [apply quiet_only; unfold average_bit_flip_error_add_fl; qt; [apply quiet_popcount_sums|destruct v1; qt]|].
  split; [apply quiet_only; unfold worst_case_bit_flip_error_add_fl; qt; apply quiet_max_popcount|].
  split; [apply quiet_only; unfold worst_case_error_add_fl; qt|].
  split; [apply quiet_only; unfold average_case_error_add_fl; qt; destruct (weighted_sums _ _ _ _); qt|].
  split; [apply quiet_only; unfold mean_squared_error_add_fl; qt; destruct (weighted_sums _ _ _ _); qt|].
  split; [apply quiet_only; unfold wcre_add_fl; qt|].
  split; [apply quiet_only; unfold acre_add_fl; qt; destruct (decimal_sums _ _ _); qt|].
  split; intro L.
  - pose proof (quiet_differences M f g L) as Q. split; apply quiet_only.
    + unfold worst_case_bit_flip_error_fl. apply Nat.eqb_eq in L. rewrite L. cbn [assert_ bind]. qt; [apply quiet_flip_add_fl|apply quiet_const].
    + unfold error_rate_efficient_sampling_fl. qt. cbv zeta. destruct (sort _) as [|[k first] rest]; qt. apply quiet_efficient_fl.
  - apply Nat.eqb_neq in L. unfold worst_case_bit_flip_error_fl, error_rate_efficient_sampling_fl, differences. rewrite L. split; reflexivity.
Qed.
Lemma search_outcomes : forall (rnd : Q -> Q) (M : mgr) (clog2 : Z -> nat) (rand_max : Z) (draws : nat -> Z) (f g : list bdd) (r : NumberRepresentation)
    (extra samples fuel : nat) (precision : Q),
  (forall o, wcre_randomized_search_fl rnd M clog2 rand_max draws f g samples r fuel = Some o -> only_undefined o)
  /\ (rounds_to_nearest 53 rnd -> forall o, wcre_search_fl rnd M clog2 f g extra precision r fuel = Some o -> only_undefined o).
Proof.
  intros rnd M clog2 rm draws f g r extra samples fuel precision. split.
  - intros o H. pose proof (quiet_randomized_fl rnd M clog2 rm draws f g samples r fuel) as Q. rewrite H in Q. now apply quiet_only.
  - intros R o H. pose proof (quiet_search_fl rnd M clog2 f g extra precision r fuel R) as Q. rewrite H in Q. now apply quiet_only.
Qed.
