(** The bucket minimisation helper fails only with undefined behaviour. *)
From Coq Require Import List Bool Arith ZArith QArith Lia Lqa.
From Verif Require Import Res Cudd CuddFacts Spec SpecFacts Helpers Counting Metrics RelMetrics Operators Examples AdderFacts Minimize SpecMinimize
  Float Benchmark Genetic MinimizeFacts MinimizeFacts2 MinimizeFacts3 MinimizeFacts4 MinimizeFacts5 MinimizeFacts9.
Import ListNotations.
Open Scope nat_scope.

Definition quiet {A} (r : res A) : Prop := r <> Throw /\ r <> Abort.
Lemma quiet_ok {A} (v : A) : quiet (Ok v). Proof. split; discriminate. Qed.
Lemma quiet_ub {A} : quiet (@UB A). Proof. split; discriminate. Qed.
Lemma quiet_bind {A B} (x : res A) (f : A -> res B) : quiet x -> (forall v, x = Ok v -> quiet (f v)) -> quiet (bind x f).
Proof. intros [H1 H2] H. destruct x; cbn [bind]; [auto|apply quiet_ub|congruence|congruence]. Qed.
Lemma quiet_vget {A} (l : list A) i : quiet (vget l i).
Proof. unfold vget. destruct (nth_error l i); [apply quiet_ok|apply quiet_ub]. Qed.
Lemma quiet_vback {A} (l : list A) : quiet (vback l).
Proof. unfold vback. destruct (rev l); [apply quiet_ub|apply quiet_ok]. Qed.
Lemma quiet_fails {A} e (r : res A) : quiet r -> fails e r -> e = Undefined.
Proof. intros [H1 H2]. unfold fails. intros ->. destruct e; [auto|congruence|congruence]. Qed.
Ltac quiet := repeat (first [assumption | apply quiet_ok | apply quiet_ub | apply quiet_vget | apply quiet_vback
  | (apply quiet_bind; [|intros ? _])]).

Lemma quiet_subtract M f : forall g c, quiet (subtract_loop M f g c).
Proof.
  induction f as [|x f IH]; intros [|y g] c; cbn [subtract_loop]; quiet. destruct (full_adder M x (bnot y) c) as [d e]. quiet. apply IH.
Qed.
Lemma quiet_abs M f r : quiet (bdd_abs M f r).
Proof. destruct r; cbn [bdd_abs]; quiet. apply quiet_subtract. Qed.
Lemma quiet_extend f n : quiet (sign_extend f n).
Proof. unfold sign_extend. destruct (_ <? _); quiet. Qed.
Lemma quiet_absdiff M f g r : quiet (bdd_absolute_difference M f g r).
Proof.
  unfold bdd_absolute_difference. cbv zeta. apply quiet_bind; [apply quiet_extend|intros ? _]. apply quiet_bind; [apply quiet_extend|intros ? _].
  apply quiet_bind; [apply quiet_subtract|intros ? _]. apply quiet_abs.
Qed.
Lemma quiet_forest M f r : quiet (bdd_forest_to_add M f r).
Proof. unfold bdd_forest_to_add. cbv zeta. destruct (rev _); quiet. destruct (forest_loop _ _ _ _). quiet. Qed.
Lemma quiet_visit T l c child st : quiet (visit_child T l c child st).
Proof.
  unfold visit_child. cbv zeta. apply quiet_bind; [unfold shl_ulong; destruct (_ && _); quiet|intros ? _]. destruct (avisited _ _); quiet.
Qed.
Lemma quiet_level T l : forall nodes st, quiet (level_loop T l nodes st).
Proof.
  induction nodes as [|nd nodes IH]; intro st; cbn [level_loop]; quiet. destruct nd as [q|v t e]; auto. cbv zeta.
  apply quiet_bind; [apply quiet_visit|intros ? _]. apply quiet_bind; [apply quiet_visit|intros ? _]. auto.
Qed.
Lemma quiet_levels T fuel : forall l st, quiet (levels_loop T fuel l st).
Proof.
  induction fuel as [|fuel IH]; intros l st; cbn [levels_loop]; quiet. destruct (_ <? _); quiet; [apply quiet_level|apply IH].
Qed.
Lemma quiet_terminals p fuel : forall l v, quiet (terminals_loop p fuel l v).
Proof.
  induction fuel as [|fuel IH]; intros [|nd l] v; cbn [terminals_loop]; quiet. destruct nd as [q|x t e]; [quiet; apply IH|].
  destruct (avisited t v); destruct (avisited e _); apply IH.
Qed.
Lemma quiet_values f : quiet (add_terminal_values f).
Proof.
  unfold add_terminal_values. apply quiet_bind; [|intros; apply quiet_terminals]. unfold count_paths. destruct f; quiet. apply quiet_levels.
Qed.
Lemma quiet_relative M f g r : quiet (relative_add M f g r).
Proof.
  unfold relative_add, absolute_difference_add.
  repeat first [apply quiet_forest | apply quiet_abs | apply quiet_ok | (apply quiet_bind; [|intros ? _])].
Qed.
Lemma metric_quiet M kind f g : length f = length g -> quiet (metric_function M kind f g).
Proof.
  intro L. assert (LE : length f =? length g = true) by (now apply Nat.eqb_eq).
  assert (AD : quiet (bdd_absolute_difference M f g BaseTwo)) by apply quiet_absdiff.
  assert (RE : quiet (relative_add M f g BaseTwo)) by apply quiet_relative.
  assert (AC : quiet (acre_add M f g BaseTwo)).
  { unfold acre_add. apply quiet_bind; [auto|intros A _]. apply quiet_bind; [apply quiet_values|intros tv _]. destruct (decimal_sums _ _ _). quiet. }
  destruct kind; unfold metric_function.
  - unfold worst_case_error. quiet.
  - unfold worst_case_error_percent, worst_case_error. quiet.
  - pose proof quiet_values as QV. unfold wcre_add. apply quiet_bind; [|intros ? _; quiet]. apply quiet_bind; [auto|intros ? _]. apply quiet_bind; [apply QV|intros ? _; quiet].
  - unfold average_case_error. quiet.
  - exact AC.
  - exact AC.
  - unfold mean_squared_error. quiet.
  - unfold error_rate. quiet. generalize bzero. clear - L. revert g L. induction f as [|x f IH]; intros [|y g] L b; cbn [miter]; quiet.
    cbn [length] in L. apply IH. lia.
  - unfold average_bit_flip_error. rewrite LE. cbn [assert_ bind]. cbv zeta. quiet.
    generalize (max_support g (max_support f 0)), 0%Q. clear - L. revert g L.
    induction f as [|x f IH]; intros [|y g] L s q; cbn [flip_sum]; quiet. cbn [length] in L. apply IH. lia.
  - unfold worst_case_bit_flip_error. rewrite LE. cbn [assert_ bind]. quiet.
    + generalize (aconst 0). clear - L. revert g L. induction f as [|x f IH]; intros [|y g] L a; cbn [flip_add]; quiet. cbn [length] in L. apply IH. lia.
    + unfold const_ADD_value. destruct (aconst _); quiet. cbv zeta. destruct (_ && _); quiet.
Qed.
Lemma random_quiet M T ops : forall count rands, quiet (random_loop M rands T ops count).
Proof.
  assert (RQ : forall b, quiet (require_ b)) by (intros []; cbn [require_]; quiet).
  induction count as [|count IH]; intros rands; cbn [random_loop]; quiet.
  destruct rands as [|r1 [|r2 rands]]; [quiet..|]. apply quiet_bind; [apply RQ|intros ? _]. apply quiet_bind; [apply quiet_vget|intros ? _].
  apply quiet_bind; [apply RQ|intros ? _]. cbv zeta. apply quiet_bind; [apply IH|intros ? _]. apply quiet_ok.
Qed.

Lemma fold_max_ge (F : bdd -> nat) l : forall m, m <= fold_left (fun m b => Nat.max m (F b + 1)) l m.
Proof. induction l as [|b l IH]; intro m; cbn [fold_left]; auto. specialize (IH (Nat.max m (F b + 1))). lia. Qed.
Lemma terminal_level_pos f : terminal_level [f] = 0 -> f = [].
Proof.
  unfold terminal_level. cbn [fold_left]. destruct f as [|b f]; auto. cbn [fold_left]. intro H.
  pose proof (fold_max_ge (fun b => list_max0 (support b)) f (Nat.max 0 (list_max0 (support b) + 1))). lia.
Qed.
Lemma random_fails M T ops : forall count rands, random_loop M rands T ops count = UB ->
  length rands < 2 * count \/ (0 < count /\ (ops = [] \/ T = 0)).
Proof.
  induction count as [|count IH]; intros rands H; cbn [random_loop] in H; [discriminate|].
  destruct rands as [|r1 [|r2 rands]]; [left; cbn [length]; lia..|].
  destruct (length ops =? 0) eqn:E0; cbn [negb require_ bind] in H.
  { right. split; [lia|]. left. apply Nat.eqb_eq in E0. now apply length_zero_iff_nil. }
  apply Nat.eqb_neq in E0. destruct (vget_ok ops (r1 mod length ops)) as (op & E & _); [now apply Nat.mod_upper_bound|]. rewrite E in H. cbn [bind] in H.
  destruct (T =? 0) eqn:E1; cbn [negb require_ bind] in H; [right; split; [lia|]; right; now apply Nat.eqb_eq|].
  cbv zeta in H. destruct (random_loop M rands T ops count) as [l| | |] eqn:ER; cbn [bind] in H; try discriminate.
  destruct (IH rands ER) as [H1|[H1 H2]]; [left; cbn [length]; lia|right; split; [lia|auto]].
Qed.

Lemma quiet_vset {A} (l : list A) : forall i x, quiet (vset l i x).
Proof. induction l as [|y l IH]; intros i x; cbn [vset]; [apply quiet_ub|]. destruct i; [apply quiet_ok|]. apply quiet_bind; [apply IH|intros; apply quiet_ok]. Qed.
Lemma quiet_require b : quiet (require_ b). Proof. destruct b; [apply quiet_ok|apply quiet_ub]. Qed.
Lemma quiet_positions M ps params : forall i ind, quiet (apply_positions M ps params i ind).
Proof.
  induction ps as [|[bit level] ps IH]; intros i ind; cbn [apply_positions]; [apply quiet_ok|]. apply quiet_bind; [apply quiet_vget|intros p _].
  destruct (Benchmark.qlt _ p); [apply quiet_bind; [apply quiet_vget|intros b _]; apply quiet_bind; [apply quiet_vset|intros; apply IH]|].
  destruct (Benchmark.qlt _ p); [apply quiet_bind; [apply quiet_vget|intros b _]; apply quiet_bind; [apply quiet_vset|intros; apply IH]|apply IH].
Qed.
Lemma quiet_fitness M P params : quiet (fitness M P params).
Proof.
  unfold fitness. apply quiet_bind; [apply quiet_positions|intros ind _]. cbv zeta. destruct (_ <=? _); [destruct (negb _); apply quiet_ok|].
  apply quiet_bind; [unfold error_rate|intros er _].
  - assert (MI : forall f g b, quiet (miter M f g b)).
    { induction f as [|x f IH]; intros [|y g] b; cbn [miter]; try apply quiet_ok; try apply quiet_ub. apply IH. }
    apply quiet_bind; [apply MI|intros; apply quiet_ok].
  - apply quiet_bind; [|intros; destruct (negb _); apply quiet_ok]. destruct (er_and_ace P); [|apply quiet_ok].
    apply quiet_bind; [unfold average_case_error; apply quiet_bind; [apply quiet_absdiff|intros; apply quiet_ok]|].
    intros x _. destruct x; [apply quiet_ok|apply quiet_ub].
Qed.
Lemma quiet_consider M P er ace both ind best : quiet (consider M P er ace both ind best).
Proof.
  unfold consider. apply quiet_bind; [apply quiet_fitness|intros fit _]. apply quiet_bind; [apply quiet_vget|intros f1 _].
  destruct (Benchmark.qlt f1 er); [|apply quiet_ok].
  apply quiet_bind; [destruct both; [apply quiet_bind; [apply quiet_vget|intros; apply quiet_ok]|apply quiet_ok]|intros ok _].
  destruct ok; [|apply quiet_ok]. apply quiet_bind; [apply quiet_vget|intros f0 _]. destruct (Benchmark.qlt f0 _); [|apply quiet_ok]. cbv zeta.
  apply quiet_bind; [apply quiet_require|intros _ _]. apply quiet_bind; [destruct both; [apply quiet_vget|apply quiet_ok]|intros; apply quiet_ok].
Qed.
Lemma quiet_all M P er ace both : forall inds best, quiet (consider_all M P er ace both inds best).
Proof.
  induction inds as [|ind inds IH]; intro best; cbn [consider_all]; [apply quiet_ok|]. apply quiet_bind; [apply quiet_consider|intros; apply IH].
Qed.
Lemma quiet_genetic M P er ace both evolve fuel : forall k pop best r, genetic_loop M P er ace both evolve fuel k pop best = Some r -> quiet r.
Proof.
  induction fuel as [|fuel IH]; intros k pop best r; cbn [genetic_loop]; [discriminate|]. cbv zeta.
  pose proof (quiet_all M P er ace both (evolve k pop) best) as Q.
  destruct (consider_all _ _ _ _ _ _ _) as [b| | |].
  - destruct (_ =? _)%Z; [intros [= <-]; apply quiet_ok|apply IH].
  - intros [= <-]. apply quiet_ub.
  - exfalso. now apply (proj1 Q).
  - exfalso. now apply (proj2 Q).
Qed.
Lemma quiet_population P size count draws : quiet (make_population P size count draws).
Proof.
  unfold make_population. generalize 0, (@nil individuum).
  assert (IL : forall c pos data, quiet (init_loop c draws pos data)).
  { induction c as [|c IH]; intros pos data; cbn [init_loop]; [apply quiet_ok|]. apply quiet_bind; [apply quiet_require|intros _ _].
    cbv zeta. apply quiet_bind; [apply quiet_vset|intros; apply IH]. }
  induction size as [|size IH]; intros pos pop; cbn [population_loop]; [apply quiet_ok|]. apply quiet_bind; [apply IL|intros [data p] _; apply IH].
Qed.
Lemma genetic_fails : forall (M : mgr) (f : list bdd) (max_er max_ace : Q) (both : bool) (draws : nat -> Z)
    (evolve : nat -> list individuum -> list individuum) (fuel : nat) r e,
  run_genetic_minimization M f max_er max_ace both draws evolve fuel = Some r -> fails e r ->
  (e = Exception /\ compute_support_positions f = []) \/ (e = Undefined /\ compute_support_positions f <> []).
Proof.
  intros M f max_er max_ace both draws evolve fuel r e. unfold run_genetic_minimization. cbv zeta. cbn [make_problem support_positions].
  destruct (compute_support_positions f) as [|p ps] eqn:EP; cbn [length Nat.eqb].
  { intros [= <-] F. left. split; auto. destruct e; try discriminate. reflexivity. }
  intros H F. right. split; [|discriminate].
  pose proof (quiet_population (make_problem f max_er both max_ace) 100 3 draws) as Q.
  destruct (make_population (make_problem f max_er both max_ace) 100 3 draws) as [pop| | |].
  - eapply quiet_fails; [eapply quiet_genetic; exact H|exact F].
  - injection H as <-. eapply quiet_fails; [apply quiet_ub|exact F].
  - exfalso. now apply (proj1 Q).
  - exfalso. now apply (proj2 Q).
Qed.

Lemma helper_fails : forall (M : mgr) (n : nat) (function : list bdd) (metrics : list SimpleMetricDimension) (mode : OperatorConstructionMode)
    (ops : list Operator) (rands : list nat) (count : nat) (pop_all : bool),
  Forall (wf M) function -> below n function -> metrics <> [] -> Forall (fun m => (0 < m_grid_size m)%Z) metrics ->
  (volume (map m_grid_size metrics) < 2 ^ 64)%Z ->
  forall fuel r e, bucket_minimize_helper M fuel function metrics mode ops rands count pop_all = Some r -> fails e r ->
  e = Undefined
  /\ ((mode = RANDOM /\ (length rands < 2 * count \/ (0 < count /\ (ops = [] \/ function = []))))
      \/ exists m g, In m metrics /\ Forall (wf M) g /\ below n g /\ length g = length function
           /\ (metric_function M (m_metric m) function g = UB
               \/ exists value, metric_function M (m_metric m) function g = Ok value /\ no_cell (m_grid_size m) value (m_bound m))).
Proof.
  intros M n function metrics mode ops rands count pop_all W B HM HG HV fuel r e H F.
  set (dims := map (fun m => Dim (m_grid_size m) (metric_function M (m_metric m)) (m_bound m)) metrics).
  assert (DG : map grid_size dims = map m_grid_size metrics) by (unfold dims; rewrite map_map; reflexivity).
  assert (GP : Forall (fun b => (0 < b)%Z) (bucket_grid_size dims)) by (unfold bucket_grid_size; rewrite DG; now apply Forall_map).
  assert (GV : (volume (bucket_grid_size dims) < 2 ^ 64)%Z) by (unfold bucket_grid_size; now rewrite DG).
  assert (DN : dims <> []) by (unfold dims; destruct metrics; [congruence|discriminate]).
  unfold bucket_minimize_helper in H. cbv zeta in H. fold dims in H. fold (gens M function mode ops rands count) in H.
  assert (FT : fit M n (length function) function) by (repeat split; auto).
  destruct (gens M function mode ops rands count) as [l| | |] eqn:EG.
  - pose proof (gens_fit M n function mode ops rands count l EG) as FL.
    destruct (bucket_greedy_minimize function dims l pop_all fuel) as [r'|] eqn:EB; [|discriminate]. injection H as <-.
    destruct (fails_cases r') as [(buckets & ->)|(e' & F')].
    + cbn [bind] in F. exfalso. destruct buckets as [|b bs]; [|cbn [smallest_function bind] in F; now apply fails_ok in F].
      pose proof (minimize_good function dims l pop_all DN) as G.
      assert (HG' : Forall (fun m => (0 < grid_size m)%Z) dims) by (unfold dims; now apply Forall_map).
      specialize (G HG' GV fuel [] EB). destruct G as ((L & _) & _). cbn [length] in L. pose proof (volume_pos _ GP). lia.
    + assert (e = e') as -> by (eapply fails_fun; [exact F|]; now apply fails_bind).
      destruct (minimize_fails function dims l pop_all GP GV fuel r' e' DN EB F') as (g & HD & CA).
      pose proof (derived_fit M n l function g FL FT HD) as FG.
      destruct CA as [(op & IO & FO)|(d & ID & CA)].
      * exfalso. destruct (FL op IO g FG) as (g' & E & _). rewrite E in FO. now apply fails_ok in FO.
      * unfold dims in ID. apply in_map_iff in ID. destruct ID as (m & <- & IM). cbn [metric grid_size bound] in CA.
        destruct FG as (W' & B' & L').
        assert (Q : quiet (metric_function M (m_metric m) function g)) by (apply metric_quiet; congruence).
        assert (e' = Undefined) as -> by (destruct CA as [CA|[CA _]]; [eapply quiet_fails; eauto|auto]).
        split; auto. right. exists m, g. split; auto. split; auto. split; auto. split; auto.
        destruct CA as [CA|[_ CA]]; [left; exact CA|right; exact CA].
  - injection H as <-. assert (e = Undefined) as -> by (eapply quiet_fails; [apply quiet_ub|exact F]). split; auto. left.
    unfold gens in EG. destruct mode; try discriminate. split; auto. unfold generate_random_operators in EG.
    destruct (random_fails _ _ _ _ _ EG) as [H|[H1 [H2|H2]]]; [now left|right; auto..]. split; auto. right. now apply terminal_level_pos.
  - exfalso. unfold gens in EG. destruct mode; try discriminate. unfold generate_random_operators in EG.
    apply (proj1 (random_quiet M (terminal_level [function]) ops count rands)). exact EG.
  - exfalso. unfold gens in EG. destruct mode; try discriminate. unfold generate_random_operators in EG.
    apply (proj2 (random_quiet M (terminal_level [function]) ops count rands)). exact EG.
Qed.
