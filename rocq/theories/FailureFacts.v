(** The error metrics throw no exception, and their assertions fail only for vectors of different length. No hypothesis on
    the functions. *)
From Coq Require Import List Bool Arith ZArith QArith Qround Lia Lqa.
From Verif Require Import Res Cudd Helpers Counting Metrics RelMetrics Operators Examples Benchmark SpecMinimize RelFacts3 MinimizeFacts11.
Import ListNotations.
Open Scope nat_scope.

Ltac qt := repeat (match goal with
  | |- quiet (bind _ _) => apply quiet_bind; [|intros ? _]
  | |- quiet (Ok _) => apply quiet_ok
  | |- quiet UB => apply quiet_ub
  | |- quiet (vget _ _) => apply quiet_vget
  | |- quiet (vback _) => apply quiet_vback
  | |- quiet (require_ _) => apply quiet_require
  | |- quiet (bdd_absolute_difference _ _ _ _) => apply quiet_absdiff
  | |- quiet (bdd_abs _ _ _) => apply quiet_abs
  | |- quiet (subtract_loop _ _ _ _) => apply quiet_subtract
  | |- quiet (bdd_forest_to_add _ _ _) => apply quiet_forest
  | |- quiet (add_terminal_values _) => apply quiet_values
  | |- quiet (relative_add _ _ _ _) => apply quiet_relative
  | |- quiet _ => assumption
  end).

Lemma quiet_mapM {A B} (f : A -> res B) l : (forall x, quiet (f x)) -> quiet (mapM f l).
Proof. intro H. induction l as [|x l IH]; cbn [mapM]; qt. apply H. Qed.
Lemma quiet_add_loop M f : forall g c, quiet (add_loop M f g c).
Proof.
  induction f as [|x f IH]; intros g c; cbn [add_loop]; [qt|]. destruct g as [|y g]; [qt|]. destruct (full_adder M x y c) as [s c']. qt. apply IH.
Qed.
Lemma quiet_shift f k : quiet (bdd_shift f k).
Proof. unfold bdd_shift. apply quiet_mapM. intro i. cbv zeta. destruct (_ || _); qt. Qed.
Lemma quiet_add_shifted M fc bits : forall r, quiet (add_shifted M fc bits r).
Proof.
  induction bits as [|[b k] bits IH]; intro r; cbn [add_shifted]; qt. 
  - destruct b; qt; [apply quiet_shift|]. apply quiet_add_loop.
  - apply IH.
Qed.
Lemma quiet_u256 M clog2 f z : quiet (bdd_multiply_constant_u256 M clog2 f z).
Proof. apply quiet_add_shifted. Qed.
Lemma quiet_double M clog2 f q e : (q <= inject_Z (2 ^ 256))%Q -> quiet (bdd_multiply_constant_double M clog2 f q e).
Proof.
  intro L. unfold bdd_multiply_constant_double. destruct (Qle_bool q (1 # 2)); [qt|]. cbv zeta. apply Qle_bool_iff in L. rewrite L. cbn [assert_ bind]. qt;
    apply quiet_add_shifted.
Qed.
Lemma quiet_max_one M f : quiet (bdd_max_one M f).
Proof. destruct f; cbn [bdd_max_one]; qt. Qed.
Lemma quiet_divide_loop M g shifts : forall t, quiet (divide_loop M g t shifts).
Proof.
  induction shifts as [|i shifts IH]; intro t; cbn [divide_loop]; [qt|]. apply quiet_bind.
  - unfold divide_step. apply quiet_bind; [apply quiet_shift|intros sh _]. cbv zeta. destruct (equalize_vector_size _ _). unfold bdd_subtract. qt.
  - intros [t' c] _. qt. apply IH.
Qed.
Lemma quiet_divide M f g e : quiet (bdd_divide M f g e).
Proof. unfold bdd_divide. cbv zeta. qt. apply quiet_divide_loop. Qed.
Lemma quiet_xor M f : forall g, quiet (xor_vec M f g).
Proof. induction f as [|x f IH]; intros [|y g]; cbn [xor_vec]; qt. apply IH. Qed.
Lemma quiet_xor_add M f g : quiet (xor_difference_add M f g).
Proof. unfold xor_difference_add. qt. apply quiet_xor. Qed.
Lemma quiet_Eval f l : quiet (Eval f l).
Proof.
  unfold Eval. destruct f as [c n]. cbn [fst snd]. revert c. induction n as [|v t IHt d e IHe]; intro c; cbn [evaln]; [qt|].
  qt. destruct (_ =? _)%Z; auto.
Qed.
Lemma quiet_set_bit z i : quiet (set_bit_long z i).
Proof. unfold set_bit_long. repeat destruct (_ <? _); repeat destruct (_ =? _); qt. Qed.
Lemma quiet_eval f : forall i input r, quiet (eval_loop f i input r).
Proof.
  induction f as [|b f IH]; intros i input r; cbn [eval_loop]; [qt|]. apply quiet_bind; [apply quiet_Eval|intros x _].
  apply quiet_bind; [destruct (is_one x); [apply quiet_set_bit|qt]|intros y _]. apply IH.
Qed.
Lemma quiet_both M clog2 f g c d : quiet (has_greater_equal_both M clog2 f g c d).
Proof. unfold has_greater_equal_both. qt; apply quiet_u256. Qed.
Lemma quiet_grow_counter M clog2 d f fuel : forall c, quiet (grow_counter M clog2 d f fuel c).
Proof.
  induction fuel as [|fuel IH]; intro c; cbn [grow_counter]; [qt|]. cbv zeta. apply quiet_bind; [apply quiet_both|intros ge _].
  destruct (snd ge); [qt|]. destruct (negb _); [qt|apply IH].
Qed.
Lemma quiet_grow_denominator M clog2 d f fuel : forall c, quiet (grow_denominator M clog2 d f fuel c).
Proof.
  induction fuel as [|fuel IH]; intro c; cbn [grow_denominator]; [qt|]. cbv zeta. apply quiet_bind; [apply quiet_both|intros ge _].
  destruct (snd ge); [qt|]. destruct (fst ge); [qt|apply IH].
Qed.
Lemma quiet_long c d : quiet (long_pair c d).
Proof. unfold long_pair, to_long. qt; destruct (_ <? _)%Z; qt. Qed.

(** the searches: the outcome, if there is one, is quiet *)
Definition oquiet {A} (o : option (res A)) : Prop := match o with None => True | Some r => quiet r end.
(** a failure of one type is quiet in any other *)
Ltac pass Q := first [exact Q | (cbn [oquiet]; apply quiet_ub) | (exfalso; destruct Q; congruence)].
Lemma quiet_rs_start M clog2 f g r : quiet (rs_start M clog2 f g r).
Proof.
  unfold rs_start. apply quiet_bind; [qt|intros a _]. apply quiet_bind; [apply quiet_max_one|intros f_ _]. apply quiet_bind; [qt|intros d _].
  destruct (forallb _ _); [qt|]. apply quiet_bind; [apply quiet_both|intros ge _]. destruct (snd ge); [qt|].
  apply quiet_bind; [destruct (fst ge); [apply quiet_grow_counter|apply quiet_grow_denominator]|intros b _].
  destruct b as [c e|c e]; qt; first [apply quiet_long|apply quiet_u256].
Qed.
Lemma quiet_rs_samples T pick draws d f greater samples : total_sampler T pick -> forall pos c e,
  quiet (rs_samples pick draws d f greater T samples pos c e).
Proof.
  intro TS. induction samples as [|samples IH]; intros pos c e; cbn [rs_samples]; [qt|].
  destruct (TS greater (map draws (seq pos T))) as (l & -> & _); [now rewrite map_length, seq_length|]. cbn [bind].
  apply quiet_bind; [apply quiet_eval|intros x _]. apply quiet_bind; [apply quiet_eval|intros y _]. destruct (_ <? _)%Z; apply IH.
Qed.
Lemma quiet_rs_loop M clog2 pick draws d f lg samples fuel : total_sampler (read_size M) pick -> forall pos c e,
  oquiet (rs_loop M clog2 pick draws d f lg samples fuel pos c e).
Proof.
  intro TS. induction fuel as [|fuel IH]; intros pos c e; cbn [rs_loop]; [exact I|]. cbv zeta.
  match goal with |- oquiet (match ?X with _ => _ end) => assert (Q : quiet X) by (qt; apply quiet_u256); destruct X as [gr| | |] end;
    try pass Q. clear Q.
  destruct (is_zero gr); [apply quiet_long|].
  pose proof (quiet_rs_samples (read_size M) pick draws d f gr samples TS pos (c / Z.gcd c e) (e / Z.gcd c e)) as Q.
  destruct (rs_samples _ _ _ _ _ _ _ _ _ _) as [[c' e']| | |]; try pass Q. apply IH.
Qed.
Lemma quiet_randomized M clog2 rm draws f g samples r fuel : oquiet (wcre_randomized_search M clog2 rm draws f g samples r fuel).
Proof.
  unfold wcre_randomized_search. pose proof (quiet_rs_start M clog2 f g r) as Q.
  destruct (rs_start M clog2 f g r) as [[p|[[[[d f_] lg] c] e]]| | |]; try pass Q; [cbn [oquiet]; qt|]. apply quiet_rs_loop. apply random_sampler_total.
Qed.
Lemma quiet_ws_double M clog2 d f fuel : forall factor, (1 <= factor)%Z -> quiet (ws_double M clog2 d f fuel factor)
  /\ forall min max lg, ws_double M clog2 d f fuel factor = Ok (inr (min, max, lg)) -> (0 <= min <= max)%Q /\ (max <= inject_Z (2 ^ 128))%Q.
Proof.
  induction fuel as [|fuel IH]; intros factor Hf; cbn [ws_double]; [split; [qt|discriminate]|].
  destruct (factor <? 2 ^ 128)%Z eqn:E; [|split; [cbn [require_ bind]; qt|discriminate]]. apply Z.ltb_lt in E. cbn [require_ bind].
  assert (L : (inject_Z factor <= inject_Z (2 ^ 128))%Q) by (rewrite <- Zle_Qle; lia).
  assert (P : (1 <= inject_Z factor)%Q) by (change 1%Q with (inject_Z 1); rewrite <- Zle_Qle; lia).
  assert (B : (inject_Z (2 ^ 128) <= inject_Z (2 ^ 256))%Q) by (vm_compute; discriminate).
  assert (B2 : (inject_Z factor / 2 <= inject_Z factor)%Q) by (apply Qle_shift_div_r; lra).
  assert (B3 : (0 <= inject_Z factor / 2)%Q) by (apply Qle_shift_div_l; lra).
  pose proof (quiet_double M clog2 f (inject_Z factor) 16 ltac:(lra)) as Q1.
  pose proof (quiet_double M clog2 f (inject_Z factor / 2) 16 ltac:(lra)) as Q2.
  destruct (bdd_multiply_constant_double M clog2 f (inject_Z factor) 16) as [mu| | |]; cbn [bind]; try (split; [pass Q1|discriminate]).
  cbv zeta. destruct (snd _); [split; [qt|discriminate]|]. destruct (negb _).
  - destruct (factor =? 1)%Z.
    + split; [qt|]. intros min max lg X. injection X as <- <- <-. split; [lra|vm_compute; discriminate].
    + split; [qt|]. intros min max lg X. destruct (bdd_multiply_constant_double M clog2 f (inject_Z factor / 2) 16) as [m2| | |]; try discriminate.
      cbn [bind] in X. injection X as <- <- <-. split; auto.
  - apply IH. lia.
Qed.
Lemma quiet_ws_bisect M clog2 d f precision fuel : forall min max lg, (0 <= min <= max)%Q -> (max <= inject_Z (2 ^ 128))%Q ->
  oquiet (ws_bisect M clog2 d f precision fuel min max lg).
Proof.
  assert (B : (inject_Z (2 ^ 128) <= inject_Z (2 ^ 256))%Q) by (vm_compute; discriminate).
  induction fuel as [|fuel IH]; intros min max lg H1 H2; cbn [ws_bisect]; destruct (Qle_bool _ _); try (cbn [oquiet]; qt); try exact I.
  assert (M1 : (min <= (min + max) / 2)%Q) by (apply Qle_shift_div_l; lra).
  assert (M2 : ((min + max) / 2 <= max)%Q) by (apply Qle_shift_div_r; lra).
  cbv zeta. pose proof (quiet_double M clog2 (mask M f lg) ((min + max) / 2) 16 ltac:(lra)) as Q.
  destruct (bdd_multiply_constant_double _ _ _ _ _) as [mu| | |]; try pass Q. destruct (snd _); [cbn [oquiet]; qt|].
  destruct (fst _); apply IH; lra.
Qed.
Lemma quiet_search M clog2 f g e precision r fuel : oquiet (wcre_search M clog2 f g e precision r fuel).
Proof.
  unfold wcre_search.
  assert (Q : quiet (ws_start M clog2 f g e r) /\ forall d f_ min max lg, ws_start M clog2 f g e r = Ok (inr (d, f_, min, max, lg)) ->
    (0 <= min <= max)%Q /\ (max <= inject_Z (2 ^ 128))%Q).
  { unfold ws_start. split.
    - apply quiet_bind; [qt|intros a _]. apply quiet_bind; [apply quiet_max_one|intros f_ _]. apply quiet_bind; [qt|intros d _].
      destruct (forallb _ _); [qt|]. cbv zeta. apply quiet_bind; [apply quiet_ws_double; lia|intros [q|[[mi ma] lg]] _]; qt.
    - intros d f_ min max lg H. destruct (bdd_abs M f r) as [a| | |]; cbn [bind] in H; try discriminate.
      destruct (bdd_max_one M a) as [f1| | |]; cbn [bind] in H; try discriminate.
      destruct (bdd_absolute_difference M f g r) as [d1| | |]; cbn [bind] in H; try discriminate.
      destruct (forallb _ _); [discriminate|]. cbv zeta in H.
      destruct (ws_double _ _ _ _ _ _) as [[q|[[mi ma] l]]| | |] eqn:E; cbn [bind] in H; try discriminate.
      injection H as <- <- <- <- <-. eapply (proj2 (quiet_ws_double _ _ _ _ _ 1 ltac:(lia))). exact E. }
  destruct Q as [Q1 Q2]. destruct (ws_start M clog2 f g e r) as [[q|[[[[d f_] mi] ma] lg]]| | |]; try pass Q1; [cbn [oquiet]; qt|].
  destruct (Q2 _ _ _ _ _ eq_refl). now apply quiet_ws_bisect.
Qed.

Lemma quiet_divided M f g e r : quiet (divided M f g e r).
Proof. unfold divided. qt; first [apply quiet_max_one|apply quiet_divide]. Qed.
Lemma quiet_miter M f : forall g b, quiet (miter M f g b).
Proof. induction f as [|x f IH]; intros [|y g] b; cbn [miter]; qt. apply IH. Qed.
Lemma quiet_flip_sum M f : forall g s q, length f = length g -> quiet (flip_sum M f g s q).
Proof. induction f as [|x f IH]; intros [|y g] s q L; cbn [flip_sum]; qt. cbn [length] in L. apply IH. lia. Qed.
Lemma quiet_flip_add M f : forall g a, length f = length g -> quiet (flip_add M f g a).
Proof. induction f as [|x f IH]; intros [|y g] a L; cbn [flip_add]; qt. cbn [length] in L. apply IH. lia. Qed.
Lemma quiet_const a : quiet (const_ADD_value a).
Proof. unfold const_ADD_value. destruct a; qt. cbv zeta. destruct (_ && _); qt. Qed.
Lemma quiet_popcountll q : quiet (popcountll q).
Proof. unfold popcountll. cbv zeta. destruct (_ && _); qt. Qed.
Lemma quiet_popcount_sums tv : forall b t, quiet (popcount_sums tv b t).
Proof. induction tv as [|[v c] tv IH]; intros b t; cbn [popcount_sums]; qt; [apply quiet_popcountll|apply IH]. Qed.
Lemma quiet_max_popcount tv : forall m, quiet (max_popcount tv m).
Proof. induction tv as [|[v c] tv IH]; intro m; cbn [max_popcount]; qt; [apply quiet_popcountll|apply IH]. Qed.

Lemma quiet_any_one l input : quiet (any_one l input).
Proof. induction l as [|b l IH]; cbn [any_one]; [qt|]. apply quiet_bind; [apply quiet_Eval|intros x _]. destruct (is_one x); qt. Qed.
Lemma quiet_sampling d draws T n : forall pos e, quiet (sampling_loop d draws T n pos e).
Proof. induction n as [|n IH]; intros pos e; cbn [sampling_loop]; [qt|]. apply quiet_bind; [apply quiet_any_one|intros x _]. apply IH. Qed.
Lemma quiet_good pick draws diff previous T n : total_sampler T pick -> forall pos g, quiet (good_loop pick draws diff previous T n pos g).
Proof.
  intro TS. induction n as [|n IH]; intros pos g; cbn [good_loop]; [qt|].
  destruct (TS diff (map draws (seq pos T))) as (l & -> & _); [now rewrite map_length, seq_length|]. cbn [bind].
  apply quiet_bind; [apply quiet_any_one|intros x _]. apply IH.
Qed.
Lemma quiet_efficient rm draws d T samples first mx rest : forall previous pos a, quiet (efficient_loop rm draws d T samples first mx rest previous pos a).
Proof.
  induction rest as [|[k rate] rest IH]; intros previous pos a; cbn [efficient_loop]; [qt|]. apply quiet_bind; [qt|intros diff _].
  destruct (fdiv _ _) as [q|]; [|qt]. cbv zeta. apply quiet_bind; [qt|intros ? _]. destruct (_ =? _)%Z; [apply IH|].
  apply quiet_bind; [qt|intros ? _]. apply quiet_bind; [apply quiet_good; apply random_sampler_total|intros gs _]. apply IH.
Qed.
Lemma quiet_differences M f g : length f = length g -> quiet (differences M f g).
Proof. intro L. unfold differences. apply Nat.eqb_eq in L. rewrite L. cbn [assert_ bind]. apply quiet_xor. Qed.

(** ** The metrics *)
Lemma quiet_only {A} (r : res A) : quiet r -> only_undefined r.
Proof. intros Q e. now apply quiet_fails. Qed.
Lemma quiet_fin_z r : quiet r -> quiet (fin_z r).
Proof. intro Q. unfold fin_z. qt. Qed.
Lemma quiet_fin r : quiet r -> quiet (fin r).
Proof. intro Q. unfold fin. qt. Qed.

Lemma metrics_fail : forall (M : mgr) (clog2 : Z -> nat) (rand_max : Z) (draws : nat -> Z) (f g : list bdd) (metric : Metric) (fuel : nat) r e,
  compute_error_metric M clog2 rand_max draws f g metric fuel = Some r -> fails e r ->
  e = Undefined \/ (e = FailedAssert /\ length f <> length g
    /\ (metric = AVERAGE_BIT_FLIP_ \/ metric = WORST_CASE_BIT_FLIP_ \/ metric = APPROXIMATE_WORST_CASE_5)).
Proof.
  intros M clog2 rm draws f g metric fuel r e H F.
  assert (G : (length f = length g \/ ~ (metric = AVERAGE_BIT_FLIP_ \/ metric = WORST_CASE_BIT_FLIP_ \/ metric = APPROXIMATE_WORST_CASE_5)) -> quiet r).
  2:{ destruct (Nat.eq_dec (length f) (length g)) as [L|L]; [left; eapply quiet_fails; eauto|].
      assert (D : (metric = AVERAGE_BIT_FLIP_ \/ metric = WORST_CASE_BIT_FLIP_ \/ metric = APPROXIMATE_WORST_CASE_5)
        \/ ~ (metric = AVERAGE_BIT_FLIP_ \/ metric = WORST_CASE_BIT_FLIP_ \/ metric = APPROXIMATE_WORST_CASE_5)).
      { destruct metric; auto; right; intros [X|[X|X]]; discriminate X. }
      destruct D as [D|D]; [|left; eapply quiet_fails; eauto]. right.
      assert (E : length f =? length g = false) by (now apply Nat.eqb_neq).
      assert (X : r = Abort).
      { destruct D as [-> |[-> | ->]]; cbn [compute_error_metric] in H; injection H as <-;
          [unfold average_bit_flip_error|unfold worst_case_bit_flip_error|unfold approximate_worst_case_error]; rewrite E; reflexivity. }
      subst r. destruct e; try discriminate F. auto. }
  intro OK. destruct metric; cbn [compute_error_metric] in H;
    try (assert (L : length f = length g) by (destruct OK as [OK|OK]; [exact OK|exfalso; apply OK; auto]); apply Nat.eqb_eq in L).
  - injection H as <-. apply quiet_fin_z. unfold worst_case_error. qt.
  - injection H as <-. unfold wcre_bounds, maximum_relative_value_bounds.
    apply quiet_bind; [|intros [lo hi] _; qt]. qt; try apply quiet_max_one. 
  - pose proof (quiet_search M clog2 f g 16 (1 # 10000) BaseTwo fuel) as Q. destruct (wcre_search _ _ _ _ _ _ _ _) as [x|]; [|discriminate H].
    cbn [option_map] in H. injection H as <-. now apply quiet_fin.
  - pose proof (quiet_randomized M clog2 rm draws f g 1 BaseTwo fuel) as Q. destruct (wcre_randomized_search _ _ _ _ _ _ _ _ _) as [x|]; [|discriminate H].
    cbn [option_map] in H. injection H as <-. cbn [oquiet] in Q. apply quiet_bind; auto. intros [a b] _. qt.
  - injection H as <-. apply quiet_fin. unfold wcre_add. qt.
  - injection H as <-. apply quiet_fin. unfold wcre_symbolic_division. qt. apply quiet_divided.
  - injection H as <-. apply quiet_fin_z. unfold approximate_worst_case_error. rewrite L. change (1 <=? 5)%Z with true. cbn [andb assert_ bind]. cbv zeta.
    destruct (awce_loop _ _ _ _ _) as [[[a b] s] e']. destruct (_ =? _)%Z; qt.
  - injection H as <-. unfold average_case_error. qt.
  - injection H as <-. unfold acre_bounds, average_relative_value. apply quiet_bind; [|intros [lo hi] _; qt]. qt; try apply quiet_max_one.
  - injection H as <-. unfold acre_add. qt. destruct (decimal_sums _ _ _). qt.
  - injection H as <-. unfold mean_squared_error. qt.
  - injection H as <-. apply quiet_fin. unfold error_rate. qt. apply quiet_miter.
  - injection H as <-. apply quiet_fin. unfold average_bit_flip_error. rewrite L. cbn [assert_ bind]. cbv zeta. qt. apply quiet_flip_sum. now apply Nat.eqb_eq.
  - injection H as <-. apply quiet_fin_z. unfold worst_case_bit_flip_error. rewrite L. cbn [assert_ bind]. qt; [apply quiet_flip_add; now apply Nat.eqb_eq|apply quiet_const].
Qed.

(** the remaining metrics *)
Lemma other_metrics_fail : forall (M : mgr) (sort : list (nat * Q) -> list (nat * Q)) (rand_max : Z) (draws : nat -> Z) (f g : list bdd)
    (r : NumberRepresentation) (extra : nat) (samples : Z),
  only_undefined (error_rate_add M f g) /\ only_undefined (average_bit_flip_error_add M f g) /\ only_undefined (worst_case_bit_flip_error_add M f g)
  /\ only_undefined (worst_case_error_add M f g r) /\ only_undefined (average_case_error_add M f g r) /\ only_undefined (mean_squared_error_add M f g r)
  /\ only_undefined (worst_case_error_percent M f g r)
  /\ only_undefined (wcre_symbolic_division M f g extra r) /\ only_undefined (acre_symbolic_division M f g extra r)
  /\ (length f = length g -> only_undefined (error_rate_sampling M draws f g samples)
       /\ only_undefined (error_rate_efficient_sampling M sort rand_max draws f g samples))
  /\ (length f <> length g -> error_rate_sampling M draws f g samples = Abort
       /\ error_rate_efficient_sampling M sort rand_max draws f g samples = Abort).
Proof.
  intros M sort rm draws f g r extra samples.
  assert (XA : quiet (xor_difference_add M f g)) by apply quiet_xor_add.
  assert (AD : quiet (absolute_difference_add M f g r)) by (unfold absolute_difference_add; qt).
  split; [apply quiet_only; unfold error_rate_add; qt; destruct (nonzero_sums _ _ _); qt|].
  split; [apply quiet_only; unfold average_bit_flip_error_add; qt; [apply quiet_popcount_sums|destruct v1; qt]|].
  split; [apply quiet_only; unfold worst_case_bit_flip_error_add; qt; apply quiet_max_popcount|].
  split; [apply quiet_only; unfold worst_case_error_add; qt|].
  split; [apply quiet_only; unfold average_case_error_add; qt; destruct (weighted_sums _ _ _ _); qt|].
  split; [apply quiet_only; unfold mean_squared_error_add; qt; destruct (weighted_sums _ _ _ _); qt|].
  split; [apply quiet_only; unfold worst_case_error_percent, worst_case_error; qt|].
  split; [apply quiet_only; unfold wcre_symbolic_division; qt; apply quiet_divided|].
  split; [apply quiet_only; unfold acre_symbolic_division; qt; apply quiet_divided|].
  split.
  - intro L. pose proof (quiet_differences M f g L) as Q. split; apply quiet_only.
    + unfold error_rate_sampling. qt. apply quiet_sampling.
    + unfold error_rate_efficient_sampling. qt. cbv zeta. destruct (sort _) as [|[k first] rest]; qt. apply quiet_efficient.
  - intro L. apply Nat.eqb_neq in L. unfold error_rate_sampling, error_rate_efficient_sampling, differences. rewrite L. auto.
Qed.
Lemma metrics_abort : forall (M : mgr) (clog2 : Z -> nat) (rand_max : Z) (draws : nat -> Z) (f g : list bdd) (metric : Metric) (fuel : nat),
  length f <> length g -> metric = AVERAGE_BIT_FLIP_ \/ metric = WORST_CASE_BIT_FLIP_ \/ metric = APPROXIMATE_WORST_CASE_5 ->
  compute_error_metric M clog2 rand_max draws f g metric fuel = Some Abort.
Proof.
  intros M clog2 rm draws f g metric fuel L D. apply Nat.eqb_neq in L.
  destruct D as [-> |[-> | ->]]; cbn [compute_error_metric];
    [unfold average_bit_flip_error|unfold worst_case_bit_flip_error|unfold approximate_worst_case_error]; rewrite L; reflexivity.
Qed.

(** approximate_worst_case_error with any number of bits *)
Lemma approximate_fails : forall (M : mgr) (f g : list bdd) (n : Z) (r : NumberRepresentation),
  (length f = length g -> (1 <= n)%Z -> only_undefined (approximate_worst_case_error M f g n r))
  /\ (length f <> length g \/ (n < 1)%Z -> approximate_worst_case_error M f g n r = Abort).
Proof.
  intros M f g n r. unfold approximate_worst_case_error. split.
  - intros L N. apply Nat.eqb_eq in L. apply Z.leb_le in N. rewrite L, N. cbn [andb assert_ bind]. cbv zeta. apply quiet_only.
    destruct r; destruct (awce_loop _ _ _ _ _) as [[[a b] s] e']; destruct (_ =? _)%Z; qt; destruct v; qt.
  - intros [L|N]; [apply Nat.eqb_neq in L; rewrite L; reflexivity|].
    replace (1 <=? n)%Z with false by (symmetry; now apply Z.leb_gt). rewrite andb_false_r. reflexivity.
Qed.
