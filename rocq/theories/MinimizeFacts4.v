(** Proofs about the bucket minimisation: error guarantees of the helper and the early stopping. *)
From Coq Require Import List Bool Arith ZArith QArith Lia Lqa.
From Verif Require Import Res Cudd CuddFacts Spec SpecFacts Helpers HelpersFacts HelpersFacts2 Counting Metrics MetricsFacts MetricsFacts2
  MetricsFacts3 MetricsFacts4 MetricsFacts5 RelMetrics RelFacts Operators Examples AdderFacts Minimize SpecMinimize MinimizeFacts MinimizeFacts2 MinimizeFacts3.
From Verif Require MinimizeFacts5.
Import ListNotations.
Open Scope nat_scope.

(** ** the generated operators keep the number of outputs, well-formedness and the variables *)
Definition fit (M : mgr) (n len : nat) (f : list bdd) : Prop := Forall (wf M) f /\ below n f /\ length f = len.
Definition fits (M : mgr) (n len : nat) (op : OperatorFunction) : Prop :=
  forall f, fit M n len f -> exists f', op f = Ok f' /\ fit M n len f'.
Lemma Forall_nth_error {A} (P : A -> Prop) l : Forall P l <-> forall i x, nth_error l i = Some x -> P x.
Proof.
  rewrite Forall_forall. split; intros H.
  - intros i x Hx. apply H. eapply nth_error_In; eauto.
  - intros x Hx. apply In_nth_error in Hx. destruct Hx as (i & Hi). eauto.
Qed.
Lemma single_fits M n len i j op : i < len -> fits M n len (single_operator M i j op).
Proof.
  intros Hi f (W & B & L). destruct (nth_error f i) as [b|] eqn:Eb; [|apply nth_error_None in Eb; lia].
  pose proof (proj1 (Forall_nth_error _ _) W i b Eb) as Wb. pose proof (proj1 (Forall_nth_error _ _) B i b Eb) as Bb.
  destruct (apply_operator_spec M b op j Wb) as (r & Er & Wr & Dr & _).
  destruct (proj2 (single_apply M i j op f) b r Eb Er) as (f' & E & L' & N & O). exists f'. split; auto.
  assert (K : forall P : bdd -> Prop, Forall P f -> P r -> Forall P f').
  { intros P HP HR. apply Forall_nth_error. intros m x Hx. destruct (Nat.eq_dec m i) as [->|Hm]; [congruence|].
    rewrite O in Hx by auto. exact (proj1 (Forall_nth_error _ _) HP m x Hx). }
  split; [now apply K|]. split; [apply K; auto; now apply Dr|lia].
Qed.
Lemma multi_fits M n len j op : fits M n len (fun f => apply_operator_all M f op j j).
Proof.
  intros f (W & B & L). unfold apply_operator_all. destruct (mapM_ok (fun b => apply_operator M b op j j) f) as (f' & E).
  { intros b Hb. rewrite Forall_forall in W. destruct (apply_operator_spec M b op j (W b Hb)) as (r & E & _). eauto. }
  exists f'. split; auto. destruct (mapM_nth _ _ _ E) as [L' N].
  assert (K : forall P : bdd -> Prop, (forall b r, In b f -> apply_operator M b op j j = Ok r -> P r) -> Forall P f').
  { intros P HP. apply Forall_nth_error. intros m x Hx. destruct (nth_error f m) as [b|] eqn:Eb.
    - destruct (N m b Eb) as (y & Hy & Ey). rewrite Hx in Hy. injection Hy as <-. apply (HP b); auto. eapply nth_error_In; eauto.
    - apply nth_error_None in Eb. assert (m < length f') by (apply nth_error_Some; congruence). lia. }
  rewrite Forall_forall in W. unfold below in B. rewrite Forall_forall in B. split; [|split; [|lia]]; apply K; intros b r Hb Er;
    destruct (apply_operator_spec M b op j (W b Hb)) as (r' & Er' & Wr & Dr & _); rewrite Er in Er'; injection Er' as <-; auto.
Qed.
Lemma generated_fits M n function ops op : In op (generate_single_bdd_operators M function ops)
  \/ In op (generate_multi_bdd_operators M function ops) -> fits M n (length function) op.
Proof.
  intros [H|H].
  - unfold generate_single_bdd_operators in H. apply in_flat_map in H. destruct H as (i & Hi & H). apply in_seq in Hi.
    apply in_flat_map in H. destruct H as (j & _ & H). apply in_map_iff in H. destruct H as (o & <- & _). apply single_fits. lia.
  - unfold generate_multi_bdd_operators in H. apply in_flat_map in H. destruct H as (j & _ & H).
    apply in_map_iff in H. destruct H as (o & <- & _). apply multi_fits.
Qed.
Lemma random_fits M n len T ops count : forall rands gens, random_loop M rands T ops count = Ok gens ->
  length gens = count /\ forall op, In op gens -> fits M n len op.
Proof.
  induction count as [|count IH]; intros rands gens H; cbn [random_loop] in H; [injection H as <-; split; auto; intros op []|].
  destruct rands as [|r1 [|r2 rands]]; try discriminate.
  destruct (require_ _) as [[]| | |]; cbn [bind] in H; try discriminate.
  destruct (vget _ _) as [o| | |]; cbn [bind] in H; try discriminate.
  destruct (require_ _) as [[]| | |]; cbn [bind] in H; try discriminate. cbv zeta in H.
  destruct (random_loop _ _ _ _ _) as [rest| | |] eqn:E; cbn [bind] in H; try discriminate. injection H as <-.
  destruct (IH _ _ E) as [L F]. split; [cbn [length]; lia|]. intros op [<-|Hop]; auto. apply multi_fits.
Qed.
Lemma derived_fit M n ops f g : (forall op, In op ops -> fits M n (length f) op) -> fit M n (length f) f ->
  derived ops f g -> fit M n (length f) g.
Proof.
  intros HO HF. induction 1 as [|g op g' HD IH HI E]; auto. destruct (HO op HI g IH) as (g2 & E2 & F2). congruence.
Qed.

(** ** meaning of the metrics *)
Lemma dist_range f g a : length f = length g -> (0 <= dist (uval f a) (uval g a) <= 2 ^ Z.of_nat (length f))%Z.
Proof.
  intro L. pose proof (uval_range f a) as R1. pose proof (uval_range g a) as R2. unfold pow2 in *. rewrite <- L in R2. unfold dist. lia.
Qed.
Lemma rel_range f g a : length f = length g -> (0 <= rel (uval f a) (uval g a) <= inject_Z (2 ^ Z.of_nat (length f)))%Q.
Proof.
  intro L. pose proof (dist_range f g a L) as R. unfold rel. set (m := Z.max 1 (Z.abs (uval f a))).
  assert (HM : (1 <= inject_Z m)%Q) by (change 1%Q with (inject_Z 1); rewrite <- Zle_Qle; unfold m; lia).
  assert (D : (0 <= inject_Z (dist (uval f a) (uval g a)))%Q) by (change 0%Q with (inject_Z 0); rewrite <- Zle_Qle; lia).
  assert (D2 : (inject_Z (dist (uval f a) (uval g a)) <= inject_Z (2 ^ Z.of_nat (length f)))%Q) by (rewrite <- Zle_Qle; lia).
  split; [apply Qle_shift_div_l; [lra|]; lra|]. apply Qle_shift_div_r; [lra|].
  assert (0 <= inject_Z (2 ^ Z.of_nat (length f)))%Q by lra. nra.
Qed.
Lemma max_below F m B : is_max F m -> (inject_Z m < B)%Q -> worst_below (fun a => inject_Z (F a)) B.
Proof. intros [_ H] HB a. specialize (H a). rewrite Zle_Qle in H. lra. Qed.
Lemma max_range F m (x : Z) : is_max F m -> (forall a, 0 <= F a <= x)%Z -> (0 <= inject_Z m <= inject_Z x)%Q.
Proof. intros [(a & <-) _] H. specialize (H a). change 0%Q with (inject_Z 0). rewrite <- !Zle_Qle. lia. Qed.
Lemma average_range n F x v : (v == average n F)%Q -> (forall a, (0 <= F a <= x)%Q) -> (0 <= v <= x)%Q.
Proof.
  intros E H. rewrite E. split; [apply average_nonneg; intro; apply H|]. pose proof (average_le n F (fun _ => x) (fun a => proj2 (H a))) as A. rewrite average_const in A. exact A.
Qed.
Lemma metric_means M n f g kind : fit M n (length f) f -> fit M n (length f) g -> admissible M n (length f) kind ->
  exists v, metric_function M kind f g = Ok (Fin v) /\ (0 <= v <= cap (length f) kind)%Q
    /\ forall B, (v < B)%Q -> error_below kind n f g B.
Proof.
  intros (Wf & Bf & _) (Wg & Bg & L) A. symmetry in L.
  assert (NR : BaseTwo = TwosComplement -> f <> [] /\ g <> []) by discriminate.
  assert (DR : forall a, (0 <= inject_Z (dist (uval f a) (uval g a)) <= inject_Z (2 ^ Z.of_nat (length f)))%Q).
  { intro a. change 0%Q with (inject_Z 0). rewrite <- !Zle_Qle. now apply dist_range. }
  assert (HR : forall a, (0 <= inject_Z (hamming f g a) <= inject_Z (Z.of_nat (length f)))%Q).
  { intro a. change 0%Q with (inject_Z 0). rewrite <- !Zle_Qle. apply hamming_range. }
  destruct kind; cbn [metric_function admissible cap error_below] in *.
  - destruct (wce_base_full M f g g Wf Wg Wg A ltac:(lia) ltac:(lia)) as (m & E & MX & _). exists (inject_Z m).
    rewrite E. cbn [bind]. split; auto. split; [apply (max_range _ _ _ MX); intro; now apply dist_range|]. intros B HB. now apply (max_below _ m).
  - destruct (wce_percent_full M f g BaseTwo Wf Wg L A) as (m & q & E1 & E2 & R & H1 & H2). exists q. split; auto. split; auto.
    intros B HB a. destruct (wce_base_full M f g g Wf Wg Wg ltac:(lia) ltac:(lia) ltac:(lia)) as (m' & E & MX & _).
    assert (m' = m) as -> by congruence. destruct MX as [_ MX]. specialize (MX a). rewrite Zle_Qle in MX. cbn beta.
    set (d := if length f <=? 53 then _ else _).
    assert (EQ : (q == inject_Z m / inject_Z d)%Q /\ (0 < inject_Z d)%Q).
    { unfold d. destruct (length f <=? 53) eqn:E5; [apply Nat.leb_le in E5|apply Nat.leb_gt in E5].
      - split; auto. change 0%Q with (inject_Z 0). rewrite <- Zlt_Qlt.
        assert (2 ^ 1 <= 2 ^ Z.of_nat (length f))%Z by (apply Z.pow_le_mono_r; lia). lia.
      - split; auto. change 0%Q with (inject_Z 0). rewrite <- Zlt_Qlt. apply Z.pow_pos_nonneg; lia. }
    destruct EQ as [EQ DP]. assert (inject_Z (dist (uval f a) (uval g a)) / inject_Z d <= inject_Z m / inject_Z d)%Q; [|lra].
    unfold Qdiv. apply Qmult_le_compat_r; auto. apply Qinv_le_0_compat. lra.
  - destruct A as [HI N6]. destruct (wcre_add_spec M n f g BaseTwo HI Wf Wg Bf Bg N6 NR) as (q & E & (a0 & MX1) & MX2). exists q.
    rewrite E. cbn [bind]. split; auto. cbn [value] in *. split.
    + rewrite <- MX1. now apply rel_range.
    + intros B HB a. specialize (MX2 a). cbn beta. lra.
  - destruct (ace_full M n f g Wf Wg Bf Bg ltac:(lia)) as [(q & q' & m & E & EQ & _) _]. exists q. split; auto. split.
    + now apply (average_range n _ _ _ EQ).
    + intros B HB. unfold average_below. lra.
  - destruct A as [HI N6]. destruct (acre_add_spec M n f g BaseTwo HI Wf Wg Bf Bg N6 NR) as (q & E & EQ). exists q. split; auto.
    cbn [value] in EQ. split; [apply (average_range n _ _ _ EQ); intro; now apply rel_range|]. intros B HB. unfold average_below. lra.
  - destruct A as [HI N6]. destruct (acre_add_spec M n f g BaseTwo HI Wf Wg Bf Bg N6 NR) as (q & E & EQ). exists q. split; auto.
    cbn [value] in EQ. split; [apply (average_range n _ _ _ EQ); intro; now apply rel_range|]. intros B HB. unfold average_below. lra.
  - destruct A.
  - destruct (error_rate_full M n f g Wf Wg Bf Bg) as [H _]. destruct (H L) as (q & E & EQ & _). exists q. rewrite E. cbn [bind]. split; auto. split.
    + apply (average_range n _ _ _ EQ). intro a. unfold b2q. destruct (differ f g a); lra.
    + intros B HB. unfold average_below. lra.
  - destruct (average_bit_flip_full M n f g Wf Wg Bf Bg) as [H _]. destruct (H L) as (q & E & EQ). exists q. rewrite E. cbn [bind]. split; auto. split.
    + now apply (average_range n _ _ _ EQ).
    + intros B HB. unfold average_below. lra.
  - destruct (worst_case_bit_flip_full M n f g Wf Wg L) as [H _]. destruct (H A) as (m & E & MX). exists (inject_Z m).
    rewrite E. cbn [bind]. split; auto. split; [apply (max_range _ _ _ MX); intro; apply hamming_range|]. intros B HB. now apply (max_below _ m).
Qed.
Lemma hamming_self f a : hamming f f a = 0%Z.
Proof. induction f as [|x f IH]; cbn [hamming]; auto. rewrite xorb_nilpotent, IH. reflexivity. Qed.
Lemma differ_self f a : differ f f a = false.
Proof. induction f as [|x f IH]; cbn [differ]; auto. rewrite xorb_nilpotent, IH. reflexivity. Qed.
Lemma dist_self x : dist x x = 0%Z. Proof. unfold dist. now rewrite Z.sub_diag. Qed.
Lemma error_self kind n f B : (0 < B)%Q -> error_below kind n f f B.
Proof.
  intro HB. assert (A0 : forall F, (forall a, (F a == 0)%Q) -> (average n F < B)%Q).
  { intros F HF. rewrite (average_ext n F (fun _ => 0%Q) HF), average_const. exact HB. }
  assert (R0 : forall a, (rel (uval f a) (uval f a) == 0)%Q).
  { intro a. unfold rel. rewrite dist_self. apply Qmult_0_l. }
  destruct kind; cbn [error_below]; unfold worst_below, average_below; try intro a;
    try (apply A0; intro a); rewrite ?hamming_self, ?differ_self, ?dist_self, ?R0; auto; try reflexivity.
  unfold Qdiv. change (inject_Z 0) with 0%Q. rewrite Qmult_0_l. exact HB.
Qed.

(** ** the helper *)
Section Guarantee.
Variables (M : mgr) (n : nat) (function : list bdd) (metrics : list SimpleMetricDimension) (mode : OperatorConstructionMode)
  (ops : list Operator) (rands : list nat) (count : nat) (pop_all : bool).
Hypothesis wff : Forall (wf M) function.
Hypothesis bel : below n function.
Hypothesis has_metric : metrics <> [].
Hypothesis grid_pos : Forall (fun m => (0 < m_grid_size m)%Z) metrics.
Hypothesis bound_pos : Forall (fun m => (0 < m_bound m)%Q) metrics.
Hypothesis grid_vol : (volume (map m_grid_size metrics) < 2 ^ 64)%Z.
Notation dims := (map (fun m => Dim (m_grid_size m) (metric_function M (m_metric m)) (m_bound m)) metrics).
Lemma dims_grid : map grid_size dims = map m_grid_size metrics.
Proof. rewrite map_map. reflexivity. Qed.
Lemma dims_pos : Forall (fun m => (0 < grid_size m)%Z) dims.
Proof. apply Forall_map. exact grid_pos. Qed.
Lemma dims_some : dims <> [].
Proof. destruct metrics; [congruence|discriminate]. Qed.
Lemma fit_function : fit M n (length function) function.
Proof. repeat split; auto. Qed.

Definition gens : res (list OperatorFunction) :=
  match mode with
  | SINGLE_BDD => Ok (generate_single_bdd_operators M function ops)
  | MULTI_BDD => Ok (generate_multi_bdd_operators M function ops)
  | RANDOM => generate_random_operators M rands function ops count
  end.
Lemma gens_fit l : gens = Ok l -> forall op, In op l -> fits M n (length function) op.
Proof.
  unfold gens. destruct mode.
  - intros [= <-] op H. eapply generated_fits; eauto.
  - intros [= <-] op H. eapply generated_fits; eauto.
  - intro H. apply (random_fits M n (length function)) in H. apply H.
Qed.
Lemma helper_split fuel r : bucket_minimize_helper M fuel function metrics mode ops rands count pop_all = Some (Ok r) ->
  exists l buckets, gens = Ok l /\ bucket_greedy_minimize function dims l pop_all fuel = Some (Ok buckets)
    /\ smallest_function buckets = Ok (snd (fst r)) /\ snd r = buckets /\ fst (fst r) = nodeCount function.
Proof.
  unfold bucket_minimize_helper. cbv zeta. fold gens. destruct gens as [l| | |]; try discriminate.
  destruct (bucket_greedy_minimize _ _ _ _ _) as [[buckets| | |]|] eqn:E; cbn [bind]; try discriminate.
  destruct (smallest_function buckets) as [s| | |] eqn:Es; cbn [bind]; try discriminate.
  intros [= <-]. exists l, buckets. auto.
Qed.
Lemma helper_guarantee fuel original smallest buckets :
  bucket_minimize_helper M fuel function metrics mode ops rands count pop_all = Some (Ok (original, smallest, buckets)) ->
  original = nodeCount function
  /\ In smallest buckets /\ (forall b, In b buckets -> bdd_size smallest <= bdd_size b)
  /\ forall b, In b buckets ->
       bdd_size b = nodeCount (b_function b) /\ bdd_size b <= original
       /\ Forall (wf M) (b_function b) /\ below n (b_function b) /\ length (b_function b) = length function
       /\ forall m, In m metrics -> admissible M n (length function) (m_metric m) ->
            error_below (m_metric m) n function (b_function b) (m_bound m).
Proof.
  intro H. destruct (helper_split fuel _ H) as (l & bs & EG & EB & ES & E1 & E2). cbn [fst snd] in *. subst bs.
  destruct (smallest_spec _ _ ES) as [S1 S2]. split; auto. split; auto. split; auto. intros b Hb.
  pose proof (minimize_good function dims l pop_all dims_some dims_pos ltac:(rewrite dims_grid; exact grid_vol) fuel buckets EB) as ((L & G) & _).
  apply In_nth_error in Hb. destruct Hb as (i & Hi). destruct (G i b Hi) as (G1 & G2 & G3 & G4 & G5).
  destruct (derived_fit M n l function (b_function b) (gens_fit l EG) fit_function G1) as (F1 & F2 & F3).
  split; auto. split.
  { destruct (is_empty b) eqn:Ee; [destruct (G4 eq_refl) as [G6 _]; rewrite G2, G6; lia|destruct (G5 eq_refl); lia]. }
  split; auto. split; auto. split; auto. intros m Hm A.
  assert (BP : (0 < m_bound m)%Q) by (rewrite Forall_forall in bound_pos; now apply bound_pos).
  destruct (is_empty b) eqn:Ee.
  { destruct (G4 eq_refl) as [-> _]. now apply error_self. }
  destruct (G5 eq_refl) as (_ & index & cells & _ & ME & _). destruct (measured_nth _ _ _ _ _ ME) as (L1 & L2 & ME').
  apply In_nth_error in Hm. destruct Hm as (k & Hk).
  assert (Hd : nth_error dims k = Some (Dim (m_grid_size m) (metric_function M (m_metric m)) (m_bound m))) by (now apply (map_nth_error (fun m => Dim (m_grid_size m) (metric_function M (m_metric m)) (m_bound m)))).
  destruct (nth_error (metric_values b) k) as [v|] eqn:Ev.
  2:{ apply nth_error_None in Ev. assert (k < length dims) by (apply nth_error_Some; congruence). lia. }
  destruct (ME' k _ v Hd Ev) as (c & Hc & LT & EM & ED). cbn [metric grid_size bound] in *.
  destruct (metric_means M n function (b_function b) (m_metric m) fit_function ltac:(repeat split; auto) A) as (v' & EM' & _ & V).
  rewrite EM in EM'. injection EM' as <-. apply V.
  apply (dimension_cell (m_grid_size m) (m_bound m) v c); auto. rewrite Forall_forall in grid_pos. apply grid_pos. eapply nth_error_In; eauto.
Qed.
Lemma helper_ok fuel : Z.to_nat (volume (map m_grid_size metrics)) * nodeCount function + 1 <= fuel ->
  (mode = RANDOM -> 2 * count <= length rands /\ (0 < count -> ops <> [] /\ function <> [])) ->
  Forall (fun m => admissible M n (length function) (m_metric m)
    /\ (inject_Z (m_grid_size m) * cap (length function) (m_metric m) / m_bound m < inject_Z (2 ^ 64))%Q) metrics ->
  exists r, bucket_minimize_helper M fuel function metrics mode ops rands count pop_all = Some (Ok r).
Proof.
  intros F NR HA.
  assert (EG : exists l, gens = Ok l).
  { unfold gens. destruct mode; eauto. destruct (NR eq_refl) as [N1 N2]. destruct count as [|k]; [exists []; reflexivity|].
    destruct (N2 ltac:(lia)). apply MinimizeFacts5.random_outcome; auto; lia. }
  destruct EG as (l & EG).
  destruct (minimize_ok function dims l pop_all dims_some dims_pos ltac:(rewrite dims_grid; exact grid_vol) fuel) as (buckets & EB).
  - now rewrite dims_grid.
  - intros g op HD HI. pose proof (derived_fit M n l function g (gens_fit l EG) fit_function HD) as FG.
    destruct (gens_fit l EG op HI g FG) as (g' & E & _). eauto.
  - intros g d HD HI. apply in_map_iff in HI. destruct HI as (m & <- & Hm). cbn [metric bound grid_size].
    rewrite Forall_forall in HA. destruct (HA m Hm) as [A C].
    pose proof (derived_fit M n l function g (gens_fit l EG) fit_function HD) as FG.
    destruct (metric_means M n function g (m_metric m) fit_function FG A) as (v & E & [V0 V1] & _). exists v. split; auto. split; auto.
    assert (BP : (0 < m_bound m)%Q) by (rewrite Forall_forall in bound_pos; now apply bound_pos).
    assert (GP : (0 < inject_Z (m_grid_size m))%Q).
    { change 0%Q with (inject_Z 0). rewrite <- Zlt_Qlt. rewrite Forall_forall in grid_pos. now apply grid_pos. }
    split; auto. eapply Qle_lt_trans; [|exact C]. unfold Qdiv. apply Qmult_le_compat_r; [|apply Qinv_le_0_compat; lra].
    rewrite !(Qmult_comm (inject_Z (m_grid_size m))). apply Qmult_le_compat_r; lra.
  - unfold bucket_minimize_helper. cbv zeta. fold gens. rewrite EG, EB. cbn [bind].
    destruct buckets as [|b bs]; [|cbn [smallest_function bind]; eauto].
    exfalso. pose proof (minimize_good function dims l pop_all dims_some dims_pos ltac:(rewrite dims_grid; exact grid_vol) fuel [] EB) as ((L & _) & _).
    cbn [length] in L. unfold bucket_grid_size in L. rewrite dims_grid in L.
    assert (0 < volume (map m_grid_size metrics))%Z by (apply volume_pos; now apply Forall_map). lia.
Qed.
End Guarantee.
