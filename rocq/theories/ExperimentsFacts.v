(** Proofs about the experiments *)
From Coq Require Import String List Bool Arith ZArith QArith Lia Lqa.
From Verif Require Import Res Cudd CuddFacts Spec SpecFacts SpecAdder SpecOperators SpecExperiments Helpers HelpersFacts HelpersFacts2
  Counting Metrics MetricsFacts MetricsFacts2 MetricsFacts3 MetricsFacts4 MetricsFacts5 MetricsFacts6
  Operators OperatorFacts OperatorFacts2 OperatorFacts3 OperatorFacts4 OperatorFacts5 OrderFacts RoundedFacts MinimizeFacts3 Examples AdderFacts AdderErrorFacts AdderErrorFacts2 AdderErrorFacts3
  FromPapers Benchmark Experiments.
Import ListNotations.
Open Scope nat_scope.

Lemma mapM_all {A B} (F : A -> res B) (P : A -> Prop) (R : A -> B -> Prop) l :
  (forall x, P x -> exists y, F x = Ok y /\ R x y) -> Forall P l -> exists r, mapM F l = Ok r /\ Forall2 R l r.
Proof.
  intros HF. induction l as [|x l IH]; intro H; cbn [mapM]; [eauto|]. inversion H; subst.
  destruct (HF x) as (y & -> & Hy); auto. cbn [bind]. destruct IH as (r & -> & Hr); auto. cbn [bind]. eauto.
Qed.
Lemma all2_and {A B} (P : B -> Prop) (R : A -> B -> Prop) l r : Forall2 (fun x y => P y /\ R x y) l r -> Forall P r /\ Forall2 R l r.
Proof. induction 1 as [|x y l r [H1 H2] H [IH1 IH2]]; split; auto. Qed.
Lemma all2_impl {A B} (R S : A -> B -> Prop) l r : (forall x y, R x y -> S x y) -> Forall2 R l r -> Forall2 S l r.
Proof. intro HS. induction 1; auto. Qed.
Lemma uval_mono f g a : Forall2 (fun x y => forall a, ev x a = true -> ev y a = true) f g -> (uval f a <= uval g a)%Z.
Proof.
  induction 1 as [|x y f g H HF IH]; cbn [uval]; [lia|]. specialize (H a).
  destruct (ev x a), (ev y a); cbn [Z.b2z]; try lia.
Qed.
Lemma uval_anti f g a : Forall2 (fun x y => forall a, ev y a = true -> ev x a = true) f g -> (uval g a <= uval f a)%Z.
Proof.
  induction 1 as [|x y f g H HF IH]; cbn [uval]; [lia|]. specialize (H a).
  destruct (ev x a), (ev y a); cbn [Z.b2z]; try lia.
Qed.
Lemma uval_upd f g v b : Forall2 (fun x y => forall a, ev y a = ev x (upd a v b)) f g -> forall a, uval g a = uval f (upd a v b).
Proof. intros H a. induction H as [|x y f g H HF IH]; cbn [uval]; [reflexivity|]. now rewrite H, IH. Qed.

(** the results of one operator *)
Definition kept (M : mgr) (x y : bdd) : Prop := wf M y /\ forall n, depends_below n x -> depends_below n y.
Lemma support_kept M x y : wf M x -> wf M y -> (forall i, In i (support y) -> In i (support x)) -> kept M x y.
Proof.
  intros Wx Wy H. split; auto. intros n D. apply vars_depends_below. intros i Hi. apply support_spec, H, support_spec in Hi.
  now apply (depends_below_vars M n x).
Qed.
Lemma subset_kept M (x : bdd) ls le op : wf M x -> In op (the_operators M ls le) ->
  (exists r, op x = Ok r /\ wf M r /\ forall a, ev r a = true -> ev x a = true) ->
  exists r, op x = Ok r /\ kept M x r /\ forall a, ev r a = true -> ev x a = true.
Proof.
  intros W Hop (r & E & Wr & H). destruct (ops_support M ls le op x Hop W) as (r' & E' & Hs). rewrite E in E'. injection E' as <-.
  exists r. split; auto. split; auto. now apply support_kept.
Qed.
Lemma superset_kept M (x : bdd) ls le op : wf M x -> In op (the_operators M ls le) ->
  (exists r, op x = Ok r /\ wf M r /\ forall a, ev x a = true -> ev r a = true) ->
  exists r, op x = Ok r /\ kept M x r /\ forall a, ev x a = true -> ev r a = true.
Proof.
  intros W Hop (r & E & Wr & H). destruct (ops_support M ls le op x Hop W) as (r' & E' & Hs). rewrite E in E'. injection E' as <-.
  exists r. split; auto. split; auto. now apply support_kept.
Qed.
Lemma sl_kept M x ls le : wf M x -> exists r, subset_light_child M x ls le = Ok r /\ kept M x r /\ forall a, ev r a = true -> ev x a = true.
Proof. intro W. apply (subset_kept M x ls le (fun f => subset_light_child M f ls le)); [auto|cbn; auto 10|]. now apply subset_ops. Qed.
Lemma sh_kept M x ls le : wf M x -> exists r, subset_heavy_child M x ls le = Ok r /\ kept M x r /\ forall a, ev r a = true -> ev x a = true.
Proof. intro W. apply (subset_kept M x ls le (fun f => subset_heavy_child M f ls le)); [auto|cbn; auto 10|]. now apply subset_ops. Qed.
Lemma pl_kept M x ls le : wf M x -> exists r, superset_light_child M x ls le = Ok r /\ kept M x r /\ forall a, ev x a = true -> ev r a = true.
Proof. intro W. apply (superset_kept M x ls le (fun f => superset_light_child M f ls le)); [auto|cbn; auto 10|]. now apply superset_ops. Qed.
Lemma ph_kept M x ls le : wf M x -> exists r, superset_heavy_child M x ls le = Ok r /\ kept M x r /\ forall a, ev x a = true -> ev r a = true.
Proof. intro W. apply (superset_kept M x ls le (fun f => superset_heavy_child M f ls le)); [auto|cbn; auto 10|]. now apply superset_ops. Qed.
Lemma best_kept M x l : wf M x -> exists r, round_best M x l l = Ok r /\ kept M x r.
Proof.
  intro W. destruct (ops_support M l l (fun f => round_best M f l l) x) as (r & E & Hs); [cbn; auto 10|auto|].
  exists r. split; auto. apply support_kept; auto. rewrite round_best_pure in E. injection E as <-. apply rb_wf. destruct x; auto.
Qed.
Lemma bound_exists x : exists n, depends_below n x.
Proof.
  exists (S (list_max (varsn (snd x)))). apply vars_depends_below. intros i Hi.
  pose proof (proj1 (list_max_le (varsn (snd x)) _) (le_n _)) as F. rewrite Forall_forall in F. specialize (F i Hi). lia.
Qed.
Lemma full_kept M x l : wf M x -> exists r, round_bdd M x l = Ok r /\ kept M x r /\ (index_order M -> depends_below l r).
Proof.
  intro W. destruct (ops_support M l l (fun f => round_bdd M f l) x) as (r & E & Hs); [cbn; auto 10|auto|].
  exists r. split; auto. split.
  - apply support_kept; auto. rewrite round_bdd_pure in E. injection E as <-. apply rr_wf.
  - intro HI. destruct (bound_exists x) as [n D]. destruct (round_optimal M n x l HI W D) as (r' & E' & _ & H & _).
    rewrite E in E'. injection E' as <-. auto.
Qed.
Lemma cofactor_kept M x v b : wf M x -> kept M x (cofactor M x v b).
Proof.
  intro W. destruct (cofactor_spec M x v b W) as [Wc V]. split; auto. intros n D a a' H. rewrite !V. apply D.
  intros i Hi. unfold upd. destruct (i =? v); auto.
Qed.

Lemma kept_all M n f g : Forall2 (kept M) f g -> below n f -> wfs M g /\ List.length g = List.length f /\ below n g.
Proof.
  induction 1 as [|x y f g [W K] H IH]; intro B; [repeat split; constructor|].
  inversion B; subst. destruct IH as (W' & L & B'); auto. split; [constructor; auto|]. split; [cbn [List.length]; lia|constructor; auto].
Qed.
Ltac outputs K := match goal with |- exists g, mapM ?F ?f = _ /\ _ =>
  destruct (mapM_all F (wf _) _ f K ltac:(assumption)) as (g & E & H) end.
Definition one_output (M : mgr) (op : RoundingOperation) (level : nat) (x y : bdd) : Prop :=
  kept M x y
  /\ (op = SUPERSET_HEAVY \/ op = SUPERSET_LIGHT -> forall a, ev x a = true -> ev y a = true)
  /\ (op = SUBSET_LIGHT \/ op = SUBSET_HEAVY -> forall a, ev y a = true -> ev x a = true)
  /\ (op = ROUND_FULL -> index_order M -> depends_below level y)
  /\ (op = COFACTOR_POSITIVE -> forall a, ev y a = ev x (upd a level true))
  /\ (op = COFACTOR_NEGATIVE -> forall a, ev y a = ev x (upd a level false)).
Ltac six := unfold one_output; split; [assumption|];
  repeat (split; [intros; repeat match goal with Hx : _ \/ _ |- _ => destruct Hx end; try discriminate; auto; fail|]);
  intros; repeat match goal with Hx : _ \/ _ |- _ => destruct Hx end; try discriminate; auto.
Lemma output_ok M op level x : wf M x -> exists y, round_output M op level x = Ok y /\ one_output M op level x y.
Proof.
  intro W. destruct op; cbn [round_output].
  - destruct (ph_kept M x level level W) as (y & E & K & H). exists y. split; [exact E|]. six.
  - destruct (sl_kept M x level level W) as (y & E & K & H). exists y. split; [exact E|]. six.
  - destruct (pl_kept M x level level W) as (y & E & K & H). exists y. split; [exact E|]. six.
  - destruct (sh_kept M x level level W) as (y & E & K & H). exists y. split; [exact E|]. six.
  - destruct (full_kept M x level W) as (y & E & K & H). exists y. split; [exact E|]. six.
  - destruct (best_kept M x level W) as (y & E & K). exists y. split; [exact E|]. six.
  - pose proof (cofactor_kept M x level true W). destruct (cofactor_spec M x level true W) as [_ V].
    exists (cofactor M x level true). split; [reflexivity|]. six.
  - pose proof (cofactor_kept M x level false W). destruct (cofactor_spec M x level false W) as [_ V].
    exists (cofactor M x level false). split; [reflexivity|]. six.
Qed.
Lemma all_below n (f g : list bdd) : Forall2 (fun _ y => depends_below n y) f g -> below n g.
Proof. induction 1; constructor; auto. Qed.

Lemma operators_ok M n op level f : wfs M f -> below n f ->
  exists g, benchmark_operators M op level f = Ok g /\ wfs M g /\ List.length g = List.length f /\ below n g
  /\ (op = SUPERSET_HEAVY \/ op = SUPERSET_LIGHT -> forall a, (uval f a <= uval g a)%Z)
  /\ (op = SUBSET_LIGHT \/ op = SUBSET_HEAVY -> forall a, (uval g a <= uval f a)%Z)
  /\ (op = ROUND_FULL -> index_order M -> below level g)
  /\ (op = COFACTOR_POSITIVE -> forall a, uval g a = uval f (upd a level true))
  /\ (op = COFACTOR_NEGATIVE -> forall a, uval g a = uval f (upd a level false)).
Proof.
  intros W B. unfold benchmark_operators.
  destruct (mapM_all _ _ _ f (output_ok M op level) W) as (g & E & H). exists g. split; auto.
  assert (K : Forall2 (kept M) f g) by (revert H; apply all2_impl; intros x y K; apply K).
  destruct (kept_all M n f g K B) as (Wg & L & Bg). split; auto. split; auto. split; auto.
  split; [|split; [|split; [|split]]].
  - intros Ho a. apply uval_mono. revert H. apply all2_impl. intros x y (_ & H & _). auto.
  - intros Ho a. apply uval_anti. revert H. apply all2_impl. intros x y (_ & _ & H & _). auto.
  - intros Ho HI. apply (all_below level f). revert H. apply all2_impl. intros x y (_ & _ & _ & H & _). auto.
  - intros Ho. apply uval_upd. revert H. apply all2_impl. intros x y (_ & _ & _ & _ & H & _). auto.
  - intros Ho. apply uval_upd. revert H. apply all2_impl. intros x y (_ & _ & _ & _ & _ & H). auto.
Qed.

Lemma iscas_ok M n op level f : wfs M f -> below n f ->
  exists g, iscas_rounded M op level f = Ok g /\ wfs M g /\ List.length g = List.length f /\ below n g
  /\ (op = ROUND_UP_ -> forall a, (uval f a <= uval g a)%Z)
  /\ (op = ROUND_DOWN_ -> forall a, (uval g a <= uval f a)%Z)
  /\ (op = ROUND_FULL_ -> index_order M -> below level g).
Proof.
  intros W B. unfold iscas_rounded.
  match goal with |- exists g, mapM ?F _ = _ /\ _ =>
    destruct (mapM_all F (wf M) (fun x y => kept M x y
      /\ (op = ROUND_UP_ -> forall a, ev x a = true -> ev y a = true)
      /\ (op = ROUND_DOWN_ -> forall a, ev y a = true -> ev x a = true)
      /\ (op = ROUND_FULL_ -> index_order M -> depends_below level y)) f) as (g & E & H); auto end.
  { intros x Wx. destruct op.
    - destruct (ph_kept M x level all_levels Wx) as (y & E & K & H). exists y. repeat split; auto; try discriminate; apply K.
    - destruct (sl_kept M x level all_levels Wx) as (y & E & K & H). exists y. repeat split; auto; try discriminate; apply K.
    - destruct (full_kept M x level Wx) as (y & E & K & H). exists y. repeat split; auto; try discriminate; apply K. }
  exists g. split; auto.
  assert (K : Forall2 (kept M) f g) by (revert H; apply all2_impl; intros x y K; apply K).
  destruct (kept_all M n f g K B) as (Wg & L & Bg). split; auto. split; auto. split; auto. split; [|split].
  - intros Ho a. apply uval_mono. revert H. apply all2_impl. intros x y (_ & H & _). auto.
  - intros Ho a. apply uval_anti. revert H. apply all2_impl. intros x y (_ & _ & H & _). auto.
  - intros Ho HI. apply (all_below level f). revert H. apply all2_impl. intros x y (_ & _ & _ & H). auto.
Qed.

(** the average case error of a one-sided approximation *)
Lemma sum_shift n (h : nat -> Q) : (sumQ (map (fun i => inject_Z (2 ^ Z.of_nat i) * h i) (seq 0 (S n)))
  == h O + 2 * sumQ (map (fun i => inject_Z (2 ^ Z.of_nat i) * h (S i)) (seq 0 n)))%Q.
Proof.
  cbn [seq map]. rewrite sumQ_cons, <- sumQ_scale, <- seq_shift, map_map. change (2 ^ Z.of_nat 0)%Z with 1%Z.
  rewrite (sumQ_map_ext (fun x => inject_Z (2 ^ Z.of_nat (S x)) * h (S x))%Q (fun g => 2 * (inject_Z (2 ^ Z.of_nat g) * h (S g)))%Q).
  - rewrite Qmult_1_l. reflexivity.
  - intros i _. rewrite Nat2Z.inj_succ, Z.pow_succ_r, inject_Z_mult by lia. change (inject_Z 2) with (2#1). ring.
Qed.
Lemma average_difference n (f g : list bdd) : List.length f = List.length g ->
  (average n (fun a => inject_Z (uval g a - uval f a))
   == sumQ (map (fun i => inject_Z (2 ^ Z.of_nat i) * (density n (nth i g bzero) - density n (nth i f bzero))) (seq 0 (List.length f))))%Q.
Proof.
  revert g. induction f as [|x f IH]; intros [|y g] L; cbn [List.length] in L; try discriminate.
  - cbn [uval List.length seq map]. rewrite average_const, sumQ_nil. reflexivity.
  - cbn [List.length]. rewrite (sum_shift (List.length f) (fun i => density n (nth i (y :: g) bzero) - density n (nth i (x :: f) bzero)))%Q.
    cbn [nth]. rewrite <- (IH g) by lia. unfold density.
    rewrite <- average_scale.
    setoid_replace (average n (fun a => b2q (ev y a)) - average n (fun a => b2q (ev x a)))%Q
      with (average n (fun a => b2q (ev y a)) + (-1) * average n (fun a => b2q (ev x a)))%Q by ring.
    rewrite <- (average_scale n (-1)), <- !average_plus. apply average_ext. intro a. cbn [uval].
    rewrite !b2q_b2z. unfold Zminus. rewrite !inject_Z_plus, !inject_Z_opp, !inject_Z_plus, !inject_Z_mult. change (inject_Z 2) with (2#1). ring.
Qed.

Lemma ace_rounded_ok M n up level f : wfs M f -> below n f ->
  exists g, ace_rounded M up level f = Ok g /\ wfs M g /\ List.length g = List.length f /\ below n g
  /\ (up = true -> forall a, (uval f a <= uval g a)%Z)
  /\ (up = false -> forall a, (uval g a <= uval f a)%Z).
Proof.
  intros W B. unfold ace_rounded.
  match goal with |- exists g, mapM ?F _ = _ /\ _ =>
    destruct (mapM_all F (wf M) (fun x y => kept M x y
      /\ (up = true -> forall a, ev x a = true -> ev y a = true)
      /\ (up = false -> forall a, ev y a = true -> ev x a = true)) f) as (g & E & H); auto end.
  { intros x Wx. destruct up.
    - destruct (pl_kept M x level all_levels Wx) as (y & E & K & H). exists y. repeat split; auto; try discriminate; apply K.
    - destruct (sl_kept M x level all_levels Wx) as (y & E & K & H). exists y. repeat split; auto; try discriminate; apply K. }
  exists g. split; auto.
  assert (K : Forall2 (kept M) f g) by (revert H; apply all2_impl; intros x y K; apply K).
  destruct (kept_all M n f g K B) as (Wg & L & Bg). split; auto. split; auto. split; auto. split.
  - intros Ho a. apply uval_mono. revert H. apply all2_impl. intros x y (_ & H & _). auto.
  - intros Ho a. apply uval_anti. revert H. apply all2_impl. intros x y (_ & _ & H). auto.
Qed.
Lemma benchmark_ace_ok M n up level f : wfs M f -> below n f -> List.length f + n < 256 ->
  exists g q, ace_rounded M up level f = Ok g /\ benchmark_ace M up level f = Ok (Fin q)
  /\ (q == average n (fun a => inject_Z (dist (uval f a) (uval g a))))%Q
  /\ (q == (if up then 1 else - (1)) * sumQ (map (fun i => inject_Z (2 ^ Z.of_nat i)
             * (density n (nth i g bzero) - density n (nth i f bzero))) (seq 0 (List.length f))))%Q.
Proof.
  intros W B H. destruct (ace_rounded_ok M n up level f W B) as (g & E & Wg & L & Bg & U & D).
  destruct (ace_full M n f g W Wg B Bg) as [(q & q' & m & Eq & V & _) _]; [unfold bdd in *; lia|].
  exists g, q. split; auto. split; [unfold benchmark_ace; rewrite E; exact Eq|]. split; auto.
  rewrite V, <- (average_difference n f g) by auto. rewrite <- average_scale. apply average_ext. intro a.
  destruct up.
  - specialize (U eq_refl a). unfold dist. rewrite Z.abs_neq by lia. rewrite Qmult_1_l. now replace (- (uval f a - uval g a))%Z with (uval g a - uval f a)%Z by lia.
  - specialize (D eq_refl a). unfold dist. rewrite Z.abs_eq by lia.
    replace (uval f a - uval g a)%Z with (- (uval g a - uval f a))%Z by lia. rewrite inject_Z_opp. ring.
Qed.

Lemma benchmark_ace_steps_ok M n level f : wfs M f -> below n f -> List.length f + n < 256 ->
  exists g d q q', iscas_rounded M ROUND_UP_ level f = Ok g /\ benchmark_ace_steps M level f = Ok (d, Fin q)
  /\ (forall a, uval d a = dist (uval f a) (uval g a))
  /\ (q == average n (fun a => inject_Z (dist (uval f a) (uval g a))))%Q
  /\ average_case_error M f g BaseTwo = Ok (Fin q') /\ (q == q')%Q.
Proof.
  intros W B H. destruct (iscas_ok M n ROUND_UP_ level f W B) as (g & E & Wg & L & Bg & U & _).
  destruct (ace_full M n f g W Wg B Bg) as [(q' & _ & _ & Eq & V & _) _]; [unfold bdd in *; lia|].
  unfold benchmark_ace_steps. change (mapM _ f) with (iscas_rounded M ROUND_UP_ level f). rewrite E. cbn [bind].
  set (F := (f ++ [bzero])%list). set (G := (g ++ [bzero])%list).
  assert (LF : List.length F = S (List.length f)) by (subst F; rewrite app_length; cbn [List.length]; lia).
  assert (LG : List.length G = List.length F) by (subst F G; rewrite !app_length, L; reflexivity).
  destruct (proj1 (bdd_subtract_full M F G) ltac:(lia)) as (d & E1 & L1 & W1 & V1). rewrite E1. cbn [bind].
  assert (WF : wfs M F) by (apply Forall_app; split; [auto|constructor; [apply wf_zero|constructor]]).
  assert (WG : wfs M G) by (apply Forall_app; split; [auto|constructor; [apply wf_zero|constructor]]).
  specialize (W1 WF WG).
  assert (Nd : d <> []) by (intros ->; cbn [List.length] in L1; lia).
  destruct (proj1 (bdd_abs_full M d) Nd) as (r & E2 & L2 & W2 & V2). rewrite E2. cbn [bind]. specialize (W2 W1).
  assert (VF : forall a, uval F a = uval f a) by (intro; subst F; rewrite uval_app; cbn [uval]; rewrite ev_zero; cbn [Z.b2z]; lia).
  assert (VG : forall a, uval G a = uval g a) by (intro; subst G; rewrite uval_app; cbn [uval]; rewrite ev_zero; cbn [Z.b2z]; lia).
  assert (VR : forall a, uval r a = dist (uval f a) (uval g a)).
  { intro a. rewrite V2. unfold dist. f_equal.
    apply sval_of_uval; auto.
    - rewrite V1, VF, L1. now rewrite <- LG, firstn_all, VG.
    - rewrite L1, LF. cbn [Nat.sub]. rewrite Nat.sub_0_r.
      pose proof (uval_range f a). pose proof (uval_range g a). rewrite L in H1. lia. }
  assert (BR : below n r).
  { apply below_of_uval. intros a b Hab. rewrite !VR. now rewrite (below_uval n f a b B Hab), (below_uval n g a b Bg Hab). }
  destruct (average_value_full M n r W2 BR) as (q & E3 & V3).
  { intros b Hb. unfold below in BR. rewrite Forall_forall in BR. rewrite Forall_forall in W2. 
    assert (support_size b <= n) by (apply support_below_size; apply (depends_below_vars M); auto). lia. }
  exists g, r, q, q'. split; [auto|]. split; [now rewrite E3|]. split; auto. 
  assert (Eqq : (q == average n (fun a => inject_Z (dist (uval f a) (uval g a))))%Q) by (rewrite V3; apply average_ext; intro; now rewrite VR).
  split; auto. split; auto. now rewrite Eqq, V.
Qed.

(** the table of adders *)
Lemma adder_family M adder N p1 p2 r : get_approximate_adder M adder N p1 p2 = Ok r ->
  approximate_adder M N (restarts adder N p1 p2) (looks_back adder p1 p2) r.
Proof.
  destruct adder; cbn [get_approximate_adder]; intro E; unfold restarts, looks_back.
  - exact (is_aca1 M N p1 r E).
  - exact (is_aca2 M N p1 r E).
  - exact (is_gda M N p1 p2 r E).
  - exact (is_gear M N p1 p2 r E).
Qed.
Lemma adder_exists M adder N p1 p2 : exists_for adder N p1 p2 -> exists r, get_approximate_adder M adder N p1 p2 = Ok r.
Proof.
  destruct adder; cbn [exists_for get_approximate_adder]; intro H.
  - destruct (aca1_ok M N p1) as (r & E & _); eauto.
  - destruct (aca2_ok M N p1) as (r & E & _); eauto; lia.
  - destruct (gda_ok M N p1 p2) as (r & E & _); eauto; lia.
  - destruct (gear_ok M N p1 p2) as (r & E & _); eauto; lia.
Qed.
Lemma generate_ok M adder N p1 p2 : exists_for adder N p1 p2 -> 3 * N + 1 < 256 ->
  exists er ace wc, generate_adders M adder N p1 p2
    = Ok (approximate_adder_name adder (N.of_nat N) (N.of_nat p1) (N.of_nat p2), Fin er, Fin ace, Fin wc)
  /\ (er == error_rate_of adder N p1 p2)%Q /\ (ace == average_error_of adder N p1 p2)%Q
  /\ (wc == inject_Z (worst_error_of adder N p1 p2))%Q.
Proof.
  intros H HN. destruct (adder_exists M adder N p1 p2 H) as (r & Er). pose proof (adder_family M adder N p1 p2 r Er) as HA.
  destruct (regular_ok M N) as (s & Es & _).
  destruct (two_rate M N _ _ r s HA Es) as (er & E1 & V1). destruct (two_ace M N _ _ r s HA Es HN) as (ace & E2 & V2).
  pose proof (two_wce M N _ _ r s HA Es ltac:(lia)) as E3.
  exists er, ace, (inject_Z (worst_error_of adder N p1 p2)). split; [|split; [|split]].
  - unfold generate_adders, metric_value. rewrite Es, Er. cbn [bind compute_error_metric]. rewrite E1, E2, E3. reflexivity.
  - exact V1.
  - exact V2.
  - reflexivity.
Qed.
(** configurations with the values of the three metrics *)
Lemma table_ok M (table : list (ApproximateAdder * (nat * nat * nat) * (Q * Q * Z))) :
  Forall (fun '(adder, (N, p1, p2), (er, ace, wc)) => exists_for adder N p1 p2 /\ 3 * N + 1 < 256
    /\ (error_rate_of adder N p1 p2 == er)%Q /\ (average_error_of adder N p1 p2 == ace)%Q /\ worst_error_of adder N p1 p2 = wc) table ->
  Forall (fun '(adder, (N, p1, p2), (er, ace, wc)) => exists er' ace' wc',
      generate_adders M adder N p1 p2
      = Ok (approximate_adder_name adder (N.of_nat N) (N.of_nat p1) (N.of_nat p2), Fin er', Fin ace', Fin wc')
      /\ (er' == er)%Q /\ (ace' == ace)%Q /\ (wc' == inject_Z wc)%Q) table.
Proof.
  apply Forall_impl. intros [[adder [[N p1] p2]] [[er ace] wc]] (H & HN & H1 & H2 & H3).
  destruct (generate_ok M adder N p1 p2 H HN) as (er' & ace' & wc' & E & V1 & V2 & V3).
  exists er', ace', wc'. split; auto. split; [now rewrite V1|]. split; [now rewrite V2|]. now rewrite V3, H3.
Qed.
Lemma benchmark_table M : Forall (fun '(adder, (N, p1, p2), (er, ace, wc)) => exists er' ace' wc',
    generate_adders M adder N p1 p2
    = Ok (approximate_adder_name adder (N.of_nat N) (N.of_nat p1) (N.of_nat p2), Fin er', Fin ace', Fin wc')
    /\ (er' == er)%Q /\ (ace' == ace)%Q /\ (wc' == inject_Z wc)%Q) benchmark_adders.
Proof.
  apply table_ok. unfold benchmark_adders.
  repeat (constructor; [split; [cbn; lia|]; split; [lia|]; split; [vm_compute; reflexivity|]; split; vm_compute; reflexivity|]). constructor.
Qed.
