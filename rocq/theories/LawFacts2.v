(** Complementing and reordering outputs; the sign bit. *)
From Coq Require Import List Bool Arith ZArith QArith Lia Permutation.
From Verif Require Import Res Cudd CuddFacts Spec SpecFacts Helpers HelpersFacts HelpersFacts2 Counting Metrics MetricsFacts MetricsFacts2
  MetricsFacts3 MetricsFacts4 Ieee Ieee3 SpecLaws LawFacts.
Import ListNotations.
Open Scope Z_scope.

Lemma xor_complement M x y : wf M x -> wf M y -> bxor M (bnot x) (bnot y) = bxor M x y.
Proof.
  intros Hx Hy. apply (canonical M); auto using wf_xor, wf_not. intro a. rewrite !ev_xor, !ev_not.
  destruct (ev x a), (ev y a); reflexivity.
Qed.
Lemma complement_length s f : length s = length f -> length (complement_outputs s f) = length f.
Proof. intro L. unfold complement_outputs. rewrite map_length, combine_length. lia. Qed.
Lemma miter_complement M f : forall g s z, length s = length f -> length f = length g -> wfs M f -> wfs M g ->
  miter M (complement_outputs s f) (complement_outputs s g) z = miter M f g z.
Proof.
  induction f as [|x f IH]; intros [|y g] [|b s] z Ls L Wf Wg; try discriminate; auto.
  injection L as L. injection Ls as Ls. inversion Wf; inversion Wg; subst.
  change (complement_outputs (b :: s) (x :: f)) with ((if b then bnot x else x) :: complement_outputs s f).
  change (complement_outputs (b :: s) (y :: g)) with ((if b then bnot y else y) :: complement_outputs s g).
  cbn [miter]. replace (bxor M (if b then bnot x else x) (if b then bnot y else y)) with (bxor M x y)
    by (destruct b; [symmetry; now apply xor_complement|reflexivity]). now apply IH.
Qed.
Lemma flip_sum_complement M f : forall g s n z, length s = length f -> length f = length g -> wfs M f -> wfs M g ->
  flip_sum M (complement_outputs s f) (complement_outputs s g) n z = flip_sum M f g n z.
Proof.
  induction f as [|x f IH]; intros [|y g] [|b s] n z Ls L Wf Wg; try discriminate; auto.
  injection L as L. injection Ls as Ls. inversion Wf; inversion Wg; subst.
  change (complement_outputs (b :: s) (x :: f)) with ((if b then bnot x else x) :: complement_outputs s f).
  change (complement_outputs (b :: s) (y :: g)) with ((if b then bnot y else y) :: complement_outputs s g).
  cbn [flip_sum]. replace (bxor M (if b then bnot x else x) (if b then bnot y else y)) with (bxor M x y)
    by (destruct b; [symmetry; now apply xor_complement|reflexivity]). now apply IH.
Qed.
Lemma flip_sum_d_complement count M f : forall g s n z, length s = length f -> length f = length g -> wfs M f -> wfs M g ->
  flip_sum_d count M (complement_outputs s f) (complement_outputs s g) n z = flip_sum_d count M f g n z.
Proof.
  induction f as [|x f IH]; intros [|y g] [|b s] n z Ls L Wf Wg; try discriminate; auto.
  injection L as L. injection Ls as Ls. inversion Wf; inversion Wg; subst.
  change (complement_outputs (b :: s) (x :: f)) with ((if b then bnot x else x) :: complement_outputs s f).
  change (complement_outputs (b :: s) (y :: g)) with ((if b then bnot y else y) :: complement_outputs s g).
  cbn [flip_sum_d]. replace (bxor M (if b then bnot x else x) (if b then bnot y else y)) with (bxor M x y)
    by (destruct b; [symmetry; now apply xor_complement|reflexivity]). now apply IH.
Qed.
Lemma flip_add_complement M f : forall g s z, length s = length f -> length f = length g -> wfs M f -> wfs M g ->
  flip_add M (complement_outputs s f) (complement_outputs s g) z = flip_add M f g z.
Proof.
  induction f as [|x f IH]; intros [|y g] [|b s] z Ls L Wf Wg; try discriminate; auto.
  injection L as L. injection Ls as Ls. inversion Wf; inversion Wg; subst.
  change (complement_outputs (b :: s) (x :: f)) with ((if b then bnot x else x) :: complement_outputs s f).
  change (complement_outputs (b :: s) (y :: g)) with ((if b then bnot y else y) :: complement_outputs s g).
  cbn [flip_add]. replace (bxor M (if b then bnot x else x) (if b then bnot y else y)) with (bxor M x y)
    by (destruct b; [symmetry; now apply xor_complement|reflexivity]). now apply IH.
Qed.

Lemma levels_complement f : forall s m, length s = length f ->
  fold_left (fun m b => Nat.max m (list_max0 (support b) + 1)) (complement_outputs s f) m
  = fold_left (fun m b => Nat.max m (list_max0 (support b) + 1)) f m.
Proof.
  induction f as [|x f IH]; intros [|b s] m L; try discriminate; auto. injection L as L.
  change (complement_outputs (b :: s) (x :: f)) with ((if b then bnot x else x) :: complement_outputs s f).
  cbn [fold_left]. replace (support (if b then bnot x else x)) with (support x) by (destruct b; reflexivity). now apply IH.
Qed.
Lemma support_complement f : forall s m, length s = length f -> max_support (complement_outputs s f) m = max_support f m.
Proof.
  unfold max_support. induction f as [|x f IH]; intros [|b s] m L; try discriminate; auto. injection L as L.
  change (complement_outputs (b :: s) (x :: f)) with ((if b then bnot x else x) :: complement_outputs s f).
  cbn [fold_left]. replace (support_size (if b then bnot x else x)) with (support_size x) by (destruct b; reflexivity). now apply IH.
Qed.

Lemma bitwise_complement count M f g s : length s = length f -> length f = length g -> wfs M f -> wfs M g ->
  error_rate M (complement_outputs s f) (complement_outputs s g) = error_rate M f g
  /\ error_rate_d count M (complement_outputs s f) (complement_outputs s g) = error_rate_d count M f g
  /\ average_bit_flip_error M (complement_outputs s f) (complement_outputs s g) = average_bit_flip_error M f g
  /\ average_bit_flip_error_d count M (complement_outputs s f) (complement_outputs s g) = average_bit_flip_error_d count M f g
  /\ worst_case_bit_flip_error M (complement_outputs s f) (complement_outputs s g) = worst_case_bit_flip_error M f g.
Proof.
  intros Ls L Wf Wg.
  assert (T : terminal_level [complement_outputs s f; complement_outputs s g] = terminal_level [f; g]).
  { unfold terminal_level. cbn [fold_left]. now rewrite !levels_complement by congruence. }
  unfold error_rate, error_rate_d, average_bit_flip_error, average_bit_flip_error_d, worst_case_bit_flip_error.
  rewrite T, !complement_length, !support_complement by congruence.
  rewrite miter_complement, flip_add_complement by auto. repeat split.
  - destruct (assert_ _); auto. cbn [bind]. now rewrite flip_sum_complement.
  - destruct (assert_ _); auto. cbn [bind]. now rewrite flip_sum_d_complement.
Qed.

(** ** All outputs *)
Lemma uval_complement f a : uval (map bnot f) a = 2 ^ Z.of_nat (length f) - 1 - uval f a.
Proof.
  induction f as [|x f IH]; [reflexivity|]. cbn [map uval length]. rewrite IH, ev_not, Nat2Z.inj_succ, Z.pow_succ_r by lia.
  destruct (ev x a); cbn [Z.b2z negb]; lia.
Qed.
Lemma sval_complement f a : f <> [] -> sval (map bnot f) a = -1 - sval f a.
Proof.
  intro H. destruct (exists_last H) as (f0 & s & ->). rewrite map_app. cbn [map]. rewrite !sval_app, map_length, uval_complement, ev_not.
  unfold pow2. destruct (ev s a); cbn [Z.b2z negb]; lia.
Qed.
Lemma wfs_complement M f : wfs M f -> wfs M (map bnot f).
Proof. intro W. apply Forall_map. eapply Forall_impl; [|exact W]. intros x Hx. now apply wf_not. Qed.
Lemma absdiff_complement M f g r : length f = length g -> wfs M f -> wfs M g ->
  bdd_absolute_difference M (map bnot f) (map bnot g) r = bdd_absolute_difference M f g r.
Proof.
  intros L Wf Wg. pose proof (wfs_complement M f Wf) as Wf'. pose proof (wfs_complement M g Wg) as Wg'. destruct r.
  - destruct (absdiff_base M f g) as (x & -> & Lx & Wx & Vx).
    destruct (absdiff_base M (map bnot f) (map bnot g)) as (y & -> & Ly & Wy & Vy). rewrite !map_length in Ly.
    f_equal. apply (same_number M); auto; [lia|]. intro a. rewrite Vx, Vy, !uval_complement, L. unfold dist. lia.
  - destruct f as [|b f']; [destruct g; [reflexivity|discriminate L]|]. destruct g as [|c g']; [discriminate L|].
    set (f := b :: f') in *. set (g := c :: g') in *. assert (Hf : f <> []) by discriminate. assert (Hg : g <> []) by discriminate.
    destruct (absdiff_twos M f g Hf Hg) as (x & -> & Lx & Wx & Vx).
    destruct (absdiff_twos M (map bnot f) (map bnot g)) as (y & -> & Ly & Wy & Vy); try discriminate.
    rewrite !map_length in Ly, Vy.
    f_equal. apply (same_number M); auto; [lia|]. intro a. rewrite Vx, Vy, !sval_complement by auto.
    replace (dist (-1 - sval f a) (-1 - sval g a)) with (dist (sval f a) (sval g a)); auto. unfold dist. lia.
Qed.
Lemma arithmetic_complement M f g r : length f = length g -> wfs M f -> wfs M g ->
  worst_case_error M (map bnot f) (map bnot g) r = worst_case_error M f g r
  /\ average_case_error M (map bnot f) (map bnot g) r = average_case_error M f g r
  /\ mean_squared_error M (map bnot f) (map bnot g) r = mean_squared_error M f g r.
Proof. intros L Wf Wg. unfold worst_case_error, average_case_error, mean_squared_error. now rewrite absdiff_complement. Qed.

(** ** Reordering the outputs *)
Lemma miter_sem M f : forall g z, length f = length g -> wfs M f -> wfs M g -> wf M z ->
  exists r, miter M f g z = Ok r /\ wf M r
    /\ forall a, ev r a = ev z a || existsb (fun p => xorb (ev (fst p) a) (ev (snd p) a)) (combine f g).
Proof.
  induction f as [|x f IH]; intros [|y g] z L Wf Wg Wz; try discriminate.
  - exists z. repeat split; auto. intro a. cbn. now rewrite orb_false_r.
  - injection L as L. inversion Wf; inversion Wg; subst. cbn [miter].
    destruct (IH g (bor M z (bxor M x y))) as (r & E & W & V); auto using wf_or, wf_xor.
    exists r. repeat split; auto. intro a. rewrite V, ev_or, ev_xor. cbn [combine existsb fst snd]. now rewrite orb_assoc.
Qed.
Lemma existsb_permutation {A} (p : A -> bool) l l' : Permutation l l' -> existsb p l = existsb p l'.
Proof.
  induction 1; cbn; auto; [congruence| |congruence]. now rewrite !orb_assoc, (orb_comm (p y)).
Qed.
Lemma levels_permutation l l' : Permutation l l' -> forall m,
  fold_left (fun m b => Nat.max m (list_max0 (support b) + 1)) l m = fold_left (fun m b => Nat.max m (list_max0 (support b) + 1)) l' m.
Proof.
  induction 1; intro m; cbn [fold_left]; auto; [|congruence]. f_equal. lia.
Qed.
Lemma combine_fst (f : list bdd) : forall g : list bdd, length f = length g -> map fst (combine f g) = f /\ map snd (combine f g) = g.
Proof.
  induction f as [|x f IH]; intros [|y g] L; try discriminate; auto. injection L as L. destruct (IH g L) as [A B].
  cbn [combine map fst snd]. now rewrite A, B.
Qed.
Lemma error_rate_permutation count M f g f' g' : length f = length g -> length f' = length g' ->
  wfs M f -> wfs M g -> Permutation (combine f g) (combine f' g') ->
  error_rate M f' g' = error_rate M f g /\ error_rate_d count M f' g' = error_rate_d count M f g.
Proof.
  intros L L' Wf Wg P. destruct (combine_fst f g L) as [A B]. destruct (combine_fst f' g' L') as [A' B'].
  assert (Pf : Permutation f f') by (rewrite <- A, <- A'; now apply Permutation_map).
  assert (Pg : Permutation g g') by (rewrite <- B, <- B'; now apply Permutation_map).
  assert (Wf' : wfs M f') by (eapply Permutation_Forall; eauto).
  assert (Wg' : wfs M g') by (eapply Permutation_Forall; eauto).
  assert (T : terminal_level [f'; g'] = terminal_level [f; g]).
  { unfold terminal_level. cbn [fold_left]. now rewrite (levels_permutation _ _ Pf), (levels_permutation _ _ Pg). }
  assert (X : miter M f' g' bzero = miter M f g bzero).
  { destruct (miter_sem M f g bzero) as (r & -> & W & V); auto with wf.
    destruct (miter_sem M f' g' bzero) as (r' & -> & W' & V'); auto with wf. f_equal. apply (canonical M); auto.
    intro a. rewrite V, V'. f_equal. apply existsb_permutation. now apply Permutation_sym. }
  unfold error_rate, error_rate_d. now rewrite X, T.
Qed.

(** ** Complementing the sign bits *)
Lemma uval_offset f s a : uval (f ++ [bnot s]) a = sval (f ++ [s]) a + 2 ^ Z.of_nat (length f).
Proof. rewrite uval_app, sval_app. cbn [uval]. rewrite ev_not. unfold pow2. destruct (ev s a); cbn [Z.b2z negb]; lia. Qed.
Lemma dist_offset f g s t a : length f = length g ->
  dist (uval (f ++ [bnot s]) a) (uval (g ++ [bnot t]) a) = dist (sval (f ++ [s]) a) (sval (g ++ [t]) a).
Proof. intro L. rewrite !uval_offset, L. unfold dist. lia. Qed.
Lemma wfs_offset M f s : wfs M f -> wf M s -> wfs M (f ++ [bnot s]).
Proof. intros W H. apply Forall_app. split; auto with wf. Qed.

Lemma signed_worst M f g s t : wfs M f -> wfs M g -> wf M s -> wf M t -> length f = length g -> (length f <= 255)%nat ->
  exists m, worst_case_error M (f ++ [bnot s]) (g ++ [bnot t]) BaseTwo = Ok m
    /\ is_max (fun a => dist (sval (f ++ [s]) a) (sval (g ++ [t]) a)) m.
Proof.
  intros Wf Wg Ws Wt L B. set (f' := f ++ [bnot s]). set (g' := g ++ [bnot t]).
  destruct (wce_base_full M f' g' f') as (m & E & [(a & A) U] & _); subst f' g';
    try (apply wfs_offset; auto); try (rewrite app_length; cbn [length]; lia).
  exists m. split; auto. split.
  - exists a. cbv beta. rewrite <- dist_offset by auto. exact A.
  - intro b. cbv beta. rewrite <- dist_offset by auto. apply U.
Qed.
Lemma below_offset n f s : below n f -> depends_below n s -> below n (f ++ [bnot s]).
Proof. intros B D. apply Forall_app. split; auto. constructor; auto. intros a b E. rewrite !ev_not. f_equal. now apply D. Qed.
Lemma signed_average M n f g s t : wfs M f -> wfs M g -> wf M s -> wf M t -> below n f -> below n g -> depends_below n s -> depends_below n t ->
  length f = length g -> (length f + n < 255)%nat ->
  exists q, average_case_error M (f ++ [bnot s]) (g ++ [bnot t]) BaseTwo = Ok (Fin q)
    /\ (q == average n (fun a => inject_Z (dist (sval (f ++ [s]) a) (sval (g ++ [t]) a))))%Q.
Proof.
  intros Wf Wg Ws Wt Bf Bg Bs Bt L B.
  destruct (ace_spec M n (f ++ [bnot s]) (g ++ [bnot t]) BaseTwo) as (q & E & V);
    try (apply wfs_offset; auto); try (apply below_offset; auto); try discriminate; try (rewrite !app_length; cbn [length]; lia).
  exists q. split; auto. rewrite V. apply average_ext. intro a. cbn [wrapped]. now rewrite dist_offset.
Qed.
