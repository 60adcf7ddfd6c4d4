(** Vectors that encode the same number at every input are the same diagrams; the algebraic laws of the vector operations. *)
From Coq Require Import List Bool Arith ZArith QArith Lia.
From Verif Require Import Res Cudd CuddFacts Spec SpecFacts Helpers HelpersFacts HelpersFacts2 Counting Metrics MetricsFacts3 Ieee Ieee3.
Import ListNotations.
Open Scope Z_scope.

Lemma same_number M f : forall g, length f = length g -> wfs M f -> wfs M g -> (forall a, uval f a = uval g a) -> f = g.
Proof.
  intros g L Wf Wg H. apply (vec_canonical M); auto. intro a. specialize (H a). clear Wf Wg.
  revert g L H. induction f as [|x f IH]; intros [|y g] L H; try discriminate L; auto. cbn [uval map] in *.
  destruct (ev x a), (ev y a); cbn [Z.b2z] in H; try lia; f_equal; apply IH; try (now injection L); lia.
Qed.

Lemma uval_bound f a : 0 <= uval f a < 2 ^ Z.of_nat (length f).
Proof.
  induction f as [|x f IH]; cbn [uval length]; [cbn; lia|].
  rewrite Nat2Z.inj_succ, Z.pow_succ_r by lia. destruct (ev x a); cbn [Z.b2z]; lia.
Qed.

Lemma add_full M f g : length f = length g -> wfs M f -> wfs M g ->
  exists r, bdd_add M f g = Ok r /\ length r = length f /\ wfs M r
    /\ forall a, uval r a = (uval f a + uval g a) mod 2 ^ Z.of_nat (length f).
Proof.
  intros L Wf Wg. destruct (bdd_add_full M f g) as [H _]. destruct H as (r & E & Lr & W & V); [lia|].
  exists r. repeat split; auto. intro a. rewrite V, L, firstn_all. reflexivity.
Qed.
Lemma sub_full M f g : length f = length g -> wfs M f -> wfs M g ->
  exists r, bdd_subtract M f g = Ok r /\ length r = length f /\ wfs M r
    /\ forall a, uval r a = (uval f a - uval g a) mod 2 ^ Z.of_nat (length f).
Proof.
  intros L Wf Wg. destruct (bdd_subtract_full M f g) as [H _]. destruct H as (r & E & Lr & W & V); [lia|].
  exists r. repeat split; auto. intro a. rewrite V, L, firstn_all. reflexivity.
Qed.

Lemma add_commutes M f g : length f = length g -> wfs M f -> wfs M g -> bdd_add M f g = bdd_add M g f.
Proof.
  intros L Wf Wg. destruct (add_full M f g L Wf Wg) as (r & -> & Lr & W & V).
  destruct (add_full M g f (eq_sym L) Wg Wf) as (r' & -> & Lr' & W' & V'). f_equal.
  apply (same_number M); auto; [congruence|]. intro a. now rewrite V, V', L, Z.add_comm.
Qed.
Lemma add_associates M f g h : length f = length g -> length g = length h -> wfs M f -> wfs M g -> wfs M h ->
  (x <- bdd_add M f g ;; bdd_add M x h) = (y <- bdd_add M g h ;; bdd_add M f y)
  /\ exists r, (x <- bdd_add M f g ;; bdd_add M x h) = Ok r.
Proof.
  intros L L2 Wf Wg Wh. destruct (add_full M f g L Wf Wg) as (x & -> & Lx & Wx & Vx).
  destruct (add_full M g h L2 Wg Wh) as (y & -> & Ly & Wy & Vy). cbn [bind].
  destruct (add_full M x h) as (r & -> & Lr & W & V); auto; [congruence|].
  destruct (add_full M f y) as (r' & -> & Lr' & W' & V'); auto; [congruence|]. split; eauto. f_equal.
  apply (same_number M); auto; [congruence|]. intro a. rewrite V, V', Vx, Vy, Lx, <- L.
  rewrite Zplus_mod_idemp_l, Zplus_mod_idemp_r. f_equal. lia.
Qed.
Lemma subtract_of_add M f g : length f = length g -> wfs M f -> wfs M g ->
  (x <- bdd_add M f g ;; bdd_subtract M x g) = Ok f /\ (x <- bdd_subtract M f g ;; bdd_add M x g) = Ok f.
Proof.
  intros L Wf Wg. split.
  - destruct (add_full M f g L Wf Wg) as (x & -> & Lx & Wx & Vx). cbn [bind].
    destruct (sub_full M x g) as (r & -> & Lr & W & V); auto; [congruence|]. f_equal.
    apply (same_number M); auto; [congruence|]. intro a. rewrite V, Vx, Lx, Zminus_mod_idemp_l.
    replace (uval f a + uval g a - uval g a) with (uval f a) by lia. apply Z.mod_small, uval_bound.
  - destruct (sub_full M f g L Wf Wg) as (x & -> & Lx & Wx & Vx). cbn [bind].
    destruct (add_full M x g) as (r & -> & Lr & W & V); auto; [congruence|]. f_equal.
    apply (same_number M); auto; [congruence|]. intro a. rewrite V, Vx, Lx, Zplus_mod_idemp_l.
    replace (uval f a - uval g a + uval g a) with (uval f a) by lia. apply Z.mod_small, uval_bound.
Qed.
Lemma wfs_zeros M n : wfs M (repeat bzero n).
Proof. induction n; constructor; auto with wf. Qed.
Lemma uval_zeros n a : uval (repeat bzero n) a = 0.
Proof. rewrite uval_repeat. reflexivity. Qed.
Lemma subtract_self M f : wfs M f -> bdd_subtract M f f = Ok (repeat bzero (length f)).
Proof.
  intro W. destruct (sub_full M f f eq_refl W W) as (r & -> & Lr & Wr & V). f_equal.
  apply (same_number M); auto using wfs_zeros; [now rewrite repeat_length|]. intro a.
  now rewrite V, Z.sub_diag, uval_zeros, Z.mod_0_l by (apply Z.pow_nonzero; lia).
Qed.
Lemma add_zero M f : wfs M f -> bdd_add M f (repeat bzero (length f)) = Ok f.
Proof.
  intro W. destruct (add_full M f (repeat bzero (length f))) as (r & -> & Lr & Wr & V); auto using wfs_zeros; [now rewrite repeat_length|].
  f_equal. apply (same_number M); auto. intro a. rewrite V, uval_zeros, Z.add_0_r. apply Z.mod_small, uval_bound.
Qed.
(** doubling is a shift by one *)
Lemma add_self M f : wfs M f -> bdd_add M f f = bdd_shift f 1.
Proof.
  intro W. destruct (add_full M f f eq_refl W W) as (r & -> & Lr & Wr & V).
  destruct (bdd_shift_full M f 1) as (r' & -> & Lr' & Wr' & V'). f_equal. apply (same_number M); auto; [congruence|].
  intro a. rewrite V, V'. cbn [Z.leb Z.compare]. f_equal. change (2 ^ 1) with 2. lia.
Qed.
(** two shifts in the same direction are one *)
Lemma shift_shift M f j k : wfs M f -> (0 <= j /\ 0 <= k \/ j <= 0 /\ k <= 0) ->
  (x <- bdd_shift f j ;; bdd_shift x k) = bdd_shift f (j + k) /\ exists r, bdd_shift f (j + k) = Ok r.
Proof.
  intros W S. destruct (bdd_shift_full M f j) as (x & -> & Lx & Wx & Vx). cbn [bind].
  destruct (bdd_shift_full M x k) as (r & -> & Lr & Wr & V).
  destruct (bdd_shift_full M f (j + k)) as (r' & -> & Lr' & Wr' & V'). split; eauto. f_equal.
  apply (same_number M); auto; [congruence|]. intro a. rewrite V, V', Vx, Lx.
  assert (P : 0 < 2 ^ Z.of_nat (length f)) by (apply Z.pow_pos_nonneg; lia).
  pose proof (uval_bound f a) as B.
  destruct (Z.leb_spec 0 j), (Z.leb_spec 0 k), (Z.leb_spec 0 (j + k)); try lia.
  - rewrite Zmult_mod_idemp_l. f_equal. rewrite Z.pow_add_r by lia. lia.
  - assert (j = 0) by lia. subst j. rewrite Z.pow_0_r, Z.mul_1_r, Z.add_0_l. rewrite Z.mod_small; auto.
  - assert (k = 0) by lia. subst k. rewrite Z.pow_0_r, Z.mul_1_r, Z.add_0_r.
    apply Z.mod_small. assert (0 < 2 ^ (- j)) by (apply Z.pow_pos_nonneg; lia). split; [apply Z.div_pos; lia|].
    apply Z.le_lt_trans with (uval f a); [|apply B]. apply Z.div_le_upper_bound; auto. nia.
  - replace (- (j + k)) with (- j + - k) by ring. rewrite Z.pow_add_r by lia.
    apply Z.div_div; [apply Z.pow_nonzero; lia|apply Z.pow_pos_nonneg; lia].
Qed.
(** dividing a product by the constant gives the vector back *)
Lemma divide_of_multiply M clog2 f c : clog2_ok clog2 -> 0 < c < 2 ^ 256 -> wfs M f ->
  (x <- bdd_multiply_constant_u256 M clog2 f c ;; bdd_divide M x (number_to_bdds c) 0)
  = Ok (f ++ repeat bzero (clog2 c + 4)).
Proof.
  intros CL Hc W. destruct (multiply_u256_spec M clog2 f c CL) as (x & -> & Lx & Wx & Vx); [lia|]. cbn [bind].
  destruct (number_to_bdds_spec M c) as (Wn & Vn & _ & _); [lia|].
  destruct (bdd_divide_spec M x (number_to_bdds c) 0) as (r & -> & Lr & Wr & V). f_equal.
  apply (same_number M); auto.
  - rewrite Lr, Lx, app_length, repeat_length. lia.
  - apply Forall_app. split; auto using wfs_zeros.
  - intro a. destruct (V a) as [V1 _]. rewrite V1 by (rewrite Vn; lia). rewrite Vn, Vx, uval_app, uval_zeros.
    change (2 ^ Z.of_nat 0) with 1. rewrite Z.mul_1_r, (Z.mul_comm c), Z.div_mul by lia. lia.
Qed.

(** ** Exchanging the arguments *)
Lemma absdiff_twos_empty M f g : f = [] \/ g = [] -> bdd_absolute_difference M f g TwosComplement = UB.
Proof.
  intros [-> | ->]; unfold bdd_absolute_difference, sign_extend; cbn [length].
  - destruct g as [|y g]; [reflexivity|reflexivity].
  - change (length f <? 0)%nat with false. cbn [bind]. destruct f as [|x f]; reflexivity.
Qed.
Lemma absdiff_swap M f g r : wfs M f -> wfs M g -> bdd_absolute_difference M f g r = bdd_absolute_difference M g f r.
Proof.
  intros Wf Wg. destruct r.
  - destruct (absdiff_base M f g) as (x & -> & Lx & Wx & Vx). destruct (absdiff_base M g f) as (y & -> & Ly & Wy & Vy).
    f_equal. apply (same_number M); auto; [lia|]. intro a. rewrite Vx, Vy. unfold dist. lia.
  - destruct f as [|b f']; [now rewrite !absdiff_twos_empty by auto|]. destruct g as [|c g']; [now rewrite !absdiff_twos_empty by auto|].
    set (f := b :: f') in *. set (g := c :: g') in *.
    destruct (absdiff_twos M f g) as (x & -> & Lx & Wx & Vx); try discriminate.
    destruct (absdiff_twos M g f) as (y & -> & Ly & Wy & Vy); try discriminate.
    f_equal. apply (same_number M); auto; [lia|]. intro a. rewrite Vx, Vy, (Nat.max_comm (length g)).
    replace (dist (sval g a) (sval f a)) with (dist (sval f a) (sval g a)); auto. unfold dist. lia.
Qed.
Lemma xor_swap M x y : wf M x -> wf M y -> bxor M x y = bxor M y x.
Proof. intros Hx Hy. apply (canonical M); auto using wf_xor. intro a. rewrite !ev_xor. apply xorb_comm. Qed.

Lemma worst_case_error_swap M f g r : wfs M f -> wfs M g -> worst_case_error M f g r = worst_case_error M g f r.
Proof. intros Wf Wg. unfold worst_case_error. now rewrite absdiff_swap. Qed.
Lemma average_case_error_swap M f g r : wfs M f -> wfs M g -> average_case_error M f g r = average_case_error M g f r.
Proof. intros Wf Wg. unfold average_case_error. now rewrite absdiff_swap. Qed.
Lemma mean_squared_error_swap M f g r : wfs M f -> wfs M g -> mean_squared_error M f g r = mean_squared_error M g f r.
Proof. intros Wf Wg. unfold mean_squared_error. now rewrite absdiff_swap. Qed.

Lemma miter_swap M f : forall g z, length f = length g -> wfs M f -> wfs M g -> miter M f g z = miter M g f z.
Proof.
  induction f as [|x f IH]; intros [|y g] z L Wf Wg; try discriminate L; auto. injection L as L.
  inversion Wf; inversion Wg; subst. cbn [miter]. rewrite (xor_swap M x y) by auto. now apply IH.
Qed.
Lemma terminal_level_swap f g : terminal_level [f; g] = terminal_level [g; f].
Proof.
  unfold terminal_level. cbn [fold_left].
  assert (H : forall l m, fold_left (fun m b => Nat.max m (list_max0 (support b) + 1)) l m
    = Nat.max m (fold_left (fun m b => Nat.max m (list_max0 (support b) + 1)) l 0%nat)).
  { induction l as [|x l IH]; intro m; cbn [fold_left]; [lia|]. rewrite IH, (IH (Nat.max 0 _)). lia. }
  rewrite (H g), (H f (fold_left _ g _)). lia.
Qed.
Lemma error_rate_swap M f g : length f = length g -> wfs M f -> wfs M g -> error_rate M f g = error_rate M g f.
Proof. intros L Wf Wg. unfold error_rate. now rewrite (miter_swap M f g), (terminal_level_swap f g). Qed.
Lemma error_rate_d_swap count M f g : length f = length g -> wfs M f -> wfs M g -> error_rate_d count M f g = error_rate_d count M g f.
Proof. intros L Wf Wg. unfold error_rate_d. now rewrite (miter_swap M f g), (terminal_level_swap f g). Qed.

Lemma both_support_swap f g : max_support f (max_support g 0) = max_support g (max_support f 0).
Proof.
  unfold max_support.
  assert (H : forall l m, fold_left (fun m b => Nat.max m (support_size b)) l m
    = Nat.max m (fold_left (fun m b => Nat.max m (support_size b)) l 0%nat)).
  { induction l as [|x l IH]; intro m; cbn [fold_left]; [lia|]. rewrite IH, (IH (Nat.max 0 _)). lia. }
  rewrite (H f (fold_left _ g _)), (H g (fold_left _ f _)). lia.
Qed.
Lemma flip_sum_swap M f : forall g s z, length f = length g -> wfs M f -> wfs M g -> flip_sum M f g s z = flip_sum M g f s z.
Proof.
  induction f as [|x f IH]; intros [|y g] s z L Wf Wg; try discriminate L; auto. injection L as L.
  inversion Wf; inversion Wg; subst. cbn [flip_sum]. rewrite (xor_swap M x y) by auto. now apply IH.
Qed.
Lemma flip_sum_d_swap count M f : forall g s z, length f = length g -> wfs M f -> wfs M g ->
  flip_sum_d count M f g s z = flip_sum_d count M g f s z.
Proof.
  induction f as [|x f IH]; intros [|y g] s z L Wf Wg; try discriminate L; auto. injection L as L.
  inversion Wf; inversion Wg; subst. cbn [flip_sum_d]. rewrite (xor_swap M x y) by auto. now apply IH.
Qed.
Lemma average_bit_flip_error_swap M f g : wfs M f -> wfs M g -> average_bit_flip_error M f g = average_bit_flip_error M g f.
Proof.
  intros Wf Wg. unfold average_bit_flip_error. rewrite (Nat.eqb_sym (length g)).
  destruct (Nat.eqb_spec (length f) (length g)) as [L|L]; [|reflexivity].
  now rewrite both_support_swap, flip_sum_swap.
Qed.
Lemma average_bit_flip_error_d_swap count M f g : wfs M f -> wfs M g ->
  average_bit_flip_error_d count M f g = average_bit_flip_error_d count M g f.
Proof.
  intros Wf Wg. unfold average_bit_flip_error_d. rewrite (Nat.eqb_sym (length g)).
  destruct (Nat.eqb_spec (length f) (length g)) as [L|L]; [|reflexivity].
  now rewrite both_support_swap, flip_sum_d_swap.
Qed.
Lemma flip_add_swap M f : forall g z, length f = length g -> wfs M f -> wfs M g -> flip_add M f g z = flip_add M g f z.
Proof.
  induction f as [|x f IH]; intros [|y g] z L Wf Wg; try discriminate L; auto. injection L as L.
  inversion Wf; inversion Wg; subst. cbn [flip_add]. rewrite (xor_swap M x y) by auto. now apply IH.
Qed.
Lemma worst_case_bit_flip_error_swap M f g : wfs M f -> wfs M g -> worst_case_bit_flip_error M f g = worst_case_bit_flip_error M g f.
Proof.
  intros Wf Wg. unfold worst_case_bit_flip_error. rewrite (Nat.eqb_sym (length g)).
  destruct (Nat.eqb_spec (length f) (length g)) as [L|L]; [|reflexivity]. now rewrite flip_add_swap.
Qed.

(** the significant bits that approximate_worst_case_error looks at *)
Definition swapped (p : bdd * bdd) : bdd * bdd := (snd p, fst p).
Lemma combine_swap (f : list bdd) : forall g, combine g f = map swapped (combine f g).
Proof. induction f as [|x f IH]; intros [|y g]; auto. cbn [combine map]. now rewrite IH. Qed.
Lemma awce_loop_swap l : forall n s u v,
  awce_loop (map swapped l) n s v u = let '(u', v', s', e) := awce_loop l n s u v in (v', u', s', e).
Proof.
  induction l as [|[x y] l IH]; intros n s u v; auto. cbn [map swapped fst snd awce_loop]. rewrite map_length.
  replace (bdd_eqb y x) with (bdd_eqb x y)
    by (apply eq_true_iff_eq; rewrite !bdd_eqb_spec; split; congruence).
  destruct ((s =? -1) && negb (bdd_eqb x y)); destruct (_ && _); auto.
Qed.
Lemma awce_loop_wf M l : forall n s u v u' v' s' e, Forall (fun p => wf M (fst p) /\ wf M (snd p)) l -> wfs M u -> wfs M v ->
  awce_loop l n s u v = (u', v', s', e) -> wfs M u' /\ wfs M v'.
Proof.
  induction l as [|[x y] l IH]; intros n s u v u' v' s' e W Wu Wv E; cbn [awce_loop] in E; [injection E as <- <- <- <-; auto|].
  inversion W as [|p l' [Wx Wy] W']; subst. cbn [fst snd] in *.
  destruct (_ && (n <=? _)); [injection E as <- <- <- <-; auto|].
  eapply IH; [exact W'| | |exact E]; apply Forall_app; auto.
Qed.
Lemma vback_wf M f b : wfs M f -> vback f = Ok b -> wf M b.
Proof.
  unfold vback. intros W E. destruct (rev f) as [|x l] eqn:R; [discriminate|]. injection E as <-.
  rewrite Forall_forall in W. apply W, in_rev. rewrite R. now left.
Qed.
Lemma approximate_worst_case_error_swap M f g n r : wfs M f -> wfs M g ->
  approximate_worst_case_error M f g n r = approximate_worst_case_error M g f n r.
Proof.
  intros Wf Wg. unfold approximate_worst_case_error. rewrite (Nat.eqb_sym (length g)).
  destruct (assert_ _) as [[]| | |] eqn:A; auto. cbn [bind].
  rewrite (combine_swap f g), <- map_rev.
  set (l := rev (combine f g)).
  assert (Wl : Forall (fun p => wf M (fst p) /\ wf M (snd p)) l).
  { apply Forall_rev, Forall_forall. intros [x y] I. rewrite Forall_forall in Wf, Wg. split; cbn;
      [apply Wf; eapply in_combine_l; eauto|apply Wg; eapply in_combine_r; eauto]. }
  set (c := match r with BaseTwo => l | TwosComplement => tl l end).
  replace (match r with BaseTwo => map swapped l | TwosComplement => tl (map swapped l) end) with (map swapped c)
    by (unfold c; destruct r; auto; now destruct l).
  assert (Wc : Forall (fun p => wf M (fst p) /\ wf M (snd p)) c).
  { unfold c. destruct r; auto. destruct l; auto. now inversion Wl. }
  rewrite awce_loop_swap. destruct (awce_loop c n (-1) [] []) as [[[u v] s] e] eqn:E.
  destruct (awce_loop_wf M c n (-1) [] [] u v s e Wc) as [Wu Wv]; auto; try constructor.
  destruct (s =? -1); auto. destruct r; cbn [bind].
  - rewrite absdiff_swap by (apply Forall_rev; auto). reflexivity.
  - destruct (vback f) as [b| | |] eqn:Bf; destruct (vback g) as [b'| | |] eqn:Bg; cbn [bind]; auto;
      try (unfold vback in *; destruct (rev f), (rev g); discriminate).
    rewrite absdiff_swap; auto; apply Forall_app; split; try (apply Forall_rev; auto); constructor; auto;
      first [apply (vback_wf M f b); assumption|apply (vback_wf M g b'); assumption].
Qed.
