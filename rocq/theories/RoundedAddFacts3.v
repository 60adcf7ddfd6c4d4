(** Identification of nearby leaves in the relative errors *)
From Coq Require Import List Bool Arith ZArith QArith Qabs Qpower Lia Lqa.
From Verif Require Import Res Cudd CuddFacts Spec SpecFacts SpecFloat Float FloatFacts Helpers HelpersFacts HelpersFacts2 Counting AddFacts
  PathFacts Metrics MetricsFacts MetricsFacts2 MetricsFacts3 MetricsFacts4 RelMetrics RelFacts Rounded RoundedFacts RoundedFacts2 RoundedAdd RoundedAddFacts RoundedAddFacts2.
Import ListNotations.
Open Scope nat_scope.

Lemma unique_const_close hash eps l x : (0 < eps)%Q -> (Qabs (unique_const hash eps l x - x) < eps)%Q.
Proof.
  intro E. induction l as [|y l IH]; cbn [unique_const].
  - setoid_replace (x - x)%Q with 0%Q by ring. exact E.
  - destruct ((hash y =? hash x)%Z && negb (Qle_bool eps (Qabs (y - x))))%bool eqn:B; [|exact IH].
    apply andb_true_iff in B. destruct B as [_ B]. apply negb_true_iff in B.
    apply Qnot_le_lt. intro H. apply Qle_bool_iff in H. congruence.
Qed.

Lemma unique_const_int hash eps l k : (0 < eps <= 1)%Q -> Forall (fun y => exists z, (y == inject_Z z)%Q) l ->
  (unique_const hash eps l (inject_Z k) == inject_Z k)%Q.
Proof.
  intros E H. pose proof (unique_const_close hash eps l (inject_Z k) (proj1 E)) as C.
  assert (I : exists z, (unique_const hash eps l (inject_Z k) == inject_Z z)%Q).
  { clear C. induction H as [|y l Hy Hl IH]; cbn [unique_const]; [exists k; reflexivity|].
    destruct (_ && _)%bool; auto. }
  destruct I as (z & I). rewrite I in C |- *.
  assert (F : (Qabs (inject_Z z - inject_Z k) == inject_Z (Z.abs (z - k)))%Q).
  { unfold Qminus. rewrite <- inject_Z_opp, <- inject_Z_plus. unfold Z.sub. reflexivity. }
  rewrite F in C. assert (A : (inject_Z (Z.abs (z - k)) < inject_Z 1)%Q) by (change (inject_Z 1) with 1%Q; lra).
  rewrite <- Zlt_Qlt in A. replace z with k by lia. reflexivity.
Qed.

Section Merged.
Variables (u : Q) (rnd : Q -> Q) (hash : Q -> Z) (eps : Q) (table : Q -> Q -> list Q).
Hypothesis U : (0 <= u < 1)%Q.
Hypothesis K : keeps_floats 53 rnd.
Hypothesis R : relative_error u rnd.
Hypothesis E : (0 < eps)%Q.

Definition near (x y : Q) : Prop := ((1 - u) * y - eps <= x <= (1 + u) * y + eps)%Q.

Lemma relative_add_merged_spec M n f g r : wfs M f -> wfs M g -> below n f -> below n g ->
  (r = TwosComplement -> f <> [] /\ g <> []) -> length f <= 53 -> length g <= 53 ->
  exists A, relative_add_merged rnd hash eps table M f g r = Ok A /\ aok M 0 A /\ (forall i, In i (avars A) -> i < n)
    /\ forall a, near (aev A a) (rel (value r f a) (value r g a)).
Proof.
  intros Wf Wg Bf Bg Hr Lf Lg. unfold relative_add_merged.
  rewrite (absolute_difference_add_fl_exact 53 rnd K M f g r) by (auto; lia).
  destruct (absdiff_add_spec M f g r Hr) as (A & EA & OA & VA & SA). rewrite EA. cbn [bind].
  destruct (abs_any M n f r Wf Bf (fun e => proj1 (Hr e))) as (fa & Ef & Lfa & Wfa & Bfa & Vf). rewrite Ef. cbn [bind].
  rewrite (forest_to_add_fl_exact 53 rnd K M fa BaseTwo) by (auto; lia).
  destruct (forest_to_add_spec M fa BaseTwo) as (B & EB & OB & VB & SB); [discriminate|]. rewrite EB. cbn [bind].
  eexists. split; [reflexivity|]. split; [|split].
  - apply apply_ok; auto. apply apply_ok; auto using aconst_ok.
  - intros i Hi. apply apply_vars in Hi. destruct Hi as [Hi|Hi].
    + destruct (VA i Hi); [apply (below_vars M n f i)|apply (below_vars M n g i)]; auto.
    + apply apply_vars in Hi. destruct Hi as [Hi|[]]. apply (below_vars M n fa i); auto.
  - intro a.
    assert (H : (aev (amaximum M B (aconst 1)) a == inject_Z (Z.max 1 (Z.abs (value r f a))))%Q).
    { unfold amaximum. rewrite apply_sem. rewrite (qmax_comp _ _ (inject_Z (Z.abs (value r f a))) (inject_Z 1)).
      - rewrite qmax_inject. now rewrite Z.max_comm.
      - rewrite SB. cbn [value]. now rewrite Vf.
      - apply aev_const. }
    assert (D : (aev A a / aev (amaximum M B (aconst 1)) a == rel (value r f a) (value r g a))%Q) by (rewrite SA, H; reflexivity).
    pose proof (apply_sem M (fun p q => unique_const hash eps (table p q) (rnd (p / q)%Q)) A (amaximum M B (aconst 1)) a) as S.
    cbv beta in S. pose proof (unique_const_close hash eps (table (aev A a) (aev (amaximum M B (aconst 1)) a)) (rnd (aev A a / aev (amaximum M B (aconst 1)) a)%Q) E) as C.
    pose proof (R (aev A a / aev (amaximum M B (aconst 1)) a)%Q) as Q. pose proof (rel_nonneg (value r f a) (value r g a)) as P.
    unfold near, adiv_merged. rewrite S. clear S. set (w := unique_const _ _ _ _) in *. set (x := rnd _) in *.
    rewrite D in Q. rewrite (Qabs_pos (rel _ _)) in Q by exact P. apply Qabs_Qle_condition in Q.
    assert (C' : (Qabs (w - x) <= eps)%Q) by lra. apply Qabs_Qle_condition in C'. lra.
Qed.

Lemma wcre_add_merged_spec M n f g r : index_order M -> wfs M f -> wfs M g -> below n f -> below n g -> n <= 63 ->
  (r = TwosComplement -> f <> [] /\ g <> []) -> length f <= 53 -> length g <= 53 ->
  exists q m, wcre_add_merged rnd hash eps table M f g r = Ok q /\ is_maxQ (fun a => rel (value r f a) (value r g a)) m
    /\ ((1 - u) * m - eps <= q <= (1 + u) * m + eps)%Q.
Proof.
  intros HM Wf Wg Bf Bg Hn Hr Lf Lg.
  destruct (wcre_add_spec M n f g r HM Wf Wg Bf Bg Hn Hr) as (m & _ & Hm).
  unfold wcre_add_merged.
  destruct (relative_add_merged_spec M n f g r Wf Wg Bf Bg Hr Lf Lg) as (A & -> & OA & VA & SA). cbn [bind].
  destruct (histogram_use M A n HM OA VA Hn) as (tv & -> & HV & _). cbn [bind].
  eexists. exists m. split; [reflexivity|]. split; [exact Hm|].
  destruct (fold_qmax tv 0%Q) as (H1 & H2 & H3). cbv zeta in *. set (x := fold_left _ tv 0%Q) in *.
  destruct Hm as [(a & Ea) Hu]. unfold near in *. split.
  - specialize (SA a). rewrite Ea in SA. eapply Qle_trans; [apply SA|]. apply H2. apply HV. eauto.
  - assert (M0 : (0 <= m)%Q) by (rewrite <- Ea; apply rel_nonneg).
    destruct H3 as [H3|H3].
    + rewrite H3. nra.
    + apply HV in H3. destruct H3 as (b & <-). specialize (SA b). specialize (Hu b).
      pose proof (rel_nonneg (value r f b) (value r g b)). eapply Qle_trans; [apply SA|]. nra.
Qed.

Lemma acre_add_merged_spec M n f g r : index_order M -> wfs M f -> wfs M g -> below n f -> below n g -> n <= 63 ->
  (r = TwosComplement -> f <> [] /\ g <> []) -> length f <= 53 -> length g <= 53 ->
  exists q, acre_add_merged rnd hash eps table M f g r = Ok (Fin q)
    /\ let m := average n (fun a => rel (value r f a) (value r g a)) in ((1 - u) * m - eps <= q <= (1 + u) * m + eps)%Q.
Proof.
  intros HM Wf Wg Bf Bg Hn Hr Lf Lg. unfold acre_add_merged.
  destruct (relative_add_merged_spec M n f g r Wf Wg Bf Bg Hr Lf Lg) as (A & -> & OA & VA & SA). cbn [bind].
  destruct (histogram_use M A n HM OA VA Hn) as (tv & -> & HV & HP & HT & HS). cbn [bind].
  pose proof (decimal_sums_spec tv 0%Q 0%Z HP) as D. destruct (decimal_sums tv 0 0) as [x y].
  destruct D as (D1 & D2); try lia.
  { assert (2 ^ 63 < 2 ^ 256)%Z by (vm_compute; reflexivity).
    assert (pow2 n <= 2 ^ 63)%Z by (unfold pow2; apply Z.pow_le_mono_r; lia). lia. }
  rewrite Z.add_0_l in D2. subst y. rewrite fdiv_pos by lia. eexists. split; [reflexivity|].
  assert (H : (x / inject_Z (tsum tv) == average n (fun a => aev A a))%Q).
  { rewrite D1, HS, Qplus_0_l. field. apply injZ_nz. lia. }
  cbv zeta. unfold near in SA. set (F := fun a => rel (value r f a) (value r g a)) in *.
  assert (L : (average n (fun a => (1 - u) * F a + - eps) <= average n (fun a => aev A a))%Q).
  { apply average_le. intro a. specialize (SA a). unfold F. lra. }
  assert (G : (average n (fun a => aev A a) <= average n (fun a => (1 + u) * F a + eps))%Q).
  { apply average_le. intro a. specialize (SA a). unfold F. lra. }
  rewrite average_plus, average_scale, average_const in L, G. rewrite H. lra.
Qed.

(** a reported zero *)
Lemma wcre_add_merged_zero M n f g r : index_order M -> wfs M f -> wfs M g -> below n f -> below n g -> n <= 63 ->
  (r = TwosComplement -> f <> [] /\ g <> []) -> length f <= 39 -> length g <= 53 ->
  (u <= 1 # 1000)%Q -> (eps <= 1 # (10 ^ 12))%Q ->
  wcre_add_merged rnd hash eps table M f g r = Ok 0%Q -> forall a, value r f a = value r g a.
Proof.
  intros HM Wf Wg Bf Bg Hn Hr Lf Lg Hu He H0 a.
  assert (Lf' : length f <= 53) by lia.
  destruct (wcre_add_merged_spec M n f g r HM Wf Wg Bf Bg Hn Hr Lf' Lg) as (q & m & Eq & (_ & Hm) & B & _).
  rewrite H0 in Eq. injection Eq as <-. specialize (Hm a).
  destruct (Z.eq_dec (value r f a) (value r g a)) as [|N]; auto. exfalso.
  assert (V : (Z.max 1 (Z.abs (value r f a)) <= 2 ^ 39)%Z).
  { assert (Z.abs (value r f a) <= 2 ^ Z.of_nat (length f))%Z.
    { destruct r; cbn [value].
      - pose proof (uval_range f a). unfold pow2 in *. lia.
      - destruct (Hr eq_refl) as [Nf _]. pose proof (sval_range f a Nf). unfold pow2 in *.
        assert (2 ^ Z.of_nat (length f - 1) <= 2 ^ Z.of_nat (length f))%Z by (apply Z.pow_le_mono_r; lia). lia. }
    assert (2 ^ Z.of_nat (length f) <= 2 ^ 39)%Z by (apply Z.pow_le_mono_r; lia). lia. }
  assert (W : (1 # (2 ^ 39) <= rel (value r f a) (value r g a))%Q).
  { unfold rel. apply Qle_shift_div_l.
    - change 0%Q with (inject_Z 0). rewrite <- Zlt_Qlt. lia.
    - apply Qle_trans with (inject_Z 1).
      + apply Qle_trans with ((1 # (2 ^ 39)) * inject_Z (2 ^ 39))%Q.
        * rewrite Qmult_comm, (Qmult_comm (1 # (2 ^ 39))). apply Qmult_le_compat_r; [|discriminate]. rewrite <- Zle_Qle. exact V.
        * vm_compute. discriminate.
      + rewrite <- Zle_Qle. unfold dist. lia. }
  assert (X : ((1 - u) * (1 # (2 ^ 39)) <= (1 - u) * m)%Q) by (apply Qmult_le_l; lra).
  assert (Y : ((999 # 1000) * (1 # (2 ^ 39)) <= (1 - u) * (1 # (2 ^ 39)))%Q) by (apply Qmult_le_compat_r; [lra|discriminate]).
  assert (Z : ((1 # (10 ^ 12)) < (999 # 1000) * (1 # (2 ^ 39)))%Q) by (vm_compute; reflexivity). lra.
Qed.
End Merged.

(** an error that is not reported *)
Lemma wcre_add_merged_hidden : exists (hash : Q -> Z) (f g : list bdd), let M := id_mgr 1 in
  length f = 41 /\ length g = 41 /\ Forall (wf M) f /\ Forall (wf M) g
  /\ (forall a, (uval g a = uval f a + 1)%Z)
  /\ wcre_add_merged (round_float 53) hash (1 # (10 ^ 12)) (fun _ _ => [0%Q]) M f g BaseTwo = Ok 0%Q
  /\ acre_add_merged (round_float 53) hash (1 # (10 ^ 12)) (fun _ _ => [0%Q]) M f g BaseTwo = Ok (Fin 0%Q).
Proof.
  exists (fun _ => 0%Z), (repeat bzero 40 ++ [bone]), (bone :: repeat bzero 39 ++ [bone]). cbv zeta.
  split; [reflexivity|]. split; [reflexivity|]. split; [repeat constructor|]. split; [repeat constructor|].
  split; [intro a; vm_compute; reflexivity|]. split; vm_compute; reflexivity.
Qed.
