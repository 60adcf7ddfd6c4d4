(** The exact values of the bounds and of the symbolic division *)
From Coq Require Import List Bool Arith ZArith QArith Qround Lia Lqa.
From Verif Require Import Res Cudd CuddFacts Spec SpecFacts SpecBounds Helpers HelpersFacts HelpersFacts2 Counting AddFacts CountFacts PathFacts Metrics MetricsFacts MetricsFacts2 MetricsFacts3 MetricsFacts4 RelMetrics RelFacts RelFacts2 RelFacts3 RelFacts4 RelFacts7.
Import ListNotations.
Open Scope nat_scope.

Lemma log2_top u k : (0 <= u < pow2 k)%Z -> Z.to_nat (Z.log2 (u + pow2 k * 1)) = k.
Proof.
  intro H. rewrite (Z.log2_unique (u + pow2 k * 1) (Z.of_nat k)); [lia|lia|].
  change (2 ^ Z.of_nat k)%Z with (pow2 k). rewrite <- Nat2Z.inj_succ.
  change (2 ^ Z.of_nat (S k))%Z with (pow2 (S k)). rewrite pow2_S. lia.
Qed.

Section Top.
Variable M : mgr.
Variable f : list bdd.
Hypothesis Wf : wfs M f.
Variable den : nat -> Q.
Hypothesis Hden : forall k, (0 < den k)%Q.

Definition over (l : list bdd) (a : asg) : Q := (inject_Z (uval f a) / den (Z.to_nat (Z.log2 (uval (rev l) a))))%Q.

Fixpoint top_loop (l : list bdd) (z : bdd) (m : Q) : Q :=
  match l with
  | [] => m
  | b :: l' => top_loop l' (band M z (bnot b)) (qmax m (inject_Z (get_max_value M (mask M f (band M z b))) / den (length l')))
  end.

Lemma top_loop_spec (Hf : forall a, (uval f a < 2 ^ 256)%Z) l : wfs M l -> forall z m, wf M z -> (0 <= m)%Q ->
  (m <= top_loop l z m)%Q
  /\ (forall a, ev z a = true -> (0 < uval (rev l) a)%Z -> (over l a <= top_loop l z m)%Q)
  /\ ((top_loop l z m == m)%Q \/ exists a, ev z a = true /\ (0 < uval (rev l) a)%Z /\ (over l a == top_loop l z m)%Q).
Proof.
  induction l as [|b l IH]; intros Wl z m Wz Hm; cbn [top_loop].
  - split; [apply Qle_refl|]. split; [cbn; intros; lia|]. left. reflexivity.
  - inversion Wl as [|? ? Wb Wl']; subst.
    assert (Wm : wf M (band M z b)) by (apply wf_and; auto).
    destruct (mask_max M f Wf Hf _ Wm) as ((a0 & A0) & A1). cbn beta in A0, A1.
    set (mv := get_max_value M (mask M f (band M z b))) in *.
    set (m' := qmax m (inject_Z mv / den (length l))).
    destruct (IH Wl' (band M z (bnot b)) m') as (I1 & I2 & I3).
    { apply wf_and; auto using wf_not. }
    { eapply Qle_trans; [apply Hm|apply qmax_l]. }
    assert (R : forall a, (0 <= uval (rev l) a < pow2 (length l))%Z) by (intro a; rewrite <- rev_length; apply uval_range).
    assert (O1 : forall a, ev b a = true -> over (b :: l) a = (inject_Z (uval f a) / den (length l))%Q).
    { intros a Ha. unfold over. rewrite uval_rev_cons, Ha. cbn [Z.b2z]. now rewrite log2_top by apply R. }
    assert (O2 : forall a, ev b a = false -> over (b :: l) a = over l a).
    { intros a Ha. unfold over. rewrite uval_rev_cons, Ha. cbn [Z.b2z]. now rewrite Z.mul_0_r, Z.add_0_r. }
    split; [eapply Qle_trans; [apply qmax_l|apply I1]|]. split.
    + intros a Hz Hu. destruct (ev b a) eqn:Eb.
      * rewrite O1 by auto. eapply Qle_trans; [|apply I1]. eapply Qle_trans; [|apply qmax_r].
        specialize (A1 a). rewrite ev_and, Hz, Eb in A1. cbn [andb] in A1.
        unfold Qdiv. apply Qmult_le_compat_r; [now apply injZ_le|]. apply Qinv_le_0_compat. apply Qlt_le_weak, Hden.
      * rewrite O2 by auto. apply I2.
        -- rewrite ev_and, ev_not, Hz, Eb. reflexivity.
        -- rewrite uval_rev_cons, Eb in Hu. cbn [Z.b2z] in Hu. lia.
    + destruct I3 as [I3|(a & Ha & Hu & Ho)].
      * destruct (ev (band M z b) a0) eqn:E0.
        -- destruct (qmax_cases m (inject_Z mv / den (length l))) as [E|E]; fold m' in E.
           ++ left. rewrite I3, E. reflexivity.
           ++ right. exists a0. rewrite ev_and in E0. apply andb_true_iff in E0. destruct E0 as [Ez Eb]. split; auto. split.
              ** rewrite uval_rev_cons, Eb. cbn [Z.b2z]. specialize (R a0). pose proof (pow2_pos (length l)). lia.
              ** rewrite O1, I3, E, A0 by auto. reflexivity.
        -- left. rewrite I3. unfold m'. rewrite <- A0.
           pose proof (qmax_l m (inject_Z 0 / den (length l))) as Q1.
           destruct (qmax_cases m (inject_Z 0 / den (length l))) as [E|E]; rewrite E in *; [reflexivity|].
           assert (Z0 : (inject_Z 0 / den (length l) == 0)%Q) by (unfold Qdiv; ring). rewrite Z0 in *. lra.
      * right. exists a. rewrite ev_and, ev_not in Ha. apply andb_true_iff in Ha. destruct Ha as [Ez Eb].
        destruct (ev b a) eqn:Eb'; [discriminate|]. split; auto. rewrite O2 by auto. split; auto.
        rewrite uval_rev_cons, Eb'. cbn [Z.b2z]. lia.
Qed.
End Top.

Lemma wcre_loop_top M f l : forall z mn mx,
  wcre_bounds_loop M f l z mn mx
  = (top_loop M f (fun k => pow_minus_one (k + 1)) l z mn, top_loop M f (fun k => inject_Z (pow2 k)) l z mx).
Proof. induction l as [|b l IH]; intros z mn mx; cbn [wcre_bounds_loop top_loop]; [reflexivity|apply IH]. Qed.

Lemma below_den x : (1 <= x)%Z -> inject_Z (pow2 (Z.to_nat (Z.log2 x))) = inject_Z (pow2_below x).
Proof. intro H. unfold pow2_below, pow2. rewrite Z2Nat.id; [reflexivity|]. apply Z.log2_nonneg. Qed.
Lemma ones_den x : (1 <= x)%Z -> pow_minus_one (Z.to_nat (Z.log2 x) + 1) = inject_Z (all_ones x).
Proof.
  intro H. pose proof (Z.log2_nonneg x). unfold pow_minus_one, all_ones, pow2_below.
  replace (2 ^ Z.of_nat (Z.to_nat (Z.log2 x) + 1))%Z with (2 * 2 ^ Z.log2 x)%Z
    by (rewrite Nat2Z.inj_add, Z2Nat.id, Z.pow_add_r by lia; lia).
  destruct (Nat.leb_spec (Z.to_nat (Z.log2 x) + 1) 53), (Z.ltb_spec (Z.log2 x) 53); try reflexivity; lia.
Qed.

Lemma wcre_bounds_exact M n f g r : wfs M f -> wfs M g -> below n f -> below n g -> f <> [] ->
  (r = TwosComplement -> g <> []) -> length f <= 256 -> length g <= 256 ->
  exists lo hi, wcre_bounds M f g r = Ok (lo, hi) /\ is_maxQ (low_rel r f g) lo /\ is_maxQ (high_rel r f g) hi.
Proof.
  intros Wf Wg Bf Bg Hf Hg Lf Lg. unfold wcre_bounds.
  destruct (rel_parts M n f g r Wf Wg Bf Bg Hf Hg) as (d & fa & f_ & Ed & Ea & Em & Ld & La & Lm & Wd & Wa & Wm & Bd & Ba & Bm & V).
  rewrite Ed, Ea. cbn [bind]. rewrite Em. cbn [bind]. unfold maximum_relative_value_bounds.
  assert (Hm : f_ <> []) by (intro E; subst; destruct f; [congruence|discriminate]).
  destruct (bdd_max_one_idem M n f_ Hm Wm Bm) as (m & E & L & W & B & Vm).
  { intro a. destruct (V a) as (_ & _ & ->). lia. }
  rewrite E. cbn [bind]. rewrite wcre_loop_top.
  assert (Hd : forall a, (uval d a < 2 ^ 256)%Z).
  { intro a. destruct (V a) as (-> & _). pose proof (wrapped_range r f g a Hf Hg).
    pose proof (pow2_256 (Nat.max (length f) (length g)) ltac:(lia)). lia. }
  assert (GEN : forall den F, (forall k, 0 < den k)%Q ->
     (forall a, over d den (rev m) a = F a) -> (forall a, 0 <= F a)%Q -> is_maxQ F (top_loop M d den (rev m) bone 0)).
  { intros den F Hden HF Pos.
    destruct (top_loop_spec M d Wd den Hden Hd (rev m) ltac:(apply Forall_rev; auto) bone 0%Q (wf_one M) (Qle_refl 0)) as (T1 & T2 & T3).
    assert (HP : forall a, (0 < uval (rev (rev m)) a)%Z).
    { intro a. rewrite rev_involutive, Vm. destruct (V a) as (_ & _ & ->). lia. }
    assert (T4 : forall a, (F a <= top_loop M d den (rev m) bone 0)%Q).
    { intro a. rewrite <- HF. apply T2; auto. }
    split; auto. destruct T3 as [T3|(a & _ & _ & T3)].
    - exists (fun _ => false). rewrite T3. specialize (T4 (fun _ => false)). rewrite T3 in T4.
      specialize (Pos (fun _ => false)). lra.
    - exists a. rewrite <- HF. exact T3. }
  assert (WP : forall a, (0 <= inject_Z (wrapped r f g a))%Q).
  { intro a. apply injZ_nonneg. apply wrapped_range; auto. }
  eexists. eexists. split; [reflexivity|]. split; apply GEN.
  - intro k. apply pm1_pos. lia.
  - intro a. unfold over, low_rel. rewrite rev_involutive, Vm. destruct (V a) as (-> & _ & ->).
    rewrite ones_den by lia. reflexivity.
  - intro a. unfold low_rel. rewrite <- ones_den by lia. apply le_div_iff; [apply pm1_pos; lia|]. rewrite Qmult_0_l. auto.
  - intro k. apply injZ_pos, pow2_pos.
  - intro a. unfold over, high_rel. rewrite rev_involutive, Vm. destruct (V a) as (-> & _ & ->).
    rewrite below_den by lia. reflexivity.
  - intro a. unfold high_rel. rewrite <- below_den by lia. apply le_div_iff; [apply injZ_pos, pow2_pos|]. rewrite Qmult_0_l. auto.
Qed.

(** ** Averages *)
Section AvgTop.
Variable M : mgr.
Variable n : nat.
Variable f : list bdd.
Hypothesis Wf : wfs M f.
Hypothesis Bf : below n f.
Hypothesis Hf : length f + n <= 256.
Variable den : nat -> Q.

Definition opart (z : bdd) (l : list bdd) (a : asg) : Q :=
  if ev z a then (if (0 <? uval (rev l) a)%Z then over f den l a else 0) else 0.

Fixpoint sum_loop (l : list bdd) (z : bdd) (m : num) : num :=
  match l with
  | [] => m
  | b :: l' => sum_loop l' (band M z (bnot b)) (nplus m (nscale (average_value (mask M f (band M z b))) (den (length l'))))
  end.

Lemma sum_loop_spec l : wfs M l -> below n l -> forall z m, wf M z -> depends_below n z ->
  exists x, sum_loop l z (Fin m) = Fin x /\ (x == m + average n (opart z l))%Q.
Proof.
  induction l as [|b l IH]; intros Wl Bl z m Wz Bz; cbn [sum_loop].
  - exists m. split; auto.
    rewrite (average_ext n (opart z []) (fun _ => 0%Q)) by (intro a; unfold opart; cbn; now destruct (ev z a)).
    rewrite average_const. ring.
  - inversion Wl as [|? ? Wb Wl']; subst. apply below_cons in Bl. destruct Bl as [Bb Bl'].
    destruct (mask_average M n f Wf Bf Hf (band M z b)) as (q & -> & Hq); [apply wf_and; auto|apply depends_below_and; auto|].
    cbn [nscale nplus].
    destruct (IH Wl' Bl' (band M z (bnot b)) (m + q / den (length l))%Q) as (x & E & H).
    { apply wf_and; auto using wf_not. }
    { apply depends_below_and; auto. intros a1 a2 D. rewrite !ev_not. now rewrite (Bb a1 a2 D). }
    exists x. split; [exact E|]. rewrite H, Hq, <- average_mono_scale, <- Qplus_assoc, <- average_plus.
    apply Qplus_comp; [reflexivity|]. apply average_ext. intro a. unfold opart, over. rewrite uval_rev_cons, !ev_and, ev_not.
    assert (R : (0 <= uval (rev l) a < pow2 (length l))%Z) by (rewrite <- rev_length; apply uval_range).
    destruct (ev z a), (ev b a); cbn [andb negb Z.b2z]; try (unfold Qdiv; ring).
    + assert (T : (0 <? uval (rev l) a + pow2 (length l) * 1)%Z = true) by (apply Z.ltb_lt; lia). rewrite T, log2_top by auto. ring.
    + rewrite Z.mul_0_r, Z.add_0_r. destruct (0 <? uval (rev l) a)%Z; unfold Qdiv; ring.
Qed.
End AvgTop.

Lemma acre_loop_top M f l : forall z mn mx,
  acre_bounds_loop M f l z mn mx
  = (sum_loop M f (fun k => pow_minus_one (k + 1)) l z mn, sum_loop M f (fun k => inject_Z (pow2 k)) l z mx).
Proof. induction l as [|b l IH]; intros z mn mx; cbn [acre_bounds_loop sum_loop]; [reflexivity|apply IH]. Qed.

Lemma acre_bounds_exact M n f g r : wfs M f -> wfs M g -> below n f -> below n g -> f <> [] ->
  (r = TwosComplement -> g <> []) -> Nat.max (length f) (length g) + n < 256 ->
  exists lo hi, acre_bounds M f g r = Ok (Fin lo, Fin hi)
    /\ (lo == average n (low_rel r f g))%Q /\ (hi == average n (high_rel r f g))%Q.
Proof.
  intros Wf Wg Bf Bg Hf Hg L256. unfold acre_bounds.
  destruct (rel_parts M n f g r Wf Wg Bf Bg Hf Hg) as (d & fa & m & Ed & Ea & Em & Ld & La & Lm & Wd & Wa & Wm & Bd & Ba & Bm & V).
  rewrite Ed, Ea. cbn [bind]. unfold average_relative_value. rewrite Em. cbn [bind]. rewrite acre_loop_top.
  assert (GEN : forall den F, (forall a, over d den (rev m) a = F a) ->
     exists x, sum_loop M d den (rev m) bone (Fin 0) = Fin x /\ (x == average n F)%Q).
  { intros den F HF.
    destruct (sum_loop_spec M n d Wd Bd ltac:(lia) den (rev m) ltac:(apply Forall_rev; auto) ltac:(apply Forall_rev; auto) bone 0%Q (wf_one M))
      as (x & E & H); [intros a b _; reflexivity|].
    exists x. split; auto. rewrite H, Qplus_0_l. apply average_ext. intro a. unfold opart. rewrite rev_involutive, HF.
    cbn [ev bone fst snd evn xorb]. destruct (V a) as (_ & _ & ->).
    assert (T : (0 <? Z.max 1 (Z.abs (value r f a)))%Z = true) by (apply Z.ltb_lt; lia). rewrite T. reflexivity. }
  destruct (GEN (fun k => pow_minus_one (k + 1)) (low_rel r f g)) as (lo & -> & Hlo).
  { intro a. unfold over, low_rel. rewrite rev_involutive. destruct (V a) as (-> & _ & ->). rewrite ones_den by lia. reflexivity. }
  destruct (GEN (fun k => inject_Z (pow2 k)) (high_rel r f g)) as (hi & -> & Hhi).
  { intro a. unfold over, high_rel. rewrite rev_involutive. destruct (V a) as (-> & _ & ->). rewrite below_den by lia. reflexivity. }
  exists lo, hi. auto.
Qed.

Lemma acre_division_exact M n f g e r : wfs M f -> wfs M g -> below n f -> below n g -> f <> [] ->
  (r = TwosComplement -> g <> []) -> Nat.max (length f) (length g) + e + n + 3 <= 256 ->
  exists q, acre_symbolic_division M f g e r = Ok (Fin q)
    /\ (q == average n (fun a => inject_Z (Qfloor (wrel r f g a * inject_Z (2 ^ Z.of_nat e)))) / inject_Z (2 ^ Z.of_nat e))%Q.
Proof.
  intros Wf Wg Bf Bg Hf Hg L. unfold acre_symbolic_division.
  destruct (divided_spec M n f g e r Wf Wg Bf Bg Hf Hg) as (d & -> & Ld & Wd & Bd & V). cbn [bind].
  destruct (average_value_full M n d Wd Bd) as (q & -> & Hq).
  { intros b Hb. assert (support_size b <= n); [|lia]. apply (support_size_below M n b).
    - rewrite Forall_forall in Wd. auto.
    - unfold below in Bd. rewrite Forall_forall in Bd. auto. }
  cbn [nscale]. eexists. split; [reflexivity|]. rewrite Hq. unfold Qdiv at 1 2. apply Qmult_comp; [|reflexivity].
  apply average_ext. intro a. rewrite V. unfold wrel. set (m := Z.max 1 _). assert (Hm : (0 < m)%Z) by lia. clearbody m.
  assert (E : (inject_Z (wrapped r f g a) / inject_Z m * inject_Z (2 ^ Z.of_nat e) == (wrapped r f g a * 2 ^ Z.of_nat e) # Z.to_pos m)%Q).
  { rewrite (Qmake_Qdiv (wrapped r f g a * 2 ^ Z.of_nat e)), Z2Pos.id by auto. rewrite inject_Z_mult. field.
    pose proof (injZ_pos m Hm). lra. }
  rewrite (Qfloor_comp _ _ E). cbn [Qfloor]. rewrite Z2Pos.id by auto. reflexivity.
Qed.
