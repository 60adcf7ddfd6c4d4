(** The average metrics with rounded counts. *)
From Coq Require Import List Bool Arith ZArith QArith Qabs Qround Lia Lqa.
From Verif Require Import Res Cudd CuddFacts Spec SpecFacts SpecFloat Float FloatFacts Helpers HelpersFacts HelpersFacts2 Counting
  Metrics MetricsFacts MetricsFacts2 MetricsFacts4 Operators Examples Minimize Rounded RoundedFacts RoundedFacts2 RoundedAdd RoundedMinimize
  RoundedMinimizeFacts RoundedMinimizeFacts2.
Import ListNotations.
Open Scope nat_scope.

(** ** Roundings to nearest *)
Lemma rounds_keeps p rnd : rounds_to_nearest p rnd -> keeps_floats p rnd.
Proof.
  intros R x F. destruct (R x) as [_ N]. specialize (N x F). setoid_replace (x - x)%Q with 0%Q in N by ring. change (Qabs 0) with 0%Q in N.
  apply Qabs_Qle_condition in N. lra.
Qed.
Lemma rounds_relative p rnd : (1 <= p)%Z -> rounds_to_nearest p rnd -> relative_error (2 ^ (- p)) rnd.
Proof.
  intros P R x. destruct (R x) as [_ N]. destruct (round_float_spec p x P) as [F _]. specialize (N _ F).
  pose proof (round_float_relative p P x) as E. rewrite Qabs_Qminus. rewrite Qabs_Qminus in E. lra.
Qed.
Lemma rounds_float p : (1 <= p)%Z -> rounds_to_nearest p (round_float p).
Proof. intros P x. now apply round_float_spec. Qed.

Definition multiple (j : Z) (x : Q) : Prop := exists z : Z, (x == inject_Z z * 2 ^ j)%Q.
Lemma multiple_int x : multiple 0 x <-> exists z, (x == inject_Z z)%Q.
Proof. unfold multiple. change (2 ^ 0)%Q with 1%Q. split; intros (z & E); exists z; rewrite E; ring. Qed.
Lemma multiple_le j k x : (j <= k)%Z -> multiple k x -> multiple j x.
Proof.
  intros L (z & E). exists (z * 2 ^ (k - j))%Z. rewrite E, inject_Z_mult, <- (p2_inj (k - j)) by lia.
  rewrite <- Qmult_assoc, <- p2_add. replace (k - j + j)%Z with k by lia. reflexivity.
Qed.
Lemma multiple_plus j x y : multiple j x -> multiple j y -> multiple j (x + y).
Proof. intros (z & E) (w & F). exists (z + w)%Z. rewrite E, F, inject_Z_plus. ring. Qed.
Lemma multiple_half j x : multiple j x -> multiple (j - 1) (x * (1 # 2)).
Proof.
  intros (z & E). exists z. rewrite E. pose proof (p2_succ (j - 1)) as S1. replace (j - 1 + 1)%Z with j in S1 by lia. rewrite S1. ring.
Qed.
Section Nearest.
Variable p : Z.
Variable rnd : Q -> Q.
Hypothesis Hp : (1 <= p)%Z.
Hypothesis R : rounds_to_nearest p rnd.
Let near : forall x, nearest_float p x (rnd x).
Proof. intro x. apply R. Qed.
Lemma float_p2 e : float_number p (2 ^ e)%Q.
Proof. exists 1%Z, e. split; [|ring]. change (Z.abs 1) with 1%Z. pose proof (Z.pow_pos_nonneg 2 p ltac:(lia) ltac:(lia)). lia. Qed.
Lemma p2_le_inv x y : (2 ^ x <= 2 ^ y)%Q -> (x <= y)%Z.
Proof.
  intro H. destruct (Z.le_gt_cases x y) as [|G]; auto. exfalso. pose proof (p2_mono (y + 1) x ltac:(lia)) as K. rewrite p2_succ in K.
  pose proof (p2_pos y). lra.
Qed.
Lemma rnd_multiple j x : (0 <= x)%Q -> multiple j x -> multiple j (rnd x).
Proof.
  intros X0 (z & E). destruct (Z.le_gt_cases z (2 ^ p)) as [L|L].
  - assert (Z0 : (0 <= z)%Z).
    { rewrite E in X0. destruct (Z.le_gt_cases 0 z); auto. exfalso. pose proof (p2_pos j).
      assert (inject_Z z < 0)%Q by (change 0%Q with (inject_Z 0); rewrite <- Zlt_Qlt; auto). nra. }
    exists z. rewrite <- E. apply (rounds_keeps p rnd R). exists z, j. split; auto. rewrite Z.abs_eq; auto.
  - assert (G : (2 ^ (p + j) <= rnd x)%Q).
    { apply (near_ge p rnd near); [apply float_p2|]. rewrite E, p2_add, (p2_inj p) by lia. apply Qmult_le_compat_r; [rewrite <- Zle_Qle; lia|].
      pose proof (p2_pos j). lra. }
    destruct (R x) as [(m & e & Hm & Er) _]. apply multiple_le with (k := e); [|exists m; exact Er].
    assert (K : (2 ^ (p + j) <= 2 ^ (p + e))%Q).
    { eapply Qle_trans; [exact G|]. rewrite Er, p2_add, (p2_inj p) by lia. apply Qmult_le_compat_r; [rewrite <- Zle_Qle; lia|].
      pose proof (p2_pos e). lra. }
    apply p2_le_inv in K. lia.
Qed.
Lemma countn_fl_range s n : forall c, (0 <= countn_fl rnd (inject_Z (pow2 s)) n c <= inject_Z (pow2 s))%Q.
Proof.
  pose proof (pow2Q_nonneg s) as P. assert (F0 : float_number p 0) by (exists 0%Z, 0%Z; split; [rewrite Z.abs_0; apply Z.pow_nonneg; lia|reflexivity]).
  assert (FS : float_number p (inject_Z (pow2 s))) by (apply (float_eq p _ (2 ^ Z.of_nat s)); [unfold pow2; now rewrite <- p2_inj by lia|exact (float_p2 _)]).
  assert (FH : float_number p (inject_Z (pow2 s) * (1 # 2))).
  { apply (float_eq p _ (2 ^ (Z.of_nat s - 1))); [|exact (float_p2 _)]. unfold pow2. rewrite <- p2_inj by lia.
    pose proof (p2_succ (Z.of_nat s - 1)) as S1. replace (Z.of_nat s - 1 + 1)%Z with (Z.of_nat s) in S1 by lia. rewrite S1. ring. }
  induction n as [|v t IHt d e IHe]; intro c; cbn [countn_fl]; [destruct c; lra|].
  specialize (IHt c). specialize (IHe (xorb c d)). set (x := countn_fl _ _ t _) in *. set (y := countn_fl _ _ e _) in *.
  assert (A : (0 <= rnd (x * (1 # 2)) <= inject_Z (pow2 s) * (1 # 2))%Q) by (split; [apply (near_ge p rnd near)|apply (near_le p rnd near)]; auto; lra).
  assert (B : (0 <= rnd (y * (1 # 2)) <= inject_Z (pow2 s) * (1 # 2))%Q) by (split; [apply (near_ge p rnd near)|apply (near_le p rnd near)]; auto; lra).
  split; [apply (near_ge p rnd near)|apply (near_le p rnd near)]; auto; lra.
Qed.
Lemma countn_fl_multiple s n : forall c, multiple (Z.of_nat s - Z.of_nat (height n)) (countn_fl rnd (inject_Z (pow2 s)) n c).
Proof.
  induction n as [|v t IHt d e IHe]; intro c; cbn [countn_fl height].
  - rewrite Z.sub_0_r. destruct c; [exists 0%Z; reflexivity|exists 1%Z]. unfold pow2. rewrite <- p2_inj by lia. ring.
  - specialize (IHt c). specialize (IHe (xorb c d)). pose proof (countn_fl_range s t c) as Rt. pose proof (countn_fl_range s e (xorb c d)) as Re.
    set (x := countn_fl _ _ t _) in *. set (y := countn_fl _ _ e _) in *.
    assert (F0 : float_number p 0) by (exists 0%Z, 0%Z; split; [rewrite Z.abs_0; apply Z.pow_nonneg; lia|reflexivity]).
    set (h := Nat.max (height t) (height e)).
    apply multiple_half in IHt. apply multiple_half in IHe.
    assert (A : multiple (Z.of_nat s - Z.of_nat (S h)) (rnd (x * (1 # 2)))).
    { apply rnd_multiple; [lra|]. eapply multiple_le; [|exact IHt]. lia. }
    assert (B : multiple (Z.of_nat s - Z.of_nat (S h)) (rnd (y * (1 # 2)))).
    { apply rnd_multiple; [lra|]. eapply multiple_le; [|exact IHe]. lia. }
    apply rnd_multiple; [|now apply multiple_plus].
    assert (0 <= rnd (x * (1 # 2)))%Q by (apply (near_ge p rnd near); auto; lra).
    assert (0 <= rnd (y * (1 # 2)))%Q by (apply (near_ge p rnd near); auto; lra). lra.
Qed.

(** the truncated count *)
Definition tcf (s : nat) (b : bdd) : Z := Z.quot (Qnum (CountMinterm_fl rnd b s)) (Zpos (Qden (CountMinterm_fl rnd b s))).
Lemma tcf_range b s : (0 <= tcf s b <= pow2 s)%Z.
Proof.
  destruct (countn_fl_range s (snd b) (fst b)) as [H1 H2]. destruct (quot_floor _ H1) as [L1 L2]. unfold tcf, CountMinterm_fl. split; [auto|].
  rewrite Zle_Qle. lra.
Qed.
Lemma tcf_le b s : (inject_Z (tcf s b) <= CountMinterm_fl rnd b s)%Q.
Proof. apply quot_floor. apply countn_fl_range. Qed.
Lemma tcf_exact M b s : wf M b -> support_size b <= s -> (inject_Z (tcf s b) == CountMinterm_fl rnd b s)%Q.
Proof.
  intros W L. pose proof (height_support M b W) as H. pose proof (countn_fl_multiple s (snd b) (fst b)) as Mu.
  apply (multiple_le 0) in Mu; [|lia]. apply multiple_int in Mu. destruct Mu as (z & E).
  unfold tcf, CountMinterm_fl. rewrite (quot_int _ z E). symmetry. exact E.
Qed.

(** ** Mean *)
Fixpoint czf (s : nat) (f : list bdd) : Z := match f with [] => 0 | b :: f' => tcf s b + 2 * czf s f' end%Z.
Lemma czf_range s f : (0 <= czf s f <= (pow2 (length f) - 1) * pow2 s)%Z.
Proof.
  induction f as [|b f IH]; cbn [czf length]; [rewrite pow2_0; lia|]. pose proof (tcf_range b s). rewrite pow2_S. lia.
Qed.
Lemma average_sum_fl_mod f : forall i s sum, (0 <= sum < N256)%Z -> average_sum_fl rnd f i s sum = ((sum + pow2 i * czf s f) mod N256)%Z.
Proof.
  induction f as [|b f IH]; intros i s sum Hs; cbn [average_sum_fl czf].
  - rewrite Z.mul_0_r, Z.add_0_r. symmetry. now apply Z.mod_small.
  - unfold to_u256. fold (tcf s b). rewrite shl_mul_mod. rewrite IH by (unfold u256; apply Z.mod_pos_bound; reflexivity).
    unfold u256. fold N256. rewrite Zplus_mod_idemp_r, Zplus_mod_idemp_l. f_equal. rewrite pow2_S. ring.
Qed.
Let u : Q := (2 ^ (- p))%Q.
Let U' : (0 <= u <= 1)%Q.
Proof.
  unfold u. pose proof (p2_pos (- p)). split; [lra|]. change 1%Q with (2 ^ 0)%Q. apply p2_mono. lia.
Qed.
Let RE : relative_error u rnd.
Proof. now apply rounds_relative. Qed.
Lemma meanv_nonneg f : (0 <= meanv f)%Q.
Proof. induction f as [|b f IH]; cbn [meanv]; [lra|]. pose proof (frac_ge_0 b). lra. Qed.
Lemma czf_within M n s f : wfs M f -> below n f -> (forall b, In b f -> support_size b <= s) ->
  within u (2 * n) (inject_Z (czf s f)) (inject_Z (pow2 s) * meanv f).
Proof.
  induction f as [|b f IH]; intros W B H; cbn [czf meanv].
  - apply (within_eq u _ 0 0); [reflexivity|ring|]. apply (within_refl u U'). lra.
  - inversion W; subst. apply below_cons in B. destruct B as [B1 B2].
    apply (within_eq u _ (CountMinterm_fl rnd b s + inject_Z (czf s f) * 2) (CountMinterm b s + inject_Z (pow2 s) * meanv f * 2)).
    + rewrite inject_Z_plus, inject_Z_mult, (tcf_exact M b s); auto; [|apply H; now left]. change (inject_Z 2) with 2%Q. ring.
    + unfold CountMinterm. ring.
    + apply within_plus; [now apply (CountMinterm_fl_within u U' rnd RE M)|]. apply within_scale; [lra|]. apply IH; auto. intros x Hx. apply H. now right.
Qed.
Lemma average_value_fl_within M n f : wfs M f -> below n f -> (forall b, In b f -> length f + support_size b <= 256) ->
  exists q, average_value_fl rnd f = Fin q /\ within u (2 * n) q (average n (fun a => inject_Z (uval f a))).
Proof.
  intros W B H. unfold average_value_fl. cbv zeta. set (s := max_support f 0).
  destruct (max_support_spec f 0) as (_ & L2 & L3). fold s in L2, L3.
  assert (Hs : length f + s <= 256 /\ s < 256 \/ f = []).
  { destruct f as [|x f]; [auto|]. left.
    destruct L3 as [->|(b & Hb & ->)]; [specialize (H x (or_introl eq_refl)); cbn [length] in *; lia|].
    specialize (H b Hb). cbn [length] in *. lia. }
  assert (E : average_sum_fl rnd f 0 s 0 = czf s f /\ shl256 s = pow2 s).
  { rewrite average_sum_fl_mod by (unfold N256; lia). rewrite pow2_0, Z.mul_1_l, Z.add_0_l.
    pose proof (czf_range s f) as RG. destruct Hs as [[Hs Hs']|E].
    - pose proof (pow2_256 _ Hs) as P. rewrite pow2_add in P. pose proof (pow2_pos s). pose proof (pow2_lt s 256 Hs').
      split.
      + apply Z.mod_small. unfold N256. lia.
      + unfold shl256, u256. fold (pow2 s). apply Z.mod_small. unfold pow2 in *. change (Z.of_nat 256) with 256%Z in *. lia.
    - subst f. split; [reflexivity|]. reflexivity. }
  destruct E as [-> ->]. rewrite fdiv_pos by apply pow2_pos. eexists; split; [reflexivity|].
  apply (within_eq u _ (inject_Z (czf s f) / inject_Z (pow2 s)) (inject_Z (pow2 s) * meanv f / inject_Z (pow2 s))); [reflexivity| |].
  - rewrite <- (meanv_average M n f W B). field. apply pow2Q_nz.
  - apply divpow_within; auto. now apply (czf_within M).
Qed.

(** ** Mean of the squares *)
Fixpoint rzf (M : mgr) (s : nat) (x : bdd) (f : list bdd) : Z :=
  match f with [] => 0 | y :: f' => tcf s (band M x y) + 2 * rzf M s x f' end%Z.
Fixpoint szf (M : mgr) (s : nat) (f : list bdd) : Z :=
  match f with [] => 0 | x :: f' => tcf s (band M x x) + 4 * rzf M s x f' + 4 * szf M s f' end%Z.
Lemma rzf_range M s x f : (0 <= rzf M s x f <= (pow2 (length f) - 1) * pow2 s)%Z.
Proof.
  induction f as [|b f IH]; cbn [rzf length]; [rewrite pow2_0; lia|]. pose proof (tcf_range (band M x b) s). rewrite pow2_S. lia.
Qed.
Lemma szf_range M s f : (0 <= szf M s f <= (pow2 (length f) - 1) * (pow2 (length f) - 1) * pow2 s)%Z.
Proof.
  induction f as [|b f IH]; cbn [szf length]; [rewrite pow2_0; lia|]. pose proof (tcf_range (band M b b) s). pose proof (rzf_range M s b f).
  rewrite pow2_S. set (q := pow2 (length f)) in *. set (r := pow2 s) in *.
  replace ((2 * q - 1) * (2 * q - 1) * r)%Z with (r + 4 * ((q - 1) * r) + 4 * ((q - 1) * (q - 1) * r))%Z by ring. lia.
Qed.
Lemma square_row_fl_mod M x i l : forall b s sum, i < b -> (0 <= sum < N256)%Z ->
  square_row_fl rnd M x i l b s sum = ((sum + 2 * pow2 i * pow2 b * rzf M s x l) mod N256)%Z.
Proof.
  induction l as [|y l IH]; intros b s sum Hb Hs; cbn [square_row_fl rzf].
  - rewrite Z.mul_0_r, Z.add_0_r. symmetry. now apply Z.mod_small.
  - replace (i =? b) with false by (symmetry; apply Nat.eqb_neq; lia).
    unfold to_u256. fold (tcf s (band M x y)). cbv zeta. rewrite square_term.
    rewrite IH by (try lia; unfold u256; apply Z.mod_pos_bound; reflexivity).
    unfold u256. fold N256. rewrite Zplus_mod_idemp_r, Zplus_mod_idemp_l. f_equal. rewrite pow2_S. ring.
Qed.
Lemma square_sum_fl_mod M l : forall i s sum, (0 <= sum < N256)%Z ->
  square_sum_fl rnd M l i s sum = ((sum + pow2 i * pow2 i * szf M s l) mod N256)%Z.
Proof.
  induction l as [|x l IH]; intros i s sum Hs; cbn [square_sum_fl szf].
  - rewrite Z.mul_0_r, Z.add_0_r. symmetry. now apply Z.mod_small.
  - cbn [square_row_fl]. rewrite Nat.eqb_refl. unfold to_u256. fold (tcf s (band M x x)). cbv zeta.
    rewrite square_term. rewrite square_row_fl_mod by (try lia; unfold u256; apply Z.mod_pos_bound; reflexivity).
    rewrite IH by (apply Z.mod_pos_bound; reflexivity).
    unfold u256. fold N256. rewrite Zplus_mod_idemp_r, Zplus_mod_idemp_l, <- Z.add_assoc, Zplus_mod_idemp_l. f_equal. rewrite pow2_S. ring.
Qed.
Lemma tcf_upper M n b s : wf M b -> depends_below n b -> (inject_Z (tcf s b) <= qpow (1 + u) (2 * n) * CountMinterm b s)%Q.
Proof. intros W D. eapply Qle_trans; [apply tcf_le|]. apply (CountMinterm_fl_within u U' rnd RE M n b s W D). Qed.
Lemma rzf_le M n s x f : wf M x -> depends_below n x -> wfs M f -> below n f ->
  (inject_Z (rzf M s x f) <= qpow (1 + u) (2 * n) * (inject_Z (pow2 s) * meanr M x f))%Q.
Proof.
  intros Wx Dx. induction f as [|y f IH]; intros W B; cbn [rzf meanr]; [rewrite !Qmult_0_r; apply Qle_refl|].
  inversion W; subst. apply below_cons in B. destruct B as [B1 B2]. specialize (IH H2 B2).
  rewrite inject_Z_plus, inject_Z_mult. change (inject_Z 2) with 2%Q.
  assert (T : (inject_Z (tcf s (band M x y)) <= qpow (1 + u) (2 * n) * CountMinterm (band M x y) s)%Q)
    by (apply (tcf_upper M); auto using depends_below_and with wf).
  unfold CountMinterm in T.
  setoid_replace (qpow (1 + u) (2 * n) * (inject_Z (pow2 s) * (frac (band M x y) + 2 * meanr M x f)))%Q
    with (qpow (1 + u) (2 * n) * (frac (band M x y) * inject_Z (pow2 s)) + 2 * (qpow (1 + u) (2 * n) * (inject_Z (pow2 s) * meanr M x f)))%Q by ring. lra.
Qed.
Lemma szf_le M n s f : wfs M f -> below n f -> (inject_Z (szf M s f) <= qpow (1 + u) (2 * n) * (inject_Z (pow2 s) * means M f))%Q.
Proof.
  induction f as [|x f IH]; intros W B; cbn [szf means]; [rewrite !Qmult_0_r; apply Qle_refl|].
  inversion W; subst. apply below_cons in B. destruct B as [B1 B2]. specialize (IH H2 B2).
  rewrite !inject_Z_plus, !inject_Z_mult. change (inject_Z 4) with 4%Q.
  assert (T : (inject_Z (tcf s (band M x x)) <= qpow (1 + u) (2 * n) * CountMinterm (band M x x) s)%Q)
    by (apply (tcf_upper M); auto using depends_below_and with wf).
  pose proof (rzf_le M n s x f H1 B1 H2 B2) as RL. unfold CountMinterm in T. set (A := qpow (1 + u) (2 * n)) in *.
  setoid_replace (A * (inject_Z (pow2 s) * (frac (band M x x) + 4 * meanr M x f + 4 * means M f)))%Q
    with (A * (frac (band M x x) * inject_Z (pow2 s)) + 4 * (A * (inject_Z (pow2 s) * meanr M x f)) + 4 * (A * (inject_Z (pow2 s) * means M f)))%Q by ring.
  lra.
Qed.
Lemma rzf_within M n s x f : wf M x -> depends_below n x -> wfs M f -> below n f -> (forall y, In y f -> support_size (band M x y) <= s) ->
  within u (2 * n) (inject_Z (rzf M s x f)) (inject_Z (pow2 s) * meanr M x f).
Proof.
  intros Wx Dx. induction f as [|y f IH]; intros W B H; cbn [rzf meanr].
  - apply (within_eq u _ 0 0); [reflexivity|ring|]. apply (within_refl u U'). lra.
  - inversion W; subst. apply below_cons in B. destruct B as [B1 B2].
    apply (within_eq u _ (CountMinterm_fl rnd (band M x y) s + inject_Z (rzf M s x f) * 2) (CountMinterm (band M x y) s + inject_Z (pow2 s) * meanr M x f * 2)).
    + rewrite inject_Z_plus, inject_Z_mult, (tcf_exact M (band M x y) s); auto with wf; [|apply H; now left]. change (inject_Z 2) with 2%Q. ring.
    + unfold CountMinterm. ring.
    + apply within_plus; [apply (CountMinterm_fl_within u U' rnd RE M); auto using depends_below_and with wf|].
      apply within_scale; [lra|]. apply IH; auto. intros z Hz. apply H. now right.
Qed.
Lemma szf_within M n s f : wfs M f -> below n f -> (forall x y, In x f -> In y f -> support_size (band M x y) <= s) ->
  within u (2 * n) (inject_Z (szf M s f)) (inject_Z (pow2 s) * means M f).
Proof.
  induction f as [|x f IH]; intros W B H; cbn [szf means].
  - apply (within_eq u _ 0 0); [reflexivity|ring|]. apply (within_refl u U'). lra.
  - inversion W; subst. apply below_cons in B. destruct B as [B1 B2].
    apply (within_eq u _ (CountMinterm_fl rnd (band M x x) s + inject_Z (rzf M s x f) * 4 + inject_Z (szf M s f) * 4)
      (CountMinterm (band M x x) s + inject_Z (pow2 s) * meanr M x f * 4 + inject_Z (pow2 s) * means M f * 4)).
    + rewrite !inject_Z_plus, !inject_Z_mult, (tcf_exact M (band M x x) s); auto with wf; [|apply H; now left]. change (inject_Z 4) with 4%Q. ring.
    + unfold CountMinterm. ring.
    + apply within_plus; [apply within_plus|].
      * apply (CountMinterm_fl_within u U' rnd RE M); auto using depends_below_and with wf.
      * apply within_scale; [lra|]. apply rzf_within; auto. intros y Hy. apply H; [now left|now right].
      * apply within_scale; [lra|]. apply IH; auto. intros y z Hy Hz. apply H; now right.
Qed.
Lemma mean_squared_value_fl_within M n f : wfs M f -> below n f -> (forall b, In b f -> 2 * length f + support_size b <= 256) ->
  exists q, mean_squared_value_fl rnd M f = Fin q
    /\ (0 <= q <= qpow (1 + u) (2 * n) * average n (fun a => inject_Z (uval f a * uval f a)))%Q
    /\ ((exists b, In b f /\ forall i, vars_in f i -> In i (varsn (snd b))) ->
        within u (2 * n) q (average n (fun a => inject_Z (uval f a * uval f a)))).
Proof.
  intros W B H. unfold mean_squared_value_fl. cbv zeta. set (s := max_support f 0).
  destruct (max_support_spec f 0) as (_ & L2 & L3). fold s in L2, L3.
  assert (Hs : length f + length f + s <= 256 /\ s < 256 \/ f = []).
  { destruct f as [|x f]; [auto|]. left.
    destruct L3 as [->|(b & Hb & ->)]; [specialize (H x (or_introl eq_refl)); cbn [length] in *; lia|].
    specialize (H b Hb). cbn [length] in *. lia. }
  pose proof (szf_range M s f) as RG.
  assert (E : square_sum_fl rnd M f 0 s 0 = szf M s f /\ shl256 s = pow2 s).
  { rewrite square_sum_fl_mod by (unfold N256; lia). rewrite pow2_0, !Z.mul_1_l, Z.add_0_l.
    destruct Hs as [[Hs Hs']|E].
    - pose proof (pow2_256 _ Hs) as P. rewrite !pow2_add in P. pose proof (pow2_pos s). pose proof (pow2_pos (length f)). pose proof (pow2_lt s 256 Hs').
      split.
      + apply Z.mod_small. unfold N256. split; [lia|].
        assert ((pow2 (length f) - 1) * (pow2 (length f) - 1) * pow2 s < pow2 (length f) * pow2 (length f) * pow2 s)%Z; [|lia].
        apply Z.mul_lt_mono_pos_r; [lia|]. nia.
      + unfold shl256, u256. fold (pow2 s). apply Z.mod_small. unfold pow2 in *. change (Z.of_nat 256) with 256%Z in *. lia.
    - subst f. split; reflexivity. }
  destruct E as [-> ->]. rewrite fdiv_pos by apply pow2_pos. eexists; split; [reflexivity|].
  pose proof (means_average M n f W B) as MA. split; [split|].
  - apply Qle_shift_div_l; [apply pow2Q_pos|]. rewrite Qmult_0_l. change 0%Q with (inject_Z 0). rewrite <- Zle_Qle. lia.
  - rewrite <- MA. apply Qle_shift_div_r; [apply pow2Q_pos|].
    setoid_replace (qpow (1 + u) (2 * n) * means M f * inject_Z (pow2 s))%Q with (qpow (1 + u) (2 * n) * (inject_Z (pow2 s) * means M f))%Q by ring.
    now apply szf_le.
  - intros (b & Hb & HV).
    apply (within_eq u _ (inject_Z (szf M s f) / inject_Z (pow2 s)) (inject_Z (pow2 s) * means M f / inject_Z (pow2 s))); [reflexivity| |].
    + rewrite <- MA. field. apply pow2Q_nz.
    + apply divpow_within; auto. apply szf_within; auto.
      intros x y Hx Hy. specialize (L2 b Hb). apply Nat.le_trans with (2 := L2). unfold support_size.
      apply NoDup_incl_length; [apply support_nodup|]. intros i Hi. apply support_spec in Hi. apply support_spec, HV.
      rewrite Forall_forall in W. apply (band_vars M) in Hi; auto. destruct Hi; [exists x|exists y]; auto.
Qed.
Lemma ace_fl_spec M n f g r : wfs M f -> wfs M g -> below n f -> below n g -> (r = TwosComplement -> f <> [] /\ g <> []) ->
  Nat.max (length f) (length g) + n < 256 ->
  exists q, average_case_error_fl rnd M f g r = Ok (Fin q) /\ within u (2 * n) q (average n (fun a => inject_Z (wrapped r f g a))).
Proof.
  intros Wf Wg Bf Bg Hr H. unfold average_case_error_fl.
  destruct (absdiff_any M n f g r) as (d & -> & L & W & B & E); auto. cbn [bind].
  destruct (average_value_fl_within M n d W B) as (q & -> & Eq).
  - intros b Hb. unfold below in B. rewrite Forall_forall in W, B. pose proof (support_size_below M n b (W b Hb) (B b Hb)). lia.
  - exists q. split; [auto|]. eapply within_eq; [reflexivity| |exact Eq]. apply average_ext. intro a. now rewrite E.
Qed.
Lemma mse_fl_spec M n f g r : wfs M f -> wfs M g -> below n f -> below n g -> (r = TwosComplement -> f <> [] /\ g <> []) ->
  2 * Nat.max (length f) (length g) + 2 + n <= 256 ->
  exists d q, bdd_absolute_difference M f g r = Ok d /\ mean_squared_error_fl rnd M f g r = Ok (Fin q)
    /\ (0 <= q <= qpow (1 + u) (2 * n) * average n (fun a => inject_Z (wrapped r f g a * wrapped r f g a)))%Q
    /\ ((exists b, In b d /\ forall i, vars_in d i -> In i (varsn (snd b))) ->
        within u (2 * n) q (average n (fun a => inject_Z (wrapped r f g a * wrapped r f g a)))).
Proof.
  intros Wf Wg Bf Bg Hr H. unfold mean_squared_error_fl.
  destruct (absdiff_any M n f g r) as (d & -> & L & W & B & E); auto. cbn [bind].
  destruct (mean_squared_value_fl_within M n d W B) as (q & -> & Hle & Heq).
  - intros b Hb. unfold below in B. rewrite Forall_forall in W, B. pose proof (support_size_below M n b (W b Hb) (B b Hb)). lia.
  - exists d, q. split; [auto|]. split; [auto|].
    assert (X : (average n (fun a => inject_Z (uval d a * uval d a)) == average n (fun a => inject_Z (wrapped r f g a * wrapped r f g a)))%Q)
      by (apply average_ext; intro a; now rewrite E).
    split; [now rewrite <- X|]. intro K. eapply within_eq; [reflexivity|exact X|auto].
Qed.
End Nearest.

(** ** At most 53 variables: no rounding *)
Section Exact.
Variable p : Z.
Variable rnd : Q -> Q.
Hypothesis K : keeps_floats p rnd.
Lemma to_u256_same M n b s : wf M b -> depends_below n b -> (Z.of_nat n <= p)%Z -> to_u256 (CountMinterm_fl rnd b s) = to_u256 (CountMinterm b s).
Proof.
  intros W D L. unfold to_u256. f_equal. apply quot_comp. apply (CountMinterm_fl_exact p rnd K). pose proof (height_below M n b W D). lia.
Qed.
Lemma average_sum_same M n s f : wfs M f -> below n f -> (Z.of_nat n <= p)%Z -> forall i sum, average_sum_fl rnd f i s sum = average_sum f i s sum.
Proof.
  induction f as [|b f IH]; intros W B L i sum; cbn [average_sum_fl average_sum]; [reflexivity|].
  inversion W; subst. apply below_cons in B. destruct B as [B1 B2]. rewrite (to_u256_same M n) by auto. now apply IH.
Qed.
Lemma square_row_same M n s x i l : wf M x -> depends_below n x -> wfs M l -> below n l -> (Z.of_nat n <= p)%Z ->
  forall b sum, square_row_fl rnd M x i l b s sum = square_row M x i l b s sum.
Proof.
  intros Wx Dx. induction l as [|y l IH]; intros W B L b sum; cbn [square_row_fl square_row]; [reflexivity|].
  inversion W; subst. apply below_cons in B. destruct B as [B1 B2]. cbv zeta. rewrite (to_u256_same M n) by (auto using depends_below_and with wf). now apply IH.
Qed.
Lemma square_sum_same M n s l : wfs M l -> below n l -> (Z.of_nat n <= p)%Z ->
  forall i sum, square_sum_fl rnd M l i s sum = square_sum M l i s sum.
Proof.
  induction l as [|x l IH]; intros W B L i sum; cbn [square_sum_fl square_sum]; [reflexivity|].
  inversion W; subst. pose proof B as B'. apply below_cons in B. destruct B as [B1 B2]. rewrite (square_row_same M n) by auto. now apply IH.
Qed.
Lemma averages_exact M n f g r : wfs M f -> wfs M g -> below n f -> below n g -> (r = TwosComplement -> f <> [] /\ g <> []) -> (Z.of_nat n <= p)%Z ->
  average_case_error_fl rnd M f g r = average_case_error M f g r /\ mean_squared_error_fl rnd M f g r = mean_squared_error M f g r.
Proof.
  intros Wf Wg Bf Bg Hr L. unfold average_case_error_fl, average_case_error, mean_squared_error_fl, mean_squared_error.
  destruct (absdiff_any M n f g r) as (d & -> & Ld & W & B & E); auto. cbn [bind].
  unfold average_value_fl, average_value, mean_squared_value_fl, mean_squared_value. cbv zeta.
  now rewrite (average_sum_same M n), (square_sum_same M n) by auto.
Qed.
End Exact.
