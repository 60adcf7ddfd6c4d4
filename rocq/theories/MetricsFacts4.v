(** Proofs about the average case error and the mean squared error. *)
From Coq Require Import List Bool Arith ZArith QArith Qabs Qround Lia Lqa.
From Verif Require Import Res Cudd CuddFacts Spec SpecFacts Helpers HelpersFacts HelpersFacts2 Counting AddFacts CountFacts PathFacts Metrics MetricsFacts MetricsFacts2 MetricsFacts3.
Import ListNotations.
Open Scope nat_scope.

(** ** Minterm counts are integers *)
Lemma remove_length {A} (dec : forall x y : A, {x = y} + {x <> y}) v (l : list A) : NoDup l -> In v l -> length l = S (length (remove dec v l)).
Proof.
  induction l as [|x l IH]; intros N H; [destruct H|]. inversion N as [|? ? Nx Nl]; subst. cbn [remove].
  destruct (dec v x) as [->|Hne].
  - cbn [length]. f_equal. now rewrite notin_remove.
  - destruct H as [->|H]; [congruence|]. cbn [length]. f_equal. auto.
Qed.
Lemma NoDup_remove_v {A} (dec : forall x y : A, {x = y} + {x <> y}) v (l : list A) : NoDup l -> NoDup (remove dec v l).
Proof.
  induction l as [|x l IH]; intro N; cbn [remove]; auto. inversion N; subst. destruct (dec v x); auto.
  constructor; auto. intro H. apply in_remove in H. tauto.
Qed.

Lemma fracn_int M x : forall k c L, okn M k x -> NoDup L -> incl (varsn x) L ->
  exists z, (fracn x c * inject_Z (pow2 (length L)) == inject_Z z)%Q.
Proof.
  induction x as [|v t IHt c' e IHe]; intros k c L Hok N HI; cbn [fracn].
  - destruct c; [exists 0%Z|exists (pow2 (length L))]; ring.
  - destruct (okn_top_notin _ _ _ _ _ _ Hok) as [Nt Ne]. cbn [okn] in Hok. destruct Hok as (_ & Ht & He & _).
    assert (Hv : In v L) by (apply HI; now left).
    assert (I1 : incl (varsn t) (remove Nat.eq_dec v L)).
    { intros i Hi. apply in_in_remove; [congruence|]. apply HI. right. apply in_or_app. auto. }
    assert (I2 : incl (varsn e) (remove Nat.eq_dec v L)).
    { intros i Hi. apply in_in_remove; [congruence|]. apply HI. right. apply in_or_app. auto. }
    pose proof (NoDup_remove_v Nat.eq_dec v L N) as N'.
    destruct (IHt _ c _ Ht N' I1) as [z1 E1]. destruct (IHe _ (xorb c c') _ He N' I2) as [z2 E2].
    exists (z1 + z2)%Z. rewrite (remove_length Nat.eq_dec v L N Hv), pow2_S, inject_Z_mult, inject_Z_plus, <- E1, <- E2.
    change (inject_Z 2) with 2%Q. field.
Qed.

Lemma support_spec f i : In i (support f) <-> In i (varsn (snd f)).
Proof. apply support_in. Qed.
Lemma support_nodup f : NoDup (support f).
Proof. apply sorted_set_nodup. Qed.

Lemma frac_ge_0 f : (0 <= frac f)%Q.
Proof. apply frac_nonneg. Qed.
Lemma frac_le_1 f : (frac f <= 1)%Q.
Proof.
  pose proof (frac_ge_0 (bnot f)) as H. rewrite frac_not in H. lra.
Qed.

Definition tc (s : nat) (b : bdd) : Z := Z.quot (Qnum (CountMinterm b s)) (Zpos (Qden (CountMinterm b s))).

Lemma CountMinterm_range b s : (0 <= CountMinterm b s <= inject_Z (pow2 s))%Q.
Proof.
  unfold CountMinterm. pose proof (frac_ge_0 b). pose proof (frac_le_1 b). pose proof (pow2Q_pos s). split.
  - apply Qmult_le_0_compat; lra.
  - rewrite <- (Qmult_1_l (inject_Z (pow2 s))) at 2. apply Qmult_le_compat_r; lra.
Qed.
Lemma quot_floor q : (0 <= q)%Q -> (0 <= Z.quot (Qnum q) (Zpos (Qden q)))%Z /\ (inject_Z (Z.quot (Qnum q) (Zpos (Qden q))) <= q)%Q.
Proof.
  intro H. assert (H' : (0 <= Qnum q)%Z) by (unfold Qle in H; cbn in H; lia).
  rewrite Z.quot_div_nonneg by lia. split; [apply Z.div_pos; lia|].
  change (Qnum q / Zpos (Qden q))%Z with (Qfloor (Qnum q # Qden q)). destruct q; apply Qfloor_le.
Qed.
Lemma tc_range b s : (0 <= tc s b <= pow2 s)%Z.
Proof.
  destruct (CountMinterm_range b s) as [H1 H2]. destruct (quot_floor _ H1) as [L1 L2]. unfold tc. split; [auto|].
  apply injZ_le. lra.
Qed.
Lemma tc_le b s : (inject_Z (tc s b) <= CountMinterm b s)%Q.
Proof. apply quot_floor, CountMinterm_range. Qed.

Lemma pow2_split m n : m <= n -> (inject_Z (pow2 n) == inject_Z (pow2 m) * inject_Z (pow2 (n - m)))%Q.
Proof. intro H. rewrite <- inject_Z_mult, <- pow2_add. replace (m + (n - m)) with n by lia. reflexivity. Qed.

Lemma tc_exact M b s : wf M b -> support_size b <= s -> (inject_Z (tc s b) == CountMinterm b s)%Q.
Proof.
  intros W H. unfold wf in W.
  destruct (fracn_int M (snd b) 0 (fst b) (support b) W (support_nodup b)) as [z E].
  { intros i Hi. now apply support_spec. }
  assert (E2 : (CountMinterm b s == inject_Z (z * pow2 (s - support_size b)))%Q).
  { unfold CountMinterm. rewrite (pow2_split (support_size b) s H), inject_Z_mult, <- E. unfold support_size, frac. ring. }
  unfold tc. rewrite (quot_int _ _ E2). symmetry. exact E2.
Qed.

(** ** Mean of a vector *)
Definition N256 : Z := (2 ^ 256)%Z.
Fixpoint cz (s : nat) (f : list bdd) : Z := match f with [] => 0 | b :: f' => tc s b + 2 * cz s f' end%Z.
Lemma cz_range s f : (0 <= cz s f <= (pow2 (length f) - 1) * pow2 s)%Z.
Proof.
  induction f as [|b f IH]; cbn [cz length]; [rewrite pow2_0; lia|]. pose proof (tc_range b s). rewrite pow2_S. lia.
Qed.

Lemma shl_mul_mod i x : (u256 (shl256 i * u256 x) = (pow2 i * x) mod N256)%Z.
Proof. unfold u256, shl256, u256, N256. fold (pow2 i). now rewrite <- Zmult_mod. Qed.

Lemma average_sum_mod f : forall i s sum, (0 <= sum < N256)%Z -> average_sum f i s sum = ((sum + pow2 i * cz s f) mod N256)%Z.
Proof.
  induction f as [|b f IH]; intros i s sum Hs; cbn [average_sum cz].
  - rewrite Z.mul_0_r, Z.add_0_r. symmetry. now apply Z.mod_small.
  - unfold to_u256. fold (tc s b). rewrite shl_mul_mod. rewrite IH by (unfold u256; apply Z.mod_pos_bound; reflexivity).
    unfold u256. fold N256. rewrite Zplus_mod_idemp_r, Zplus_mod_idemp_l. f_equal. rewrite pow2_S. ring.
Qed.

Fixpoint meanv (f : list bdd) : Q := match f with [] => 0 | b :: f' => frac b + 2 * meanv f' end%Q.
Lemma meanv_average M n f : wfs M f -> below n f -> (meanv f == average n (fun a => inject_Z (uval f a)))%Q.
Proof.
  induction f as [|b f IH]; intros W B; cbn [meanv uval].
  - rewrite average_const. reflexivity.
  - inversion W; subst. apply below_cons in B. destruct B as [B1 B2].
    rewrite (IH H2 B2), (frac_average M n b H1 B1), <- average_scale, <- average_plus.
    apply average_ext. intro a. rewrite inject_Z_plus, inject_Z_mult, b2q_b2z. reflexivity.
Qed.
Lemma cz_meanv M s f : wfs M f -> (forall b, In b f -> support_size b <= s) -> (inject_Z (cz s f) == inject_Z (pow2 s) * meanv f)%Q.
Proof.
  induction f as [|b f IH]; intros W H; cbn [cz meanv]; [ring|]. inversion W; subst.
  rewrite inject_Z_plus, inject_Z_mult, IH by (auto; intros; apply H; now right).
  rewrite (tc_exact M b s) by (auto; apply H; now left). unfold CountMinterm. change (inject_Z 2) with 2%Q. ring.
Qed.

Lemma max_support_spec f : forall m, m <= max_support f m /\ (forall b, In b f -> support_size b <= max_support f m)
  /\ (max_support f m = m \/ exists b, In b f /\ max_support f m = support_size b).
Proof.
  unfold max_support. induction f as [|x f IH]; intro m; cbn [fold_left]; [split; [lia|]; split; [intros b []|auto]|].
  destruct (IH (Nat.max m (support_size x))) as (L1 & L2 & L3). set (r := fold_left _ f _) in *.
  split; [lia|]. split.
  - intros b [<-|Hb]; [lia|auto].
  - destruct L3 as [L3|(b & Hb & L3)]; [|right; exists b; split; [now right|auto]].
    destruct (Nat.max_spec m (support_size x)) as [[_ E]|[_ E]]; rewrite L3, E; auto.
    right. exists x. split; [now left|auto].
Qed.

Lemma average_value_full M n f : wfs M f -> below n f -> (forall b, In b f -> length f + support_size b <= 256) ->
  exists q, average_value f = Fin q /\ (q == average n (fun a => inject_Z (uval f a)))%Q.
Proof.
  intros W B H. unfold average_value. set (s := max_support f 0).
  destruct (max_support_spec f 0) as (_ & L2 & L3). fold s in L2, L3.
  assert (Hs : length f + s <= 256 /\ s < 256 \/ f = []).
  { destruct f as [|x f]; [auto|]. left.
    destruct L3 as [->|(b & Hb & ->)]; [specialize (H x (or_introl eq_refl)); cbn [length] in *; lia|].
    specialize (H b Hb). cbn [length] in *. lia. }
  assert (E : average_sum f 0 s 0 = cz s f /\ shl256 s = pow2 s).
  { rewrite average_sum_mod by (unfold N256; lia). rewrite pow2_0, Z.mul_1_l, Z.add_0_l.
    pose proof (cz_range s f) as R. destruct Hs as [[Hs Hs']|E].
    - pose proof (pow2_256 _ Hs) as P. rewrite pow2_add in P. pose proof (pow2_pos s). pose proof (pow2_lt s 256 Hs').
      split.
      + apply Z.mod_small. unfold N256. lia.
      + unfold shl256, u256. fold (pow2 s). apply Z.mod_small. unfold pow2 in *. change (Z.of_nat 256) with 256%Z in *. lia.
    - subst f. split; [reflexivity|]. reflexivity. }
  destruct E as [-> ->]. rewrite fdiv_pos by apply pow2_pos. eexists; split; [reflexivity|].
  rewrite (cz_meanv M s f W L2), <- (meanv_average M n f W B). field. apply pow2Q_nz.
Qed.

(** ** Mean of the squares *)
Fixpoint rz (M : mgr) (s : nat) (x : bdd) (f : list bdd) : Z :=
  match f with [] => 0 | y :: f' => tc s (band M x y) + 2 * rz M s x f' end%Z.
Fixpoint sz (M : mgr) (s : nat) (f : list bdd) : Z :=
  match f with [] => 0 | x :: f' => tc s (band M x x) + 4 * rz M s x f' + 4 * sz M s f' end%Z.
Lemma rz_range M s x f : (0 <= rz M s x f <= (pow2 (length f) - 1) * pow2 s)%Z.
Proof.
  induction f as [|b f IH]; cbn [rz length]; [rewrite pow2_0; lia|]. pose proof (tc_range (band M x b) s). rewrite pow2_S. lia.
Qed.
Lemma sz_range M s f : (0 <= sz M s f <= (pow2 (length f) - 1) * (pow2 (length f) - 1) * pow2 s)%Z.
Proof.
  induction f as [|b f IH]; cbn [sz length]; [rewrite pow2_0; lia|]. pose proof (tc_range (band M b b) s). pose proof (rz_range M s b f).
  rewrite pow2_S. set (p := pow2 (length f)) in *. set (q := pow2 s) in *.
  replace ((2 * p - 1) * (2 * p - 1) * q)%Z with (q + 4 * ((p - 1) * q) + 4 * ((p - 1) * (p - 1) * q))%Z by ring. lia.
Qed.

Lemma square_term i b t d : u256 (u256 (u256 (shl256 i * shl256 b) * u256 t) * d) = ((pow2 i * pow2 b * t * d) mod N256)%Z.
Proof.
  unfold u256, shl256, u256. fold N256 (pow2 i) (pow2 b).
  rewrite <- (Zmult_mod (pow2 i) (pow2 b)), <- (Zmult_mod (pow2 i * pow2 b) t), Zmult_mod_idemp_l. reflexivity.
Qed.

Lemma square_row_mod M x i l : forall b s sum, i < b -> (0 <= sum < N256)%Z ->
  square_row M x i l b s sum = ((sum + 2 * pow2 i * pow2 b * rz M s x l) mod N256)%Z.
Proof.
  induction l as [|y l IH]; intros b s sum Hb Hs; cbn [square_row rz].
  - rewrite Z.mul_0_r, Z.add_0_r. symmetry. now apply Z.mod_small.
  - replace (i =? b) with false by (symmetry; apply Nat.eqb_neq; lia).
    unfold to_u256. fold (tc s (band M x y)). rewrite square_term.
    rewrite IH by (try lia; unfold u256; apply Z.mod_pos_bound; reflexivity).
    unfold u256. fold N256. rewrite Zplus_mod_idemp_r, Zplus_mod_idemp_l. f_equal. rewrite pow2_S. ring.
Qed.
Lemma square_sum_mod M l : forall i s sum, (0 <= sum < N256)%Z ->
  square_sum M l i s sum = ((sum + pow2 i * pow2 i * sz M s l) mod N256)%Z.
Proof.
  induction l as [|x l IH]; intros i s sum Hs; cbn [square_sum sz].
  - rewrite Z.mul_0_r, Z.add_0_r. symmetry. now apply Z.mod_small.
  - cbn [square_row]. rewrite Nat.eqb_refl. unfold to_u256. fold (tc s (band M x x)).
    rewrite square_term. rewrite square_row_mod by (try lia; unfold u256; apply Z.mod_pos_bound; reflexivity).
    rewrite IH by (apply Z.mod_pos_bound; reflexivity).
    unfold u256. fold N256. rewrite Zplus_mod_idemp_r, Zplus_mod_idemp_l, <- Z.add_assoc, Zplus_mod_idemp_l. f_equal. rewrite pow2_S. ring.
Qed.

Fixpoint meanr (M : mgr) (x : bdd) (f : list bdd) : Q :=
  match f with [] => 0 | y :: f' => frac (band M x y) + 2 * meanr M x f' end%Q.
Fixpoint means (M : mgr) (f : list bdd) : Q :=
  match f with [] => 0 | x :: f' => frac (band M x x) + 4 * meanr M x f' + 4 * means M f' end%Q.
Lemma depends_below_and M n x y : depends_below n x -> depends_below n y -> depends_below n (band M x y).
Proof. intros Hx Hy a b H. rewrite !ev_and, (Hx a b H), (Hy a b H). reflexivity. Qed.
Lemma meanr_average M n x f : wf M x -> depends_below n x -> wfs M f -> below n f ->
  (meanr M x f == average n (fun a => b2q (ev x a) * inject_Z (uval f a)))%Q.
Proof.
  intros Wx Bx. induction f as [|b f IH]; intros W B; cbn [meanr uval].
  - rewrite (average_ext n _ (fun _ => 0%Q)) by (intro; ring). now rewrite average_const.
  - inversion W; subst. apply below_cons in B. destruct B as [B1 B2].
    rewrite (IH H2 B2), (frac_average M n (band M x b)) by (auto using depends_below_and with wf).
    rewrite <- average_scale, <- average_plus. apply average_ext. intro a.
    rewrite ev_and, inject_Z_plus, inject_Z_mult, <- b2q_b2z. change (inject_Z 2) with 2%Q.
    destruct (ev x a), (ev b a); cbn [andb b2q]; ring.
Qed.
Lemma means_average M n f : wfs M f -> below n f -> (means M f == average n (fun a => inject_Z (uval f a * uval f a)))%Q.
Proof.
  induction f as [|b f IH]; intros W B; cbn [means uval].
  - rewrite average_const. reflexivity.
  - inversion W; subst. apply below_cons in B. destruct B as [B1 B2].
    rewrite (IH H2 B2), (meanr_average M n b f), (frac_average M n (band M b b)) by (auto using depends_below_and with wf).
    rewrite <- !average_scale, <- !average_plus. apply average_ext. intro a.
    rewrite ev_and. rewrite !inject_Z_mult, !inject_Z_plus, !inject_Z_mult, <- b2q_b2z. change (inject_Z 2) with 2%Q.
    destruct (ev b a); cbn [andb b2q]; ring.
Qed.

Lemma rz_le M s x f : (inject_Z (rz M s x f) <= inject_Z (pow2 s) * meanr M x f)%Q.
Proof.
  induction f as [|y f IH]; cbn [rz meanr]; [rewrite Qmult_0_r; apply Qle_refl|].
  rewrite inject_Z_plus, inject_Z_mult. change (inject_Z 2) with 2%Q. pose proof (tc_le (band M x y) s) as H.
  unfold CountMinterm in H. rewrite Qmult_plus_distr_r.
  setoid_replace (inject_Z (pow2 s) * (2 * meanr M x f))%Q with (2 * (inject_Z (pow2 s) * meanr M x f))%Q by ring.
  setoid_replace (frac (band M x y) * inject_Z (pow2 s))%Q with (inject_Z (pow2 s) * frac (band M x y))%Q in H by ring. lra.
Qed.
Lemma sz_le M s f : (inject_Z (sz M s f) <= inject_Z (pow2 s) * means M f)%Q.
Proof.
  induction f as [|y f IH]; cbn [sz means]; [rewrite Qmult_0_r; apply Qle_refl|].
  rewrite !inject_Z_plus, !inject_Z_mult. change (inject_Z 4) with 4%Q. pose proof (tc_le (band M y y) s) as H.
  pose proof (rz_le M s y f) as R. unfold CountMinterm in H.
  setoid_replace (inject_Z (pow2 s) * (frac (band M y y) + 4 * meanr M y f + 4 * means M f))%Q
    with (frac (band M y y) * inject_Z (pow2 s) + 4 * (inject_Z (pow2 s) * meanr M y f) + 4 * (inject_Z (pow2 s) * means M f))%Q by ring.
  lra.
Qed.
Lemma rz_exact M s x f : wf M x -> wfs M f -> (forall y, In y f -> support_size (band M x y) <= s) ->
  (inject_Z (rz M s x f) == inject_Z (pow2 s) * meanr M x f)%Q.
Proof.
  intros Wx. induction f as [|y f IH]; intros W H; cbn [rz meanr]; [ring|]. inversion W; subst.
  rewrite inject_Z_plus, inject_Z_mult, IH by (auto; intros; apply H; now right).
  rewrite (tc_exact M (band M x y) s) by (auto with wf; apply H; now left). unfold CountMinterm. change (inject_Z 2) with 2%Q. ring.
Qed.
Lemma sz_exact M s f : wfs M f -> (forall x y, In x f -> In y f -> support_size (band M x y) <= s) ->
  (inject_Z (sz M s f) == inject_Z (pow2 s) * means M f)%Q.
Proof.
  induction f as [|x f IH]; intros W H; cbn [sz means]; [ring|]. inversion W; subst.
  rewrite !inject_Z_plus, !inject_Z_mult, IH by (auto; intros; apply H; now right).
  assert (HR : (inject_Z (rz M s x f) == inject_Z (pow2 s) * meanr M x f)%Q).
  { apply rz_exact; auto. intros y Hy. apply H; [now left|now right]. }
  rewrite HR.
  rewrite (tc_exact M (band M x x) s) by (auto with wf; apply H; now left). unfold CountMinterm. change (inject_Z 4) with 4%Q. ring.
Qed.

(** the support of a conjunction *)
Lemma band_vars M x y i : wf M x -> wf M y -> In i (varsn (snd (band M x y))) -> In i (varsn (snd x)) \/ In i (varsn (snd y)).
Proof.
  intros Wx Wy H. destruct (in_dec Nat.eq_dec i (varsn (snd x))) as [|Nx]; auto.
  destruct (in_dec Nat.eq_dec i (varsn (snd y))) as [|Ny]; auto. exfalso.
  assert (W : wf M (band M x y)) by auto with wf. unfold wf in W.
  destruct (vars_exact M 0 _ i W H) as (a & Ha). apply Ha.
  assert (E : forall b, ev (band M x y) (upd a i b) = ev (band M x y) a).
  { intro b. rewrite !ev_and. unfold ev. rewrite !evn_upd_notin by auto. reflexivity. }
  pose proof (E true) as E1. pose proof (E false) as E2. unfold ev in E1, E2.
  destruct (fst (band M x y)), (evn (snd (band M x y)) (upd a i true)), (evn (snd (band M x y)) (upd a i false)), (evn (snd (band M x y)) a);
    cbn in *; congruence.
Qed.

Lemma mean_squared_value_full M n f : wfs M f -> below n f -> (forall b, In b f -> 2 * length f + support_size b <= 256) ->
  exists q, mean_squared_value M f = Fin q
    /\ (q <= average n (fun a => inject_Z (uval f a * uval f a)))%Q
    /\ ((exists b, In b f /\ forall i, vars_in f i -> In i (varsn (snd b))) ->
        (q == average n (fun a => inject_Z (uval f a * uval f a)))%Q).
Proof.
  intros W B H. unfold mean_squared_value. set (s := max_support f 0).
  destruct (max_support_spec f 0) as (_ & L2 & L3). fold s in L2, L3.
  assert (Hs : length f + length f + s <= 256 /\ s < 256 \/ f = []).
  { destruct f as [|x f]; [auto|]. left.
    destruct L3 as [->|(b & Hb & ->)]; [specialize (H x (or_introl eq_refl)); cbn [length] in *; lia|].
    specialize (H b Hb). cbn [length] in *. lia. }
  assert (E : square_sum M f 0 s 0 = sz M s f /\ shl256 s = pow2 s).
  { rewrite square_sum_mod by (unfold N256; lia). rewrite pow2_0, !Z.mul_1_l, Z.add_0_l.
    pose proof (sz_range M s f) as R. destruct Hs as [[Hs Hs']|E].
    - pose proof (pow2_256 _ Hs) as P. rewrite !pow2_add in P. pose proof (pow2_pos s). pose proof (pow2_pos (length f)). pose proof (pow2_lt s 256 Hs').
      split.
      + apply Z.mod_small. unfold N256. split; [lia|].
        assert ((pow2 (length f) - 1) * (pow2 (length f) - 1) * pow2 s < pow2 (length f) * pow2 (length f) * pow2 s)%Z; [|lia].
        apply Z.mul_lt_mono_pos_r; [lia|]. nia.
      + unfold shl256, u256. fold (pow2 s). apply Z.mod_small. unfold pow2 in *. change (Z.of_nat 256) with 256%Z in *. lia.
    - subst f. split; reflexivity. }
  destruct E as [-> ->]. rewrite fdiv_pos by apply pow2_pos. eexists; split; [reflexivity|].
  rewrite <- (means_average M n f W B). split.
  - apply Qle_shift_div_r; [apply pow2Q_pos|]. rewrite Qmult_comm. apply sz_le.
  - intros (b & Hb & HV). rewrite (sz_exact M s f W).
    + field. apply pow2Q_nz.
    + intros x y Hx Hy. specialize (L2 b Hb). apply Nat.le_trans with (2 := L2). unfold support_size.
      apply NoDup_incl_length; [apply support_nodup|]. intros i Hi. apply support_spec in Hi. apply support_spec, HV.
      rewrite Forall_forall in W. apply (band_vars M) in Hi; auto. destruct Hi; [exists x|exists y]; auto.
Qed.

(** ** Average case error and mean squared error *)
Lemma uval_inj_bits f : forall a b, uval f a = uval f b -> map (fun x => ev x a) f = map (fun x => ev x b) f.
Proof.
  induction f as [|x f IH]; intros a b H; auto. cbn [uval map] in *.
  destruct (ev x a), (ev x b); cbn [Z.b2z] in H; try lia; f_equal; apply IH; lia.
Qed.
Lemma below_of_uval n f : (forall a b, (forall i, i < n -> a i = b i) -> uval f a = uval f b) -> below n f.
Proof.
  intro H. unfold below. apply Forall_forall. intros x Hx a b E. specialize (H a b E). apply uval_inj_bits in H.
  clear E. induction f as [|y f IH]; [destruct Hx|]. cbn [map] in H. injection H as H1 H2. destruct Hx as [->|Hx]; auto.
Qed.
Lemma support_size_below M n b : wf M b -> depends_below n b -> support_size b <= n.
Proof.
  intros W B. unfold support_size. rewrite <- (seq_length n 0). apply NoDup_incl_length; [apply support_nodup|].
  intros i Hi. apply support_spec in Hi. apply in_seq. pose proof (depends_below_vars M n b W B i Hi). lia.
Qed.

Lemma absdiff_any M n f g r : wfs M f -> wfs M g -> below n f -> below n g -> (r = TwosComplement -> f <> [] /\ g <> []) ->
  exists d, bdd_absolute_difference M f g r = Ok d /\ length d <= S (Nat.max (length f) (length g)) /\ wfs M d /\ below n d
    /\ forall a, uval d a = wrapped r f g a.
Proof.
  intros Wf Wg Bf Bg Hr. destruct r.
  - destruct (absdiff_base M f g) as (d & R & L & W & E). exists d. split; [auto|]. split; [lia|]. split; [auto|]. split; [|exact E].
    apply below_of_uval. intros a b H. rewrite !E, (below_uval n f a b), (below_uval n g a b) by auto. reflexivity.
  - destruct (Hr eq_refl) as [Nf Ng]. destruct (absdiff_twos M f g Nf Ng) as (d & R & L & W & E). exists d.
    split; [auto|]. split; [lia|]. split; [auto|]. split; [|exact E].
    apply below_of_uval. intros a b H. rewrite !E, (below_sval n f a b), (below_sval n g a b) by auto. reflexivity.
Qed.

Lemma ace_spec M n f g r : wfs M f -> wfs M g -> below n f -> below n g -> (r = TwosComplement -> f <> [] /\ g <> []) ->
  Nat.max (length f) (length g) + n < 256 ->
  exists q, average_case_error M f g r = Ok (Fin q) /\ (q == average n (fun a => inject_Z (wrapped r f g a)))%Q.
Proof.
  intros Wf Wg Bf Bg Hr H. unfold average_case_error.
  destruct (absdiff_any M n f g r) as (d & -> & L & W & B & E); auto. cbn [bind].
  destruct (average_value_full M n d W B) as (q & -> & Eq).
  - intros b Hb. unfold below in B. rewrite Forall_forall in W, B. pose proof (support_size_below M n b (W b Hb) (B b Hb)). lia.
  - exists q. split; [auto|]. rewrite Eq. apply average_ext. intro a. now rewrite E.
Qed.

Lemma wsum_mod g r : forall sum ps, Forall (fun p => 0 <= snd p)%Z r -> (0 <= sum < N256)%Z -> (0 <= ps < N256)%Z ->
  exists S, weighted_sums g r sum ps = (((sum + S) mod N256)%Z, ((ps + tsum r) mod N256)%Z)
    /\ (inject_Z S == wsum (fun v => inject_Z (g (to_u256 v))) r)%Q
    /\ forall B, (forall v, In v (map fst r) -> 0 <= g (to_u256 v) <= B)%Z -> (0 <= S <= B * tsum r)%Z.
Proof.
  induction r as [|[v c] r IH]; intros sum ps HF Hs Hp; cbn [weighted_sums].
  - exists 0%Z. unfold tsum, wsum. cbn [map fold_right]. rewrite !Z.add_0_r, !Z.mod_small by auto.
    split; [auto|]. split; [reflexivity|]. intros; lia.
  - inversion HF as [|? ? H1 H2]; subst. cbn [snd] in H1.
    destruct (IH (u256 (sum + u256 (g (to_u256 v) * c))) (u256 (ps + c)) H2) as (S & R & E & HB);
      try (unfold u256; apply Z.mod_pos_bound; reflexivity).
    exists (g (to_u256 v) * c + S)%Z. split; [|split].
    + rewrite R. unfold u256. fold N256. rewrite Zplus_mod_idemp_r, !Zplus_mod_idemp_l.
      change (tsum ((v, c) :: r)) with (c + tsum r)%Z. f_equal; f_equal; ring.
    + unfold wsum. cbn [map fst snd]. rewrite sumQ_cons, inject_Z_plus, inject_Z_mult, E. reflexivity.
    + intros B H. change (tsum ((v, c) :: r)) with (c + tsum r)%Z.
      assert (0 <= S <= B * tsum r)%Z by (apply HB; intros; apply H; now right).
      specialize (H v (or_introl eq_refl)). cbn [fst] in H. nia.
Qed.

Lemma ace_add_spec G M n f g r : index_order M -> wfs M f -> wfs M g -> below n f -> below n g -> n <= 64 ->
  (r = TwosComplement -> f <> [] /\ g <> []) ->
  forall B, (0 <= B)%Z -> (B * pow2 n < 2 ^ 256)%Z -> Nat.max (length f) (length g) <= 256 ->
  (forall v, 0 <= v < pow2 (Nat.max (length f) (length g)) -> 0 <= G v <= B)%Z ->
  exists q, bind (absolute_difference_add M f g r) (fun diff => bind (add_terminal_values diff) (fun tv =>
      let '(sum, path_sum) := weighted_sums G tv 0 0 in Ok (fdiv (inject_Z sum) (inject_Z path_sum)))) = Ok (Fin q)
    /\ (q == average n (fun a => inject_Z (G (dist (value r f a) (value r g a)))))%Q.
Proof.
  intros HI Wf Wg Bf Bg Hn Hr B B0 HB Hw HG.
  destruct (absdiff_add_spec M f g r Hr) as (A & -> & HA & VA & EA). cbn [bind].
  destruct (histogram_use64 M A n HI (HA Wf Wg) (absdiff_vars_below M n f g A Wf Wg Bf Bg VA) Hn) as (h & -> & V & F & T & S). cbn [bind].
  assert (EV : forall a, to_u256 (aev A a) = dist (value r f a) (value r g a)).
  { intro a. apply to_u256_int; auto. pose proof (value_dist_lt r f g a Hr). pose proof (pow2_256 _ Hw). lia. }
  destruct (wsum_mod G h 0 0 F ltac:(unfold N256; lia) ltac:(unfold N256; lia)) as (s & -> & E & HS).
  assert (Hs : (0 <= s <= B * tsum h)%Z).
  { apply HS. intros v Hv. apply V in Hv. destruct Hv as (a & <-). rewrite EV. apply HG. now apply value_dist_lt. }
  assert (P : (pow2 n <= 2 ^ 64)%Z) by (change (2 ^ 64)%Z with (pow2 64); apply pow2_le; lia).
  assert (B * tsum h <= B * pow2 n)%Z by (apply Z.mul_le_mono_nonneg_l; lia).
  rewrite !Z.add_0_l, !Z.mod_small by (unfold N256; lia). rewrite fdiv_pos by lia. eexists; split; [reflexivity|].
  rewrite E, S. rewrite (average_ext n _ (fun a => inject_Z (G (dist (value r f a) (value r g a))))).
  - field. apply injZ_nz. lia.
  - intro a. now rewrite EV.
Qed.

Lemma ace_add_full M n f g r : index_order M -> wfs M f -> wfs M g -> below n f -> below n g -> n <= 64 ->
  (r = TwosComplement -> f <> [] /\ g <> []) -> Nat.max (length f) (length g) + n <= 256 ->
  exists q, average_case_error_add M f g r = Ok (Fin q)
    /\ (q == average n (fun a => inject_Z (dist (value r f a) (value r g a))))%Q.
Proof.
  intros HI Wf Wg Bf Bg Hn Hr Hw. set (w := Nat.max (length f) (length g)) in *.
  pose proof (pow2_256 _ Hw) as P. rewrite pow2_add in P. pose proof (pow2_pos w). pose proof (pow2_pos n).
  apply (ace_add_spec (fun v => v) M n f g r HI Wf Wg Bf Bg Hn Hr (pow2 w - 1)); fold w; try lia.
Qed.
Lemma mse_add_64 M n f g r : index_order M -> wfs M f -> wfs M g -> below n f -> below n g -> n <= 64 ->
  (r = TwosComplement -> f <> [] /\ g <> []) -> 2 * Nat.max (length f) (length g) + n <= 256 ->
  exists q, mean_squared_error_add M f g r = Ok (Fin q)
    /\ (q == average n (fun a => inject_Z (dist (value r f a) (value r g a) * dist (value r f a) (value r g a))))%Q.
Proof.
  intros HI Wf Wg Bf Bg Hn Hr Hw. set (w := Nat.max (length f) (length g)) in *.
  pose proof (pow2_256 _ Hw) as P. replace (2 * w + n) with (w + w + n) in P by lia. rewrite !pow2_add in P.
  pose proof (pow2_pos w) as Pw. pose proof (pow2_pos n) as Pn.
  assert (SQ : forall v, (0 <= v < pow2 w)%Z -> u256 (v * v) = (v * v)%Z /\ (0 <= v * v <= (pow2 w - 1) * (pow2 w - 1))%Z).
  { intros v Hv. assert (0 <= v * v <= (pow2 w - 1) * (pow2 w - 1))%Z by nia. split; [|auto].
    apply Z.mod_small. assert (pow2 w * pow2 w * 1 <= pow2 w * pow2 w * pow2 n)%Z by (apply Z.mul_le_mono_nonneg_l; nia). nia. }
  destruct (ace_add_spec (fun v => u256 (v * v)) M n f g r HI Wf Wg Bf Bg Hn Hr ((pow2 w - 1) * (pow2 w - 1))%Z) as (q & R & E).
  - nia.
  - assert ((pow2 w - 1) * (pow2 w - 1) * pow2 n < pow2 w * pow2 w * pow2 n)%Z by (apply Z.mul_lt_mono_pos_r; nia). lia.
  - fold w. lia.
  - fold w. intros v Hv. destruct (SQ v Hv) as [-> ?]. lia.
  - exists q. split; [exact R|]. rewrite E. apply average_ext. intro a. 
    destruct (SQ (dist (value r f a) (value r g a)) (value_dist_lt r f g a Hr)) as [-> _]. reflexivity.
Qed.
Lemma mse_add_full M n f g r : index_order M -> wfs M f -> wfs M g -> below n f -> below n g -> n <= 63 ->
  (r = TwosComplement -> f <> [] /\ g <> []) -> 2 * Nat.max (length f) (length g) + n <= 256 ->
  exists q, mean_squared_error_add M f g r = Ok (Fin q)
    /\ (q == average n (fun a => inject_Z (dist (value r f a) (value r g a) * dist (value r f a) (value r g a))))%Q.
Proof. intros HI Wf Wg Bf Bg Hn. apply mse_add_64; auto. Qed.

Lemma dist_nonneg x y : (0 <= dist x y)%Z.
Proof. unfold dist. lia. Qed.
Lemma dist_zero x y : dist x y = 0%Z <-> x = y.
Proof. unfold dist. lia. Qed.

Lemma ace_base_full M n f g : wfs M f -> wfs M g -> below n f -> below n g ->
  Nat.max (length f) (length g) + n < 256 ->
  exists q q' m, average_case_error M f g BaseTwo = Ok (Fin q)
    /\ (q == average n (fun a => inject_Z (dist (uval f a) (uval g a))))%Q
    /\ ((q == 0)%Q <-> forall a, uval f a = uval g a)
    /\ average_case_error M g f BaseTwo = Ok (Fin q') /\ (q' == q)%Q
    /\ worst_case_error M f g BaseTwo = Ok m /\ (q <= inject_Z m)%Q.
Proof.
  intros Wf Wg Bf Bg H.
  destruct (ace_spec M n f g BaseTwo) as (q & R & E); auto; [discriminate|].
  destruct (ace_spec M n g f BaseTwo) as (q' & R' & E'); auto; [discriminate|lia|].
  destruct (wce_base_spec M f g) as (m & Rm & [_ HM]); auto; [lia|lia|]. cbn [wrapped] in E, E'.
  exists q, q', m. split; [auto|]. split; [auto|]. split.
  { rewrite E, average_zero_iff.
    - split; intros K a; specialize (K a).
      + apply dist_zero. apply inject_Z_inj. exact K.
      + apply dist_zero in K. rewrite K. reflexivity.
    - intros a b Hab. rewrite (below_uval n f a b), (below_uval n g a b) by auto. reflexivity.
    - intro a. change 0%Q with (inject_Z 0). apply injZ_le. apply dist_nonneg. }
  split; [auto|]. split.
  { rewrite E, E'. apply average_ext. intro a. now rewrite dist_sym. }
  split; [auto|]. rewrite E, <- (average_const n (inject_Z m)). apply average_le. intro a. apply injZ_le, HM.
Qed.

Lemma ace_full M n f g : wfs M f -> wfs M g -> below n f -> below n g ->
  Nat.max (length f) (length g) + n < 256 ->
  (exists q q' m, average_case_error M f g BaseTwo = Ok (Fin q)
    /\ (q == average n (fun a => inject_Z (dist (uval f a) (uval g a))))%Q
    /\ ((q == 0)%Q <-> forall a, uval f a = uval g a)
    /\ average_case_error M g f BaseTwo = Ok (Fin q') /\ (q' == q)%Q
    /\ worst_case_error M f g BaseTwo = Ok m /\ (q <= inject_Z m)%Q)
  /\ (index_order M -> n <= 63 -> forall r, (r = TwosComplement -> f <> [] /\ g <> []) ->
      exists q, average_case_error_add M f g r = Ok (Fin q)
        /\ (q == average n (fun a => inject_Z (dist (value r f a) (value r g a))))%Q).
Proof.
  intros Wf Wg Bf Bg H. split; [now apply ace_base_full|]. intros HI Hn r Hr. apply ace_add_full; auto. lia.
Qed.

Lemma mse_spec M n f g r : wfs M f -> wfs M g -> below n f -> below n g -> (r = TwosComplement -> f <> [] /\ g <> []) ->
  2 * Nat.max (length f) (length g) + 2 + n <= 256 ->
  exists d q, bdd_absolute_difference M f g r = Ok d /\ mean_squared_error M f g r = Ok (Fin q)
    /\ (q <= average n (fun a => inject_Z (wrapped r f g a * wrapped r f g a)))%Q
    /\ ((exists b, In b d /\ forall i, vars_in d i -> In i (varsn (snd b))) ->
        (q == average n (fun a => inject_Z (wrapped r f g a * wrapped r f g a)))%Q).
Proof.
  intros Wf Wg Bf Bg Hr H. unfold mean_squared_error.
  destruct (absdiff_any M n f g r) as (d & -> & L & W & B & E); auto. cbn [bind].
  destruct (mean_squared_value_full M n d W B) as (q & -> & Hle & Heq).
  - intros b Hb. unfold below in B. rewrite Forall_forall in W, B. pose proof (support_size_below M n b (W b Hb) (B b Hb)). lia.
  - exists d, q. split; [auto|]. split; [auto|].
    assert (X : (average n (fun a => inject_Z (uval d a * uval d a)) == average n (fun a => inject_Z (wrapped r f g a * wrapped r f g a)))%Q)
      by (apply average_ext; intro a; now rewrite E).
    split; [now rewrite <- X|]. intro K. rewrite <- X. auto.
Qed.
