(** Facts about the specification vocabulary. *)
From Coq Require Import List Bool Arith ZArith QArith Lia Lqa Setoid Morphisms.
From Verif Require Import Res Cudd CuddFacts Spec.
Import ListNotations.
Open Scope Z_scope.

Lemma pow2_S n : pow2 (S n) = 2 * pow2 n.
Proof. unfold pow2. rewrite Nat2Z.inj_succ, Z.pow_succ_r; lia. Qed.
Lemma pow2_0 : pow2 0 = 1. Proof. reflexivity. Qed.
Lemma pow2_pos n : 0 < pow2 n.
Proof. unfold pow2. apply Z.pow_pos_nonneg; lia. Qed.
Lemma pow2_add m n : pow2 (m + n) = pow2 m * pow2 n.
Proof. unfold pow2. rewrite Nat2Z.inj_add, Z.pow_add_r; lia. Qed.
Lemma pow2_le m n : (m <= n)%nat -> pow2 m <= pow2 n.
Proof. intro H. unfold pow2. apply Z.pow_le_mono_r; lia. Qed.
Lemma pow2_lt m n : (m < n)%nat -> pow2 m < pow2 n.
Proof. intro H. unfold pow2. apply Z.pow_lt_mono_r; lia. Qed.

Lemma b2z_range b : 0 <= Z.b2z b <= 1.
Proof. destruct b; cbn; lia. Qed.

(** ** Unsigned and signed values *)
Lemma uval_range f a : 0 <= uval f a < pow2 (length f).
Proof.
  induction f as [|b f IH]; cbn [uval length].
  - rewrite pow2_0. lia.
  - rewrite pow2_S. pose proof (b2z_range (ev b a)). lia.
Qed.

Lemma uval_app f g a : uval (f ++ g) a = uval f a + pow2 (length f) * uval g a.
Proof.
  induction f as [|b f IH]; cbn [uval length app].
  - rewrite pow2_0. lia.
  - rewrite IH, pow2_S. ring.
Qed.

Lemma uval_ext f a b : (forall i, a i = b i) -> uval f a = uval f b.
Proof.
  intro H. induction f as [|x f IH]; cbn [uval]; auto. now rewrite IH, (ev_ext x a b).
Qed.

Lemma sval_app f b a : sval (f ++ [b]) a = uval f a - pow2 (length f) * Z.b2z (ev b a).
Proof.
  induction f as [|x f IH]; cbn [app length uval].
  - rewrite pow2_0. cbn [sval]. lia.
  - destruct (f ++ [b]) as [|y l] eqn:E.
    + now destruct f.
    + change (Z.b2z (ev x a) + 2 * sval (y :: l) a = Z.b2z (ev x a) + 2 * uval f a - pow2 (S (length f)) * Z.b2z (ev b a)).
      rewrite IH, pow2_S. ring.
Qed.

Lemma sval_ext f a b : (forall i, a i = b i) -> sval f a = sval f b.
Proof.
  intro H. destruct f as [|x f] using rev_ind; auto.
  rewrite !sval_app. now rewrite (uval_ext f a b), (ev_ext x a b).
Qed.

Lemma sval_range f a : f <> [] -> - pow2 (length f - 1) <= sval f a < pow2 (length f - 1).
Proof.
  intro H. destruct f as [|x f] using rev_ind; [congruence|].
  rewrite sval_app, app_length. cbn [length].
  replace (length f + 1 - 1)%nat with (length f) by lia.
  pose proof (uval_range f a). pose proof (pow2_pos (length f)). destruct (ev x a); cbn [Z.b2z]; lia.
Qed.

Lemma sval_uval f a : f <> [] -> (sval f a) mod pow2 (length f) = uval f a.
Proof.
  intro H. destruct f as [|x f] using rev_ind; [congruence|].
  rewrite sval_app, app_length, uval_app. cbn [length uval].
  rewrite Nat.add_1_r, pow2_S. symmetry.
  apply Z.mod_unique with (- Z.b2z (ev x a)).
  - left. pose proof (uval_range f a). pose proof (pow2_pos (length f)). destruct (ev x a); cbn [Z.b2z]; nia.
  - ring.
Qed.

(** ** Sums over all inputs *)
Lemma sumQ_nil : sumQ [] = 0%Q. Proof. reflexivity. Qed.
Lemma sumQ_cons x l : sumQ (x :: l) = (x + sumQ l)%Q. Proof. reflexivity. Qed.

Lemma sumQ_app l l' : (sumQ (l ++ l') == sumQ l + sumQ l')%Q.
Proof.
  induction l as [|x l IH]; cbn [app]; rewrite ?sumQ_nil, ?sumQ_cons; [ring|]. rewrite IH. ring.
Qed.

Definition extF {A} (F : asg -> A) : Prop := forall a b, (forall i, a i = b i) -> F a = F b.
Definition extQ (F : asg -> Q) : Prop := forall a b, (forall i, a i = b i) -> (F a == F b)%Q.

Definition cons_asg (b : bool) (a : asg) : asg := fun i => match i with O => b | S j => a j end.

Lemma sumQ_map_ext {A} (F G : A -> Q) l :
  (forall x, In x l -> (F x == G x)%Q) -> (sumQ (map F l) == sumQ (map G l))%Q.
Proof.
  induction l as [|x l IH]; cbn [map]; rewrite ?sumQ_nil, ?sumQ_cons; intro H; [reflexivity|].
  rewrite IH by (intros; apply H; now right). rewrite (H x) by now left. reflexivity.
Qed.

Lemma sum_inputs_0 F : (sum_inputs 0 F == F (asg_of []))%Q.
Proof. unfold sum_inputs; cbn [all_inputs map]. rewrite sumQ_cons, sumQ_nil. ring. Qed.

Lemma asg_of_cons b l i : asg_of (b :: l) i = cons_asg b (asg_of l) i.
Proof. now destruct i. Qed.

Lemma sum_inputs_S n F : extQ F ->
  (sum_inputs (S n) F == sum_inputs n (fun a => F (cons_asg true a)) + sum_inputs n (fun a => F (cons_asg false a)))%Q.
Proof.
  intro H. unfold sum_inputs; cbn [all_inputs]. rewrite map_app, sumQ_app, !map_map.
  rewrite (sumQ_map_ext (fun x => F (asg_of (true :: x))) (fun l => F (cons_asg true (asg_of l)))).
  2:{ intros l _. apply H. intro i. apply asg_of_cons. }
  rewrite (sumQ_map_ext (fun x => F (asg_of (false :: x))) (fun l => F (cons_asg false (asg_of l)))).
  2:{ intros l _. apply H. intro i. apply asg_of_cons. }
  reflexivity.
Qed.

Lemma sum_inputs_ext n F G : (forall a, (F a == G a)%Q) -> (sum_inputs n F == sum_inputs n G)%Q.
Proof. intro H. unfold sum_inputs. apply sumQ_map_ext. auto. Qed.

Lemma sum_inputs_plus n F G :
  (sum_inputs n (fun a => F a + G a) == sum_inputs n F + sum_inputs n G)%Q.
Proof.
  unfold sum_inputs. induction (all_inputs n) as [|l L IH]; cbn [map]; rewrite ?sumQ_nil, ?sumQ_cons; [reflexivity|]. rewrite IH. ring.
Qed.

Lemma sum_inputs_scale n c F : (sum_inputs n (fun a => c * F a) == c * sum_inputs n F)%Q.
Proof.
  unfold sum_inputs. induction (all_inputs n) as [|l L IH]; cbn [map]; rewrite ?sumQ_nil, ?sumQ_cons; [ring|]. rewrite IH. ring.
Qed.

Lemma sum_inputs_zero n : (sum_inputs n (fun _ => 0) == 0)%Q.
Proof.
  unfold sum_inputs. induction (all_inputs n) as [|l L IH]; cbn [map]; rewrite ?sumQ_nil, ?sumQ_cons; [ring|]. rewrite IH. ring.
Qed.

Lemma sum_inputs_le n F G : (forall a, (F a <= G a)%Q) -> (sum_inputs n F <= sum_inputs n G)%Q.
Proof.
  intro H. unfold sum_inputs. induction (all_inputs n) as [|l L IH]; cbn [map]; rewrite ?sumQ_nil, ?sumQ_cons; [apply Qle_refl|].
  specialize (H (asg_of l)). lra.
Qed.

Lemma all_inputs_length n : Z.of_nat (length (all_inputs n)) = pow2 n.
Proof.
  induction n as [|n IH]; cbn [all_inputs]; [reflexivity|].
  rewrite app_length, !map_length, Nat2Z.inj_add, IH, pow2_S. lia.
Qed.

Lemma sum_inputs_const n c : (sum_inputs n (fun _ => c) == c * inject_Z (pow2 n))%Q.
Proof.
  rewrite <- all_inputs_length. unfold sum_inputs.
  induction (all_inputs n) as [|l L IH]; cbn [map length]; rewrite ?sumQ_nil, ?sumQ_cons; [change (inject_Z (Z.of_nat 0)) with 0%Q; ring|].
  rewrite IH, Nat2Z.inj_succ, <- Z.add_1_r, inject_Z_plus. unfold inject_Z at 3. ring.
Qed.

Lemma pow2Q_pos n : (0 < inject_Z (pow2 n))%Q.
Proof. change 0%Q with (inject_Z 0). rewrite <- Zlt_Qlt. apply pow2_pos. Qed.
Lemma pow2Q_nz n : ~ (inject_Z (pow2 n) == 0)%Q.
Proof. pose proof (pow2Q_pos n). lra. Qed.

Lemma average_eq n F : (average n F == sum_inputs n F / inject_Z (pow2 n))%Q.
Proof. unfold average. now rewrite all_inputs_length. Qed.

#[export] Instance average_proper_aux n :
  Proper (pointwise_relation asg Qeq ==> Qeq) (average n).
Proof. intros F G H. rewrite !average_eq. rewrite (sum_inputs_ext n F G); [reflexivity|exact H]. Qed.

Lemma average_ext n F G : (forall a, (F a == G a)%Q) -> (average n F == average n G)%Q.
Proof. intro H. rewrite !average_eq. rewrite (sum_inputs_ext n F G); [reflexivity|exact H]. Qed.
Lemma average_plus n F G : (average n (fun a => F a + G a) == average n F + average n G)%Q.
Proof. rewrite !average_eq, sum_inputs_plus. field. apply pow2Q_nz. Qed.
Lemma average_scale n c F : (average n (fun a => c * F a) == c * average n F)%Q.
Proof. rewrite !average_eq, sum_inputs_scale. field. apply pow2Q_nz. Qed.
Lemma average_const n c : (average n (fun _ => c) == c)%Q.
Proof. rewrite !average_eq, sum_inputs_const. field. apply pow2Q_nz. Qed.
Lemma average_le n F G : (forall a, (F a <= G a)%Q) -> (average n F <= average n G)%Q.
Proof.
  intro H. rewrite !average_eq. unfold Qdiv. apply Qmult_le_compat_r; [now apply sum_inputs_le|].
  apply Qlt_le_weak, Qinv_lt_0_compat, pow2Q_pos.
Qed.

(** conditioning on one of the variables *)
Lemma sum_inputs_split n v F : extQ F -> (v < n)%nat ->
  (sum_inputs n (fun a => F (upd a v true) + F (upd a v false)) == 2 * sum_inputs n F)%Q.
Proof.
  revert v F. induction n as [|n IH]; intros v F HF Hv; [lia|].
  assert (HG : extQ (fun a => F (upd a v true) + F (upd a v false))%Q).
  { intros a b H.
    rewrite (HF (upd a v true) (upd b v true)) by (intro i; unfold upd; now rewrite H).
    rewrite (HF (upd a v false) (upd b v false)) by (intro i; unfold upd; now rewrite H). reflexivity. }
  rewrite (sum_inputs_S n F HF), (sum_inputs_S n _ HG).
  destruct v as [|v].
  - assert (E : forall c a, (F (upd (cons_asg c a) 0 true) + F (upd (cons_asg c a) 0 false)
              == F (cons_asg true a) + F (cons_asg false a))%Q).
    { intros c a. rewrite (HF (upd (cons_asg c a) 0 true) (cons_asg true a)) by (intros [|i]; reflexivity).
      rewrite (HF (upd (cons_asg c a) 0 false) (cons_asg false a)) by (intros [|i]; reflexivity). reflexivity. }
    rewrite !(sum_inputs_ext n _ _ (E _)), !sum_inputs_plus. ring.
  - assert (E : forall c a, (F (upd (cons_asg c a) (S v) true) + F (upd (cons_asg c a) (S v) false)
       == (fun b => F (cons_asg c b)) (upd a v true) + (fun b => F (cons_asg c b)) (upd a v false))%Q).
    { intros c a. rewrite (HF (upd (cons_asg c a) (S v) true) (cons_asg c (upd a v true))) by (intros [|i]; reflexivity).
      rewrite (HF (upd (cons_asg c a) (S v) false) (cons_asg c (upd a v false))) by (intros [|i]; reflexivity). reflexivity. }
    assert (HE : forall c, extQ (fun b => F (cons_asg c b))).
    { intros c a b H. apply HF. intros [|i]; cbn; auto. }
    rewrite !(sum_inputs_ext n _ _ (E _)).
    rewrite (IH v (fun b => F (cons_asg true b))) by (auto; lia).
    rewrite (IH v (fun b => F (cons_asg false b))) by (auto; lia). ring.
Qed.

Lemma average_split n v F : extQ F -> (v < n)%nat ->
  (average n F == (1#2) * (average n (fun a => F (upd a v true)) + average n (fun a => F (upd a v false))))%Q.
Proof.
  intros HF Hv. pose proof (sum_inputs_split n v F HF Hv) as H. rewrite sum_inputs_plus in H.
  rewrite !average_eq.
  assert (sum_inputs n F == (1#2) * (sum_inputs n (fun a => F (upd a v true)) + sum_inputs n (fun a => F (upd a v false))))%Q
    as -> by lra.
  field. apply pow2Q_nz.
Qed.

(** a nonnegative function with a positive value on the inputs has a positive sum *)
Lemma sum_inputs_nonneg n F : (forall a, (0 <= F a)%Q) -> (0 <= sum_inputs n F)%Q.
Proof. intro H. rewrite <- (sum_inputs_zero n). now apply sum_inputs_le. Qed.

Lemma sum_inputs_ge n F l : (forall a, (0 <= F a)%Q) -> In l (all_inputs n) -> (F (asg_of l) <= sum_inputs n F)%Q.
Proof.
  intros H. unfold sum_inputs. induction (all_inputs n) as [|x L IH]; cbn [map In]; rewrite ?sumQ_cons; [tauto|].
  assert (0 <= sumQ (map (fun l0 => F (asg_of l0)) L))%Q.
  { clear IH. induction L as [|y L IHL]; cbn [map]; rewrite ?sumQ_nil, ?sumQ_cons; [lra|]. specialize (H (asg_of y)). lra. }
  pose proof (H (asg_of x)).
  intros [->|Hl]; [lra|]. specialize (IH Hl). lra.
Qed.

Lemma in_all_inputs n l : length l = n -> In l (all_inputs n).
Proof.
  revert l. induction n as [|n IH]; intros [|b l]; cbn; try discriminate; auto.
  intros [= H]. apply in_or_app. destruct b; [left|right]; apply in_map; auto.
Qed.

(** the first [n] values of an assignment *)
Definition restrict (n : nat) (a : asg) : list bool := map a (seq 0 n).
Lemma restrict_length n a : length (restrict n a) = n.
Proof. unfold restrict. now rewrite map_length, seq_length. Qed.
Lemma restrict_spec n a i : (i < n)%nat -> asg_of (restrict n a) i = a i.
Proof.
  intro H. unfold asg_of, restrict.
  rewrite (nth_indep _ false (a 0%nat)) by (now rewrite map_length, seq_length).
  rewrite map_nth. rewrite seq_nth by auto. reflexivity.
Qed.
Lemma in_restrict n a : In (restrict n a) (all_inputs n).
Proof. apply in_all_inputs, restrict_length. Qed.

Lemma sum_inputs_pos n F a : (forall b, (0 <= F b)%Q) ->
  (forall x y, (forall i, (i < n)%nat -> x i = y i) -> (F x == F y)%Q) ->
  (0 < F a)%Q -> (0 < sum_inputs n F)%Q.
Proof.
  intros H0 Hd Ha. pose proof (sum_inputs_ge n F (restrict n a) H0 (in_restrict n a)) as H.
  rewrite (Hd _ a) in H by (apply restrict_spec). lra.
Qed.

(** ** Density of a BDD *)
Lemma fracn_compl n : forall c, (fracn n (negb c) == 1 - fracn n c)%Q.
Proof.
  induction n as [|v t IHt c' e IHe]; intro c; cbn.
  - destruct c; cbn; ring.
  - rewrite IHt. replace (xorb (negb c) c') with (negb (xorb c c')) by (now destruct c, c').
    rewrite IHe. ring.
Qed.
Lemma frac_not f : (frac (bnot f) == 1 - frac f)%Q.
Proof. apply fracn_compl. Qed.

Lemma b2q_xor_ext c n : extQ (fun a => b2q (xorb c (evn n a))).
Proof. intros a b H. rewrite (evn_ext n a b) by auto. reflexivity. Qed.

Lemma fracn_average M n k c : forall x : node,
  okn M k x -> (forall i, In i (varsn x) -> (i < n)%nat) ->
  (fracn x c == average n (fun a => b2q (xorb c (evn x a))))%Q.
Proof.
  intro x. revert k c. induction x as [|v t IHt c' e IHe]; intros k c Hok Hn; cbn [fracn].
  - cbn [evn]. rewrite average_const. destruct c; reflexivity.
  - destruct (okn_top_notin _ _ _ _ _ _ Hok) as [Nt Ne].
    rewrite (average_split n v) by (try apply b2q_xor_ext; apply Hn; now left).
    cbn [okn] in Hok. destruct Hok as (_ & Ht & He & _).
    rewrite (IHt _ _ Ht) by (intros i Hi; apply Hn; right; apply in_or_app; auto).
    rewrite (IHe _ _ He) by (intros i Hi; apply Hn; right; apply in_or_app; auto).
    rewrite (average_ext n (fun a => b2q (xorb c (evn (Nd v t c' e) (upd a v true)))) (fun a => b2q (xorb c (evn t a)))).
    2:{ intro a. cbn [evn]. rewrite upd_same, evn_upd_notin by auto. reflexivity. }
    rewrite (average_ext n (fun a => b2q (xorb c (evn (Nd v t c' e) (upd a v false)))) (fun a => b2q (xorb (xorb c c') (evn e a)))).
    2:{ intro a. cbn [evn]. rewrite upd_same, evn_upd_notin by auto. now rewrite xorb_assoc. }
    ring.
Qed.

(** ** The support of a well-formed BDD is the set of variables it depends on *)
Lemma bdd_neq_witness M f g : wf M f -> wf M g -> f <> g -> exists a, ev f a <> ev g a.
Proof.
  intros Hf Hg Hne.
  destruct (is_zero (bxor M f g)) eqn:E.
  - exfalso. apply Hne. apply (canonical M); auto. intro a.
    assert (H : is_zero (bxor M f g) = true) by auto.
    rewrite (is_zero_sem M) in H by auto with wf. specialize (H a). rewrite ev_xor in H.
    destruct (ev f a), (ev g a); cbn in H; congruence.
  - apply (is_zero_false M) in E; [|auto with wf]. destruct E as [a Ha]. exists a.
    rewrite ev_xor in Ha. destruct (ev f a), (ev g a); cbn in Ha; congruence.
Qed.

Lemma vars_exact M k n v : okn M k n -> In v (varsn n) ->
  exists a, evn n (upd a v true) <> evn n (upd a v false).
Proof.
  revert k. induction n as [|w t IHt c e IHe]; intros k Hok Hv; [destruct Hv|].
  destruct (okn_top_notin _ _ _ _ _ _ Hok) as [Nt Ne].
  cbn [okn] in Hok. destruct Hok as (_ & Ht & He & Hred). cbn [varsn] in Hv.
  destruct (Nat.eq_dec w v) as [->|Hwv].
  - destruct (bdd_neq_witness M (false, t) (c, e)) as [a Ha].
    + apply okn_weaken with (S (lv M v)); auto; lia.
    + apply okn_weaken with (S (lv M v)); auto; lia.
    + intro Heq; inversion Heq; subst; auto.
    + exists a. cbn [evn]. rewrite !upd_same, !evn_upd_notin by auto.
      unfold ev in Ha; cbn in Ha. destruct (evn t a); auto.
  - destruct Hv as [->|Hv]; [congruence|]. apply in_app_or in Hv.
    assert (U : forall a b i x, i <> v -> upd (upd a i x) v b i = x).
    { intros a b i x Hi. rewrite upd_other by auto. apply upd_same. }
    assert (C : forall n a x b, ~ In w (varsn n) -> evn n (upd (upd a w x) v b) = evn n (upd a v b)).
    { intros m a x b Hm. apply evn_ext. intros i Hi. unfold upd.
      destruct (i =? v)%nat; auto. destruct (i =? w)%nat eqn:E; auto. apply Nat.eqb_eq in E; subst; tauto. }
    destruct Hv as [Hv|Hv].
    + destruct (IHt _ Ht Hv) as [a Ha]. exists (upd a w true). cbn [evn].
      rewrite !U by auto. now rewrite !C by auto.
    + destruct (IHe _ He Hv) as [a Ha]. exists (upd a w false). cbn [evn].
      rewrite !U by auto. rewrite !C by auto. intro H. apply Ha.
      destruct c, (evn e (upd a v true)), (evn e (upd a v false)); cbn in H; congruence.
Qed.

Lemma depends_below_vars M n f : wf M f -> depends_below n f ->
  forall i, In i (varsn (snd f)) -> (i < n)%nat.
Proof.
  intros Hf Hd i Hi. destruct (le_lt_dec n i) as [Hle|]; auto. exfalso.
  destruct (vars_exact M 0 (snd f) i Hf Hi) as [a Ha]. apply Ha.
  assert (H : ev f (upd a i true) = ev f (upd a i false)).
  { apply Hd. intros j Hj. rewrite !upd_other by lia. reflexivity. }
  unfold ev in H. destruct (fst f), (evn (snd f) (upd a i true)), (evn (snd f) (upd a i false)); cbn in H; congruence.
Qed.

Lemma vars_depends_below n f : (forall i, In i (varsn (snd f)) -> (i < n)%nat) -> depends_below n f.
Proof. intros H a b Hab. apply ev_ext_vars. auto. Qed.

Lemma frac_average M n f : wf M f -> depends_below n f ->
  (frac f == average n (fun a => b2q (ev f a)))%Q.
Proof. intros Hf Hd. unfold frac. apply (fracn_average M n 0); auto. now apply (depends_below_vars M). Qed.

Lemma frac_sem M f g : wf M f -> wf M g -> (forall a, ev f a = ev g a) -> frac f = frac g.
Proof. intros Hf Hg H. now rewrite (canonical M f g). Qed.
