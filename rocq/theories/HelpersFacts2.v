(** Proofs about multiplication, comparison, division and evaluation helpers of
    cudd_helpers.cpp. *)
From Coq Require Import List Bool Arith ZArith QArith Qround Lia Lqa.
From Verif Require Import Res Cudd CuddFacts Spec SpecFacts Helpers HelpersFacts.
Import ListNotations.
Open Scope Z_scope.

(** ** Multiplication by constants *)
Fixpoint shifted_sum (fc : list bdd) (bits : list (bool * Z)) (a : asg) : Z :=
  match bits with
  | [] => 0
  | (b, k) :: bits' => (if b then uval (shifted fc k) a else 0) + shifted_sum fc bits' a
  end.

Lemma add_shifted_spec M fc bits : forall r0, length r0 = length fc ->
  exists r, add_shifted M fc bits r0 = Ok r /\ length r = length fc
    /\ (wfs M fc -> wfs M r0 -> wfs M r)
    /\ forall a, uval r a = (uval r0 a + shifted_sum fc bits a) mod pow2 (length fc).
Proof.
  induction bits as [|[b k] bits IH]; intros r0 Hl; cbn [add_shifted shifted_sum].
  - exists r0. repeat split; auto. intro a. rewrite Z.add_0_r, Z.mod_small; auto.
    rewrite <- Hl. apply uval_range.
  - destruct b.
    + rewrite bdd_shift_shifted. cbn [bind].
      destruct (bdd_add_spec M r0 (shifted fc k)) as (r1 & Hr1 & Hl1 & Hw1 & Hv1).
      { rewrite shifted_length. lia. }
      rewrite Hr1. cbn [bind].
      destruct (IH r1) as (r & Hr & Hlr & Hw & Hv); [lia|].
      exists r. repeat split; auto.
      * intros Hf H0. apply Hw; auto. apply Hw1; auto. now apply wfs_shifted.
      * intro a. rewrite Hv, Hv1, Hl. rewrite Zplus_mod_idemp_l. f_equal. lia.
    + cbn [bind]. destruct (IH r0 Hl) as (r & Hr & Hlr & Hw & Hv).
      exists r. repeat split; auto.
Qed.

Lemma pad_to_length f n : length (pad_to f n) = Nat.max (length f) n.
Proof. unfold pad_to. rewrite app_length, repeat_length. lia. Qed.
Lemma pad_to_uval f n a : uval (pad_to f n) a = uval f a.
Proof. unfold pad_to. rewrite uval_app, uval_repeat, ev_zero. lia. Qed.
Lemma pad_to_wf M f n : wfs M f -> wfs M (pad_to f n).
Proof. intro. apply wfs_app; auto. apply wfs_repeat. auto with wf. Qed.

(** sum of the powers of two of the set bits among [lo .. lo+n-1] *)
Fixpoint bitsum (z : Z) (lo n : nat) : Z :=
  match n with
  | O => 0
  | S n' => (if Z.testbit z (Z.of_nat lo) then pow2 lo else 0) + bitsum z (S lo) n'
  end.

Lemma testbit_mod z k : (if Z.testbit z (Z.of_nat k) then pow2 k else 0) = z mod pow2 (S k) - z mod pow2 k.
Proof.
  pose proof (pow2_pos k).
  assert (E : z mod pow2 (S k) = z mod pow2 k + pow2 k * ((z / pow2 k) mod 2)).
  { rewrite pow2_S, Z.mul_comm. rewrite Z.rem_mul_r by lia. reflexivity. }
  rewrite E. rewrite Z.testbit_eqb by lia. unfold pow2 at 1 in E.
  fold (pow2 k). destruct ((z / pow2 k) mod 2 =? 1) eqn:B; [apply Z.eqb_eq in B; rewrite B; lia|].
  apply Z.eqb_neq in B. pose proof (Z.mod_pos_bound (z / pow2 k) 2).
  assert ((z / pow2 k) mod 2 = 0) as -> by lia. lia.
Qed.

Lemma bitsum_spec z lo n : bitsum z lo n = z mod pow2 (lo + n) - z mod pow2 lo.
Proof.
  revert lo. induction n as [|n IH]; intro lo; cbn [bitsum].
  - rewrite Nat.add_0_r. lia.
  - rewrite IH, testbit_mod. replace (S lo + n)%nat with (lo + S n)%nat by lia. lia.
Qed.

Lemma shifted_sum_great fc z a : forall n lo,
  (shifted_sum fc (map (fun i => (Z.testbit z (Z.of_nat i), Z.of_nat i)) (seq lo n)) a) mod pow2 (length fc)
  = (uval fc a * bitsum z lo n) mod pow2 (length fc).
Proof.
  induction n as [|n IH]; intro lo; cbn [seq map shifted_sum bitsum].
  - now rewrite Z.mul_0_r.
  - rewrite Z.mul_add_distr_l. rewrite Zplus_mod, IH. rewrite (Zplus_mod (uval fc a * _)).
    f_equal. f_equal. destruct (Z.testbit z (Z.of_nat lo)); [|now rewrite Z.mul_0_r].
    rewrite uval_shift_left. now rewrite Z.mod_mod by (pose proof (pow2_pos (length fc)); lia).
Qed.

Definition clog2_ok (clog2 : Z -> nat) : Prop :=
  forall z, 0 <= z -> z < pow2 (clog2 z + 2).

Lemma log2_up_ok : clog2_ok (fun z => Z.to_nat (Z.log2_up z)).
Proof.
  intros z Hz. rewrite pow2_add. change (pow2 2) with 4. unfold pow2.
  rewrite Z2Nat.id by apply Z.log2_up_nonneg.
  destruct (Z.leb_spec z 1).
  - pose proof (Z.pow_pos_nonneg 2 (Z.log2_up z)). pose proof (Z.log2_up_nonneg z). lia.
  - pose proof (Z.log2_up_spec z). lia.
Qed.

Lemma multiply_u256_spec M clog2 f z : clog2_ok clog2 -> 0 <= z < 2 ^ 256 ->
  exists r, bdd_multiply_constant_u256 M clog2 f z = Ok r
    /\ length r = (length f + clog2 z + 2)%nat
    /\ (wfs M f -> wfs M r)
    /\ forall a, uval r a = z * uval f a.
Proof.
  intros HL Hz. unfold bdd_multiply_constant_u256.
  rewrite repeat_length. set (n := (length f + (clog2 z + 2))%nat).
  assert (Hfc : length (pad_to f n) = n) by (rewrite pad_to_length; lia).
  destruct (add_shifted_spec M (pad_to f n) (great_bits z) (repeat bzero n)) as (r & Hr & Hl & Hw & Hv).
  { now rewrite repeat_length, Hfc. }
  exists r. split; auto. rewrite Hfc in *. repeat split.
  - unfold n in Hl. lia.
  - intro H. apply Hw; [now apply pad_to_wf|apply wfs_repeat; auto with wf].
  - intro a. rewrite Hv, uval_repeat, ev_zero, Z.add_0_l.
    assert (P256 : pow2 256 = 2 ^ 256) by reflexivity.
    unfold great_bits. pose proof (shifted_sum_great (pad_to f n) z a 256 0) as S. rewrite Hfc in S.
    rewrite S. rewrite bitsum_spec. cbn [plus]. rewrite P256, pow2_0, Z.mod_1_r, pad_to_uval.
    rewrite (Z.mod_small z) by lia. rewrite Z.sub_0_r, Z.mod_small; [lia|].
    unfold n. rewrite pow2_add. pose proof (uval_range f a). specialize (HL z). nia.
Qed.

(** fractional part: the sum of the truncated right shifts *)
Fixpoint fracsum (z F : Z) (e lo n : nat) : Z :=
  match n with
  | O => 0
  | S n' => (if Z.testbit z (Z.of_nat lo) then F / pow2 (e - lo) else 0) + fracsum z F e (S lo) n'
  end.

Lemma shifted_sum_lesser fc z a e : forall n lo, (lo + n = e)%nat ->
  shifted_sum fc (map (fun i => (Z.testbit z (Z.of_nat i), - (Z.of_nat e - Z.of_nat i))) (seq lo n)) a
  = fracsum z (uval fc a) e lo n.
Proof.
  induction n as [|n IH]; intros lo Hlo; cbn [seq map shifted_sum fracsum]; auto.
  rewrite IH by lia. f_equal. destruct (Z.testbit z (Z.of_nat lo)); auto.
  replace (- (Z.of_nat e - Z.of_nat lo)) with (- Z.of_nat (e - lo)) by lia. apply uval_shift_right.
Qed.

(** bounds of the fractional part (times 2^e) *)
Lemma fracsum_bounds z F e : 0 <= F -> forall n lo, (lo + n = e)%nat ->
  F * bitsum z lo n - Z.of_nat n * pow2 e <= pow2 e * fracsum z F e lo n <= F * bitsum z lo n
  /\ 0 <= fracsum z F e lo n.
Proof.
  intro HF. induction n as [|n IH]; intros lo Hlo; cbn [bitsum fracsum]; [lia|].
  destruct (IH (S lo)) as [I1 I2]; [lia|].
  assert (E : pow2 e = pow2 lo * pow2 (e - lo)) by (rewrite <- pow2_add; f_equal; lia).
  pose proof (pow2_pos lo). pose proof (pow2_pos (e - lo)). pose proof (pow2_pos e).
  destruct (Z.testbit z (Z.of_nat lo)).
  - pose proof (Z.mul_div_le F (pow2 (e - lo))). pose proof (Z.mul_succ_div_gt F (pow2 (e - lo))).
    pose proof (Z.div_pos F (pow2 (e - lo))).
    set (q := F / pow2 (e - lo)) in *.
    assert (F * pow2 lo - pow2 e <= pow2 e * q <= F * pow2 lo) by (rewrite E; nia).
    lia.
  - lia.
Qed.

Lemma fracsum_exact z F e : (pow2 e | F) -> forall n lo, (lo + n = e)%nat ->
  pow2 e * fracsum z F e lo n = F * bitsum z lo n.
Proof.
  intros [k ->]. induction n as [|n IH]; intros lo Hlo; cbn [bitsum fracsum]; [lia|].
  specialize (IH (S lo)). destruct (Z.testbit z (Z.of_nat lo)); [|lia].
  assert (E : pow2 e = pow2 lo * pow2 (e - lo)) by (rewrite <- pow2_add; f_equal; lia).
  pose proof (pow2_pos (e - lo)).
  replace (k * pow2 e / pow2 (e - lo)) with (k * pow2 lo); [lia|].
  rewrite E, Z.mul_assoc, Z.div_mul; lia.
Qed.

Definition fracpart (c : Q) (e : nat) : Z :=
  Qfloor ((c - inject_Z (Qfloor c)) * inject_Z (pow2 e)).

Lemma fracpart_range c e : 0 <= fracpart c e < pow2 e.
Proof.
  unfold fracpart. set (x := (c - inject_Z (Qfloor c))%Q).
  assert (H0 : (0 <= x)%Q) by (unfold x; pose proof (Qfloor_le c); lra).
  assert (H1 : (x < 1)%Q).
  { unfold x. pose proof (Qlt_floor c) as H. rewrite inject_Z_plus in H. unfold inject_Z at 2 in H. lra. }
  pose proof (pow2Q_pos e). split.
  - change 0 with (Qfloor 0). apply Qfloor_resp_le. apply Qmult_le_0_compat; lra.
  - rewrite Zlt_Qlt. eapply Qle_lt_trans; [apply Qfloor_le|]. nra.
Qed.

Lemma floor_le_ceiling c : Qfloor c <= Qceiling c.
Proof. rewrite Zle_Qle. apply Qle_floor_ceiling. Qed.

(** the exact value computed by the double version *)
Lemma multiply_double_value M clog2 f c e : clog2_ok clog2 ->
  (1#2 < c)%Q -> (c < inject_Z (2 ^ 256))%Q -> (e < 64)%nat ->
  exists r, bdd_multiply_constant_double M clog2 f c e = Ok r
    /\ length r = (length f + clog2 (Qceiling c) + 2)%nat
    /\ (wfs M f -> wfs M r)
    /\ forall a, uval r a = Qfloor c * uval f a + fracsum (fracpart c e) (uval f a) e 0 e.
Proof.
  intros HL Hc Hc' He. unfold bdd_multiply_constant_double.
  destruct (Qle_bool c (1#2)) eqn:Q1; [apply Qle_bool_iff in Q1; lra|].
  assert (Qle_bool c (inject_Z (2 ^ 256)) = true) as -> by (apply Qle_bool_iff; lra).
  assert (F0 : 0 <= Qfloor c).
  { change 0 with (Qfloor (1#2)). apply Qfloor_resp_le. lra. }
  assert (F1 : Qfloor c < 2 ^ 256).
  { rewrite Zlt_Qlt. eapply Qle_lt_trans; [apply Qfloor_le|]. auto. }
  assert (Qfloor c <? 2 ^ 256 = true) as -> by now apply Z.ltb_lt.
  assert ((e <? 64)%nat = true) as -> by now apply Nat.ltb_lt.
  cbn [assert_ require_]. cbn [bind].
  rewrite repeat_length. set (n := (length f + (clog2 (Qceiling c) + 2))%nat).
  assert (Hfc : length (pad_to f n) = n) by (rewrite pad_to_length; lia).
  destruct (add_shifted_spec M (pad_to f n) (great_bits (Qfloor c)) (repeat bzero n)) as (r1 & Hr1 & Hl1 & Hw1 & Hv1).
  { now rewrite repeat_length, Hfc. }
  rewrite Hr1. cbn [bind].
  fold (fracpart c e).
  destruct (add_shifted_spec M (pad_to f n) (lesser_bits (fracpart c e) e) r1 Hl1) as (r & Hr & Hl & Hw & Hv).
  rewrite Hr. exists r. rewrite Hfc in *. repeat split; auto.
  - unfold n in Hl. lia.
  - intro H. apply Hw; [now apply pad_to_wf|]. apply Hw1; [now apply pad_to_wf|apply wfs_repeat; auto with wf].
  - intro a. rewrite Hv, Hv1, uval_repeat, ev_zero, Z.add_0_l.
    unfold lesser_bits. rewrite shifted_sum_lesser by lia. rewrite pad_to_uval.
    assert (P256 : pow2 256 = 2 ^ 256) by reflexivity.
    unfold great_bits. pose proof (shifted_sum_great (pad_to f n) (Qfloor c) a 256 0) as S. rewrite Hfc in S.
    rewrite S. rewrite Zplus_mod_idemp_l, bitsum_spec. cbn [plus]. rewrite P256, pow2_0, Z.mod_1_r, pad_to_uval.
    rewrite (Z.mod_small (Qfloor c)) by lia. rewrite Z.sub_0_r.
    pose proof (uval_range f a) as R.
    pose proof (fracpart_range c e) as P.
    destruct (fracsum_bounds (fracpart c e) (uval f a) e (proj1 R) e 0 eq_refl) as [[_ B] B0].
    rewrite bitsum_spec in B. cbn [plus] in B. rewrite pow2_0, Z.mod_1_r, Z.sub_0_r, Z.mod_small in B by lia.
    rewrite Z.mod_small; [lia|]. split; [nia|].
    (* the fractional sum is at most uval f, and below it unless it is zero *)
    set (F := uval f a) in *. set (S' := fracsum (fracpart c e) F e 0 e) in *.
    assert (S' <= F) by (pose proof (pow2_pos e); nia).
    assert (HC : Qfloor c <= Qceiling c /\ (S' <> 0 -> Qfloor c + 1 <= Qceiling c)).
    { split; [apply floor_le_ceiling|]. intro HS.
      destruct (Z.eq_dec (Qfloor c) (Qceiling c)) as [E|E]; [|pose proof (floor_le_ceiling c); lia].
      exfalso. apply HS. 
      assert (EQ : (c == inject_Z (Qfloor c))%Q).
      { apply Qle_antisym; [rewrite E; apply Qle_ceiling|apply Qfloor_le]. }
      assert (Z0 : fracpart c e = 0).
      { unfold fracpart. change 0 with (Qfloor 0). apply Qfloor_comp.
        setoid_replace (c - inject_Z (Qfloor c))%Q with 0%Q by lra. ring. }
      unfold S'. rewrite Z0. clear. generalize 0%nat at 1. generalize e at 2 as m.
      induction m as [|m IH]; intro lo; cbn [fracsum]; auto. rewrite Z.bits_0. rewrite IH. lia. }
    assert (HLc : Qceiling c < pow2 (clog2 (Qceiling c) + 2)) by (apply HL; lia).
    unfold n. rewrite pow2_add. 
    destruct (Z.eq_dec S' 0) as [->|HS]; [nia|].
    destruct HC as [_ HC]. specialize (HC HS). nia.
Qed.

Lemma multiply_double_ub M clog2 f c e : (c <= 1#2)%Q -> bdd_multiply_constant_double M clog2 f c e = UB.
Proof.
  intro H. unfold bdd_multiply_constant_double. apply Qle_bool_iff in H. now rewrite H.
Qed.

(** ** Comparisons *)
Definition step_val (h : Z) (b : bool) : Z := 2 * h + Z.b2z b.
Fixpoint prefix_val (l : list bdd) (h : Z) (a : asg) : Z :=
  match l with
  | [] => h
  | b :: l' => prefix_val l' (step_val h (ev b a)) a
  end.

Lemma prefix_val_app l l' h a : prefix_val (l ++ l') h a = prefix_val l' (prefix_val l h a) a.
Proof. revert h. induction l as [|b l IH]; intro h; cbn; auto. Qed.
Lemma prefix_val_rev f a : prefix_val (rev f) 0 a = uval f a.
Proof.
  induction f as [|b f IH]; cbn [rev uval]; auto.
  rewrite prefix_val_app, IH. cbn [prefix_val]. unfold step_val. lia.
Qed.

Lemma ev_xnor M f g a : ev (bxnor M f g) a = Bool.eqb (ev f a) (ev g a).
Proof. unfold bxnor. rewrite ev_or, !ev_and, !ev_not. destruct (ev f a), (ev g a); reflexivity. Qed.
Lemma wf_xnor M f g : wf M f -> wf M g -> wf M (bxnor M f g).
Proof. unfold bxnor. auto 10 with wf. Qed.
#[export] Hint Resolve wf_xnor : wf.

Lemma compare_loop_spec M l : forall z e r h1 h2 r' e',
  compare_loop M l z e r = (r', e') ->
  (forall a, 0 <= h1 a) -> (forall a, 0 <= h2 a) ->
  (forall a, ev z a = (h2 a =? 0)) ->
  (forall a, ev e a = (h1 a =? h2 a)) ->
  (forall a, ev r a = (h2 a <? h1 a)) ->
  forall a, ev r' a = (prefix_val (map snd l) (h2 a) a <? prefix_val (map fst l) (h1 a) a)
         /\ ev e' a = (prefix_val (map fst l) (h1 a) a =? prefix_val (map snd l) (h2 a) a).
Proof.
  induction l as [|[x y] l IH]; intros z e r h1 h2 r' e' H P1 P2 Hz He Hr a; cbn [compare_loop] in H.
  - injection H as <- <-. cbn. auto.
  - cbn [map fst snd prefix_val].
    refine (IH _ _ _ (fun a => step_val (h1 a) (ev x a)) (fun a => step_val (h2 a) (ev y a)) _ _ H _ _ _ _ _ a);
      clear H a; intro a; specialize (Hz a); specialize (He a); specialize (Hr a); specialize (P1 a); specialize (P2 a);
      unfold step_val; rewrite ?ev_or, ?ev_and, ?ev_not, ?ev_xnor, ?Hz, ?He, ?Hr.
    + pose proof (b2z_range (ev x a)). lia.
    + pose proof (b2z_range (ev y a)). lia.
    + destruct (ev y a); cbn [Z.b2z negb]; lia.
    + destruct (ev x a), (ev y a); cbn [Z.b2z Bool.eqb]; lia.
    + destruct (ev x a), (ev y a); cbn [Z.b2z negb andb]; lia.
Qed.

Lemma map_fst_rev_combine {A B} (f : list A) (g : list B) : length f = length g ->
  map fst (rev (combine f g)) = rev f /\ map snd (rev (combine f g)) = rev g.
Proof.
  intro H. rewrite !map_rev. split; f_equal.
  - revert g H. induction f; destruct g; cbn; intros; try discriminate; auto. f_equal; auto.
  - revert g H. induction f; destruct g; cbn; intros; try discriminate; auto. f_equal; auto.
Qed.

Lemma equalize_spec M f g f' g' : equalize_vector_size f g = (f', g') ->
  length f' = Nat.max (length f) (length g) /\ length g' = length f'
  /\ (wfs M f -> wfs M f') /\ (wfs M g -> wfs M g')
  /\ (forall a, uval f' a = uval f a) /\ (forall a, uval g' a = uval g a).
Proof.
  unfold equalize_vector_size. intros [= <- <-]. rewrite !pad_to_length.
  repeat split; auto using pad_to_wf, pad_to_uval; lia.
Qed.

Lemma greater_equals_spec M f g a : ev (greater_equals M f g) a = (uval g a <=? uval f a).
Proof.
  unfold greater_equals. destruct (equalize_vector_size f g) as [f' g'] eqn:E.
  destruct (equalize_spec M _ _ _ _ E) as (L1 & L2 & _ & _ & V1 & V2).
  destruct (compare_loop M (rev (combine f' g')) bone bone bzero) as [r e] eqn:C.
  destruct (map_fst_rev_combine f' g') as [M1 M2]; auto.
  destruct (compare_loop_spec M _ _ _ _ (fun _ => 0) (fun _ => 0) _ _ C) with (a := a) as [S1 S2]; try (intros; reflexivity).
  rewrite M1, M2, !prefix_val_rev, V1, V2 in *. rewrite ev_or, S1, S2. lia.
Qed.

Lemma greater_than_spec M f g a : ev (greater_than M f g) a = (uval g a <? uval f a).
Proof.
  unfold greater_than. destruct (equalize_vector_size f g) as [f' g'] eqn:E.
  destruct (equalize_spec M _ _ _ _ E) as (L1 & L2 & _ & _ & V1 & V2).
  destruct (compare_loop M (rev (combine f' g')) bone bone bzero) as [r e] eqn:C.
  destruct (map_fst_rev_combine f' g') as [M1 M2]; auto.
  destruct (compare_loop_spec M _ _ _ _ (fun _ => 0) (fun _ => 0) _ _ C) with (a := a) as [S1 S2]; try (intros; reflexivity).
  rewrite M1, M2, !prefix_val_rev, V1, V2 in *. cbn [fst]. now rewrite S1.
Qed.

Lemma compare_loop_wf M l : forall z e r r' e',
  compare_loop M l z e r = (r', e') ->
  wfs M (map fst l) -> wfs M (map snd l) -> wf M z -> wf M e -> wf M r -> wf M r' /\ wf M e'.
Proof.
  induction l as [|[x y] l IH]; intros z e r r' e' H H1 H2 Hz He Hr; cbn [compare_loop] in H.
  - injection H as <- <-. auto.
  - cbn [map fst snd] in *. inversion H1; inversion H2; subst. eapply IH; eauto; auto 10 with wf.
Qed.

Lemma wfs_rev M f : wfs M f -> wfs M (rev f).
Proof. intro H. apply Forall_rev. auto. Qed.

Lemma greater_equals_wf M f g : wfs M f -> wfs M g -> wf M (greater_equals M f g).
Proof.
  intros Hf Hg. unfold greater_equals. destruct (equalize_vector_size f g) as [f' g'] eqn:E.
  destruct (equalize_spec M _ _ _ _ E) as (L1 & L2 & W1 & W2 & _).
  destruct (compare_loop M (rev (combine f' g')) bone bone bzero) as [r e] eqn:C.
  destruct (map_fst_rev_combine f' g') as [M1 M2]; auto.
  apply compare_loop_wf in C; auto with wf.
  - destruct C. auto with wf.
  - rewrite M1. apply wfs_rev; auto.
  - rewrite M2. apply wfs_rev; auto.
Qed.
Lemma greater_than_wf M f g : wfs M f -> wfs M g -> wf M (greater_than M f g).
Proof.
  intros Hf Hg. unfold greater_than. destruct (equalize_vector_size f g) as [f' g'] eqn:E.
  destruct (equalize_spec M _ _ _ _ E) as (L1 & L2 & W1 & W2 & _).
  destruct (compare_loop M (rev (combine f' g')) bone bone bzero) as [r e] eqn:C.
  destruct (map_fst_rev_combine f' g') as [M1 M2]; auto.
  apply compare_loop_wf in C; auto with wf.
  - destruct C. auto.
  - rewrite M1. apply wfs_rev; auto.
  - rewrite M2. apply wfs_rev; auto.
Qed.

(** how [exists_greater_equals] classifies two integer-valued functions *)
Definition classified (F1 F2 : asg -> Z) (p : bool * bool) : Prop :=
  match p with
  | (true, false) => exists a, F2 a < F1 a
  | (true, true) => (forall a, F1 a <= F2 a) /\ exists a, F1 a = F2 a
  | (false, false) => forall a, F1 a < F2 a
  | (false, true) => False
  end.

Lemma prefix_val_lt l l' a : length l = length l' -> forall h h', h < h' ->
  prefix_val l h a < prefix_val l' h' a.
Proof.
  revert l'. induction l as [|x l IH]; intros [|y l'] Hl h h' H; try discriminate; auto.
  cbn [prefix_val]. apply IH; [now injection Hl|]. unfold step_val.
  pose proof (b2z_range (ev x a)). pose proof (b2z_range (ev y a)). lia.
Qed.

Lemma ege_loop_spec M l : forall z e h1 h2,
  wfs M (map fst l) -> wfs M (map snd l) -> wf M z -> wf M e ->
  (forall a, 0 <= h1 a) -> (forall a, 0 <= h2 a) ->
  (forall a, ev z a = (h2 a =? 0)) ->
  (forall a, ev e a = (h1 a =? h2 a)) ->
  (forall a, h1 a <= h2 a) ->
  classified (fun a => prefix_val (map fst l) (h1 a) a) (fun a => prefix_val (map snd l) (h2 a) a)
             (ege_loop M l z e).
Proof.
  induction l as [|[x y] l IH]; intros z e h1 h2 W1 W2 Wz We P1 P2 Hz He Hle; cbn [ege_loop].
  - cbn. destruct (is_zero e) eqn:E; cbn.
    + intro a. rewrite (is_zero_sem M) in E by auto. specialize (E a). rewrite He in E.
      specialize (Hle a). lia.
    + split; auto. apply (is_zero_false M) in E; auto. destruct E as [a Ha]. exists a. rewrite He in Ha. lia.
  - cbn [map fst snd] in *. inversion W1 as [|? ? Wx W1']; inversion W2 as [|? ? Wy W2']; subst.
    cbn [prefix_val].
    destruct (is_zero (band M x (band M z (bnot y)))) eqn:E1; cbn [negb].
    2:{ apply (is_zero_false M) in E1; [|auto with wf]. destruct E1 as [a Ha]. exists a.
        rewrite !ev_and, ev_not, Hz in Ha.
        apply prefix_val_lt; [now rewrite !map_length|]. unfold step_val. specialize (P1 a).
        pose proof (P2 a); destruct (ev x a), (ev y a); cbn [Z.b2z negb andb] in *; lia. }
    destruct (is_zero (band M (band M x (bnot y)) e)) eqn:E2; cbn [negb].
    2:{ apply (is_zero_false M) in E2; [|auto with wf]. destruct E2 as [a Ha]. exists a.
        rewrite !ev_and, ev_not, He in Ha.
        apply prefix_val_lt; [now rewrite !map_length|]. unfold step_val.
        pose proof (P2 a); destruct (ev x a), (ev y a); cbn [Z.b2z negb andb] in *; lia. }
    rewrite (is_zero_sem M) in E1, E2 by auto with wf.
    apply (IH _ _ (fun a => step_val (h1 a) (ev x a)) (fun a => step_val (h2 a) (ev y a))); auto with wf;
      intro a; specialize (E1 a); specialize (E2 a); specialize (Hz a); specialize (He a); specialize (Hle a);
      specialize (P1 a); specialize (P2 a);
      unfold step_val; rewrite ?ev_and, ?ev_not, ?ev_xnor, ?Hz, ?He in *;
      destruct (ev x a), (ev y a); cbn [Z.b2z negb andb Bool.eqb] in *; lia.
Qed.

Lemma classified_ext F1 F2 G1 G2 p : (forall a, F1 a = G1 a) -> (forall a, F2 a = G2 a) ->
  classified F1 F2 p -> classified G1 G2 p.
Proof.
  intros H1 H2. destruct p as [[|] [|]]; cbn.
  - intros [H [a Ha]]. split; [intro b; rewrite <- H1, <- H2; auto|exists a; now rewrite <- H1, <- H2].
  - intros [a Ha]. exists a. now rewrite <- H1, <- H2.
  - auto.
  - intros H b. rewrite <- H1, <- H2; auto.
Qed.

Lemma exists_greater_equals_spec M f g : wfs M f -> wfs M g ->
  classified (uval f) (uval g) (exists_greater_equals M f g).
Proof.
  intros Hf Hg. unfold exists_greater_equals. destruct (equalize_vector_size f g) as [f' g'] eqn:E.
  destruct (equalize_spec M _ _ _ _ E) as (L1 & L2 & W1 & W2 & V1 & V2).
  destruct (map_fst_rev_combine f' g') as [M1 M2]; auto.
  eapply classified_ext.
  3:{ apply (ege_loop_spec M _ bone bone (fun _ => 0) (fun _ => 0)); try (intros; reflexivity); auto with wf.
      - rewrite M1. apply wfs_rev; auto.
      - rewrite M2. apply wfs_rev; auto. }
  - intro a. rewrite M1, prefix_val_rev. auto.
  - intro a. rewrite M2, prefix_val_rev. auto.
Qed.

(** ** max(1, f) *)
Lemma fold_zero_spec M l : forall z a,
  ev (fold_left (fun z x => band M z (bnot x)) l z) a = ev z a && forallb (fun x => negb (ev x a)) l.
Proof.
  induction l as [|x l IH]; intros z a; cbn [fold_left forallb].
  - now rewrite andb_true_r.
  - rewrite IH, ev_and, ev_not. now rewrite andb_assoc.
Qed.
Lemma fold_zero_wf M l : forall z, wf M z -> wfs M l ->
  wf M (fold_left (fun z x => band M z (bnot x)) l z).
Proof. induction l as [|x l IH]; intros z Hz Hl; cbn [fold_left]; auto. inversion Hl; subst. apply IH; auto with wf. Qed.

Lemma forallb_rev {A} (p : A -> bool) l : forallb p (rev l) = forallb p l.
Proof.
  induction l as [|x l IH]; cbn; auto. rewrite forallb_app, IH. cbn. rewrite andb_true_r. apply andb_comm.
Qed.
Lemma all_zero_uval f a : forallb (fun x => negb (ev x a)) f = (uval f a =? 0).
Proof.
  induction f as [|x f IH]; cbn [forallb uval]; auto. rewrite IH.
  pose proof (uval_range f a). destruct (ev x a); cbn [negb andb Z.b2z]; lia.
Qed.

Lemma bdd_max_one_spec M f : f <> [] ->
  exists r, bdd_max_one M f = Ok r /\ length r = length f /\ (wfs M f -> wfs M r)
    /\ forall a, uval r a = Z.max 1 (uval f a).
Proof.
  destruct f as [|b f]; [congruence|]. intros _. cbn [bdd_max_one]. eexists; split; [reflexivity|].
  repeat split.
  - intro H. inversion H; subst. constructor; auto. apply wf_or; auto. apply fold_zero_wf; auto with wf. now apply wfs_rev.
  - intro a. cbn [uval]. rewrite ev_or, fold_zero_spec, ev_one, forallb_rev, all_zero_uval. cbn [andb].
    pose proof (uval_range f a). destruct (uval f a =? 0) eqn:E; destruct (ev b a); cbn [orb Z.b2z]; lia.
Qed.

(** ** Division *)
Lemma uval_and_map M f s a : uval (map (fun b => band M b s) f) a = if ev s a then uval f a else 0.
Proof.
  induction f as [|x f IH]; cbn [map uval]; [now destruct (ev s a)|].
  rewrite IH, ev_and. destruct (ev s a), (ev x a); cbn [andb Z.b2z]; lia.
Qed.

Lemma divide_step_spec M g_ temp i (S : asg -> Z) :
  (forall a, uval (shifted g_ i) a = S a) ->
  exists temp' c, divide_step M g_ temp i = Ok (temp', c)
   /\ (wfs M g_ -> wfs M temp -> wfs M temp' /\ wf M c)
   /\ forall a, ev c a = (S a <=? uval temp a)
             /\ uval temp' a = uval temp a - (if ev c a then S a else 0).
Proof.
  intro HS. unfold divide_step. rewrite bdd_shift_shifted. cbn [bind].
  set (c := greater_equals M temp (shifted g_ i)).
  destruct (equalize_vector_size (map (fun b => band M b c) (shifted g_ i)) temp) as [ts t'] eqn:E.
  destruct (equalize_spec M _ _ _ _ E) as (L1 & L2 & W1 & W2 & V1 & V2).
  destruct (bdd_subtract_spec M t' ts) as (r & Hr & Hl & Hw & Hv); [lia|].
  rewrite Hr. cbn [bind]. exists r, c. split; auto. split.
  - intros Hg Ht. assert (wf M c) by (apply greater_equals_wf; auto; now apply wfs_shifted).
    split; auto. apply Hw; auto. apply W1. apply wfs_map; auto with wf. now apply wfs_shifted.
  - intro a. assert (Hc : ev c a = (S a <=? uval temp a)).
    { unfold c. rewrite greater_equals_spec. now rewrite HS. }
    split; auto. rewrite Hv, V1, V2, uval_and_map, HS.
    pose proof (uval_range t' a) as R. rewrite V2 in R.
    assert (0 <= S a) by (rewrite <- HS; apply uval_range).
    rewrite Hc. destruct (S a <=? uval temp a) eqn:B; apply Z.mod_small; lia.
Qed.

Lemma down_from_S hi n : down_from hi (S n) = hi :: down_from (hi - 1) n.
Proof.
  unfold down_from. cbn [seq map]. f_equal; [lia|].
  rewrite <- seq_shift, map_map. apply map_ext. intro i. lia.
Qed.

Lemma divide_loop_spec M g_ (G : asg -> Z) (e : nat) : forall k temp,
  (forall a, 0 <= G a) ->
  (forall j, (j < k)%nat -> forall a, uval (shifted g_ (Z.of_nat j - Z.of_nat e)) a = G a * pow2 j) ->
  exists cs, divide_loop M g_ temp (down_from (Z.of_nat k - 1 - Z.of_nat e) k) = Ok cs
    /\ length cs = k
    /\ (wfs M g_ -> wfs M temp -> wfs M cs)
    /\ forall a, (G a = 0 -> uval (rev cs) a = pow2 k - 1)
              /\ (0 < G a -> uval temp a < G a * pow2 k -> uval (rev cs) a = uval temp a / G a).
Proof.
  induction k as [|k IH]; intros temp HG Hs.
  - exists []. split; [reflexivity|]. rewrite pow2_0. repeat split; auto. intros HGa Ht.
    pose proof (uval_range temp a). cbn [rev uval]. rewrite Z.div_small; lia.
  - rewrite down_from_S. cbn [divide_loop].
    replace (Z.of_nat (S k) - 1 - Z.of_nat e) with (Z.of_nat k - Z.of_nat e) by lia.
    destruct (divide_step_spec M g_ temp (Z.of_nat k - Z.of_nat e) (fun a => G a * pow2 k)) as (t' & c & Hst & Hw & Hv).
    { apply Hs. lia. }
    rewrite Hst. cbn [bind].
    destruct (IH t' HG) as (cs & Hcs & Hl & Hwc & Hvc).
    { intros j Hj. apply Hs. lia. }
    replace (Z.of_nat k - Z.of_nat e - 1) with (Z.of_nat k - 1 - Z.of_nat e) by lia.
    rewrite Hcs. cbn [bind]. exists (c :: cs). repeat split.
    + cbn. lia.
    + intros Hg Ht. destruct (Hw Hg Ht). auto.
    + intro HGa. destruct (Hvc a) as [V0 _]. destruct (Hv a) as [Hc _].
      cbn [rev]. rewrite uval_app, V0, rev_length, Hl by auto. cbn [uval].
      pose proof (uval_range temp a). rewrite HGa in Hc. rewrite Hc, pow2_S.
      assert (0 * pow2 k <=? uval temp a = true) as -> by lia. cbn [Z.b2z]. lia.
    + intros HGa Ht. destruct (Hvc a) as [_ V]. destruct (Hv a) as [Hc Ht'].
      cbn [rev]. rewrite uval_app, rev_length, Hl. cbn [uval]. rewrite pow2_S in Ht.
      pose proof (pow2_pos k).
      rewrite V; auto.
      * rewrite Ht'. destruct (ev c a); cbn [Z.b2z].
        -- rewrite (Z.mul_comm (G a)). replace (uval temp a - pow2 k * G a) with (uval temp a + (- pow2 k) * G a) by lia.
           rewrite Z.div_add by lia. lia.
        -- rewrite Z.sub_0_r. lia.
      * rewrite Ht'. destruct (ev c a) eqn:Ec; symmetry in Hc; [apply Z.leb_le in Hc|apply Z.leb_gt in Hc]; lia.
Qed.

Lemma bdd_divide_spec M f g e :
  exists r, bdd_divide M f g e = Ok r
    /\ length r = (length f + e + 2)%nat
    /\ (wfs M f -> wfs M g -> wfs M r)
    /\ forall a, (0 < uval g a -> uval r a = (uval f a * pow2 e) / uval g a)
              /\ (uval g a = 0 -> uval r a = pow2 (length f + e + 2) - 1).
Proof.
  unfold bdd_divide. set (values := repeat bzero e).
  set (g_ := values ++ g ++ repeat bzero (length f + 1)).
  assert (Vg : forall a, uval g_ a = uval g a * pow2 e).
  { intro a. unfold g_, values. rewrite !uval_app, !uval_repeat, ev_zero, repeat_length. lia. }
  assert (Lg : length g_ = (e + length g + length f + 1)%nat).
  { unfold g_, values. rewrite !app_length, !repeat_length. lia. }
  assert (Vt : forall a, uval (values ++ f) a = uval f a * pow2 e).
  { intro a. unfold values. rewrite !uval_app, !uval_repeat, ev_zero, repeat_length. lia. }
  replace (Z.of_nat (length f) + 1) with (Z.of_nat (length f + e + 2) - 1 - Z.of_nat e) by lia.
  replace (length f + 1 + e + 1)%nat with (length f + e + 2)%nat by lia.
  destruct (divide_loop_spec M g_ (uval g) e (length f + e + 2) (values ++ f)) as (cs & Hcs & Hl & Hw & Hv).
  { intro a. apply uval_range. }
  { intros j Hj a. pose proof (uval_range g a) as R.
    destruct (le_lt_dec e j) as [H|H].
    - replace (Z.of_nat j - Z.of_nat e) with (Z.of_nat (j - e)) by lia.
      rewrite uval_shift_left, Vg, Lg. rewrite <- Z.mul_assoc, <- pow2_add.
      replace (e + (j - e))%nat with j by lia. apply Z.mod_small.
      replace (e + length g + length f + 1)%nat with (length g + (length f + e + 1))%nat by lia.
      rewrite pow2_add. pose proof (pow2_pos j). pose proof (pow2_le j (length f + e + 1)). nia.
    - replace (Z.of_nat j - Z.of_nat e) with (- Z.of_nat (e - j)) by lia.
      rewrite uval_shift_right, Vg. replace (pow2 e) with (pow2 j * pow2 (e - j)) by (rewrite <- pow2_add; f_equal; lia).
      rewrite Z.mul_assoc, Z.div_mul; auto. pose proof (pow2_pos (e - j)). lia. }
  rewrite Hcs. cbn [bind]. exists (rev cs). split; auto. rewrite rev_length. repeat split; auto.
  - intros Hf Hg. apply wfs_rev, Hw; unfold g_, values; repeat apply wfs_app; auto; apply wfs_repeat; auto with wf.
  - intro HG. destruct (Hv a) as [_ V]. rewrite V, Vt; auto.
    rewrite Vt. pose proof (uval_range f a). rewrite !pow2_add. pose proof (pow2_pos e). pose proof (pow2_pos (length f)).
    change (pow2 2) with 4.
    assert (uval f a * pow2 e < pow2 (length f) * pow2 e) by nia.
    set (X := pow2 (length f) * pow2 e) in *. assert (0 < X) by (unfold X; nia). nia.
  - intro HG. destruct (Hv a) as [V _]. auto.
Qed.

(** ** Constants *)
Definition is_const_vec (f : list bdd) (z : Z) : Prop := forall a, uval f a = z.

Lemma pop_zeros_spec l a : uval (rev (pop_zeros l)) a = uval (rev l) a.
Proof.
  induction l as [|x l IH]; cbn [pop_zeros]; auto.
  destruct l as [|y l]; auto. destruct (is_zero x) eqn:E; auto.
  apply bdd_eqb_spec in E. subst x. rewrite IH. cbn [rev]. rewrite (uval_app (rev l ++ [y])).
  cbn [uval]. rewrite ev_zero. cbn. lia.
Qed.
Lemma pop_zeros_wf M l : wfs M l -> wfs M (pop_zeros l).
Proof.
  induction 1 as [|x l Hx Hl IH]; cbn [pop_zeros]; auto. destruct l; auto. destruct (is_zero x); auto.
Qed.
Lemma pop_zeros_head l : l <> [] ->
  exists x l', pop_zeros l = x :: l' /\ (l' = [] \/ is_zero x = false).
Proof.
  induction l as [|x l IH]; [congruence|]. intros _. cbn [pop_zeros].
  destruct l as [|y l]; [exists x, []; auto|].
  destruct (is_zero x) eqn:E; [apply IH; discriminate|]. exists x, (y :: l). auto.
Qed.

Lemma uval_bits z a : forall n lo,
  pow2 lo * uval (map (fun i => if Z.testbit z (Z.of_nat i) then bone else bzero) (seq lo n)) a = bitsum z lo n.
Proof.
  induction n as [|n IH]; intro lo; cbn [seq map uval bitsum]; [lia|].
  rewrite <- IH, pow2_S. destruct (Z.testbit z (Z.of_nat lo)); rewrite ?ev_one, ?ev_zero; cbn [Z.b2z]; lia.
Qed.

Lemma number_to_bdds_spec M z : 0 <= z < 2 ^ 256 ->
  wfs M (number_to_bdds z)
  /\ (forall a, uval (number_to_bdds z) a = z)
  /\ number_to_bdds z <> []
  /\ ((1 < length (number_to_bdds z))%nat -> pow2 (length (number_to_bdds z) - 1) <= z).
Proof.
  intro Hz. unfold number_to_bdds.
  set (l := map (fun i => if Z.testbit z (Z.of_nat i) then bone else bzero) (seq 0 256)).
  assert (V : forall a, uval l a = z).
  { intro a. pose proof (uval_bits z a 256 0) as H. fold l in H. rewrite bitsum_spec, pow2_0 in H.
    cbn [plus] in H. change (pow2 256) with (2 ^ 256) in H. rewrite Z.mod_1_r, Z.mod_small in H by lia. lia. }
  assert (Hne : rev l <> []) by (unfold l; discriminate).
  assert (Vp : forall a, uval (rev (pop_zeros (rev l))) a = z).
  { intro a. rewrite pop_zeros_spec, rev_involutive. apply V. }
  repeat split.
  - apply wfs_rev, pop_zeros_wf, wfs_rev. unfold l. apply Forall_forall. intros x Hx.
    apply in_map_iff in Hx. destruct Hx as (i & <- & _). destruct (Z.testbit z (Z.of_nat i)); auto with wf.
  - exact Vp.
  - destruct (pop_zeros_head (rev l) Hne) as (x & l' & -> & _). cbn. intro H. now apply app_eq_nil in H.
  - assert (Hc : Forall (fun x => x = bone \/ x = bzero) (rev l)).
    { apply Forall_rev. unfold l. apply Forall_forall. intros x Hx.
      apply in_map_iff in Hx. destruct Hx as (i & <- & _). destruct (Z.testbit z (Z.of_nat i)); auto. }
    assert (Hc' : Forall (fun x => x = bone \/ x = bzero) (pop_zeros (rev l))).
    { clear - Hc. induction Hc as [|x l' Hx Hl IH]; cbn [pop_zeros]; auto. destruct l'; auto. destruct (is_zero x); auto. }
    destruct (pop_zeros_head (rev l) Hne) as (x & l' & E & Hx). rewrite E in *.
    rewrite rev_length. cbn [length]. intro Hlen. replace (S (length l') - 1)%nat with (length l') by lia.
    destruct Hx as [->|Hx]; [cbn in Hlen; lia|].
    inversion Hc' as [|? ? [->| ->]]; subst; [|discriminate].
    specialize (Vp (fun _ => true)). cbn [rev] in Vp. rewrite uval_app, rev_length in Vp. cbn [uval] in Vp.
    rewrite ev_one in Vp. cbn [Z.b2z] in Vp. pose proof (uval_range (rev l') (fun _ => true)). lia.
Qed.

(** ** high and low *)
Lemma high_spec M f v : wf M f -> top f = Some v ->
  exists r, high f = Ok r /\ wf M r /\ forall a, ev r a = ev f (upd a v true).
Proof.
  destruct f as [c [|w t d e]]; unfold top, high; cbn [snd fst]; intros Hf [= ->].
  destruct (okn_top_notin _ _ _ _ _ _ Hf) as [Nt _].
  exists (c, t). split; [destruct c; reflexivity|]. split.
  - cbn in Hf |- *. apply okn_weaken with (S (lv M v)); [lia|tauto].
  - intro a. unfold ev; cbn [snd fst evn]. now rewrite upd_same, evn_upd_notin by auto.
Qed.

Lemma low_spec M f v : wf M f -> top f = Some v ->
  (fst f = false \/ exists t e, snd f = Nd v t false e) ->
  exists r, low f = Ok r /\ wf M r /\ forall a, ev r a = ev f (upd a v false).
Proof.
  destruct f as [c [|w t d e]]; unfold top, low; cbn [snd fst]; intros Hf [= ->] Hc.
  destruct (okn_top_notin _ _ _ _ _ _ Hf) as [_ Ne].
  assert (He : okn M 0 e) by (cbn in Hf; apply okn_weaken with (S (lv M v)); [lia|tauto]).
  destruct Hc as [->|(t' & e' & [= -> -> ->])].
  - eexists; split; [reflexivity|]. split; auto. intro a. unfold ev; cbn [snd fst evn].
    rewrite upd_same, evn_upd_notin by auto. now destruct d, (evn e a).
  - destruct c; (eexists; split; [reflexivity|]); (split; [auto|]); intro a; unfold ev; cbn [snd fst evn bnot negb];
      rewrite upd_same, evn_upd_notin by auto; now destruct (evn e' a).
Qed.

(** in the remaining case the result is the complement of the cofactor *)
Lemma low_wrong M f v t e : wf M f -> fst f = true -> snd f = Nd v t true e ->
  exists r, low f = Ok r /\ forall a, ev r a = negb (ev f (upd a v false)).
Proof.
  destruct f as [c n]; cbn [fst snd]; intros Hf -> ->. 
  destruct (okn_top_notin _ _ _ _ _ _ Hf) as [_ Ne].
  eexists; split; [reflexivity|]. intro a. unfold ev; cbn [snd fst evn bnot negb].
  rewrite upd_same, evn_upd_notin by auto. now destruct (evn e a).
Qed.

(** ** terminal_level *)
Lemma list_max0_ge l i : In i l -> (i <= list_max0 l)%nat.
Proof. induction l as [|x l IH]; cbn; [tauto|]. intros [->|H]; [lia|]. specialize (IH H). fold (list_max0 l). lia. Qed.
Lemma list_max0_in l : l <> [] -> In (list_max0 l) l.
Proof.
  induction l as [|x l IH]; [congruence|]. intros _. cbn. fold (list_max0 l).
  destruct l as [|y l]; [cbn; lia|]. destruct (Nat.max_spec x (list_max0 (y :: l))) as [[_ ->]|[_ ->]]; auto.
  right. apply IH. discriminate.
Qed.
Lemma mem_spec i l : mem i l = true <-> In i l.
Proof.
  unfold mem. rewrite existsb_exists. split.
  - intros (x & Hx & E). apply Nat.eqb_eq in E. now subst.
  - intro H. exists i. split; auto. apply Nat.eqb_refl.
Qed.
Lemma sorted_set_in l i : In i (sorted_set l) <-> In i l.
Proof.
  unfold sorted_set. destruct l as [|x l]; [tauto|]. rewrite filter_In, mem_spec, in_seq.
  split; [tauto|]. intro H. split; auto. pose proof (list_max0_ge _ _ H). lia.
Qed.
Lemma sorted_set_nodup l : NoDup (sorted_set l).
Proof. unfold sorted_set. destruct l; [constructor|]. apply NoDup_filter, seq_NoDup. Qed.
Lemma support_in f i : In i (support f) <-> In i (varsn (snd f)).
Proof. apply sorted_set_in. Qed.
Lemma support_depends M f i : wf M f ->
  (In i (support f) <-> exists a, ev f (upd a i true) <> ev f (upd a i false)).
Proof.
  intro Hf. rewrite support_in. split.
  - intro H. destruct (vars_exact M 0 _ i Hf H) as [a Ha]. exists a. unfold ev. intro E. apply Ha.
    destruct (fst f), (evn (snd f) (upd a i true)), (evn (snd f) (upd a i false)); cbn in E; congruence.
  - intros [a Ha]. destruct (in_dec Nat.eq_dec i (varsn (snd f))) as [|H]; auto.
    exfalso. apply Ha. now rewrite !ev_upd_notin by auto.
Qed.

Lemma tl_inner f : forall m, 
  let r := fold_left (fun m b => Nat.max m (list_max0 (support b) + 1)) f m in
  (m <= r)%nat /\ (forall b, In b f -> (list_max0 (support b) + 1 <= r)%nat)
  /\ (r = m \/ exists b, In b f /\ r = (list_max0 (support b) + 1)%nat).
Proof.
  induction f as [|x f IH]; intro m; cbn [fold_left].
  - cbn. repeat split; auto. tauto.
  - specialize (IH (Nat.max m (list_max0 (support x) + 1))). cbn zeta in *. destruct IH as (I1 & I2 & I3).
    repeat split.
    + lia.
    + intros b [->|Hb]; [lia|auto].
    + destruct I3 as [I3|(b & Hb & I3)].
      * destruct (Nat.max_dec m (list_max0 (support x) + 1)) as [E|E].
        -- left. rewrite E in *. auto.
        -- right. exists x. cbn [In]. rewrite E in *. auto.
      * right. exists b. cbn [In]. auto.
Qed.

Lemma tl_outer fs : forall m,
  let r := fold_left (fun m f => fold_left (fun m b => Nat.max m (list_max0 (support b) + 1)) f m) fs m in
  (m <= r)%nat /\ (forall f b, In f fs -> In b f -> (list_max0 (support b) + 1 <= r)%nat)
  /\ (r = m \/ exists f b, In f fs /\ In b f /\ r = (list_max0 (support b) + 1)%nat).
Proof.
  induction fs as [|f fs IH]; intro m; cbn [fold_left].
  - cbn. repeat split; auto. tauto.
  - destruct (tl_inner f m) as (J1 & J2 & J3).
    specialize (IH (fold_left (fun m b => Nat.max m (list_max0 (support b) + 1)) f m)).
    cbn zeta in *. destruct IH as (I1 & I2 & I3).
    repeat split.
    + lia.
    + intros f' b [->|Hf] Hb; [specialize (J2 b Hb); lia|eauto].
    + destruct I3 as [I3|(f' & b & Hf & Hb & I3)].
      * destruct J3 as [J3|(b & Hb & J3)].
        -- left. congruence.
        -- right. exists f, b. cbn [In]. repeat split; auto. congruence.
      * right. exists f', b. cbn [In]. auto.
Qed.

Lemma terminal_level_gt fs f b i : In f fs -> In b f -> In i (varsn (snd b)) -> (i < terminal_level fs)%nat.
Proof.
  intros Hf Hb Hi. destruct (tl_outer fs 0) as (_ & H & _). specialize (H f b Hf Hb).
  unfold terminal_level. apply support_in in Hi. apply list_max0_ge in Hi. lia.
Qed.

Lemma terminal_level_attained fs : (1 < terminal_level fs)%nat ->
  exists f b, In f fs /\ In b f /\ In (terminal_level fs - 1)%nat (support b).
Proof.
  intro H. destruct (tl_outer fs 0) as (_ & _ & [E|(f & b & Hf & Hb & E)]); fold (terminal_level fs) in E.
  - lia.
  - exists f, b. repeat split; auto. rewrite E.
    replace (list_max0 (support b) + 1 - 1)%nat with (list_max0 (support b)) by lia.
    apply list_max0_in. intro Hs. rewrite Hs in E. cbn in E. lia.
Qed.

(** ** Evaluation on integer vectors *)
Definition asg_ints (l : list Z) : asg := fun i => nth i l 0 =? 1.

Lemma evaln_spec n : forall c l, (forall i, In i (varsn n) -> (i < length l)%nat) ->
  evaln n c l = Ok (xorb c (negb (evn n (asg_ints l))), One).
Proof.
  induction n as [|v t IHt d e IHe]; intros c l H; cbn [evaln evn].
  - now destruct c.
  - rewrite (vget_nth l v 0) by (apply H; now left). cbn [bind]. unfold asg_ints at 1.
    destruct (nth v l 0 =? 1).
    + rewrite IHt; auto. intros i Hi. apply H. right. apply in_or_app. auto.
    + rewrite IHe by (intros i Hi; apply H; right; apply in_or_app; auto).
      destruct c, d, (evn e (asg_ints l)); reflexivity.
Qed.

Lemma Eval_spec f l : (forall i, In i (varsn (snd f)) -> (i < length l)%nat) ->
  exists r, Eval f l = Ok r /\ is_one r = ev f (asg_ints l).
Proof.
  intro H. unfold Eval. rewrite evaln_spec by auto. eexists; split; [reflexivity|].
  unfold ev. destruct (fst f), (evn (snd f) (asg_ints l)); reflexivity.
Qed.

Lemma lor_disjoint r m : Z.land r m = 0 -> Z.lor r m = r + m.
Proof. intro H. rewrite <- Z.lxor_lor by auto. symmetry. now apply Z.add_nocarry_lxor. Qed.

Lemma testbit_small r i j : 0 <= r < 2 ^ i -> 0 <= i <= j -> Z.testbit r j = false.
Proof.
  intros Hr Hj. destruct (Z.eq_dec r 0) as [->|]; [apply Z.bits_0|].
  apply Z.bits_above_log2; [lia|]. apply Z.log2_lt_pow2; [lia|].
  pose proof (Z.pow_le_mono_r 2 i j). lia.
Qed.

Lemma lor_pow2 r i : 0 <= i -> 0 <= r < 2 ^ i -> Z.lor r (2 ^ i) = r + 2 ^ i.
Proof.
  intros Hi Hr. apply lor_disjoint. apply Z.bits_inj'. intros j Hj. rewrite Z.land_spec, Z.bits_0.
  destruct (Z_lt_ge_dec j i).
  - rewrite Z.pow2_bits_false by lia. apply andb_false_r.
  - rewrite (testbit_small r i j) by lia. reflexivity.
Qed.

Lemma lor_neg r : 0 <= r < 2 ^ 63 -> Z.lor r (- 2 ^ 63) = r - 2 ^ 63.
Proof.
  intros Hr. replace (r - 2 ^ 63) with (r + (- 2 ^ 63)) by lia. apply lor_disjoint.
  apply Z.bits_inj'. intros j Hj. rewrite Z.land_spec, Z.bits_0.
  replace (- 2 ^ 63) with (Z.shiftl (-1) 63) by reflexivity.
  destruct (Z_lt_ge_dec j 63).
  - rewrite Z.shiftl_spec_low by lia. apply andb_false_r.
  - rewrite (testbit_small r 63 j) by lia. reflexivity.
Qed.

Definition covers (l : list Z) (f : list bdd) : Prop :=
  forall b i, In b f -> In i (varsn (snd b)) -> (i < length l)%nat.

(** value of a 64-bit pattern read as a signed long *)
Definition as_long (z : Z) : Z := if z <? 2 ^ 63 then z else z - 2 ^ 64.

Lemma eval_loop_spec f : forall i l r, covers l f -> 0 <= r < 2 ^ Z.of_nat i -> (i + length f <= 63)%nat ->
  eval_loop f i l r = Ok (r + 2 ^ Z.of_nat i * uval f (asg_ints l)).
Proof.
  induction f as [|b f IH]; intros i l r Hc Hr Hi; cbn [eval_loop uval].
  - f_equal. lia.
  - destruct (Eval_spec b l) as (x & -> & E); [intros j Hj; apply (Hc b); cbn; auto|].
    cbn [bind]. rewrite E. cbn [length] in Hi.
    assert (P : 2 ^ Z.of_nat (S i) = 2 * 2 ^ Z.of_nat i) by (rewrite Nat2Z.inj_succ, Z.pow_succ_r; lia).
    assert (Hc' : covers l f) by (intros b' j Hb Hj; apply (Hc b'); cbn; auto).
    destruct (ev b (asg_ints l)); cbn [Z.b2z].
    + unfold set_bit_long. assert ((i <? 63)%nat = true) as -> by (apply Nat.ltb_lt; lia). cbn [bind].
      rewrite lor_pow2 by lia. rewrite IH by (auto; lia). f_equal. lia.
    + cbn [bind]. rewrite IH by (auto; lia). f_equal. lia.
Qed.

Lemma eval_loop_app f g : forall i l r, eval_loop (f ++ g) i l r = bind (eval_loop f i l r) (eval_loop g (i + length f) l).
Proof.
  induction f as [|b f IH]; intros i l r; cbn [app eval_loop length bind].
  - now rewrite Nat.add_0_r.
  - destruct (Eval b l) as [x| | |]; cbn [bind]; auto.
    destruct (if is_one x then set_bit_long r i else Ok r) as [y| | |]; cbn [bind]; auto.
    rewrite IH. replace (S i + length f)%nat with (i + S (length f))%nat by lia. reflexivity.
Qed.

Lemma eval_spec f l : covers l f -> (length f <= 64)%nat -> eval f l = Ok (as_long (uval f (asg_ints l))).
Proof.
  intros Hc Hl. unfold eval. destruct (le_lt_dec (length f) 63) as [H63|H63].
  - rewrite eval_loop_spec by (auto; cbn; lia). f_equal. unfold as_long.
    pose proof (uval_range f (asg_ints l)) as R. pose proof (pow2_le _ _ H63) as P. change (pow2 63) with (2 ^ 63) in P.
    change (2 ^ Z.of_nat 0) with 1. destruct (uval f (asg_ints l) <? 2 ^ 63) eqn:E; [lia|]. apply Z.ltb_ge in E. lia.
  - destruct f as [|b f _] using rev_ind; [cbn in H63; lia|].
    rewrite app_length in *. cbn [length] in *. rewrite eval_loop_app.
    assert (Hc' : covers l f) by (intros b' j Hb Hj; apply (Hc b'); auto; apply in_or_app; auto).
    rewrite eval_loop_spec by (auto; cbn; lia). cbn [bind eval_loop].
    destruct (Eval_spec b l) as (x & -> & E); [intros j Hj; apply (Hc b); auto; apply in_or_app; cbn; auto|].
    cbn [bind]. rewrite E. assert (length f = 63%nat) as Hf by lia. rewrite Hf.
    rewrite uval_app, Hf. cbn [uval].
    pose proof (uval_range f (asg_ints l)) as R. rewrite Hf in R. change (pow2 63) with (2 ^ 63) in *.
    change (2 ^ Z.of_nat 0) with 1. unfold as_long. 
    destruct (ev b (asg_ints l)); cbn [Z.b2z bind].
    + change (set_bit_long (0 + 1 * uval f (asg_ints l)) (0 + 63)) with (@Ok Z (Z.lor (0 + 1 * uval f (asg_ints l)) (- 2 ^ 63))).
      rewrite lor_neg by lia. cbn [bind]. f_equal.
      destruct (uval f (asg_ints l) + 2 ^ 63 * (1 + 2 * 0) <? 2 ^ 63) eqn:E2; [apply Z.ltb_lt in E2; lia|]. lia.
    + f_equal. destruct (uval f (asg_ints l) + 2 ^ 63 * (0 + 2 * 0) <? 2 ^ 63) eqn:E2; [lia|]. apply Z.ltb_ge in E2; lia.
Qed.

Lemma eval_ub f l i : covers l f -> (64 <= i < length f)%nat -> ev (nth i f bzero) (asg_ints l) = true ->
  eval f l = UB.
Proof.
  intros Hc Hi He. unfold eval.
  assert (G : forall f j r, covers l f -> (j <= i)%nat -> (i - j < length f)%nat ->
             ev (nth (i - j) f bzero) (asg_ints l) = true -> eval_loop f j l r = UB).
  { destruct Hi as [Hi _]. clear f Hc He. intro f. induction f as [|b f IH]; intros j r Hc Hj Hlt He; cbn [length] in Hlt; [lia|].
    cbn [eval_loop]. destruct (Eval_spec b l) as (x & -> & E); [intros k Hk; apply (Hc b); cbn; auto|].
    cbn [bind]. rewrite E. assert (Hc' : covers l f) by (intros b' k Hb Hk; apply (Hc b'); cbn; auto).
    unfold set_bit_long.
    destruct (Nat.eq_dec j i) as [->|Hne].
    - rewrite Nat.sub_diag in He. cbn [nth] in He. rewrite He.
      assert ((i <? 63)%nat = false) as -> by (apply Nat.ltb_ge; lia).
      assert ((i =? 63)%nat = false) as -> by (apply Nat.eqb_neq; lia). reflexivity.
    - assert (H : forall r, eval_loop f (S j) l r = UB).
      { intro r'. apply IH; auto; try lia. replace (i - j)%nat with (S (i - S j)) in He by lia. exact He. }
      destruct (ev b (asg_ints l)); cbn [bind]; auto.
      destruct (j <? 63)%nat; cbn [bind]; auto. destruct (j =? 63)%nat; cbn [bind]; auto. }
  apply G; auto; try lia. now rewrite Nat.sub_0_r.
Qed.

(** ** eval_adder *)
(** interleaved operand bits *)
Definition adder_asg (x y : Z) (bits : nat) : asg :=
  fun i => (i <? 2 * bits)%nat &&
           (if Nat.even i then Z.testbit x (Z.of_nat (i / 2)) else Z.testbit y (Z.of_nat (i / 2))).

Lemma land_pow2_pos x i : (0 <? Z.land x (2 ^ Z.of_nat i)) = Z.testbit x (Z.of_nat i).
Proof.
  assert (E : Z.land x (2 ^ Z.of_nat i) = if Z.testbit x (Z.of_nat i) then 2 ^ Z.of_nat i else 0).
  { apply Z.bits_inj'. intros j Hj. rewrite Z.land_spec.
    destruct (Z.eq_dec j (Z.of_nat i)) as [->|Hne].
    - rewrite Z.pow2_bits_true by lia. destruct (Z.testbit x (Z.of_nat i)); cbn.
      + now rewrite Z.pow2_bits_true by lia. + now rewrite Z.bits_0.
    - rewrite Z.pow2_bits_false by lia. rewrite andb_false_r.
      destruct (Z.testbit x (Z.of_nat i)); [now rewrite Z.pow2_bits_false by lia | now rewrite Z.bits_0]. }
  rewrite E. destruct (Z.testbit x (Z.of_nat i)); auto.
  pose proof (Z.pow_pos_nonneg 2 (Z.of_nat i)). lia.
Qed.

Lemma adder_bit_31 x : 0 <= x < 2 ^ 32 -> adder_bit x 31 = Ok (Z.b2z (Z.testbit x 31)).
Proof.
  intro Hx. unfold adder_bit. cbn [Nat.ltb Nat.leb Nat.eqb]. f_equal.
  assert (E : Z.land x (- 2 ^ 31) = x / 2 ^ 31 * 2 ^ 31).
  { rewrite <- Z.shiftr_div_pow2, <- Z.shiftl_mul_pow2 by lia.
    replace (- 2 ^ 31) with (Z.shiftl (-1) 31) by reflexivity.
    apply Z.bits_inj'. intros j Hj. rewrite Z.land_spec.
    destruct (Z_lt_ge_dec j 31).
    - rewrite !Z.shiftl_spec_low by lia. apply andb_false_r.
    - rewrite !Z.shiftl_spec_high, Z.shiftr_spec by lia. rewrite Z.bits_m1 by lia. rewrite andb_true_r. f_equal. lia. }
  rewrite E. rewrite Z.testbit_eqb by lia.
  pose proof (Z.div_lt_upper_bound x (2 ^ 31) 2). pose proof (Z.div_pos x (2 ^ 31)).
  set (q := x / 2 ^ 31) in *. assert (q = 0 \/ q = 1) as [-> | ->] by lia; reflexivity.
Qed.

Definition adder_range (bits : nat) (x : Z) : Prop := (bits <= 31)%nat \/ (bits = 32%nat /\ 0 <= x < 2 ^ 32).

Lemma adder_bit_spec bits x i : adder_range bits x -> (i < bits)%nat ->
  adder_bit x i = Ok (Z.b2z (Z.testbit x (Z.of_nat i))).
Proof.
  intros Hr Hi. destruct (le_lt_dec i 30) as [H|H].
  - unfold adder_bit. assert ((i <? 31)%nat = true) as -> by (apply Nat.ltb_lt; lia).
    rewrite land_pow2_pos. now destruct (Z.testbit x (Z.of_nat i)).
  - destruct Hr as [Hr|[-> Hx]]; [lia|]. assert (i = 31%nat) as -> by lia. now apply adder_bit_31.
Qed.

Fixpoint interleave (x y : Z) (i n : nat) : list Z :=
  match n with
  | O => []
  | S n' => Z.b2z (Z.testbit x (Z.of_nat i)) :: Z.b2z (Z.testbit y (Z.of_nat i)) :: interleave x y (S i) n'
  end.

Lemma adder_inputs_spec bits x y : adder_range bits x -> adder_range bits y ->
  forall n i, (i + n = bits)%nat -> adder_inputs x y i n = Ok (interleave x y i n).
Proof.
  intros Hx Hy. induction n as [|n IH]; intros i Hi; cbn [adder_inputs interleave]; auto.
  rewrite !(adder_bit_spec bits) by (auto; lia). cbn [bind]. rewrite IH by lia. reflexivity.
Qed.

Lemma interleave_length x y n : forall i, length (interleave x y i n) = (2 * n)%nat.
Proof. induction n as [|n IH]; intro i; cbn [interleave length]; auto. rewrite IH. lia. Qed.

Lemma b2z_eqb1 b : (Z.b2z b =? 1) = b. Proof. now destruct b. Qed.

Lemma interleave_asg x y n : forall i j,
  asg_ints (interleave x y i n) j =
  ((j <? 2 * n)%nat && (if Nat.even j then Z.testbit x (Z.of_nat (i + j / 2)) else Z.testbit y (Z.of_nat (i + j / 2)))).
Proof.
  unfold asg_ints. induction n as [|n IH]; intros i j; cbn [interleave].
  - now destruct j.
  - destruct j as [|[|j]].
    + cbn [nth]. rewrite b2z_eqb1. cbn. now rewrite Nat.add_0_r.
    + cbn [nth]. rewrite b2z_eqb1. cbn [Nat.even]. change (1 / 2)%nat with 0%nat. rewrite Nat.add_0_r.
      assert ((1 <? 2 * S n)%nat = true) as -> by (apply Nat.ltb_lt; lia). reflexivity.
    + cbn [nth]. rewrite IH.
      assert ((S (S j) <? 2 * S n)%nat = (j <? 2 * n)%nat) as ->.
      { destruct (j <? 2 * n)%nat eqn:E; [apply Nat.ltb_lt in E; apply Nat.ltb_lt; lia|apply Nat.ltb_ge in E; apply Nat.ltb_ge; lia]. }
      assert (S (S j) / 2 = S (j / 2))%nat as ->.
      { replace (S (S j)) with (1 * 2 + j)%nat by lia. rewrite Nat.div_add_l by lia. lia. }
      cbn [Nat.even]. rewrite !Nat.add_succ_r. reflexivity.
Qed.

Lemma eval_adder_spec (f : list bdd) x y bits : adder_range bits x -> adder_range bits y ->
  (forall b i, In b f -> In i (varsn (snd b)) -> (i < 2 * bits)%nat) -> (length f <= 63)%nat ->
  eval_adder f x y bits = Ok (uval f (adder_asg x y bits)).
Proof.
  intros Hx Hy Hv Hl. unfold eval_adder. rewrite (adder_inputs_spec bits) by auto. cbn [bind].
  rewrite eval_loop_spec.
  - f_equal. change (2 ^ Z.of_nat 0) with 1. rewrite Z.mul_1_l, Z.add_0_l. apply uval_ext.
    intro i. rewrite interleave_asg. reflexivity.
  - intros b i Hb Hi. rewrite interleave_length. eauto.
  - change (2 ^ Z.of_nat 0) with 1. lia.
  - lia.
Qed.

Lemma eval_adder_ub f x y bits : (32 < bits)%nat -> eval_adder f x y bits = UB.
Proof.
  intro H. unfold eval_adder.
  assert (G : forall n i, (i + n = bits)%nat -> (i <= 32)%nat -> adder_inputs x y i n = UB).
  { induction n as [|n IH]; intros i Hi Hi'; [lia|]. cbn [adder_inputs].
    unfold adder_bit.
    destruct (i <? 31)%nat eqn:E1; [apply Nat.ltb_lt in E1; cbn [bind]; rewrite IH by lia; reflexivity|].
    destruct (i =? 31)%nat eqn:E2; [apply Nat.eqb_eq in E2; cbn [bind]; rewrite IH by lia; reflexivity|].
    reflexivity. }
  rewrite G by lia. reflexivity.
Qed.

(** ** Final forms *)
Lemma bdd_add_full M f g :
  ((length f <= length g)%nat ->
    exists r, bdd_add M f g = Ok r /\ length r = length f
      /\ (wfs M f -> wfs M g -> wfs M r)
      /\ forall a, uval r a = (uval f a + uval (firstn (length f) g) a) mod pow2 (length f))
  /\ ((length g < length f)%nat -> bdd_add M f g = UB).
Proof.
  split; [|apply add_loop_ub]. intro H.
  destruct (bdd_add_spec M f g H) as (r & Hr & Hl & Hw & Hv). exists r. repeat split; auto.
  intro a. rewrite Hv, uval_firstn. now rewrite Zplus_mod_idemp_r.
Qed.

Lemma bdd_subtract_full M f g :
  ((length f <= length g)%nat ->
    exists r, bdd_subtract M f g = Ok r /\ length r = length f
      /\ (wfs M f -> wfs M g -> wfs M r)
      /\ forall a, uval r a = (uval f a - uval (firstn (length f) g) a) mod pow2 (length f))
  /\ ((length g < length f)%nat -> bdd_subtract M f g = UB).
Proof.
  split; [|apply subtract_loop_ub]. intro H.
  destruct (bdd_subtract_spec M f g H) as (r & Hr & Hl & Hw & Hv). exists r. repeat split; auto.
  intro a. rewrite Hv, uval_firstn. now rewrite Zminus_mod_idemp_r.
Qed.

Lemma bdd_abs_full M f :
  (f <> [] -> exists r, bdd_abs M f TwosComplement = Ok r /\ length r = length f
     /\ (wfs M f -> wfs M r) /\ forall a, uval r a = Z.abs (sval f a))
  /\ bdd_abs M f BaseTwo = Ok f
  /\ bdd_abs M [] TwosComplement = UB.
Proof. repeat split; auto using bdd_abs_spec. Qed.

Lemma bdd_shift_full M f k :
  exists r, bdd_shift f k = Ok r /\ length r = length f /\ (wfs M f -> wfs M r)
    /\ forall a, uval r a = if 0 <=? k then (uval f a * 2 ^ k) mod pow2 (length f)
                                       else uval f a / 2 ^ (- k).
Proof.
  exists (shifted f k). rewrite bdd_shift_shifted, shifted_length. repeat split; auto using wfs_shifted.
  intro a. destruct (0 <=? k) eqn:E; [apply Z.leb_le in E|apply Z.leb_gt in E].
  - rewrite <- (Z2Nat.id k) by auto. now rewrite uval_shift_left.
  - replace k with (- Z.of_nat (Z.to_nat (- k))) at 1 by lia. rewrite uval_shift_right. unfold pow2. do 2 f_equal. lia.
Qed.

Lemma fracpart_le c e :
  (c * inject_Z (pow2 e) - 1 <= inject_Z (Qfloor c * pow2 e + fracpart c e) <= c * inject_Z (pow2 e))%Q.
Proof.
  unfold fracpart. set (x := ((c - inject_Z (Qfloor c)) * inject_Z (pow2 e))%Q).
  pose proof (Qfloor_le x) as H. pose proof (Qlt_floor x) as H1. rewrite inject_Z_plus in H1.
  change (inject_Z 1) with 1%Q in H1. rewrite inject_Z_plus, inject_Z_mult.
  assert (E : (x == c * inject_Z (pow2 e) - inject_Z (Qfloor c) * inject_Z (pow2 e))%Q) by (unfold x; ring).
  lra.
Qed.

Lemma multiply_double_full M clog2 f c e : clog2_ok clog2 ->
  (1#2 < c)%Q -> (c < inject_Z (2 ^ 256))%Q -> (e < 64)%nat ->
  exists r, bdd_multiply_constant_double M clog2 f c e = Ok r
    /\ length r = (length f + clog2 (Qceiling c) + 2)%nat
    /\ (wfs M f -> wfs M r)
    /\ forall a,
         (inject_Z (uval r a) <= c * inject_Z (uval f a))%Q
         /\ (c * inject_Z (uval f a) - inject_Z (uval r a)
             <= inject_Z (Z.of_nat e) + inject_Z (uval f a) / inject_Z (pow2 e))%Q
         /\ ((exists z, c == inject_Z z)%Q -> (inject_Z (uval r a) == c * inject_Z (uval f a))%Q)
         /\ ((pow2 e | uval f a) -> (exists z, c * inject_Z (pow2 e) == inject_Z z)%Q ->
             (inject_Z (uval r a) == c * inject_Z (uval f a))%Q).
Proof.
  intros HL H1 H2 He.
  destruct (multiply_double_value M clog2 f c e HL H1 H2 He) as (r & Hr & Hl & Hw & Hv).
  exists r. repeat split; auto; rewrite Hv; clear Hv;
    pose proof (uval_range f a) as [R _]; set (F := uval f a) in *;
    destruct (fracsum_bounds (fracpart c e) F e R e 0 eq_refl) as [[B1 B2] B0];
    pose proof (fracsum_exact (fracpart c e) F e) as BE;
    pose proof (fracpart_range c e) as P;
    pose proof (fracpart_le c e) as [Q1 Q2];
    rewrite bitsum_spec in B1, B2; cbn [plus] in B1, B2;
    rewrite pow2_0, Z.mod_1_r, Z.sub_0_r, Z.mod_small in B1, B2 by lia;
    set (S := fracsum (fracpart c e) F e 0 e) in *;
    pose proof (pow2Q_pos e) as PQ;
    assert (RQ : (0 <= inject_Z F)%Q) by (change 0%Q with (inject_Z 0); now rewrite <- Zle_Qle);
    assert (C1 : (inject_Z (pow2 e) * inject_Z (Qfloor c * F + S) <= inject_Z F * inject_Z (Qfloor c * pow2 e + fracpart c e))%Q)
      by (rewrite <- !inject_Z_mult, <- Zle_Qle; nia);
    assert (C2 : (inject_Z F * inject_Z (Qfloor c * pow2 e + fracpart c e) - inject_Z (Z.of_nat e) * inject_Z (pow2 e)
                 <= inject_Z (pow2 e) * inject_Z (Qfloor c * F + S))%Q)
      by (rewrite <- !inject_Z_mult; unfold Qminus; rewrite <- inject_Z_opp, <- inject_Z_plus, <- Zle_Qle; nia);
    set (X := inject_Z (Qfloor c * pow2 e + fracpart c e)) in *;
    set (V := inject_Z (Qfloor c * F + S)) in *;
    set (P2 := inject_Z (pow2 e)) in *; set (FQ := inject_Z F) in *.
  - assert (P2 * V <= P2 * (c * FQ))%Q by nra. rewrite Qmult_le_l in H; auto.
  - assert (P2 * (c * FQ - V) <= P2 * (inject_Z (Z.of_nat e) + FQ / P2))%Q.
    { setoid_replace (P2 * (inject_Z (Z.of_nat e) + FQ / P2))%Q with (inject_Z (Z.of_nat e) * P2 + FQ)%Q by (field; lra).
      nra. }
    rewrite Qmult_le_l in H; auto.
  - intros [z Hz].
    assert (Z0 : Qfloor c = z) by (rewrite (Qfloor_comp _ _ Hz); apply Qfloor_Z).
    assert (Fz : fracpart c e = 0).
    { unfold fracpart. change 0 with (Qfloor 0). apply Qfloor_comp. rewrite Z0.
      setoid_replace (c - inject_Z z)%Q with 0%Q by lra. ring. }
    assert (S = 0) as HS by nia. unfold V. rewrite HS, Z0, Z.add_0_r, inject_Z_mult, Hz. reflexivity.
  - intros HD [z Hz]. specialize (BE HD e 0%nat eq_refl). fold S in BE.
    rewrite bitsum_spec in BE. cbn [plus] in BE. rewrite pow2_0, Z.mod_1_r, Z.sub_0_r, Z.mod_small in BE by lia.
    assert (EX : (X == c * P2)%Q).
    { rewrite Hz in *. unfold X, P2. rewrite inject_Z_plus, inject_Z_mult.
      assert (fracpart c e = z - Qfloor c * pow2 e).
      { unfold fracpart. rewrite <- (Qfloor_Z (z - Qfloor c * pow2 e)). apply Qfloor_comp.
        unfold Z.sub. rewrite inject_Z_plus, inject_Z_opp, inject_Z_mult. fold P2. lra. }
      rewrite H. unfold Z.sub. rewrite inject_Z_plus, inject_Z_opp, inject_Z_mult. ring. }
    assert (EV : (P2 * V == FQ * X)%Q).
    { unfold P2, V, FQ, X. rewrite <- !inject_Z_mult. apply inject_Z_injective. nia. }
    rewrite EX in EV. assert (P2 * V == P2 * (c * FQ))%Q by lra. 
    rewrite Qmult_inj_l in H; auto. lra.
Qed.

Lemma low_full M f : wf M f ->
  match snd f with
  | One => low f = Throw
  | Nd v t d e =>
      exists r, low f = Ok r /\
        forall a, ev r a = xorb (fst f && d) (ev f (upd a v false))
  end.
Proof.
  intro Hf. destruct f as [c n]; cbn [fst snd]. destruct n as [|v t d e]; [reflexivity|].
  destruct c, d; cbn [andb].
  - destruct (low_wrong M (true, Nd v t true e) v t e Hf eq_refl eq_refl) as (r & Hr & H). exists r. split; [exact Hr|].
    intro a. rewrite H. now destruct (ev _ _).
  - destruct (low_spec M (true, Nd v t false e) v Hf eq_refl (or_intror (ex_intro _ _ (ex_intro _ _ eq_refl)))) as (r & Hr & _ & H). exists r. split; [exact Hr|].
    intro a. rewrite H. now destruct (ev _ _).
  - destruct (low_spec M (false, Nd v t true e) v Hf eq_refl (or_introl eq_refl)) as (r & Hr & _ & H). exists r. split; [exact Hr|].
    intro a. rewrite H. now destruct (ev _ _).
  - destruct (low_spec M (false, Nd v t false e) v Hf eq_refl (or_introl eq_refl)) as (r & Hr & _ & H). exists r. split; [exact Hr|].
    intro a. rewrite H. now destruct (ev _ _).
Qed.
