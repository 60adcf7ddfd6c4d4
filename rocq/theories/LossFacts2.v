(** How many output bits the child replacing operators flip *)
From Coq Require Import List Bool Arith ZArith QArith Lia Lqa.
From Verif Require Import Res Cudd CuddFacts Spec SpecFacts Helpers HelpersFacts HelpersFacts2 Counting Metrics MetricsFacts MetricsFacts2 Operators OperatorFacts OperatorFacts2 OperatorFacts4
  MinimizeFacts3 LossFacts.
Import ListNotations.
Open Scope nat_scope.

Definition sumq (l : list Q) : Q := fold_right Qplus 0%Q l.
Lemma hamming_cons n b r f g :
  (average n (fun a => inject_Z (hamming (b :: f) (r :: g) a)) == avb n (fun a => xorb (ev b a) (ev r a)) + average n (fun a => inject_Z (hamming f g a)))%Q.
Proof. unfold avb. rewrite <- average_plus. apply average_ext. intro a. cbn [hamming]. now rewrite inject_Z_plus, b2q_b2z. Qed.
Lemma flips_down n K f g : (0 <= K)%Q -> Forall2 (fun b r => (forall a, ev r a = true -> ev b a = true) /\ (density n b <= K * density n r)%Q) f g ->
  (K * average n (fun a => inject_Z (hamming f g a)) <= (K - 1) * sumq (map (density n) f))%Q.
Proof.
  intros HK. induction 1 as [|b r f g [S D] _ IH].
  - cbn [hamming map sumq fold_right]. rewrite (average_const n (inject_Z 0)). change (inject_Z 0) with 0%Q. lra.
  - rewrite hamming_cons. cbn [map sumq fold_right]. fold (sumq (map (density n) f)).
    assert (X : (avb n (fun a => xorb (ev b a) (ev r a)) + density n r == density n b)%Q).
    { unfold avb, density. rewrite <- average_plus. apply average_ext. intro a. specialize (S a). destruct (ev b a), (ev r a); cbn; try reflexivity. specialize (S eq_refl). discriminate. }
    assert (Y : (avb n (fun a => xorb (ev b a) (ev r a)) == density n b - density n r)%Q) by lra. rewrite Y. lra.
Qed.
Lemma flips_up n K f g : (0 <= K)%Q -> Forall2 (fun b r => (forall a, ev b a = true -> ev r a = true) /\ (1 - density n b <= K * (1 - density n r))%Q) f g ->
  (K * average n (fun a => inject_Z (hamming f g a)) <= (K - 1) * sumq (map (fun b => 1 - density n b) f))%Q.
Proof.
  intros HK. induction 1 as [|b r f g [S D] _ IH].
  - cbn [hamming map sumq fold_right]. rewrite (average_const n (inject_Z 0)). change (inject_Z 0) with 0%Q. lra.
  - rewrite hamming_cons. cbn [map sumq fold_right]. fold (sumq (map (fun b => 1 - density n b)%Q f)).
    assert (X : (avb n (fun a => xorb (ev b a) (ev r a)) + density n b == density n r)%Q).
    { unfold avb, density. rewrite <- average_plus. apply average_ext. intro a. specialize (S a). destruct (ev b a), (ev r a); cbn; try reflexivity. specialize (S eq_refl). discriminate. }
    assert (Y : (avb n (fun a => xorb (ev b a) (ev r a)) == density n r - density n b)%Q) by lra. rewrite Y. lra.
Qed.
Lemma differ_hamming f : forall g a, (Z.b2z (differ f g a) <= hamming f g a)%Z /\ (0 <= hamming f g a)%Z.
Proof.
  induction f as [|x f IH]; intros [|y g] a; cbn [differ hamming]; try (split; reflexivity). destruct (IH g a). destruct (xorb (ev x a) (ev y a)); cbn [orb Z.b2z]; split; lia.
Qed.
Lemma rate_le n f g : (average n (fun a => b2q (differ f g a)) <= average n (fun a => inject_Z (hamming f g a)))%Q.
Proof. apply average_le. intro a. rewrite b2q_b2z, <- Zle_Qle. apply differ_hamming. Qed.

Lemma flips M n f ls le : index_order M -> Forall (wf M) f -> below n f -> ls <= le ->
  let K := inject_Z (2 ^ Z.of_nat (le - ls + 1)) in
  (exists g q e, map (fun b => subset_light_child M b ls le) f = map Ok g /\ average_bit_flip_error M f g = Ok q /\ error_rate M f g = Ok e
     /\ (e <= q)%Q /\ (K * q <= (K - 1) * fold_right Qplus 0 (map (density n) f))%Q)
  /\ (exists g q e, map (fun b => superset_heavy_child M b ls le) f = map Ok g /\ average_bit_flip_error M f g = Ok q /\ error_rate M f g = Ok e
     /\ (e <= q)%Q /\ (K * q <= (K - 1) * fold_right Qplus 0 (map (fun b => 1 - density n b) f))%Q).
Proof.
  intros HI Wf Bf HL K. assert (HK : (0 <= K)%Q) by (unfold K; change 0%Q with (inject_Z 0); rewrite <- Zle_Qle; lia).
  assert (W : forall b, In b f -> wf M b /\ depends_below n b) by (intros b Hb; unfold below in Bf; rewrite Forall_forall in Wf, Bf; auto).
  split.
  - destruct (op_list (fun b => subset_light_child M b ls le)
      (fun b r => wf M r /\ depends_below n r /\ (forall a, ev r a = true -> ev b a = true) /\ (density n b <= K * density n r)%Q) f) as (g & E & L & F).
    { intros b Hb. destruct (W b Hb) as [Wb Db]. destruct (range_loss M n b ls le HI Wb Db HL) as ((r & E & R) & _). exists r. split; [exact E|].
      destruct (subset_ops M b ls le Wb) as ((r' & E' & Wr & Sr) & _). rewrite E in E'. injection E' as <-. split; [exact Wr|]. split; [|auto].
      unfold subset_light_child in E. rewrite round_any_pure in E. injection E as <-. apply rc_dep. now apply (depends_below_vars M). }
    apply forall2_split in F. destruct F as [F1 F]. apply forall2_split in F. destruct F as [F2 F].
    apply forall2_right in F1. apply forall2_right in F2. apply (flips_down n K f g HK) in F.
    destruct (average_bit_flip_spec M n f g Wf F1 Bf F2 (eq_sym L)) as (q & EQ & V). destruct (error_rate_spec M n f g Wf F1 Bf F2 ltac:(lia)) as (e & EE & VE).
    exists g, q, e. split; [exact E|]. split; [exact EQ|]. split; [exact EE|]. split; [rewrite V, VE; apply rate_le|]. rewrite V. exact F.
  - destruct (op_list (fun b => superset_heavy_child M b ls le)
      (fun b r => wf M r /\ depends_below n r /\ (forall a, ev b a = true -> ev r a = true) /\ (1 - density n b <= K * (1 - density n r))%Q) f) as (g & E & L & F).
    { intros b Hb. destruct (W b Hb) as [Wb Db]. destruct (range_loss M n b ls le HI Wb Db HL) as (_ & (r & E & R)). exists r. split; [exact E|].
      destruct (superset_ops M b ls le Wb) as (_ & (r' & E' & Wr & Sr) & _). rewrite E in E'. injection E' as <-. split; [exact Wr|]. split; [|auto].
      unfold superset_heavy_child in E. rewrite round_any_pure in E. injection E as <-. apply rc_dep. now apply (depends_below_vars M). }
    apply forall2_split in F. destruct F as [F1 F]. apply forall2_split in F. destruct F as [F2 F].
    apply forall2_right in F1. apply forall2_right in F2. apply (flips_up n K f g HK) in F.
    destruct (average_bit_flip_spec M n f g Wf F1 Bf F2 (eq_sym L)) as (q & EQ & V). destruct (error_rate_spec M n f g Wf F1 Bf F2 ltac:(lia)) as (e & EE & VE).
    exists g, q, e. split; [exact E|]. split; [exact EQ|]. split; [exact EE|]. split; [rewrite V, VE; apply rate_le|]. rewrite V. exact F.
Qed.
