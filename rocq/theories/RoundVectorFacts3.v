(** round_bdd on several outputs: how far the error rate and the average-case error are from the optimum *)
From Coq Require Import List Bool Arith ZArith QArith Lia Lqa.
From Verif Require Import Res Cudd CuddFacts Spec SpecFacts Helpers HelpersFacts HelpersFacts2 Counting Metrics MetricsFacts MetricsFacts2 Operators OperatorFacts OperatorFacts2 OperatorFacts4
  MetricsFacts4 CrossFacts LossFacts LossFacts2 RoundVectorFacts.
Import ListNotations.
Open Scope nat_scope.

(** the differing bits with their weights *)
Fixpoint wham (f g : list bdd) (a : asg) : Z :=
  match f, g with
  | x :: f', y :: g' => Z.b2z (xorb (ev x a) (ev y a)) + 2 * wham f' g' a
  | _, _ => 0
  end%Z.
Lemma wham_cons n b r f g :
  (average n (fun a => inject_Z (wham (b :: f) (r :: g) a)) == disagreement n (ev b) (ev r) + 2 * average n (fun a => inject_Z (wham f g a)))%Q.
Proof.
  change (disagreement n (ev b) (ev r)) with (avb n (fun a => xorb (ev b a) (ev r a))). unfold avb. rewrite <- average_scale, <- average_plus. apply average_ext. intro a.
  cbn [wham]. rewrite inject_Z_plus, inject_Z_mult, b2q_b2z. reflexivity.
Qed.
Lemma wham_least n f : forall g h, length h = length f ->
  Forall2 (fun b r => forall k, In k h -> (disagreement n (ev b) (ev r) <= disagreement n (ev b) (ev k))%Q) f g ->
  (average n (fun a => inject_Z (wham f g a)) <= average n (fun a => inject_Z (wham f h a)))%Q.
Proof.
  induction f as [|b f IH]; intros g h L H.
  - cbn [wham]. lra.
  - inversion H as [|b' r f' g' D F]; subst. destruct h as [|k h]; [discriminate|]. injection L as L.
    rewrite !wham_cons. apply Qplus_le_compat; [exact (D k (or_introl eq_refl))|].
    assert (X : (average n (fun a => inject_Z (wham f g' a)) <= average n (fun a => inject_Z (wham f h a)))%Q); [|lra]. apply IH; [exact L|].
    clear - F. induction F as [|x y f g D _ IF]; constructor; auto. intros z Hz. apply D. now right.
Qed.
Lemma wham_dist f : forall g a, length g = length f -> (dist (uval f a) (uval g a) <= wham f g a)%Z.
Proof.
  induction f as [|x f IH]; intros [|y g] a L; try discriminate.
  injection L as L. specialize (IH g a L).
  unfold dist in *. cbn [uval wham]. destruct (ev x a), (ev y a); cbn [Z.b2z xorb]; lia.
Qed.
Lemma wham_range f : forall g a, (0 <= wham f g a <= 2 ^ Z.of_nat (length f) - 1)%Z.
Proof.
  induction f as [|x f IH]; intros g a; [cbn; lia|]. cbn [length wham]. rewrite Nat2Z.inj_succ, Z.pow_succ_r by lia.
  destruct g as [|y g]; [pose proof (Z.pow_pos_nonneg 2 (Z.of_nat (length f))); lia|]. specialize (IH g a). pose proof (b2z_range (xorb (ev x a) (ev y a))). lia.
Qed.
Lemma wham_zero f : forall g a, differ f g a = false -> wham f g a = 0%Z.
Proof.
  induction f as [|x f IH]; intros [|y g] a H; try reflexivity. cbn [differ wham] in *. apply orb_false_iff in H. destruct H as [-> H]. rewrite IH by exact H. reflexivity.
Qed.
Lemma wham_factor f g a : length f = length g -> (inject_Z (wham f g a) <= inject_Z (2 ^ Z.of_nat (length f) - 1) * inject_Z (dist (uval f a) (uval g a)))%Q.
Proof.
  intro L. rewrite <- inject_Z_mult, <- Zle_Qle. pose proof (wham_range f g a) as R. destruct (differ f g a) eqn:D.
  - rewrite differ_uval in D by exact L. apply negb_true_iff, Z.eqb_neq in D. unfold dist. nia.
  - rewrite (wham_zero f g a D). unfold dist. nia.
Qed.
Lemma ham_factor f g a : (inject_Z (hamming f g a) <= inject_Z (Z.of_nat (length f)) * b2q (differ f g a))%Q.
Proof.
  pose proof (hamming_range f g a) as R. destruct (differ f g a) eqn:D; cbn [b2q].
  - rewrite Qmult_1_r, <- Zle_Qle. lia.
  - rewrite (proj2 (differ_ham f g a) D). change (inject_Z 0) with 0%Q. lra.
Qed.
Lemma round_near M n f level : index_order M -> Forall (wf M) f -> below n f ->
  exists g, map (fun b => round_bdd M b level) f = map Ok g
    /\ forall h, Forall (wf M) h -> below level h -> length h = length f ->
       (exists q q', error_rate M f g = Ok q /\ error_rate M f h = Ok q' /\ (q <= inject_Z (Z.of_nat (length f)) * q')%Q)
       /\ (length f + Nat.max n level < 256 -> exists q q', average_case_error M f g BaseTwo = Ok (Fin q) /\ average_case_error M f h BaseTwo = Ok (Fin q')
             /\ (q <= inject_Z (2 ^ Z.of_nat (length f) - 1) * q')%Q).
Proof.
  intros HI Wf Bf. set (N := Nat.max n level).
  assert (BN : below N f) by (apply (below_up n); [lia|exact Bf]).
  assert (W : forall b, In b f -> wf M b /\ depends_below N b) by (intros b Hb; unfold below in BN; rewrite Forall_forall in Wf, BN; auto).
  destruct (op_list (fun b => round_bdd M b level)
    (fun b r => wf M r /\ depends_below level r /\ (forall h, below_fun level h -> (disagreement N (ev b) (ev r) <= disagreement N (ev b) h)%Q)) f) as (g & E & L & F).
  { intros b Hb. destruct (W b Hb) as [Wb Db]. destruct (round_optimal M N b level HI Wb Db) as (r & E & A). eauto. }
  apply forall2_split in F. destruct F as [F1 F]. apply forall2_split in F. destruct F as [F2 F]. apply forall2_right in F1. apply forall2_right in F2.
  exists g. split; [exact E|]. intros h Wh Bh Lh.
  assert (BG : below N g) by (apply (below_up level); [lia|exact F2]). assert (BH : below N h) by (apply (below_up level); [lia|exact Bh]).
  assert (D : Forall2 (fun b r => forall k, In k h -> (disagreement N (ev b) (ev r) <= disagreement N (ev b) (ev k))%Q) f g).
  { clear - F Bh. induction F as [|x y f g D _ IF]; constructor; auto. intros k Hk. apply D. unfold below in Bh. rewrite Forall_forall in Bh. exact (Bh k Hk). }
  split.
  - destruct (error_rate_spec M N f g Wf F1 BN BG ltac:(lia)) as (q & EQ & V). destruct (error_rate_spec M N f h Wf Wh BN BH ltac:(lia)) as (q' & EQ' & V').
    exists q, q'. split; [exact EQ|]. split; [exact EQ'|]. rewrite V, V', <- average_scale.
    eapply Qle_trans; [apply rate_le|]. eapply Qle_trans; [apply (hamming_least N f g h Lh D)|]. apply average_le. intro a. apply ham_factor.
  - intro R. destruct (ace_spec M N f g BaseTwo Wf F1 BN BG ltac:(discriminate) ltac:(rewrite L, Nat.max_id; exact R)) as (q & EQ & V).
    destruct (ace_spec M N f h BaseTwo Wf Wh BN BH ltac:(discriminate) ltac:(rewrite Lh, Nat.max_id; exact R)) as (q' & EQ' & V').
    exists q, q'. split; [exact EQ|]. split; [exact EQ'|]. rewrite V, V', <- average_scale.
    apply Qle_trans with (average N (fun a => inject_Z (wham f g a))); [apply average_le; intro a; cbn [wrapped]; rewrite <- Zle_Qle; now apply wham_dist|].
    eapply Qle_trans; [apply (wham_least N f g h Lh D)|]. apply average_le. intro a. cbn [wrapped]. apply wham_factor. now symmetry.
Qed.
