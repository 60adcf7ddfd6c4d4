(** round_bdd on several outputs: optimal for the flipped bits, not for the other metrics *)
From Coq Require Import List Bool Arith ZArith QArith Lia Lqa.
From Verif Require Import Res Cudd CuddFacts Spec SpecFacts Helpers HelpersFacts HelpersFacts2 Counting Metrics MetricsFacts MetricsFacts2 Operators OperatorFacts OperatorFacts2 OperatorFacts4
  LossFacts LossFacts2.
Import ListNotations.
Open Scope nat_scope.

Lemma depends_up n m f : n <= m -> depends_below n f -> depends_below m f.
Proof. intros L H a b E. apply H. intros i Hi. apply E. lia. Qed.
Lemma below_up n m f : n <= m -> below n f -> below m f.
Proof. intros L H. unfold below in *. eapply Forall_impl; [|exact H]. intros b. now apply depends_up. Qed.
Lemma hamming_least n f : forall g h, length h = length f ->
  Forall2 (fun b r => forall k, In k h -> (disagreement n (ev b) (ev r) <= disagreement n (ev b) (ev k))%Q) f g ->
  (average n (fun a => inject_Z (hamming f g a)) <= average n (fun a => inject_Z (hamming f h a)))%Q.
Proof.
  induction f as [|b f IH]; intros g h L H.
  - cbn [hamming]. lra.
  - inversion H as [|b' r f' g' D F]; subst. destruct h as [|k h]; [discriminate|]. injection L as L.
    rewrite !hamming_cons. apply Qplus_le_compat; [exact (D k (or_introl eq_refl))|]. apply IH; [exact L|].
    clear - F. induction F as [|x y f g D _ IF]; constructor; auto. intros z Hz. apply D. now right.
Qed.
Lemma round_flips M n f level : index_order M -> Forall (wf M) f -> below n f ->
  exists g, map (fun b => round_bdd M b level) f = map Ok g /\ below level g
    /\ forall h, Forall (wf M) h -> below level h -> length h = length f ->
       exists q q', average_bit_flip_error M f g = Ok q /\ average_bit_flip_error M f h = Ok q' /\ (q <= q')%Q.
Proof.
  intros HI Wf Bf. set (N := Nat.max n level).
  assert (BN : below N f) by (apply (below_up n); [lia|exact Bf]).
  assert (W : forall b, In b f -> wf M b /\ depends_below N b) by (intros b Hb; unfold below in BN; rewrite Forall_forall in Wf, BN; auto).
  destruct (op_list (fun b => round_bdd M b level)
    (fun b r => wf M r /\ depends_below level r /\ (forall h, below_fun level h -> (disagreement N (ev b) (ev r) <= disagreement N (ev b) h)%Q)) f) as (g & E & L & F).
  { intros b Hb. destruct (W b Hb) as [Wb Db]. destruct (round_optimal M N b level HI Wb Db) as (r & E & A). eauto. }
  apply forall2_split in F. destruct F as [F1 F]. apply forall2_split in F. destruct F as [F2 F]. apply forall2_right in F1. apply forall2_right in F2.
  exists g. split; [exact E|]. split; [exact F2|]. intros h Wh Bh Lh.
  assert (BG : below N g) by (apply (below_up level); [lia|exact F2]). assert (BH : below N h) by (apply (below_up level); [lia|exact Bh]).
  destruct (average_bit_flip_spec M N f g Wf F1 BN BG (eq_sym L)) as (q & EQ & V). destruct (average_bit_flip_spec M N f h Wf Wh BN BH (eq_sym Lh)) as (q' & EQ' & V').
  exists q, q'. split; [exact EQ|]. split; [exact EQ'|]. rewrite V, V'. apply hamming_least; [exact Lh|].
  clear - F Bh. induction F as [|x y f g D _ IF]; constructor; auto. intros k Hk. apply D. unfold below in Bh. rewrite Forall_forall in Bh. exact (Bh k Hk).
Qed.

(** the values 3, 2, 1 for 2, 3 and 3 of the eight inputs *)
Definition three_values : list bdd := let M := id_mgr 3 in
  [bor M (band M (bnot (bvar 0)) (bnot (bvar 1))) (band M (bvar 0) (bor M (bvar 1) (bvar 2)));
   bor M (bnot (bvar 0)) (band M (bnot (bvar 1)) (bnot (bvar 2)))].
Lemma round_vector_refuted : exists (M : mgr) (n level : nat) (f g h : list bdd) (e e' q q' : Q) (w w' : Z),
  index_order M /\ Forall (wf M) f /\ below n f /\ Forall (wf M) h /\ below level h /\ length h = length f
  /\ map (fun b => round_bdd M b level) f = map Ok g
  /\ error_rate M f g = Ok e /\ error_rate M f h = Ok e' /\ (e' < e)%Q
  /\ average_case_error M f g BaseTwo = Ok (Fin q) /\ average_case_error M f h BaseTwo = Ok (Fin q') /\ (q' < q)%Q
  /\ worst_case_error M f g BaseTwo = Ok w /\ worst_case_error M f h BaseTwo = Ok w' /\ (w' < w)%Z.
Proof.
  exists (id_mgr 3), 3, 0, three_values, [bone; bone], [bzero; bone]. do 6 eexists.
  split; [intro; reflexivity|]. split; [unfold three_values; cbv zeta; repeat (apply Forall_cons; [auto with wf|]); apply Forall_nil|].
  split. { unfold below, three_values. cbv zeta. repeat (apply Forall_cons; [apply vars_depends_below; vm_compute; intuition lia|]). apply Forall_nil. }
  split; [repeat constructor|]. split; [unfold below; repeat (apply Forall_cons; [intros ? ? _; reflexivity|]); apply Forall_nil|].
  split; [reflexivity|]. split; [vm_compute; reflexivity|]. split; [vm_compute; reflexivity|]. split; [vm_compute; reflexivity|]. split; [vm_compute; reflexivity|].
  split; [vm_compute; reflexivity|]. split; [vm_compute; reflexivity|]. split; [vm_compute; reflexivity|]. split; [vm_compute; reflexivity|].
  split; vm_compute; reflexivity.
Qed.
