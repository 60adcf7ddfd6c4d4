(** Facts about Ieee2.v *)
From Coq Require Import List Bool Arith ZArith QArith Qabs Lia Lqa Permutation.
From Verif Require Import Res Cudd CuddFacts Spec SpecFacts SpecFloat Float RoundedFacts2 Helpers HelpersFacts HelpersFacts2 Counting Metrics MetricsFacts RelMetrics RelFacts4 AddFacts MinimizeFacts Ieee IeeeFacts Ieee2 SpecEfficient.
Import ListNotations.
Open Scope nat_scope.

(** 2^(ReadSize() - 1) is infinite *)
Lemma infinite_power T : T = 0 \/ 1025 <= T -> (Z.of_nat T < 2 ^ 32)%Z -> dpow2 (levels_minus_one T) = DInf false.
Proof.
  intros H HT. unfold dpow2, levels_minus_one. assert (E : (1024 <= (Z.of_nat T - 1) mod 2 ^ 32)%Z).
  { destruct H as [->|H]; [vm_compute; discriminate|]. rewrite Z.mod_small by lia. lia. }
  apply Z.leb_le in E. rewrite E. reflexivity.
Qed.
Definition zero_or_nan (x : dbl) : Prop := x = DNaN \/ exists q, x = DFin q /\ (q == 0)%Q.
Lemma to_double_zero q : (q == 0)%Q -> exists r, to_double q = DFin r /\ (r == 0)%Q.
Proof.
  intro H. unfold to_double. rewrite (proj2 (Qeq_bool_iff q 0) H). cbn [negb andb].
  assert (Z : (round_float 53 q == 0)%Q).
  { pose proof (proj2 double_rounding q) as E. assert (A : (Qabs q == 0)%Q) by (rewrite H; reflexivity). rewrite A, Qmult_0_r in E.
    apply Qabs_Qle_condition in E. lra. }
  destruct (Qle_bool (2 ^ 1024) (round_float 53 q)) eqn:E1; [exfalso; apply Qle_bool_iff in E1; rewrite Z in E1; vm_compute in E1; auto|].
  destruct (Qle_bool (round_float 53 q) (- 2 ^ 1024)) eqn:E2; [exfalso; apply Qle_bool_iff in E2; rewrite Z in E2; vm_compute in E2; auto|].
  eauto.
Qed.
Lemma dadd_zero x y : zero_or_nan x -> zero_or_nan y -> zero_or_nan (dadd x y).
Proof.
  intros [->|(p & -> & Hp)] [->|(q & -> & Hq)]; cbn [dadd]; try (left; reflexivity).
  destruct (to_double_zero (p + q)) as (r & -> & Hr); [rewrite Hp, Hq; reflexivity|]. right. eauto.
Qed.
Lemma dsub_zero x y : zero_or_nan x -> zero_or_nan y -> zero_or_nan (dsub x y).
Proof.
  intros Hx [->|(q & -> & Hq)]; unfold dsub; apply dadd_zero; auto; cbn [dneg]; [left; reflexivity|right; exists (- q)%Q]. split; [reflexivity|]. rewrite Hq. reflexivity.
Qed.
Lemma dmul_zero x y : zero_or_nan y -> zero_or_nan (dmul x y).
Proof.
  intros [->|(q & -> & Hq)]; [destruct x; left; reflexivity|]. destruct x as [p|b|]; cbn [dmul]; [|rewrite (proj2 (Qeq_bool_iff q 0) Hq); left; reflexivity|left; reflexivity].
  destruct (to_double_zero (p * q)) as (r & -> & Hr); [rewrite Hq; ring|]. right. eauto.
Qed.
Lemma ddiv_zero x y : zero_or_nan x -> zero_or_nan y -> ddiv x y = DNaN.
Proof.
  intros [->|(p & -> & Hp)] [->|(q & -> & Hq)]; cbn [ddiv]; try reflexivity.
  rewrite (proj2 (Qeq_bool_iff q 0) Hq), (proj2 (Qeq_bool_iff p 0) Hp). reflexivity.
Qed.
Lemma infinite_rate x : ddiv x (DInf false) = match x with DFin _ => DFin 0 | _ => DNaN end.
Proof. destruct x; reflexivity. Qed.
Lemma infinite_rates count d T : dpow2 (levels_minus_one T) = DInf false -> Forall (fun p => zero_or_nan (snd p)) (activations_d count d T).
Proof.
  intro H. apply Forall_forall. intros p Hp. apply in_map_iff in Hp. destruct Hp as (x & <- & _). cbn [snd]. rewrite H, infinite_rate.
  destruct (count _ _); [right; exists 0%Q; split; reflexivity|left; reflexivity|left; reflexivity].
Qed.
Lemma maximum_zero (l : list (nat * dbl)) : Forall (fun p => zero_or_nan (snd p)) l -> forall s, zero_or_nan s ->
  zero_or_nan (fold_left (fun s p => dadd s (snd p)) l s).
Proof. induction 1 as [|p l H _ IH]; intros s Hs; cbn [fold_left]; [exact Hs|]. apply IH. now apply dadd_zero. Qed.
Lemma activations_fst count d T : map fst (activations_d count d T) = seq 0 (length d).
Proof.
  unfold activations_d. rewrite map_map. cbn [fst]. generalize 0 as k. induction d as [|x d IH]; intro k; cbn; [reflexivity|]. f_equal. apply IH.
Qed.
Lemma activations_length count d T : length (activations_d count d T) = length d.
Proof. rewrite <- (map_length fst), activations_fst. apply seq_length. Qed.

Lemma efficient_many count M sort rm draws f g samples : permutes sort -> Forall (wf M) f -> Forall (wf M) g -> length f = length g ->
  (read_size M = 0 \/ 1025 <= read_size M) -> (Z.of_nat (read_size M) < 2 ^ 32)%Z -> length f <> 1 ->
  error_rate_efficient_sampling_d count M sort rm draws f g samples = UB.
Proof.
  intros Hs Wf Wg HL HT HT2 H1. unfold error_rate_efficient_sampling_d, differences. rewrite (proj2 (Nat.eqb_eq _ _) HL). cbn [assert_ bind].
  destruct (xor_vec_spec M f g HL) as (d & E & Ld & _). rewrite E. cbn [bind].
  pose proof (infinite_rates count d _ (infinite_power _ HT HT2)) as R.
  set (u := activations_d count d (read_size M)) in *. pose proof (activations_fst count d (read_size M)) as F. fold u in F.
  pose proof (activations_length count d (read_size M)) as Lu. fold u in Lu. pose proof (Hs u) as P.
  pose proof (maximum_zero u R (DFin 0) (or_intror (ex_intro _ 0%Q (conj eq_refl (Qeq_refl 0))))) as Mx.
  assert (L : length (sort u) = length f) by (rewrite (Permutation_length P); lia).
  assert (RS : Forall (fun p => zero_or_nan (snd p)) (sort u)) by (eapply Permutation_Forall; [apply Permutation_sym, P|exact R]).
  assert (I : forall k x, In (k, x) (sort u) -> k < length d).
  { intros k x H. apply (Permutation_in _ P) in H. apply (in_map fst) in H. rewrite F in H. apply in_seq in H. cbn in H. lia. }
  destruct (sort u) as [|[k first] [|[k2 rate] rest]]; [reflexivity|cbn in L; lia|].
  rewrite (HelpersFacts.vget_nth d k bzero) by (apply (I k first); left; reflexivity). cbn [bind efficient_loop_d].
  rewrite (HelpersFacts.vget_nth d k2 bzero) by (apply (I k2 rate); right; left; reflexivity). cbn [bind].
  inversion_clear RS as [|? ? R1 RS']. inversion_clear RS' as [|? ? R2 _]. cbn [snd] in R1, R2.
  rewrite ddiv_zero; [reflexivity|apply dmul_zero; exact R2|apply dsub_zero; assumption].
Qed.
Lemma efficient_one count M sort rm draws x y samples : permutes sort ->
  (read_size M = 0 \/ 1025 <= read_size M) -> (Z.of_nat (read_size M) < 2 ^ 32)%Z ->
  error_rate_efficient_sampling_d count M sort rm draws [x] [y] samples
  = Ok (match count (bxor M x y) (as_int (levels_minus_one (read_size M))) with DFin _ => DFin 0 | _ => DFin 1 end).
Proof.
  intros Hs HT HT2. unfold error_rate_efficient_sampling_d, differences. cbn [length Nat.eqb assert_ bind xor_vec].
  pose proof (Hs (activations_d count [bxor M x y] (read_size M))) as P. unfold activations_d in *. cbn [length seq combine map fst snd] in *.
  apply Permutation_sym, Permutation_length_1_inv in P. rewrite P. cbn [vget nth_error bind efficient_loop_d].
  rewrite (infinite_power _ HT HT2), infinite_rate. destruct (count _ _); reflexivity.
Qed.

Lemma efficient_many_ub count M sort rm draws f g samples : permutes sort -> Forall (wf M) f -> Forall (wf M) g -> length f = length g ->
  infinite_size M -> length f <> 1 -> error_rate_efficient_sampling_d count M sort rm draws f g samples = UB.
Proof. intros Hs Wf Wg HL [H1 H2] H. apply efficient_many; auto. lia. Qed.
Lemma as_int_levels T : (Z.of_nat T <= 2 ^ 31)%Z -> as_int (levels_minus_one T) = (Z.of_nat T - 1)%Z.
Proof.
  intro H. unfold as_int, levels_minus_one. destruct T as [|T]; [reflexivity|]. rewrite Z.mod_small by lia.
  destruct (Z.ltb_spec (Z.of_nat (S T) - 1) (2 ^ 31)); lia.
Qed.
Lemma efficient_one_value count M sort rm draws x y samples : permutes sort -> infinite_size M ->
  let c := count (bxor M x y) (Z.of_nat (read_size M) - 1)%Z in
  (finite_double c -> error_rate_efficient_sampling_d count M sort rm draws [x] [y] samples = Ok (DFin 0))
  /\ (~ finite_double c -> error_rate_efficient_sampling_d count M sort rm draws [x] [y] samples = Ok (DFin 1)).
Proof.
  intros Hs [H1 H2] c. rewrite efficient_one by (assumption || lia). rewrite (as_int_levels _ H2). fold c. split.
  - intros [q ->]. reflexivity.
  - intro N. destruct c as [q| |]; [exfalso; apply N; exists q|..]; reflexivity.
Qed.
Lemma efficient_empty_refuted : exists (M : mgr) (f g : list bdd), read_size M = 0 /\ Forall (wf M) f /\ Forall (wf M) g /\ length f = length g
  /\ (forall a, differ f g a = true)
  /\ forall count sort rm draws samples, permutes sort -> (forall b k, finite_double (count b k)) ->
     error_rate_efficient_sampling_d count M sort rm draws f g samples = Ok (DFin 0).
Proof.
  exists (id_mgr 0), [bone], [bzero]. split; [reflexivity|]. split; [repeat constructor|]. split; [repeat constructor|]. split; [reflexivity|].
  split; [reflexivity|]. intros count sort rm draws samples Hs Hc.
  assert (I : infinite_size (id_mgr 0)) by (split; [left; reflexivity|discriminate]).
  destruct (efficient_one_value count (id_mgr 0) sort rm draws bone bzero samples Hs I) as [V _]. apply V. apply Hc.
Qed.
