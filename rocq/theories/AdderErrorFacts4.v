(** Proofs about equal configurations of different approximate adders *)
From Coq Require Import List Bool Arith ZArith QArith Lia.
From Verif Require Import Res Cudd CuddFacts Spec SpecFacts SpecAdder Helpers Examples AdderFacts AdderErrorFacts AdderErrorFacts3 MetricsFacts3.
Import ListNotations.
Open Scope nat_scope.

Lemma cut_bit_start x y s s' n i : (forall k, k < i -> s k = s' k) -> cut_bit x y s n i = cut_bit x y s' n i.
Proof. intro H. unfold cut_bit, cin. destruct i; auto. now rewrite H by lia. Qed.
Lemma list_same (r s : list bdd) : length r = length s -> (forall i, i < length r -> nth i r bzero = nth i s bzero) -> r = s.
Proof. intros L H. apply (nth_ext _ _ bzero bzero); auto. Qed.
Lemma same_adders M N restart P r restart' P' r' m :
  approximate_adder M N restart P r -> approximate_adder M N restart' P' r' ->
  (forall k, k < m -> lookback restart P k = lookback restart' P' k) -> m <= N ->
  forall i, i <= m -> nth i r bzero = nth i r' bzero.
Proof.
  intros H H' HL Hm i Hi. destruct (adder_cut _ _ _ _ _ H) as (_ & W & L & V). destruct (adder_cut _ _ _ _ _ H') as (_ & W' & L' & V').
  apply (canonical M); [now apply Forall_nth_wf|now apply Forall_nth_wf|].
  intro a. rewrite V, V' by lia. apply cut_bit_start. intros k Hk. apply HL. lia.
Qed.
Lemma lookback_same P restart restart' m :
  (forall k, k <= m -> restart k = restart' k \/ k + 1 <= P) ->
  lookback restart P m = lookback restart' P m.
Proof.
  intro H. assert (E : forall m', m' <= m -> lookback restart P m' = lookback restart' P m'); [|auto].
  induction m' as [|k IH]; intro L; cbn [lookback].
  - destruct (H 0 L) as [->|Hp]; auto. destruct (restart 0), (restart' 0); lia.
  - destruct (H (S k) L) as [->|Hp]; [rewrite IH by lia; reflexivity|].
    assert (Z : forall g, lookback g P k = 0).
    { intro g. pose proof (lookback_zero g P k). apply H0. lia. }
    rewrite !Z. destruct (restart (S k)), (restart' (S k)); lia.
Qed.

(** all sum bits but the carry out agree *)
Lemma aca1_gear M N Q r r' :
  almost_correct_adder_1 M N Q = Ok r -> generic_accuracy_reconfigurable_adder M N 1 (Q - 1) = Ok r' ->
  forall i, i < N -> nth i r bzero = nth i r' bzero.
Proof.
  intros E E' i Hi. pose proof (aca1_range M N Q r E).
  apply (same_adders M N (fun k => Q - 1 <=? k) (Q - 1) r (gear_end N 1 (Q - 1)) (Q - 1) r' (N - 1)); try constructor; auto; [|lia|lia].
  intros k Hk. apply lookback_same. intros j Hj. left. unfold gear_end. cbn [Nat.eqb]. rewrite Nat.mod_1_r. cbn [Nat.eqb].
  replace (1 + (Q - 1) - 1) with (Q - 1) by lia. assert (j =? N - 1 = false) as -> by (apply Nat.eqb_neq; lia).
  now rewrite !andb_true_r.
Qed.
Lemma mod_shift k R P : R <> 0 -> R + P <= k + 1 -> P mod R = 0 -> ((k - (R + P - 1)) mod R =? 0) = ((k + 1) mod R =? 0).
Proof.
  intros HR L HP. f_equal. apply Nat.div_exact in HP; auto.
  assert (k + 1 = (k - (R + P - 1)) + (1 + P / R) * R) as E by nia. rewrite E, Nat.mod_add by auto. reflexivity.
Qed.
Lemma blocks_gear N d P m : 0 < d -> 1 < d + P -> P mod d = 0 ->
  lookback (block_end N d) P m = lookback (gear_end N d P) P m.
Proof.
  intros Hd H1 HP. apply lookback_same. intros k Hk. destruct (le_lt_dec (k + 1) P) as [|L]; auto. left.
  unfold block_end, gear_end. assert (d =? 0 = false) as -> by (apply Nat.eqb_neq; lia).
  destruct (le_lt_dec (d + P) (k + 1)) as [L1|L1].
  - assert (d + P - 1 <=? k = true) as -> by (apply Nat.leb_le; lia). rewrite mod_shift by lia. cbn [andb].
    destruct (Nat.eqb_spec k 0) as [->|].
    + exfalso. lia.
    + cbn [negb andb]. destruct (Nat.eqb_spec (k + 1) N), (Nat.eqb_spec k (N - 1)); cbn [negb]; rewrite ?andb_true_r, ?andb_false_r; auto; lia.
  - assert (d + P - 1 <=? k = false) as -> by (apply Nat.leb_gt; lia). cbn [andb].
    assert ((k + 1) mod d =? 0 = false) as ->; [|now rewrite andb_false_r].
    apply Nat.eqb_neq. intro Hm. apply Nat.div_exact in Hm; [|lia]. apply Nat.div_exact in HP; [|lia].
    assert (P / d < (k + 1) / d) by nia. assert ((k + 1) / d < P / d + 1) by nia. lia.
Qed.
Lemma same_all M N restart P r restart' r' :
  approximate_adder M N restart P r -> approximate_adder M N restart' P r' ->
  (forall k, lookback restart P k = lookback restart' P k) -> r = r'.
Proof.
  intros H H' HL. destruct (adder_cut _ _ _ _ _ H) as (_ & _ & L & _). destruct (adder_cut _ _ _ _ _ H') as (_ & _ & L' & _).
  apply list_same; [congruence|]. intros i Hi. apply (same_adders M N restart P r restart' P r' N); auto. unfold bdd in *. lia.
Qed.
Lemma gda_gear M N p P r r' : gracefully_degrading_adder M N p P = Ok r -> 0 < p <= N -> P mod (N / p) = 0 -> 1 < N / p + P ->
  generic_accuracy_reconfigurable_adder M N (N / p) P = Ok r' -> r = r'.
Proof.
  intros E Hp HP H1 E'. apply (same_all M N (block_end N (N / p)) P r (gear_end N (N / p) P) r'); try constructor; auto.
  intro k. apply blocks_gear; auto. apply Nat.div_str_pos. lia.
Qed.
Lemma aca2_gear M N h r r' : almost_correct_adder_2 M N (2 * h) = Ok r -> N / (N / (2 * h) + 1) = h ->
  generic_accuracy_reconfigurable_adder M N h h = Ok r' -> 0 < h -> r = r'.
Proof.
  intros E Hd E' Hh. assert (H2 : 2 * h / 2 = h) by (rewrite Nat.mul_comm; apply Nat.div_mul; lia).
  apply (same_all M N (block_end N h) h r (gear_end N h h) r').
  - pose proof (is_aca2 M N (2 * h) r E) as H. now rewrite Hd, H2 in H.
  - now constructor.
  - intro k. apply blocks_gear; auto; [lia|]. apply Nat.mod_same. lia.
Qed.
Lemma aca1_gear_differ : exists (M : mgr) (N Q : nat) (r r' : list bdd),
  almost_correct_adder_1 M N Q = Ok r /\ generic_accuracy_reconfigurable_adder M N 1 (Q - 1) = Ok r' /\ nth N r bzero <> nth N r' bzero.
Proof. exists (id_mgr 4), 2, 2. do 2 eexists. split; [vm_compute; reflexivity|]. split; [vm_compute; reflexivity|]. vm_compute. discriminate. Qed.
Lemma aca2_gear_differ : exists (M : mgr) (N h : nat) (r r' : list bdd), 0 < h /\
  almost_correct_adder_2 M N (2 * h) = Ok r /\ generic_accuracy_reconfigurable_adder M N h h = Ok r' /\ r <> r'.
Proof. exists (id_mgr 16), 8, 3. do 2 eexists. split; [lia|]. split; [vm_compute; reflexivity|]. split; [vm_compute; reflexivity|]. vm_compute. discriminate. Qed.
Lemma gda_gear_differ : exists (M : mgr) (N p P : nat) (r r' : list bdd), 0 < p <= N /\ N mod p = 0 /\ 0 < P /\
  gracefully_degrading_adder M N p P = Ok r /\ generic_accuracy_reconfigurable_adder M N (N / p) P = Ok r' /\ r <> r'.
Proof. exists (id_mgr 12), 6, 2, 1. do 2 eexists. split; [lia|]. split; [reflexivity|]. split; [lia|]. split; [vm_compute; reflexivity|]. split; [vm_compute; reflexivity|]. vm_compute. discriminate. Qed.
