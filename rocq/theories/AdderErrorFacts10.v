(** The number of outputs of the block adders that can be wrong *)
From Coq Require Import List Bool Arith ZArith QArith Lia Lqa.
From Verif Require Import Res Cudd CuddFacts Spec SpecFacts SpecAdder SpecLookback Helpers Examples Metrics AdderFacts AdderErrorFacts AdderErrorFacts3
  AdderErrorFacts5 AdderErrorFacts6 AdderErrorFacts8.
Import ListNotations.
Open Scope nat_scope.

Lemma before_mono restart P u v : u <= v -> before restart P u <= before restart P v.
Proof. induction 1 as [|v L IH]; auto. pose proof (prev_le_start restart P v). cbn [before]. lia. Qed.
Lemma flips_none restart P N : (forall k, k < N -> restart k = true -> k + 1 <= P) ->
  length (filter (fun i => 0 <? before restart P i) (seq 0 (N + 1))) = 0.
Proof.
  intro H. transitivity (length (filter (fun _ : nat => false) (seq 0 (N + 1)))).
  - apply f_equal, filter_ext_in. intros i Hi. apply in_seq in Hi. apply Nat.ltb_ge. destruct i as [|i]; cbn [before]; [lia|].
    rewrite lookback_zero; [lia|]. intros j Hj. apply H. lia.
  - induction (seq 0 (N + 1)); auto.
Qed.
Lemma flips_first restart P N k0 : k0 < N -> restart k0 = true -> P < k0 + 1 -> (forall k, k < k0 -> restart k = true -> k + 1 <= P) ->
  length (filter (fun i => 0 <? before restart P i) (seq 0 (N + 1))) = N - k0.
Proof.
  intros H0 H1 H2 H3.
  replace (N - k0) with (N + 1 - (k0 + 1)) by lia. rewrite <- filter_count. f_equal. apply filter_ext. intro i.
  apply eq_true_iff_eq. rewrite Nat.ltb_lt, Nat.leb_le. split; intro H.
  - destruct (le_lt_dec (k0 + 1) i) as [L|L]; auto. exfalso. destruct i as [|i]; cbn [before] in H; [lia|].
    rewrite lookback_zero in H; [lia|]. intros j Hj. apply H3. lia.
  - pose proof (before_mono restart P (S k0) i ltac:(lia)) as B. cbn [before] in B. rewrite (start_restart restart P k0 H1) in B. lia.
Qed.
Lemma gear_flips M N R P r s : generic_accuracy_reconfigurable_adder M N R P = Ok r -> regular_adder M N = Ok s -> (Z.of_nat N + 1 < 2 ^ 32)%Z ->
  worst_case_bit_flip_error M s r = Ok (Z.of_nat (if (0 <? R) && (R + P <? N) then N + 1 - (R + P) else 0)).
Proof.
  intros E E' HN. rewrite (worst_flips_full M N P _ r s (is_gear M N R P r E) E' HN). do 2 f_equal.
  destruct (gear_range M N R P r E) as (K1 & K2 & _). destruct R as [|R].
  - change (0 <? 0) with false. cbn [andb]. apply flips_none. intros k _ Hk. unfold gear_end in Hk. cbn [Nat.eqb] in Hk.
    apply andb_true_iff in Hk as [_ Hk]. apply Nat.eqb_eq in Hk. lia.
  - change (0 <? S R) with true. cbn [andb]. destruct (Nat.ltb_spec (S R + P) N) as [L|L].
    + rewrite (flips_first _ P N (S R + P - 1)); [lia|lia| |lia|].
      * apply gear_end_iff; [lia|]. split; [lia|]. split; [lia|]. rewrite Nat.sub_diag. apply Nat.mod_0_l. lia.
      * intros k Hk C. apply gear_end_iff in C; lia.
    + apply flips_none. intros k Hk C. apply gear_end_iff in C; lia.
Qed.
Lemma blocks_flips N d P : 0 < d -> 0 < N -> length (filter (fun i => 0 <? before (block_end N d) P i) (seq 0 (N + 1)))
  = if first_cut d P <? N then N + 1 - first_cut d P else 0.
Proof.
  intros Hd HN.
  assert (R : forall k, block_end N d k = true <-> k <> 0 /\ (k + 1) mod d = 0 /\ k + 1 <> N).
  { intro k. unfold block_end. rewrite !andb_true_iff, !negb_true_iff, !Nat.eqb_neq, Nat.eqb_eq. tauto. }
  assert (F : P < first_cut d P /\ 1 < first_cut d P /\ (first_cut d P) mod d = 0
    /\ forall k, k + 1 < first_cut d P -> k <> 0 -> (k + 1) mod d = 0 -> k + 1 <= P).
  { unfold first_cut. pose proof (Nat.div_mod P d ltac:(lia)) as D. pose proof (Nat.mod_upper_bound P d ltac:(lia)) as U.
    destruct ((d =? 1) && (P =? 0)) eqn:E.
    - apply andb_true_iff in E as [E1 E2]. apply Nat.eqb_eq in E1, E2. subst. repeat split; try lia; reflexivity.
    - assert (EE : ~ (d = 1 /\ P = 0)) by (intros [-> ->]; cbn in E; discriminate).
      set (q := P / d) in *. assert (X : P < d * (q + 1)) by nia. split; auto. split.
      { destruct (Nat.eq_dec d 1) as [->|]; [|nia]. assert (0 < P) by lia. lia. }
      split; [rewrite Nat.mul_comm; apply Nat.mod_mul; lia|].
      intros k H1 H2 H3. apply Nat.div_exact in H3; [|lia]. set (u := (k + 1) / d) in *. clearbody u.
      assert (u < q + 1) by (apply (Nat.mul_lt_mono_pos_l d); [auto|]; rewrite <- H3; auto). nia. }
  destruct F as (F1 & F2 & F3 & F4). destruct (Nat.ltb_spec (first_cut d P) N) as [L|L].
  - rewrite (flips_first _ P N (first_cut d P - 1)); [lia|lia| |lia|].
    + apply R. split; [lia|]. replace (first_cut d P - 1 + 1) with (first_cut d P) by lia. split; [auto|lia].
    + intros k Hk C. apply R in C as (C1 & C2 & C3). apply F4; auto. lia.
  - apply flips_none. intros k Hk C. apply R in C as (C1 & C2 & C3). apply F4; auto. lia.
Qed.
Lemma blocks_flips_one d P : length (filter (fun i => 0 <? before (block_end 1 d) P i) (seq 0 2)) = 0.
Proof. apply (flips_none _ P 1). intros k Hk C. assert (k = 0) by lia. subst. discriminate. Qed.
Lemma gda_flips M N p P r s : gracefully_degrading_adder M N p P = Ok r -> regular_adder M N = Ok s -> (Z.of_nat N + 1 < 2 ^ 32)%Z -> 1 < N ->
  worst_case_bit_flip_error M s r = Ok (Z.of_nat (if first_cut (N / p) P <? N then N + 1 - first_cut (N / p) P else 0)).
Proof.
  intros E E' HN H1. rewrite (worst_flips_full M N P _ r s (is_gda M N p P r E) E' HN). do 2 f_equal.
  assert (D : 0 < p <= N \/ ~ 0 < p <= N) by lia. destruct D as [D|D].
  - apply blocks_flips; [apply Nat.div_str_pos|]; lia.
  - rewrite gda_bad in E by lia. discriminate.
Qed.
Lemma aca2_flips M N Q r s : almost_correct_adder_2 M N Q = Ok r -> regular_adder M N = Ok s -> (Z.of_nat N + 1 < 2 ^ 32)%Z -> 1 < N ->
  worst_case_bit_flip_error M s r = Ok (Z.of_nat (let d := N / (N / Q + 1) in if first_cut d (Q / 2) <? N then N + 1 - first_cut d (Q / 2) else 0)).
Proof.
  intros E E' HN H1. rewrite (worst_flips_full M N _ _ r s (is_aca2 M N Q r E) E' HN). cbv zeta. do 2 f_equal.
  destruct (aca2_range M N Q r E) as [K1 K2]. apply blocks_flips; [|lia]. destruct (aca2_quotient N Q K1) as ((K & _) & _).
  assert (1 <= Q / 2) by (apply Nat.div_le_lower_bound; lia). lia.
Qed.
