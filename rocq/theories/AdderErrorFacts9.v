(** The average error of the block adders for all parameters *)
From Coq Require Import List Bool Arith ZArith QArith Lia Lqa.
From Verif Require Import Res Cudd CuddFacts Spec SpecFacts SpecAdder SpecLookback Helpers Examples Metrics AdderFacts AdderErrorFacts AdderErrorFacts3 AdderErrorFacts6 AdderErrorFacts8.
Import ListNotations.
Open Scope nat_scope.

Lemma blocks_lookback N d P : 0 < N -> 0 < d -> lookback (block_end N d) P (N - 1) = last_start N d - P.
Proof.
  intros HN Hd. unfold last_start. pose proof (Nat.div_mod (N - 1) d ltac:(lia)) as D. pose proof (Nat.mod_upper_bound (N - 1) d ltac:(lia)) as U.
  set (q := (N - 1) / d) in *. set (m := (N - 1) mod d) in *.
  assert (R : forall k, block_end N d k = true <-> k <> 0 /\ (k + 1) mod d = 0 /\ k + 1 <> N).
  { intro k. unfold block_end. rewrite !andb_true_iff, !negb_true_iff, !Nat.eqb_neq, Nat.eqb_eq. tauto. }
  destruct ((d =? 1) && (N =? 2)) eqn:E.
  - apply andb_true_iff in E as [E1 E2]. apply Nat.eqb_eq in E1, E2. rewrite lookback_none; [lia|]. intros j Hj. apply not_true_iff_false.
    rewrite R. lia.
  - assert (EE : ~ (d = 1 /\ N = 2)) by (intros [-> ->]; cbn in E; discriminate).
    destruct q as [|q'].
    + rewrite lookback_none; [lia|]. intros j Hj. apply not_true_iff_false. rewrite R. intros (J1 & J2 & J3).
      rewrite Nat.mod_small in J2; lia.
    + assert (1 <= d * S q') by nia.
      destruct (Nat.eq_dec (d * S q') 1) as [One|Many].
      * assert (d = 1) by nia. subst d. assert (q' = 0) by lia. subst q'. assert (m = 0) by lia. lia.
      * rewrite (lookback_last _ P (d * S q' - 1) (N - 1)).
        -- lia.
        -- lia.
        -- apply R. split; [lia|]. split; [|lia]. replace (d * S q' - 1 + 1) with (S q' * d) by lia. apply Nat.mod_mul. lia.
        -- intros j Hj. apply not_true_iff_false. rewrite R. intros (J1 & J2 & J3).
           replace (j + 1) with (j + 1 - S q' * d + S q' * d) in J2 by lia. rewrite Nat.mod_add in J2 by lia. rewrite Nat.mod_small in J2 by lia. lia.
Qed.
Lemma gear_lookback N R P : 0 < N -> 0 < R -> lookback (gear_end N R P) P (N - 1) = R * ((N - 1 - P) / R).
Proof.
  intros HN HR. pose proof (Nat.div_mod (N - 1 - P) R ltac:(lia)) as D. pose proof (Nat.mod_upper_bound (N - 1 - P) R ltac:(lia)) as U.
  set (q := (N - 1 - P) / R) in *. set (m := (N - 1 - P) mod R) in *. destruct q as [|q'].
  - rewrite lookback_none; [lia|]. intros j Hj. apply not_true_iff_false. rewrite gear_restart by auto. intros (J1 & J2 & J3). lia.
  - rewrite (lookback_last _ P (R * S q' + P - 1) (N - 1)).
    + nia.
    + nia.
    + apply gear_restart; auto. split; [nia|]. split; [nia|]. replace (R * S q' + P - 1 - (R + P - 1)) with (q' * R) by nia. apply Nat.mod_mul. lia.
    + intros j Hj. apply not_true_iff_false. rewrite gear_restart by auto. intros (J1 & J2 & J3).
      replace (j - (R + P - 1)) with (j - (R * S q' + P - 1) + q' * R) in J3 by nia. rewrite Nat.mod_add in J3 by lia.
      rewrite Nat.mod_small in J3 by nia. nia.
Qed.
Lemma blocks_one d P : lookback (block_end 1 d) P 0 = last_start 1 d - P.
Proof. unfold last_start. rewrite andb_false_r. cbn [Nat.sub lookback]. unfold block_end. cbn [Nat.eqb negb andb]. destruct d; [reflexivity|]. rewrite Nat.div_small by lia. lia. Qed.
Lemma gda_ace_any M N p P r s : gracefully_degrading_adder M N p P = Ok r -> regular_adder M N = Ok s -> 3 * N + 1 < 256 ->
  exists q, average_case_error M s r BaseTwo = Ok (Fin q) /\ (q == (inject_Z (2 ^ Z.of_nat (last_start N (N / p) - P)) - 1) / 2)%Q.
Proof.
  intros E E' H. destruct (two_ace M N P _ r s (is_gda M N p P r E) E' H) as (q & A & V). exists q. split; auto.
  assert (D : (0 < N /\ (1 < N -> 0 < p <= N)) \/ ~ (0 < N /\ (1 < N -> 0 < p <= N))) by lia.
  destruct D as [[H1 H2]|D]; [|rewrite gda_bad in E by auto; discriminate].
  destruct (Nat.eq_dec N 1) as [->|N1]; [rewrite V, blocks_one; reflexivity|].
  rewrite V, blocks_lookback; [reflexivity|lia|]. apply Nat.div_str_pos. lia.
Qed.
Lemma aca2_ace_any M N Q r s : almost_correct_adder_2 M N Q = Ok r -> regular_adder M N = Ok s -> 3 * N + 1 < 256 ->
  exists q, average_case_error M s r BaseTwo = Ok (Fin q)
    /\ (q == (inject_Z (2 ^ Z.of_nat (last_start N (N / (N / Q + 1)) - Q / 2)) - 1) / 2)%Q.
Proof.
  intros E E' H. destruct (two_ace M N _ _ r s (is_aca2 M N Q r E) E' H) as (q & A & V). exists q. split; auto.
  destruct (aca2_range M N Q r E) as [H1 H2].
  destruct (Nat.eq_dec N 1) as [->|N1]; [rewrite V, blocks_one; reflexivity|].
  rewrite V, blocks_lookback; [reflexivity|lia|]. destruct (aca2_quotient N Q H1) as ((K & _) & _).
  assert (1 <= Q / 2) by (apply Nat.div_le_lower_bound; lia). lia.
Qed.
Lemma gear_ace_any M N R P r s : generic_accuracy_reconfigurable_adder M N R P = Ok r -> regular_adder M N = Ok s -> 3 * N + 1 < 256 ->
  exists q, average_case_error M s r BaseTwo = Ok (Fin q) /\ (q == (inject_Z (2 ^ Z.of_nat (R * ((N - 1 - P) / R))) - 1) / 2)%Q.
Proof.
  intros E E' H. destruct (two_ace M N P _ r s (is_gear M N R P r E) E' H) as (q & A & V). exists q. split; auto.
  destruct (gear_range M N R P r E) as (_ & H1 & _). destruct R as [|R].
  - rewrite V, lookback_zero; [reflexivity|]. intros j _ Hj. unfold gear_end in Hj. cbn [Nat.eqb] in Hj.
    apply andb_true_iff in Hj as [Hj1 Hj2]. apply Nat.eqb_eq in Hj2. apply andb_true_iff in Hj1 as [Hj1 Hj3]. destruct P; [|lia]. exfalso.
    destruct (gear_range M N 0 0 r E) as (K & _). lia.
  - rewrite V, gear_lookback by lia. reflexivity.
Qed.
