(** Proofs about which configurations of the approximate adders are the same circuits *)
From Coq Require Import List Bool Arith ZArith QArith Lia.
From Verif Require Import Res Cudd CuddFacts Spec SpecFacts SpecAdder Helpers Examples AdderFacts AdderErrorFacts AdderErrorFacts3 AdderErrorFacts4 MetricsFacts3.
Import ListNotations.
Open Scope nat_scope.

(** a carry generated at position [s] and propagated up to position [k] *)
Definition long_carry (s k : nat) : asg := fun i => if Nat.even i then (s <=? Nat.div2 i) && (Nat.div2 i <=? k) else Nat.div2 i =? s.
Lemma long_carry_op1 s k i : op1 (long_carry s k) i = (s <=? i) && (i <=? k).
Proof. unfold op1, long_carry. rewrite Nat.even_mul, Nat.div2_double. reflexivity. Qed.
Lemma long_carry_op2 s k i : op2 (long_carry s k) i = (i =? s).
Proof.
  unfold op2, long_carry. replace (2 * i + 1) with (S (2 * i)) by lia. rewrite Nat.even_succ, Nat.div2_succ_double.
  now rewrite <- Nat.negb_even, Nat.even_mul.
Qed.
Lemma long_carry_cf s k l : s <= k -> cf (op1 (long_carry s k)) (op2 (long_carry s k)) l (S k) = (l <=? s).
Proof.
  intro H. apply eq_true_iff_eq. rewrite cf_generated, Nat.leb_le. split.
  - intros (g & Hg & X & Y & _). rewrite long_carry_op2 in Y. apply Nat.eqb_eq in Y. lia.
  - intro L. exists s. rewrite long_carry_op1, long_carry_op2, Nat.leb_refl, Nat.eqb_refl. repeat split; auto; try lia.
    + apply Nat.leb_le in H. now rewrite H.
    + intros j Hj. rewrite long_carry_op1, long_carry_op2. assert (s <=? j = true) as -> by (apply Nat.leb_le; lia).
      assert (j <=? k = true) as -> by (apply Nat.leb_le; lia). assert (j =? s = false) as -> by (apply Nat.eqb_neq; lia). reflexivity.
Qed.
Lemma cut_start M N restart P r restart' P' r' k :
  approximate_adder M N restart P r -> approximate_adder M N restart' P' r' -> k < N ->
  (forall a, ev (nth (S k) r bzero) a = ev (nth (S k) r' bzero) a) -> lookback restart P k <= lookback restart' P' k -> lookback restart P k = lookback restart' P' k.
Proof.
  intros H H' Hk E L. destruct (adder_cut _ _ _ _ _ H) as (_ & W & _ & V). destruct (adder_cut _ _ _ _ _ H') as (_ & W' & _ & V').
  set (s := lookback restart P k) in *. destruct (Nat.eq_dec s (lookback restart' P' k)) as [|D]; auto. exfalso.
  pose proof (lookback_le restart' P' k) as B. specialize (E (long_carry s k)). rewrite V, V' in E by lia. unfold cut_bit in E.
  apply (f_equal (xorb (if S k <? N then xorb (op1 (long_carry s k) (S k)) (op2 (long_carry s k) (S k)) else false))) in E.
  rewrite <- !xorb_assoc, !xorb_nilpotent, !xorb_false_l in E. cbn [cin] in E. fold s in E. rewrite !long_carry_cf in E by lia.
  rewrite Nat.leb_refl in E. symmetry in E. apply Nat.leb_le in E. lia.
Qed.
(** two approximate adders are the same BDDs exactly if all their windows are the same *)
Lemma same_bit_iff M N restart P r restart' P' r' k :
  approximate_adder M N restart P r -> approximate_adder M N restart' P' r' -> k < N ->
  (nth (S k) r bzero = nth (S k) r' bzero <-> lookback restart P k = lookback restart' P' k).
Proof.
  intros H H' Hk. split.
  - intro E. destruct (Nat.le_ge_cases (lookback restart P k) (lookback restart' P' k)) as [L|L].
    + apply (cut_start M N restart P r restart' P' r' k); auto. intro a. now rewrite E.
    + symmetry. apply (cut_start M N restart' P' r' restart P r k); auto. intro a. now rewrite E.
  - intro E. destruct (adder_cut _ _ _ _ _ H) as (_ & W & L & V). destruct (adder_cut _ _ _ _ _ H') as (_ & W' & L' & V').
    apply (canonical M); [now apply Forall_nth_wf|now apply Forall_nth_wf|].
    intro a. rewrite V, V' by lia. unfold cut_bit, cin. now rewrite E.
Qed.
Lemma same_iff M N restart P r restart' P' r' :
  approximate_adder M N restart P r -> approximate_adder M N restart' P' r' ->
  (r = r' <-> forall k, k < N -> lookback restart P k = lookback restart' P' k).
Proof.
  intros H H'. split.
  - intros E k Hk. apply (same_bit_iff M N restart P r restart' P' r' k); auto. now rewrite E.
  - intro E. destruct (adder_cut _ _ _ _ _ H) as (_ & W & L & V). destruct (adder_cut _ _ _ _ _ H') as (_ & W' & L' & V').
    apply list_same; [congruence|]. intros i Hi. apply (same_adders M N restart P r restart' P' r' N); auto. unfold bdd in *. lia.
Qed.

Ltac btrue := repeat (rewrite andb_true_iff); repeat split;
  repeat first [rewrite negb_true_iff | apply Nat.leb_le | apply Nat.ltb_lt | apply Nat.eqb_eq | apply Nat.eqb_neq].
Lemma gear_end_iff N R P k : 0 < R -> gear_end N R P k = true <-> R + P - 1 <= k /\ k <> N - 1 /\ (k - (R + P - 1)) mod R = 0.
Proof.
  intro HR. unfold gear_end. assert (R =? 0 = false) as -> by (apply Nat.eqb_neq; lia).
  rewrite !andb_true_iff, negb_true_iff, Nat.leb_le, Nat.eqb_neq, Nat.eqb_eq. tauto.
Qed.
Lemma block_end_iff N d k : block_end N d k = true <-> k <> 0 /\ (k + 1) mod d = 0 /\ k + 1 <> N.
Proof. unfold block_end. rewrite !andb_true_iff, !negb_true_iff, !Nat.eqb_neq, Nat.eqb_eq. tauto. Qed.
Lemma false_of b : b <> true -> b = false.
Proof. destruct b; congruence. Qed.
Lemma gear_first N R P k : 0 < R -> k < R + P - 1 -> lookback (gear_end N R P) P k = 0.
Proof. intros HR H. apply lookback_none. intros j Hj. apply false_of. rewrite gear_end_iff by auto. lia. Qed.

Lemma aca1_gear_never M N Q r r' : almost_correct_adder_1 M N Q = Ok r -> generic_accuracy_reconfigurable_adder M N 1 (Q - 1) = Ok r' ->
  nth N r bzero <> nth N r' bzero.
Proof.
  intros E E' H. pose proof (aca1_range M N Q r E) as HQ. replace N with (S (N - 1)) in H at 1 2 by lia.
  apply (same_bit_iff M N _ _ r _ _ r' (N - 1) (is_aca1 M N Q r E) (is_gear M N 1 (Q - 1) r' E')) in H; [|lia].
  rewrite (lookback_last _ _ (N - 1)) in H by (auto; try (apply Nat.leb_le); lia).
  destruct (Nat.eq_dec Q N) as [->|D].
  - rewrite lookback_none in H; [lia|]. intros j Hj. apply false_of. rewrite gear_end_iff by lia. lia.
  - rewrite (lookback_last _ _ (N - 2)) in H; [lia|lia| |].
    + apply gear_end_iff; [lia|]. rewrite Nat.mod_1_r. lia.
    + intros j Hj. apply false_of. rewrite gear_end_iff by lia. lia.
Qed.
Lemma aca2_quotient N Q : 0 < Q <= N -> let d := N / (N / Q + 1) in Q / 2 <= d < Q /\ d * 2 <= N /\ d * (N / Q + 1) <= N.
Proof.
  intros H d. pose proof (Nat.div_mod N Q ltac:(lia)) as E. pose proof (Nat.mod_upper_bound N Q ltac:(lia)) as U.
  assert (K : 1 <= N / Q) by (apply Nat.div_le_lower_bound; lia). set (k := N / Q) in *.
  pose proof (Nat.div_mod N (k + 1) ltac:(lia)) as E2. pose proof (Nat.mod_upper_bound N (k + 1) ltac:(lia)) as U2. fold d in E2.
  pose proof (Nat.div_mod Q 2 ltac:(lia)) as E3. pose proof (Nat.mod_upper_bound Q 2 ltac:(lia)) as U3.
  split; [split|split].
  - unfold d. apply Nat.div_le_lower_bound; [lia|]. nia.
  - unfold d. apply Nat.div_lt_upper_bound; [lia|]. nia.
  - nia.
  - nia.
Qed.
Lemma aca2_range M N Q r : almost_correct_adder_2 M N Q = Ok r -> 0 < Q <= N /\ (Q = 1 -> N = 1).
Proof.
  intro E. destruct (aca2_bad M N Q) as [B1 B2]. assert (D : 0 < Q <= N \/ ~ 0 < Q <= N) by lia. destruct D as [H|H]; [|rewrite B1 in E by auto; discriminate].
  split; auto. intro H1. destruct (Nat.eq_dec N 1); auto. rewrite B2 in E by lia. discriminate.
Qed.
Lemma gear_range M N R P r : generic_accuracy_reconfigurable_adder M N R P = Ok r -> 0 < R + P <= N + 1 /\ 0 < N /\ (R + P = 1 -> 1 < N).
Proof.
  intro E. assert (D : (0 < R + P <= N + 1 /\ 0 < N /\ (R + P = 1 -> 1 < N)) \/ ~ (0 < R + P <= N + 1 /\ 0 < N /\ (R + P = 1 -> 1 < N))) by lia.
  destruct D as [D|D]; auto. rewrite gear_bad in E by auto. discriminate.
Qed.
Lemma aca2_gear_iff M N Q r r' : almost_correct_adder_2 M N Q = Ok r -> generic_accuracy_reconfigurable_adder M N (Q / 2) (Q / 2) = Ok r' ->
  (r = r' <-> N / (N / Q + 1) = Q / 2).
Proof.
  intros E E'. destruct (aca2_range M N Q r E) as [HQ HQ1]. destruct (gear_range M N _ _ r' E') as [HR _].
  pose proof (aca2_quotient N Q HQ) as HD. cbv zeta in HD. set (d := N / (N / Q + 1)) in *. set (h := Q / 2) in *.
  assert (Q2 : Q = 2 * h \/ Q = 2 * h + 1) by (unfold h; pose proof (Nat.div_mod Q 2 ltac:(lia)); pose proof (Nat.mod_upper_bound Q 2 ltac:(lia)); lia).
  rewrite (same_iff M N _ _ r _ _ r' (is_aca2 M N Q r E) (is_gear M N h h r' E')). fold d h. split.
  - intro H. destruct (Nat.eq_dec d h) as [|D]; auto. exfalso. destruct (Nat.lt_ge_cases d (2 * h)) as [L|L].
    + specialize (H (d - 1) ltac:(lia)). rewrite gear_first in H by lia. rewrite (lookback_last _ _ (d - 1)) in H; [lia|lia| |intros; lia].
      apply block_end_iff. replace (d - 1 + 1) with d by lia. rewrite Nat.mod_same by lia. lia.
    + assert (Ed : d = 2 * h) by lia. specialize (H (3 * h - 1) ltac:(lia)).
      rewrite (lookback_last _ _ (2 * h - 1)) in H; [|lia| |].
      * rewrite (lookback_last _ _ (3 * h - 1)) in H; [lia|lia| |intros; lia].
        apply gear_end_iff; [lia|]. replace (3 * h - 1 - (h + h - 1)) with h by lia. rewrite Nat.mod_same by lia. lia.
      * apply block_end_iff. rewrite Ed. replace (2 * h - 1 + 1) with (2 * h) by lia. rewrite Nat.mod_same by lia. lia.
      * intros j Hj. apply false_of. rewrite block_end_iff. rewrite Ed. intros (_ & X & _).
        apply Nat.mod_divides in X; [|lia]. destruct X as [c X]. destruct c as [|[|c]]; nia.
  - intros Hd k Hk. rewrite Hd. apply blocks_gear; [lia|lia|]. apply Nat.mod_same. lia.
Qed.
Lemma gda_gear_iff M N p P r r' : 0 < p <= N -> gracefully_degrading_adder M N p P = Ok r -> generic_accuracy_reconfigurable_adder M N (N / p) P = Ok r' ->
  let d := N / p in (r = r' <-> (1 < d + P /\ P mod d = 0) \/ N <= (P / d + 1) * d).
Proof.
  intros Hp E E' d. assert (Hd : 0 < d) by (apply Nat.div_str_pos; lia).
  rewrite (same_iff M N _ _ r _ _ r' (is_gda M N p P r E) (is_gear M N d P r' E')). fold d.
  pose proof (Nat.div_mod P d ltac:(lia)) as Ep. pose proof (Nat.mod_upper_bound P d ltac:(lia)) as Up. set (q := P / d) in *.
  split.
  - intro H. destruct (Nat.le_gt_cases N ((q + 1) * d)) as [|L]; [auto|]. left.
    destruct (Nat.eq_dec (P mod d) 0) as [Z|Z].
    + destruct (Nat.le_gt_cases (d + P) 1) as [L1|L1]; [|auto]. exfalso. assert (d = 1 /\ P = 0) as [D0 P0] by lia. clearbody d. subst.
      specialize (H 0 ltac:(lia)). cbn [lookback] in H. unfold block_end, gear_end in H. cbn in H. destruct N as [|[|N]]; [lia|lia|]. discriminate.
    + exfalso. specialize (H ((q + 1) * d - 1) ltac:(nia)). rewrite gear_first in H by nia.
      rewrite (lookback_last _ _ ((q + 1) * d - 1)) in H; [nia|lia| |intros; lia].
      apply block_end_iff. replace ((q + 1) * d - 1 + 1) with ((q + 1) * d) by nia. rewrite Nat.mod_mul by lia. nia.
  - intros [[H1 H2]|H] k Hk; [apply blocks_gear; auto; lia|]. rewrite !lookback_zero; auto.
    + intros j Hj X. apply gear_end_iff in X; [|lia]. nia.
    + intros j Hj X. apply block_end_iff in X. destruct X as (_ & X & X2). apply Nat.mod_divides in X; [|lia]. destruct X as [c X]. assert (c <= q) by nia. nia.
Qed.

(** ** exact configurations *)
Lemma exact_iff M N restart P r s : approximate_adder M N restart P r -> regular_adder M N = Ok s ->
  (r = s <-> forall k, k < N -> lookback restart P k = 0).
Proof.
  intros H HR. destruct (adder_cut _ _ _ _ _ H) as (H0 & C). destruct (regular_value _ _ _ HR) as (Ws & Ls & Us).
  assert (B : forall i a, i <= N -> ev (nth i s bzero) a = Z.testbit (number N (op1 a) + number N (op2 a)) (Z.of_nat i)).
  { intros i a Hi. rewrite <- Us, uval_number, Ls, number_testbit by lia. reflexivity. }
  split.
  - intros E k Hk. pose proof (B (S k) (long_carry 0 k) ltac:(lia)) as X. rewrite <- E in X.
    pose proof (proj1 (cut_adder_exact M N restart P r (long_carry 0 k) (S k) C ltac:(lia)) X) as Y. clear X. rename Y into X. rewrite carry_into_cf, <- cf_generated, !long_carry_cf in X by lia.
    replace (S k - 1) with k in X by lia. specialize (X eq_refl). apply Nat.leb_le in X. lia.
  - intro E. pose proof C as (Wr & Lr & _). apply list_same; [congruence|]. intros i Hi. unfold bdd in *.
    apply (canonical M); [now apply Forall_nth_wf|now apply Forall_nth_wf|]. intro a. rewrite B by lia.
    destruct i as [|k].
    + apply (cut_adder_exact M N restart P r); [exact C|lia|]. rewrite carry_into_cf. discriminate.
    + apply (cut_adder_low M N restart P r); [exact C|lia|]. replace (S k - 1) with k by lia. apply E. lia.
Qed.
Lemma aca1_never_exact M N Q r s : almost_correct_adder_1 M N Q = Ok r -> regular_adder M N = Ok s -> r <> s.
Proof.
  intros E HR H. pose proof (aca1_range M N Q r E) as HQ.
  rewrite (exact_iff M N _ _ r s (is_aca1 M N Q r E) HR) in H. specialize (H (N - 1) ltac:(lia)).
  rewrite (lookback_last _ _ (N - 1)) in H; [lia|lia| |intros; lia]. apply Nat.leb_le. lia.
Qed.
Lemma blocks_exact N d P : 0 < d -> ((forall k, k < N -> lookback (block_end N d) P k = 0) <-> N <= (Nat.max P 1 / d + 1) * d).
Proof.
  intro Hd. pose proof (Nat.div_mod (Nat.max P 1) d ltac:(lia)) as Ep. pose proof (Nat.mod_upper_bound (Nat.max P 1) d ltac:(lia)) as Up.
  set (q := Nat.max P 1 / d) in *. split.
  - intro H. destruct (Nat.le_gt_cases N ((q + 1) * d)) as [|L]; [auto|]. exfalso.
    specialize (H ((q + 1) * d - 1) ltac:(nia)). rewrite (lookback_last _ _ ((q + 1) * d - 1)) in H; [nia|lia| |intros; lia].
    apply block_end_iff. replace ((q + 1) * d - 1 + 1) with ((q + 1) * d) by nia. rewrite Nat.mod_mul by lia. nia.
  - intros H k Hk. apply lookback_zero. intros j Hj X. apply block_end_iff in X. destruct X as (X0 & X & X2).
    apply Nat.mod_divides in X; [|lia]. destruct X as [c X]. assert (c <= q) by nia. nia.
Qed.
Lemma aca2_exact_iff M N Q r s : almost_correct_adder_2 M N Q = Ok r -> regular_adder M N = Ok s ->
  (r = s <-> Q = N /\ (N = 1 \/ N mod 2 = 0)).
Proof.
  intros E HR. destruct (aca2_range M N Q r E) as [HQ HQ1]. rewrite (exact_iff M N _ _ r s (is_aca2 M N Q r E) HR).
  destruct (Nat.eq_dec Q 1) as [->|D1].
  - specialize (HQ1 eq_refl). subst N. split; [auto|]. intros _ k Hk. assert (k = 0) as -> by lia. reflexivity.
  - pose proof (aca2_quotient N Q HQ) as HD. cbv zeta in HD. set (d := N / (N / Q + 1)) in *.
    assert (Q2 : Q = 2 * (Q / 2) \/ Q = 2 * (Q / 2) + 1) by (pose proof (Nat.div_mod Q 2 ltac:(lia)); pose proof (Nat.mod_upper_bound Q 2 ltac:(lia)); lia).
    rewrite blocks_exact by lia. replace (Nat.max (Q / 2) 1) with (Q / 2) by lia. split.
    + intro H. assert (Eh : d = Q / 2).
      { destruct (Nat.eq_dec d (Q / 2)); auto. rewrite Nat.div_small in H by lia. lia. }
      rewrite Eh in H. rewrite Nat.div_same in H by lia. assert (EQ : Q = N) by lia. split; auto. right.
      assert (EN : N = (Q / 2) * 2) by lia. rewrite EN. apply Nat.mod_mul. lia.
    + intros [-> [H1|H2]]; [lia|]. apply Nat.mod_divides in H2; [|lia]. destruct H2 as [c Hc].
      assert (Ed : d = N / 2) by (unfold d; rewrite Nat.div_same by lia; reflexivity). rewrite Ed.
      rewrite Nat.div_same by lia. lia.
Qed.
Lemma gda_exact_iff M N p P r s : 0 < p <= N -> gracefully_degrading_adder M N p P = Ok r -> regular_adder M N = Ok s ->
  (r = s <-> N <= (Nat.max P 1 / (N / p) + 1) * (N / p)).
Proof.
  intros Hp E HR. rewrite (exact_iff M N _ _ r s (is_gda M N p P r E) HR). apply blocks_exact. apply Nat.div_str_pos. lia.
Qed.
Lemma gear_exact_iff M N R P r s : generic_accuracy_reconfigurable_adder M N R P = Ok r -> regular_adder M N = Ok s ->
  (r = s <-> R = 0 \/ N <= R + P).
Proof.
  intros E HR. destruct (gear_range M N R P r E) as (H1 & H0 & H2). rewrite (exact_iff M N _ _ r s (is_gear M N R P r E) HR).
  destruct (Nat.eq_dec R 0) as [->|DR].
  - split; [auto|]. intros _ k Hk. apply lookback_zero. intros j Hj X. unfold gear_end in X. cbn [Nat.eqb] in X.
    apply andb_true_iff in X. destruct X as [_ X]. apply Nat.eqb_eq in X. lia.
  - split.
    + intro H. right. destruct (Nat.le_gt_cases N (R + P)) as [|L]; [auto|]. exfalso. specialize (H (R + P - 1) ltac:(lia)).
      rewrite (lookback_last _ _ (R + P - 1)) in H; [lia|lia| |intros; lia]. apply gear_end_iff; [lia|]. rewrite Nat.sub_diag, Nat.mod_0_l by lia. lia.
    + intros [|H] k Hk; [lia|]. apply lookback_zero. intros j Hj X. apply gear_end_iff in X; lia.
Qed.
