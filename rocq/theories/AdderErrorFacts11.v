(** The worst case error of the block adders in closed form *)
From Coq Require Import List Bool Arith ZArith QArith Lia Lqa.
From Verif Require Import Res Cudd CuddFacts Spec SpecFacts SpecAdder SpecLookback Helpers Examples Metrics AdderFacts AdderErrorFacts AdderErrorFacts3
  AdderErrorFacts5 AdderErrorFacts6 AdderErrorFacts8 AdderErrorFacts10.
Import ListNotations.
Open Scope nat_scope.

Lemma loss_none restart P n : (forall k, k < n -> restart k && (P <=? k) = false) -> loss restart P n = 0%Z.
Proof. induction n as [|n IH]; intro H; [reflexivity|]. rewrite loss_skip by (apply H; lia). apply IH. intros k Hk. apply H. lia. Qed.
Lemma loss_const restart P m n : m <= n -> (forall k, m <= k < n -> restart k && (P <=? k) = false) -> loss restart P n = loss restart P m.
Proof.
  induction 1 as [|n L IH]; intro H; [reflexivity|]. rewrite loss_skip by (apply H; lia). apply IH. intros k Hk. apply H. lia.
Qed.
(** restarts at [f], [f + d], ..., [f + L * d] *)
Section Periodic.
Variables (restart : nat -> bool) (P f d L : nat).
Hypothesis Hd : 0 < d.
Hypothesis Hf : P <= f.
Hypothesis HR : forall m, m <= L -> restart (f + m * d) = true.
Hypothesis HN : forall k, k < f + L * d -> P <= k -> restart k = true -> exists m, k = f + m * d.

Lemma periodic_step m : m <= L -> loss restart P (S (f + m * d))
  = (2 ^ Z.of_nat (f + m * d) + if (P / d + 1 <=? m)%nat then loss restart P (S (f + (m - (P / d + 1)) * d)) else 0)%Z.
Proof using Hd Hf HR HN.
  intro Hm. rewrite loss_take by (auto; lia). f_equal.
  pose proof (Nat.div_mod P d ltac:(lia)) as D. pose proof (Nat.mod_upper_bound P d ltac:(lia)) as U. set (q := P / d) in *. clearbody q.
  assert (Z0 : m * d <= L * d) by (apply Nat.mul_le_mono_r; auto).
  destruct (Nat.leb_spec (q + 1) m) as [H|H].
  - assert (E : m * d = (m - (q + 1)) * d + q * d + d) by nia. apply loss_const; [nia|]. intros k Hk.
    destruct (restart k) eqn:R; [|reflexivity]. destruct (Nat.leb_spec P k) as [K|K]; [|reflexivity]. exfalso.
    destruct (HN k ltac:(lia) K R) as [m' ->]. assert (m - (q + 1) < m') by nia. assert (m' < m - q) by nia. lia.
  - apply loss_none. intros k Hk. destruct (restart k) eqn:R; [|reflexivity]. destruct (Nat.leb_spec P k) as [K|K]; [|reflexivity]. exfalso.
    destruct (HN k ltac:(lia) K R) as [m' ->]. assert (m * d <= q * d) by (apply Nat.mul_le_mono_r; lia). nia.
Qed.
Lemma periodic_loss m : m <= L -> (loss restart P (S (f + m * d)) * (2 ^ Z.of_nat (d * (P / d + 1)) - 1)
  = 2 ^ Z.of_nat (f + m * d + d * (P / d + 1)) - 2 ^ Z.of_nat (f + (m mod (P / d + 1)) * d)%nat)%Z.
Proof using Hd Hf HR HN.
  induction m as [m IH] using (well_founded_induction lt_wf). intro Hm. rewrite periodic_step by auto. set (s := P / d + 1) in *.
  assert (0 < s) by (unfold s; lia). clearbody s. rewrite (Nat2Z.inj_add (f + m * d)), Z.pow_add_r by lia. destruct (Nat.leb_spec s m) as [L1|L1].
  - rewrite Z.mul_add_distr_r, (IH (m - s)) by lia. replace (f + (m - s) * d + d * s) with (f + m * d) by nia.
    replace ((m - s) mod s) with (m mod s); [ring|]. replace m with (m - s + 1 * s) at 1 by lia. apply Nat.mod_add. lia.
  - rewrite Nat.mod_small by auto. ring.
Qed.
End Periodic.

Lemma gear_wce M N R P r s : generic_accuracy_reconfigurable_adder M N R P = Ok r -> regular_adder M N = Ok s -> N < 256 ->
  exists e, worst_case_error M s r BaseTwo = Ok e
    /\ if (0 <? R) && (R + P <? N)
       then let t := (N - 1 - P) / R in let d := R * (P / R + 1) in
            (e * (2 ^ Z.of_nat d - 1) = 2 ^ Z.of_nat (P + R * t + d) - 2 ^ Z.of_nat (P + R * ((t - 1) mod (P / R + 1) + 1)))%Z
       else e = 0%Z.
Proof.
  intros E E' HN. eexists. split; [apply (two_wce M N P (gear_end N R P) r s (is_gear M N R P r E) E' HN)|].
  fold (loss (gear_end N R P) P N). destruct (gear_range M N R P r E) as (K1 & K2 & K3). destruct (Nat.ltb_spec 0 R) as [HR|HR]; cbn [andb].
  - destruct (Nat.ltb_spec (R + P) N) as [L|L].
    + cbv zeta. set (t := (N - 1 - P) / R). pose proof (Nat.div_mod (N - 1 - P) R ltac:(lia)) as D.
      pose proof (Nat.mod_upper_bound (N - 1 - P) R ltac:(lia)) as U. fold t in D.
      assert (T : 1 <= t) by (apply Nat.div_le_lower_bound; lia). clearbody t.
      set (f := R + P - 1). assert (B : f + (t - 1) * R + 1 = P + R * t) by (unfold f; nia).
      assert (X : loss (gear_end N R P) P N = loss (gear_end N R P) P (S (f + (t - 1) * R))).
      { apply loss_const; [lia|]. intros k Hk. destruct (gear_end N R P k) eqn:C; auto. exfalso. apply gear_end_iff in C as (C1 & C2 & C3); [|lia].
        apply Nat.div_exact in C3; [|lia]. set (u := (k - (R + P - 1)) / R) in *. clearbody u. fold f in C3, C1. assert (t - 1 < u) by nia. nia. }
      rewrite X. pose proof (periodic_loss (gear_end N R P) P f R (t - 1) HR) as F.
      specialize (F ltac:(unfold f; lia)). rewrite <- Z.mul_assoc.
      rewrite F with (m := t - 1).
      * replace (P + R * t + R * (P / R + 1)) with (S (f + (t - 1) * R + R * (P / R + 1))) by lia.
        replace (P + R * ((t - 1) mod (P / R + 1) + 1)) with (S (f + (t - 1) mod (P / R + 1) * R)) by (unfold f; nia).
        rewrite !Nat2Z.inj_succ, !Z.pow_succ_r by lia. ring.
      * intros m Hm. apply gear_end_iff; [lia|]. fold f. assert (m * R <= (t - 1) * R) by (apply Nat.mul_le_mono_r; auto).
        split; [lia|]. split; [lia|]. replace (f + m * R - f) with (m * R) by lia. apply Nat.mod_mul. lia.
      * intros k Hk HP C. apply gear_end_iff in C as (C1 & C2 & C3); [|lia]. fold f in C1, C3. apply Nat.div_exact in C3; [|lia].
        exists ((k - f) / R). lia.
      * lia.
    + rewrite loss_none; [reflexivity|]. intros k Hk. destruct (gear_end N R P k) eqn:C; auto. exfalso. apply gear_end_iff in C; lia.
  - assert (R = 0) by lia. subst R. rewrite loss_none; [reflexivity|]. intros k Hk. destruct (gear_end N 0 P k) eqn:C; auto.
    unfold gear_end in C. cbn [Nat.eqb] in C. apply andb_true_iff in C as [_ C]. apply Nat.eqb_eq in C. apply Nat.leb_gt. lia.
Qed.
Lemma blocks_loss N d P : 0 < d -> 0 < N -> let e := (2 * loss (block_end N d) P N)%Z in
  if first_cut d P <? N
  then (e * (2 ^ Z.of_nat (d * (P / d + 1)) - 1) = 2 ^ Z.of_nat (last_start N d + d * (P / d + 1))
       - 2 ^ Z.of_nat (first_cut d P + d * ((last_start N d - first_cut d P) / d mod (P / d + 1))))%Z
  else e = 0%Z.
Proof.
  intros Hd HN e. unfold e. clear e.
  assert (R : forall k, block_end N d k = true <-> k <> 0 /\ (k + 1) mod d = 0 /\ k + 1 <> N).
  { intro k. unfold block_end. rewrite !andb_true_iff, !negb_true_iff, !Nat.eqb_neq, Nat.eqb_eq. tauto. }
  assert (F : exists c0, first_cut d P = d * c0 /\ P < d * c0 /\ 1 < d * c0 /\ forall c, 1 < d * c -> P < d * c -> c0 <= c).
  { unfold first_cut. pose proof (Nat.div_mod P d ltac:(lia)) as D. pose proof (Nat.mod_upper_bound P d ltac:(lia)) as U.
    destruct ((d =? 1) && (P =? 0)) eqn:E.
    - apply andb_true_iff in E as [E1 E2]. apply Nat.eqb_eq in E1, E2. subst. exists 2. repeat split; lia.
    - assert (EE : ~ (d = 1 /\ P = 0)) by (intros [-> ->]; cbn in E; discriminate).
      set (q := P / d) in *. clearbody q. exists (q + 1). split; [reflexivity|]. assert (X : P < d * (q + 1)) by nia. split; auto. split.
      { destruct (Nat.eq_dec d 1) as [->|]; [|nia]. assert (0 < P) by lia. lia. }
      intros c _ H2. destruct (le_lt_dec (q + 1) c) as [|L]; auto. exfalso. assert (d * c <= d * q) by (apply Nat.mul_le_mono_l; lia). lia. }
  destruct F as (c0 & F0 & F1 & F2 & F3). rewrite F0. destruct (Nat.ltb_spec (d * c0) N) as [L|L].
  - assert (T : exists t, last_start N d = d * t /\ d * t < N /\ c0 <= t /\ forall c, d * c < N -> c <= t).
    { unfold last_start. assert ((d =? 1) && (N =? 2) = false) as ->.
      { destruct (Nat.eqb_spec d 1); [|reflexivity]. destruct (Nat.eqb_spec N 2); [|reflexivity]. lia. }
      exists ((N - 1) / d). pose proof (Nat.div_mod (N - 1) d ltac:(lia)) as D. pose proof (Nat.mod_upper_bound (N - 1) d ltac:(lia)) as U.
      set (t := (N - 1) / d) in *. clearbody t. split; [reflexivity|]. split; [lia|].
      assert (X : forall c, d * c < N -> c <= t) by (intros c Hc; destruct (le_lt_dec c t) as [|C]; auto; exfalso; assert (d * (t + 1) <= d * c) by (apply Nat.mul_le_mono_l; lia); lia).
      split; auto. }
    destruct T as (t & T0 & T1 & T2 & T3). rewrite T0.
    set (f := d * c0 - 1). assert (B : f + (t - c0) * d + 1 = d * t) by (unfold f; nia).
    assert (Q1 : (d * t - d * c0) / d = t - c0) by (rewrite <- Nat.mul_sub_distr_l, Nat.mul_comm; apply Nat.div_mul; lia). rewrite Q1.
    assert (X : loss (block_end N d) P N = loss (block_end N d) P (S (f + (t - c0) * d))).
    { apply loss_const; [lia|]. intros k Hk. destruct (block_end N d k) eqn:C; auto. exfalso. apply R in C as (C1 & C2 & C3).
      apply Nat.div_exact in C2; [|lia]. set (u := (k + 1) / d) in *. clearbody u. assert (u <= t) by (apply T3; lia). nia. }
    rewrite X, <- Z.mul_assoc. rewrite (periodic_loss (block_end N d) P f d (t - c0) Hd) with (m := t - c0).
    + replace (d * t + d * (P / d + 1)) with (S (f + (t - c0) * d + d * (P / d + 1))) by lia.
      replace (d * c0 + d * ((t - c0) mod (P / d + 1))) with (S (f + (t - c0) mod (P / d + 1) * d)) by (unfold f; nia).
      rewrite !Nat2Z.inj_succ, !Z.pow_succ_r by lia. ring.
    + unfold f. lia.
    + intros m Hm. apply R. assert (m * d <= (t - c0) * d) by (apply Nat.mul_le_mono_r; auto). unfold f in *. split; [lia|]. split; [|lia].
      replace (d * c0 - 1 + m * d + 1) with ((c0 + m) * d) by nia. apply Nat.mod_mul. lia.
    + intros k Hk HP C. apply R in C as (C1 & C2 & C3). apply Nat.div_exact in C2; [|lia]. set (u := (k + 1) / d) in *. clearbody u.
      assert (c0 <= u) by (apply F3; lia). exists (u - c0). unfold f. nia.
    + lia.
  - rewrite loss_none; [reflexivity|]. intros k Hk. destruct (block_end N d k) eqn:C; auto. apply Nat.leb_gt. apply R in C as (C1 & C2 & C3).
    apply Nat.div_exact in C2; [|lia]. set (u := (k + 1) / d) in *. clearbody u. destruct (le_lt_dec P k) as [K|K]; auto. exfalso.
    assert (c0 <= u) by (apply F3; lia). assert (d * c0 <= d * u) by (apply Nat.mul_le_mono_l; auto). lia.
Qed.
Lemma gda_wce M N p P r s : gracefully_degrading_adder M N p P = Ok r -> regular_adder M N = Ok s -> N < 256 -> 1 < N ->
  exists e, worst_case_error M s r BaseTwo = Ok e /\
    let d := N / p in let w := d * (P / d + 1) in
    if first_cut d P <? N
    then (e * (2 ^ Z.of_nat w - 1) = 2 ^ Z.of_nat (last_start N d + w)
         - 2 ^ Z.of_nat (first_cut d P + d * ((last_start N d - first_cut d P) / d mod (P / d + 1))))%Z
    else e = 0%Z.
Proof.
  intros E E' HN H1. eexists. split; [apply (two_wce M N P _ r s (is_gda M N p P r E) E' HN)|].
  assert (D : 0 < p <= N \/ ~ 0 < p <= N) by lia. destruct D as [D|D].
  - apply blocks_loss; [apply Nat.div_str_pos|]; lia.
  - rewrite gda_bad in E by lia. discriminate.
Qed.
Lemma aca2_wce M N Q r s : almost_correct_adder_2 M N Q = Ok r -> regular_adder M N = Ok s -> N < 256 -> 1 < N ->
  exists e, worst_case_error M s r BaseTwo = Ok e /\
    let d := N / (N / Q + 1) in let P := Q / 2 in let w := d * (P / d + 1) in
    if first_cut d P <? N
    then (e * (2 ^ Z.of_nat w - 1) = 2 ^ Z.of_nat (last_start N d + w)
         - 2 ^ Z.of_nat (first_cut d P + d * ((last_start N d - first_cut d P) / d mod (P / d + 1))))%Z
    else e = 0%Z.
Proof.
  intros E E' HN H1. eexists. split; [apply (two_wce M N _ _ r s (is_aca2 M N Q r E) E' HN)|].
  destruct (aca2_range M N Q r E) as [K1 K2]. apply blocks_loss; [|lia]. destruct (aca2_quotient N Q K1) as ((K & _) & _).
  assert (1 <= Q / 2) by (apply Nat.div_le_lower_bound; lia). lia.
Qed.
