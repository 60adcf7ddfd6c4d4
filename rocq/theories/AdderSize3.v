(** Closed forms and bounds for the sizes of the approximate adders. *)
From Coq Require Import List Bool Arith ZArith Lia.
From Verif Require Import Res Cudd CuddFacts Spec SpecFacts Helpers HelpersFacts Examples AdderFacts SpecAdder AdderErrorFacts AdderErrorFacts3 SpecAdderSize AdderSize AdderSize2.
Import ListNotations.
Open Scope nat_scope.

Definition sum_to (f : nat -> nat) (n : nat) : nat := fold_right Nat.add 0 (map f (seq 0 n)).
Lemma fold_add_app l m : fold_right Nat.add 0 (l ++ m) = fold_right Nat.add 0 l + fold_right Nat.add 0 m.
Proof. induction l as [|x l IH]; [reflexivity|]. cbn [app fold_right]. lia. Qed.
Lemma sum_to_S f n : sum_to f (S n) = sum_to f n + f n.
Proof. unfold sum_to. rewrite seq_S, map_app, fold_add_app. cbn [map fold_right Nat.add]. lia. Qed.
Lemma sum_to_le f g n : (forall k, k < n -> f k <= g k) -> sum_to f n <= sum_to g n.
Proof.
  induction n as [|n IH]; intro H; [reflexivity|]. rewrite !sum_to_S. pose proof (H n ltac:(lia)). specialize (IH ltac:(intros; apply H; lia)). lia.
Qed.
Lemma sum_to_ext f g n : (forall k, k < n -> f k = g k) -> sum_to f n = sum_to g n.
Proof.
  induction n as [|n IH]; intro H; [reflexivity|]. rewrite !sum_to_S. pose proof (H n ltac:(lia)). specialize (IH ltac:(intros; apply H; lia)). lia.
Qed.
Lemma sum_to_lt f g n k : (forall j, j < n -> f j <= g j) -> k < n -> f k < g k -> sum_to f n < sum_to g n.
Proof.
  induction n as [|n IH]; intros H Hk Hl; [lia|]. rewrite !sum_to_S. pose proof (H n ltac:(lia)).
  destruct (Nat.eq_dec k n) as [->|Hn].
  - pose proof (sum_to_le f g n ltac:(intros; apply H; lia)). lia.
  - specialize (IH ltac:(intros; apply H; lia) ltac:(lia) Hl). lia.
Qed.
Lemma approximate_size_sum N restart P : approximate_size N restart P =
  1 + sum_to (fun k => sum_bit_size (looked_at restart P k)) N + carry_out_size (looked_at restart P N).
Proof. reflexivity. Qed.

Lemma sum_bit_size_lt d e : d < e -> sum_bit_size d < sum_bit_size e.
Proof. unfold sum_bit_size. intro H. destruct (Nat.eqb_spec d 0), (Nat.eqb_spec e 0); lia. Qed.
Lemma carry_out_size_lt d e : d < e -> carry_out_size d < carry_out_size e.
Proof. unfold carry_out_size. intro H. destruct (Nat.eqb_spec d 0), (Nat.eqb_spec e 0); lia. Qed.
Lemma sum_bit_size_le d e : d <= e -> sum_bit_size d <= sum_bit_size e.
Proof. intro H. destruct (Nat.eq_dec d e) as [->|]; [lia|]. pose proof (sum_bit_size_lt d e). lia. Qed.
Lemma carry_out_size_le d e : d <= e -> carry_out_size d <= carry_out_size e.
Proof. intro H. destruct (Nat.eq_dec d e) as [->|]; [lia|]. pose proof (carry_out_size_lt d e). lia. Qed.

Lemma triangle n : 0 < n -> 2 * sum_to sum_bit_size n = 3 * n * n - n + 2.
Proof.
  induction n as [|n IH]; [lia|]. intros _. rewrite sum_to_S. destruct n as [|n]; [reflexivity|]. specialize (IH ltac:(lia)).
  unfold sum_bit_size at 2. cbn [Nat.eqb]. nia.
Qed.
Lemma full_size N : 0 < N -> 2 * (1 + sum_to sum_bit_size N + carry_out_size N) = N * (3 * N + 5).
Proof.
  intro HN. pose proof (triangle N HN) as T. unfold carry_out_size. destruct (Nat.eqb_spec N 0); [lia|]. nia.
Qed.

(** ** never larger than the exact adder *)
Lemma approximate_never_larger M N restart P r : index_order M -> approximate_adder M N restart P r ->
  2 * nodeCount r <= N * (3 * N + 5)
  /\ ((exists a, uval r a <> (number N (op1 a) + number N (op2 a))%Z) -> 2 * nodeCount r < N * (3 * N + 5)).
Proof.
  intros HM H. destruct (adder_cut M N restart P r H) as (HN & C). rewrite (approximate_adder_size M N restart P r HM H), approximate_size_sum.
  rewrite <- (full_size N HN).
  pose proof (sum_to_le (fun k => sum_bit_size (looked_at restart P k)) sum_bit_size N ltac:(intros; apply sum_bit_size_le; unfold looked_at; lia)) as L1.
  pose proof (carry_out_size_le (looked_at restart P N) N ltac:(unfold looked_at; lia)) as L2.
  split; [lia|]. intros (a & Ha).
  assert (X : exists k, k <= N /\ 0 < before restart P k).
  { destruct (forallb (fun k => before restart P k =? 0) (seq 0 (S N))) eqn:F.
    - exfalso. apply Ha. rewrite forallb_forall in F. destruct C as (W & L & V). rewrite uval_number, L.
      replace (number N (op1 a) + number N (op2 a))%Z with (number (N + 1) (sum_bit N (op1 a) (op2 a))).
      + apply number_ext. intros i Hi. rewrite V by lia. unfold cut_bit, sum_bit. f_equal. destruct i as [|i]; [reflexivity|]. cbn [cin].
        assert (E : before restart P (S i) =? 0 = true) by (apply F, in_seq; lia). apply Nat.eqb_eq in E. cbn [before] in E. rewrite E. reflexivity.
      + rewrite Nat.add_1_r, exact_sum. cbn [number]. f_equal.
        * apply number_ext. intros j Hj. unfold sum_bit, xbit. destruct (Nat.ltb_spec j N); [reflexivity|lia].
        * unfold sum_bit. rewrite Nat.ltb_irrefl, xorb_false_l. reflexivity.
    - apply Bool.not_true_iff_false in F. rewrite forallb_forall in F.
      destruct (existsb (fun k => negb (before restart P k =? 0)) (seq 0 (S N))) eqn:G.
      + apply existsb_exists in G. destruct G as (k & Hk & G). apply in_seq in Hk. exists k. split; [lia|]. destruct (Nat.eqb_spec (before restart P k) 0); [discriminate G|lia].
      + exfalso. apply F. intros k Hk. destruct (before restart P k =? 0) eqn:Z; [reflexivity|]. exfalso. apply Bool.not_true_iff_false in G. apply G.
        apply existsb_exists. exists k. rewrite Z. split; [exact Hk|reflexivity]. }
  destruct X as (k & Hk & Hb). pose proof (before_le restart P k) as Hle. destruct (Nat.eq_dec k N) as [->|Hn].
  - pose proof (carry_out_size_lt (looked_at restart P N) N ltac:(unfold looked_at; lia)). lia.
  - pose proof (sum_to_lt (fun k => sum_bit_size (looked_at restart P k)) sum_bit_size N k ltac:(intros; apply sum_bit_size_le; unfold looked_at; lia) ltac:(lia)
      ltac:(apply sum_bit_size_lt; unfold looked_at; lia)). lia.
Qed.

(** ** closed forms *)
Lemma aca1_before Q k : before (fun k => Q - 1 <=? k) (Q - 1) k = k - (Q - 1).
Proof.
  destruct k as [|k]; [reflexivity|]. cbn [before]. induction k as [|k IH].
  - cbn [lookback]. destruct (Nat.leb_spec (Q - 1) 0); lia.
  - cbn [lookback]. destruct (Nat.leb_spec (Q - 1) (S k)) as [H|H]; [lia|]. rewrite IH. lia.
Qed.
Lemma aca1_size M N Q r : index_order M -> 2 <= Q -> almost_correct_adder_1 M N Q = Ok r ->
  2 * nodeCount r + 3 * (Q - 1) * (Q - 1) = 2 * N + 6 * N * (Q - 1) + 3 * (Q - 1).
Proof.
  intros HM HQ E. pose proof (aca1_range M N Q r E) as R.
  rewrite (approximate_adder_size M N _ _ r HM (is_aca1 M N Q r E)), approximate_size_sum.
  set (q := Q - 1). assert (Hq : 0 < q < N) by (unfold q; lia).
  assert (L : forall k, looked_at (fun k => Q - 1 <=? k) (Q - 1) k = Nat.min k q) by (intro k; unfold looked_at; rewrite aca1_before; unfold q; lia).
  fold q in L |- *. rewrite L. rewrite (sum_to_ext _ (fun k => sum_bit_size (Nat.min k q)) N) by (intros; rewrite L; reflexivity).
  assert (T : forall n, q <= n -> 2 * sum_to (fun k => sum_bit_size (Nat.min k q)) n + 3 * q * q + 3 * q = 6 * n * q + 2 * n + 2).
  { induction n as [|n IH]; [lia|]. intro Hn. destruct (Nat.eq_dec q (S n)) as [<-|].
    - rewrite (sum_to_ext _ sum_bit_size q) by (intros; f_equal; lia). pose proof (triangle q ltac:(lia)). nia.
    - rewrite sum_to_S. specialize (IH ltac:(lia)). replace (Nat.min n q) with q by lia. unfold sum_bit_size at 2. destruct (Nat.eqb_spec q 0); [lia|]. nia. }
  specialize (T N ltac:(lia)). replace (Nat.min N q) with q by lia. unfold carry_out_size. destruct (Nat.eqb_spec q 0); [lia|]. nia.
Qed.
Lemma aca1_size_one M N r : index_order M -> almost_correct_adder_1 M N 1 = Ok r -> nodeCount r = 2 * N + 1.
Proof.
  intros HM E. rewrite (approximate_adder_size M N _ _ r HM (is_aca1 M N 1 r E)), approximate_size_sum.
  assert (L : forall k, looked_at (fun k => 1 - 1 <=? k) (1 - 1) k = 0) by (intro k; unfold looked_at; rewrite aca1_before; lia).
  rewrite L. rewrite (sum_to_ext _ (fun k => 2) N) by (intros; rewrite L; reflexivity).
  assert (T : forall n, sum_to (fun k => 2) n = 2 * n) by (induction n as [|n IH]; [reflexivity|rewrite sum_to_S; lia]).
  rewrite T. unfold carry_out_size. cbn [Nat.eqb]. lia.
Qed.

(** ** blocks of [d] bits without lookback: independent adders *)
Lemma block_before N d k : 2 <= d -> k <= N -> (k < N -> before (block_end N d) 0 k = k - k mod d) /\ (k = N -> 0 < N -> N mod d = 0 -> before (block_end N d) 0 k = N - d).
Proof.
  intros Hd. induction k as [|k IH]; intro Hk.
  - split; [intros; cbn [before]; lia|]. intros <-. lia.
  - destruct IH as [IH _]; [lia|].
    assert (D : forall k, k mod d = k - d * (k / d) /\ d * (k / d) <= k /\ k < d * (k / d) + d).
    { intro j. pose proof (Nat.div_mod j d ltac:(lia)). pose proof (Nat.mod_upper_bound j d ltac:(lia)). lia. }
    assert (St : before (block_end N d) 0 (S k) = if block_end N d k then S k else before (block_end N d) 0 k).
    { cbn [before]. destruct k as [|k]; cbn [lookback before]; destruct (block_end N d _); lia. }
    rewrite St.
    assert (B : block_end N d k = negb (k =? 0) && (S k mod d =? 0) && negb (S k =? N)) by (unfold block_end; rewrite Nat.add_1_r; reflexivity).
    rewrite B. clear B St. destruct (Nat.eqb_spec k 0) as [->|Hk0].
    + cbn [negb andb before]. split.
      * intros _. rewrite Nat.mod_small by lia. lia.
      * intros <- _ H. rewrite Nat.mod_small in H by lia. lia.
    + cbn [negb andb]. destruct (Nat.eqb_spec (S k) N) as [Ek|Ek].
      * cbn [negb]. rewrite Bool.andb_false_r. split; [lia|]. cbn iota. intros _ _ H. rewrite IH by lia. subst N.
        assert (X : S k / d = S (k / d)).
        { pose proof (D k). pose proof (D (S k)). rewrite H in *. pose proof (Nat.div_le_mono k (S k) d). nia. }
        pose proof (D k). pose proof (D (S k)). nia.
      * cbn [negb]. rewrite Bool.andb_true_r. split; [|lia]. intros _. destruct (Nat.eqb_spec (S k mod d) 0) as [H|H]; [lia|]. rewrite IH by lia.
        pose proof (D k). pose proof (D (S k)). assert (S k / d = k / d); [|nia]. nia.
Qed.
Lemma gda_size M N p d r : index_order M -> 2 <= d -> N = p * d -> gracefully_degrading_adder M N p 0 = Ok r ->
  2 * nodeCount r = p * (3 * d * d - d + 2) + 6 * d - 2.
Proof.
  intros HM Hd HN E. pose proof (is_gda M N p 0 r E) as A. destruct (adder_cut M N _ _ r A) as (HN0 & _).
  assert (Hp : 0 < p) by (destruct p; [cbn in HN; lia|lia]).
  assert (Ed : N / p = d) by (rewrite HN, Nat.mul_comm; apply Nat.div_mul; lia). rewrite Ed in A.
  rewrite (approximate_adder_size M N _ _ r HM A), approximate_size_sum.
  assert (L : forall k, k < N -> looked_at (block_end N d) 0 k = k mod d).
  { intros k Hk. unfold looked_at. rewrite (proj1 (block_before N d k Hd ltac:(lia)) Hk). pose proof (Nat.mod_le k d ltac:(lia)). lia. }
  assert (LN : looked_at (block_end N d) 0 N = d).
  { unfold looked_at. rewrite (proj2 (block_before N d N Hd ltac:(lia)) eq_refl HN0); [nia|]. rewrite HN. apply Nat.mod_mul. lia. }
  rewrite LN. rewrite (sum_to_ext _ (fun k => sum_bit_size (k mod d)) N) by (intros; rewrite L by assumption; reflexivity).
  assert (T : forall q j, j <= d -> sum_to (fun k => sum_bit_size (k mod d)) (q * d + j) = q * sum_to sum_bit_size d + sum_to sum_bit_size j).
  { induction q as [|q IHq].
    - intros j Hj. cbn [Nat.mul Nat.add]. apply sum_to_ext. intros k Hk. rewrite Nat.mod_small by lia. reflexivity.
    - induction j as [|j IHj]; intro Hj.
      + replace (S q * d + 0) with (q * d + d) by lia. rewrite IHq by lia. assert (Z : sum_to sum_bit_size 0 = 0) by reflexivity. lia.
      + rewrite Nat.add_succ_r, !sum_to_S, IHj by lia. replace ((S q * d + j) mod d) with j; [lia|].
        rewrite Nat.add_comm, Nat.mod_add, Nat.mod_small by lia. reflexivity. }
  specialize (T p 0 ltac:(lia)). rewrite Nat.add_0_r, <- HN in T. rewrite T. pose proof (triangle d ltac:(lia)) as Td.
  assert (Z : sum_to sum_bit_size 0 = 0) by reflexivity. rewrite Z. unfold carry_out_size. destruct (Nat.eqb_spec d 0); [lia|]. nia.
Qed.
