(** Proofs about the example circuits: gates and adders. *)
From Coq Require Import List Bool Arith ZArith Lia.
From Verif Require Import Res Cudd CuddFacts Spec SpecFacts Helpers HelpersFacts Examples.
Import ListNotations.
Open Scope nat_scope.

(** ** gates *)
Lemma gate_and M n a : ev (and_bdd M n) a = true <-> forall i, i < n -> a i = true.
Proof.
  unfold and_bdd. induction n as [|n IH]; [split; auto; intros; lia|].
  rewrite seq_S, fold_left_app. cbn [fold_left]. rewrite Nat.add_0_l, ev_and, ev_var, andb_true_iff, IH.
  split; [intros [H1 H2] i Hi|intro H; split; auto].
  destruct (Nat.eq_dec i n); [subst; auto|apply H1; lia].
Qed.
Lemma gate_or M n a : ev (or_bdd M n) a = true <-> exists i, i < n /\ a i = true.
Proof.
  unfold or_bdd. induction n as [|n IH]; [split; [discriminate|intros (i & Hi & _); lia]|].
  rewrite seq_S, fold_left_app. cbn [fold_left]. rewrite Nat.add_0_l, ev_or, ev_var, orb_true_iff, IH.
  split.
  - intros [(i & Hi & H)|H]; [exists i|exists n]; auto.
  - intros (i & Hi & H). destruct (Nat.eq_dec i n); [subst; auto|left; exists i; split; auto; lia].
Qed.
Lemma gate_xor M n a : ev (xor_bdd M n) a = Nat.odd (length (filter a (seq 0 n))).
Proof.
  unfold xor_bdd. induction n as [|n IH]; [reflexivity|].
  rewrite seq_S, fold_left_app, filter_app, app_length. cbn [fold_left filter length].
  rewrite Nat.add_0_l, ev_xor, ev_var, IH, Nat.odd_add. f_equal. destruct (a n); reflexivity.
Qed.
Lemma gates_wf M n : wf M (and_bdd M n) /\ wf M (or_bdd M n) /\ wf M (xor_bdd M n).
Proof.
  unfold and_bdd, or_bdd, xor_bdd.
  induction n as [|n IH]; [repeat split; exact I|]. rewrite seq_S, !fold_left_app. cbn [fold_left].
  destruct IH as (H1 & H2 & H3). auto with wf.
Qed.

(** ** loops and vectors *)
Lemma for_each_inv {S} (I : nat -> S -> Prop) (body : nat -> S -> res S) n : forall s st, I s st ->
  (forall i st, s <= i < s + n -> I i st -> exists st', body i st = Ok st' /\ I (i + 1) st') ->
  exists st', for_each (seq s n) st body = Ok st' /\ I (s + n) st'.
Proof.
  induction n as [|n IH]; intros s st H0 Hs; cbn [seq for_each].
  - exists st. rewrite Nat.add_0_r. auto.
  - destruct (Hs s st) as (st1 & E1 & H1); [lia|auto|]. rewrite E1. cbn [bind].
    destruct (IH (Datatypes.S s) st1) as (st2 & E2 & H2).
    + replace (Datatypes.S s) with (s + 1) by lia. auto.
    + intros i st' Hi. apply Hs. lia.
    + exists st2. split; auto. replace (s + Datatypes.S n) with (Datatypes.S s + n) by lia. auto.
Qed.
Lemma for_each_app {S} (body : nat -> S -> res S) l1 : forall l2 st,
  for_each (l1 ++ l2) st body = bind (for_each l1 st body) (fun s => for_each l2 s body).
Proof.
  induction l1 as [|i l1 IH]; intros l2 st; cbn [app for_each bind]; auto.
  destruct (body i st); cbn [bind]; auto.
Qed.
Lemma in1_get N i : i < N -> vget (input1 N) i = Ok (bvar (i * 2)).
Proof.
  intro H. unfold vget, input1. rewrite nth_error_map, nth_error_nth' with (d := 0) by now rewrite seq_length.
  rewrite seq_nth by auto. reflexivity.
Qed.
Lemma in2_get N i : i < N -> vget (input2 N) i = Ok (bvar (i * 2 + 1)).
Proof.
  intro H. unfold vget, input2. rewrite nth_error_map, nth_error_nth' with (d := 0) by now rewrite seq_length.
  rewrite seq_nth by auto. reflexivity.
Qed.
Lemma in1_oob N i : N <= i -> vget (input1 N) i = UB.
Proof.
  intro H. unfold vget, input1. rewrite nth_error_map.
  assert (nth_error (seq 0 N) i = None) as -> by (apply nth_error_None; now rewrite seq_length). reflexivity.
Qed.
Lemma vback_nth (l : list bdd) : l <> [] -> vback l = Ok (nth (length l - 1) l bzero).
Proof.
  intro H. destruct (exists_last H) as (l' & b & ->). unfold vback. rewrite rev_app_distr. cbn [rev app].
  rewrite app_length. cbn [length]. rewrite app_nth2 by lia. replace (length l' + 1 - 1 - length l') with 0 by lia. reflexivity.
Qed.
Lemma vget_nth (l : list bdd) i : i < length l -> vget l i = Ok (nth i l bzero).
Proof. intro H. unfold vget. now rewrite (nth_error_nth' l bzero H). Qed.

(** ** carries *)
Definition maj (a b c : bool) : bool := (a && b) || (a && c) || (b && c).
Lemma carry_gen_ev M f g c a : ev (carry_generate M f g c) a = maj (ev f a) (ev g a) (ev c a).
Proof. unfold carry_generate, maj. now rewrite !ev_or, !ev_and. Qed.
Lemma carry_gen_wf M f g c : wf M f -> wf M g -> wf M c -> wf M (carry_generate M f g c).
Proof. unfold carry_generate. auto 10 with wf. Qed.

(** carry into position [i] starting with zero at position [l] *)
Fixpoint cf (x y : nat -> bool) (l i : nat) : bool :=
  match i with
  | O => false
  | S i' => if i' <? l then false else maj (x i') (y i') (cf x y l i')
  end.
Lemma cf_low x y l i : i <= l -> cf x y l i = false.
Proof. destruct i as [|i]; intro H; cbn [cf]; auto. assert (i <? l = true) as -> by (apply Nat.ltb_lt; lia). reflexivity. Qed.
Lemma cf_step x y l i : l <= i -> cf x y l (i + 1) = maj (x i) (y i) (cf x y l i).
Proof. intro H. rewrite Nat.add_1_r. cbn [cf]. assert (i <? l = false) as -> by now apply Nat.ltb_ge. reflexivity. Qed.
Lemma maj_mono a b c d : (c = true -> d = true) -> maj a b c = true -> maj a b d = true.
Proof. unfold maj. destruct a, b, c, d; cbn; auto. Qed.
Lemma cf_mono x y l l' i : l' <= l -> cf x y l i = true -> cf x y l' i = true.
Proof.
  intro L. induction i as [|i IH]; cbn [cf]; auto. destruct (i <? l) eqn:E; [discriminate|]. apply Nat.ltb_ge in E.
  assert (i <? l' = false) as -> by (apply Nat.ltb_ge; lia). now apply maj_mono.
Qed.
Lemma cf_generated x y l i : cf x y l i = true <-> generated_from x y l i.
Proof.
  induction i as [|i IH].
  - split; [discriminate|]. intros (g & Hg & _). lia.
  - cbn [cf]. split.
    + destruct (i <? l) eqn:E; [discriminate|]. apply Nat.ltb_ge in E. intro H.
      destruct (x i) eqn:Ex, (y i) eqn:Ey; unfold maj in H; cbn [andb orb] in H; try discriminate.
      * exists i. repeat split; auto; try lia.
      * rewrite orb_false_r in H. apply IH in H. destruct H as (g & Hg & H1 & H2 & H3). exists g. repeat split; auto; try lia.
        intros j Hj. destruct (Nat.eq_dec j i); [subst; now rewrite Ex, Ey|apply H3; lia].
      * apply IH in H. destruct H as (g & Hg & H1 & H2 & H3). exists g. repeat split; auto; try lia.
        intros j Hj. destruct (Nat.eq_dec j i); [subst; now rewrite Ex, Ey|apply H3; lia].
    + intros (g & Hg & H1 & H2 & H3). assert (i <? l = false) as -> by (apply Nat.ltb_ge; lia).
      destruct (Nat.eq_dec g i) as [->|Hn]; [now rewrite H1, H2|].
      assert (H : cf x y l i = true).
      { apply IH. exists g. repeat split; auto; try lia. intros j Hj. apply H3. lia. }
      rewrite H. specialize (H3 i ltac:(lia)). destruct (x i), (y i); cbn in *; congruence.
Qed.

(** ** numbers *)
Open Scope Z_scope.
Lemma number_range n x : 0 <= number n x < 2 ^ Z.of_nat n.
Proof.
  induction n as [|n IH]; cbn [number]; [cbn; lia|].
  rewrite Nat2Z.inj_succ, Z.pow_succ_r by lia. destruct (x n); cbn [Z.b2z]; lia.
Qed.
Lemma number_ext n x y : (forall i, (i < n)%nat -> x i = y i) -> number n x = number n y.
Proof. induction n as [|n IH]; intro H; cbn [number]; auto. rewrite IH, H; auto. Qed.
Lemma number_shift n x : number (S n) x = Z.b2z (x O) + 2 * number n (fun i => x (S i)).
Proof.
  induction n as [|n IH]; [cbn [number]; change (2 ^ Z.of_nat 0) with 1; lia|].
  change (number (S (S n)) x) with (number (S n) x + 2 ^ Z.of_nat (S n) * Z.b2z (x (S n))).
  rewrite IH. cbn [number]. rewrite Nat2Z.inj_succ, Z.pow_succ_r by lia. ring.
Qed.
Lemma uval_number r a : uval r a = number (length r) (fun i => ev (nth i r bzero) a).
Proof.
  induction r as [|b r IH]; auto. cbn [uval length]. rewrite number_shift, IH. reflexivity.
Qed.
Lemma number_testbit n x i : (i < n)%nat -> Z.testbit (number n x) (Z.of_nat i) = x i.
Proof.
  revert x i. induction n as [|n IH]; intros x i H; [lia|]. rewrite number_shift, Z.add_comm.
  destruct i as [|i].
  - change (Z.of_nat 0) with 0. apply Z.testbit_0_r.
  - rewrite Nat2Z.inj_succ, Z.testbit_succ_r by lia. apply (IH (fun i => x (S i))). lia.
Qed.

(** exact addition in terms of the carries *)
Definition xbit (x y : nat -> bool) (i : nat) : bool := xorb (xorb (x i) (y i)) (cf x y 0 i).
Lemma exact_sum x y n : number n x + number n y = number n (xbit x y) + 2 ^ Z.of_nat n * Z.b2z (cf x y 0 n).
Proof.
  induction n as [|n IH]; [reflexivity|]. cbn [number cf]. rewrite Nat2Z.inj_succ, Z.pow_succ_r by lia.
  change (n <? 0)%nat with false. cbn iota. unfold xbit at 2.
  destruct (x n), (y n), (cf x y 0 n); cbn [maj andb orb xorb Z.b2z] in *; lia.
Qed.
Lemma carry_into_cf x y i : carry_into x y i <-> cf x y 0 i = true.
Proof.
  unfold carry_into. rewrite exact_sum. pose proof (number_range i (xbit x y)).
  destruct (cf x y 0 i); cbn [Z.b2z]; split; intro; try lia; try discriminate; auto.
Qed.
Definition sum_bit (n : nat) (x y : nat -> bool) (i : nat) : bool :=
  xorb (if (i <? n)%nat then xorb (x i) (y i) else false) (cf x y 0 i).
Lemma exact_testbit n x y i : (i <= n)%nat ->
  Z.testbit (number n x + number n y) (Z.of_nat i) = sum_bit n x y i.
Proof.
  intro H. assert (E : number n x + number n y = number (S n) (sum_bit n x y)).
  { rewrite exact_sum. cbn [number]. f_equal; [apply number_ext|].
    - intros j Hj. unfold sum_bit, xbit. assert ((j <? n)%nat = true) as -> by now apply Nat.ltb_lt. reflexivity.
    - unfold sum_bit. rewrite Nat.ltb_irrefl. now rewrite xorb_false_l. }
  rewrite E. apply number_testbit. lia.
Qed.

(** ** sums with carries that may be cut *)
Section Cut.
Variables x y : nat -> bool.
Variable start : nat -> nat.
Hypothesis start_mono : forall k, (start k <= start (S k))%nat.
(** carry used at position [i] *)
Definition cin (i : nat) : bool := match i with O => false | S k => cf x y (start k) (S k) end.
Definition cut_bit (n i : nat) : bool := xorb (if (i <? n)%nat then xorb (x i) (y i) else false) (cin i).

Lemma cin_step k : cin (S k) = true -> maj (x k) (y k) (cin k) = true.
Proof.
  unfold cin at 1. cbn [cf]. destruct (k <? start k)%nat eqn:E; [discriminate|]. apply maj_mono.
  destruct k as [|k]; cbn [cin]; auto. apply cf_mono. auto.
Qed.
Lemma cut_sum n m : (m <= n)%nat ->
  number m (cut_bit n) + 2 ^ Z.of_nat m * Z.b2z (cin m) <= number m x + number m y.
Proof.
  induction m as [|m IH]; intro H; [cbn; lia|]. cbn [number]. specialize (IH ltac:(lia)).
  rewrite Nat2Z.inj_succ, Z.pow_succ_r by lia. pose proof (cin_step m) as C.
  unfold cut_bit at 2. assert ((m <? n)%nat = true) as -> by (apply Nat.ltb_lt; lia).
  assert (P : 0 < 2 ^ Z.of_nat m) by (apply Z.pow_pos_nonneg; lia).
  destruct (x m), (y m), (cin m), (cin (S m)); cbn [maj andb orb xorb Z.b2z] in *; try (specialize (C eq_refl); discriminate); nia.
Qed.
Lemma cut_value n : number (S n) (cut_bit n) <= number n x + number n y.
Proof.
  pose proof (cut_sum n n (Nat.le_refl n)) as H. cbn [number].
  unfold cut_bit at 2. rewrite Nat.ltb_irrefl, xorb_false_l. exact H.
Qed.
Lemma cin_le i : cin i = true -> cf x y 0 i = true.
Proof. destruct i as [|k]; cbn [cin]; [discriminate|]. apply cf_mono. lia. Qed.
Lemma cut_exact n i : (i <= n)%nat ->
  (cut_bit n i = Z.testbit (number n x + number n y) (Z.of_nat i)
   <-> (carry_into x y i -> generated_from x y (start (i - 1)) i)).
Proof.
  intro H. rewrite exact_testbit by auto. unfold cut_bit, sum_bit. rewrite carry_into_cf, <- cf_generated.
  assert (E : cf x y (start (i - 1)) i = cin i).
  { destruct i as [|k]; [reflexivity|]. cbn [cin]. now replace (S k - 1)%nat with k by lia. }
  rewrite E. pose proof (cin_le i) as L. clear E.
  set (p := if (i <? n)%nat then xorb (x i) (y i) else false). clearbody p.
  destruct p, (cin i), (cf x y 0 i); cbn; intuition congruence.
Qed.
Lemma cut_low n i : (i <= n)%nat -> start (i - 1) = O ->
  cut_bit n i = Z.testbit (number n x + number n y) (Z.of_nat i).
Proof.
  intros H E. apply cut_exact; auto. rewrite E, carry_into_cf, cf_generated. auto.
Qed.
End Cut.
Close Scope Z_scope.

Lemma lookback_le restart p k : lookback restart p k <= k + 1.
Proof. induction k as [|k IH]; cbn [lookback]; destruct (restart _); lia. Qed.
Lemma lookback_mono restart p k : lookback restart p k <= lookback restart p (S k).
Proof.
  cbn [lookback]. destruct (restart (S k)); auto.
  induction k as [|k IH]; cbn [lookback]; destruct (restart _); lia.
Qed.

(** ** the carry vectors *)
Section Adder.
Variable M : mgr.
Variable N : nat.
Variable restart : nat -> bool.
Variable P : nat.
Notation start := (lookback restart P).

Definition carries (m : nat) (cs : list bdd) : Prop :=
  length cs = m /\ forall k, k < m -> wf M (nth k cs bzero) /\
    forall a, ev (nth k cs bzero) a = cf (op1 a) (op2 a) (start k) (k + 1).

Lemma carries_nil : carries 0 [].
Proof. split; auto. intros; lia. Qed.
Lemma carries_push m cs c : carries m cs -> wf M c ->
  (forall a, ev c a = cf (op1 a) (op2 a) (start m) (m + 1)) -> carries (m + 1) (cs ++ [c]).
Proof.
  intros (L & H) W E. split; [rewrite app_length, L; reflexivity|]. intros k Hk.
  destruct (Nat.eq_dec k m) as [->|Hn].
  - rewrite app_nth2, L, Nat.sub_diag by lia. cbn [nth]. auto.
  - rewrite app_nth1 by lia. apply H. lia.
Qed.
Lemma op1_var i a : ev (bvar (i * 2)) a = op1 a i.
Proof. rewrite ev_var. unfold op1. f_equal. lia. Qed.
Lemma op2_var i a : ev (bvar (i * 2 + 1)) a = op2 a i.
Proof. rewrite ev_var. unfold op2. f_equal. lia. Qed.

Lemma first_carry_step i cs : i < N -> carries i cs -> restart i = false ->
  exists cs', first_carry M N i cs = Ok cs' /\ carries (i + 1) cs'.
Proof.
  intros Hi HC HR. unfold first_carry. rewrite in1_get, in2_get by auto. cbn [bind].
  destruct (i =? 0) eqn:E.
  - apply Nat.eqb_eq in E. subst i. eexists. split; [reflexivity|]. apply carries_push; auto.
    + apply carry_gen_wf; auto with wf.
    + intro a. rewrite carry_gen_ev, op1_var, op2_var. cbn [lookback]. rewrite HR. reflexivity.
  - apply Nat.eqb_neq in E. destruct HC as (L & H).
    rewrite vback_nth by (intro; subst cs; cbn in L; lia). cbn [bind]. rewrite L.
    destruct (H (i - 1) ltac:(lia)) as [W V].
    eexists. split; [reflexivity|]. apply carries_push; [split; auto|apply carry_gen_wf; auto with wf|].
    intro a. rewrite carry_gen_ev, op1_var, op2_var, V. replace (i - 1 + 1) with i by lia.
    assert (EL : start i = start (i - 1)).
    { destruct i as [|i]; [lia|]. cbn [lookback]. rewrite HR. now replace (S i - 1) with i by lia. }
    rewrite EL, cf_step; auto. pose proof (lookback_le restart P (i - 1)). lia.
Qed.
Lemma next_carry_step i cs : i < N -> 0 < i -> carries i cs -> restart i = false ->
  exists cs', next_carry M N i cs = Ok cs' /\ carries (i + 1) cs'.
Proof.
  intros Hi H0 HC HR. destruct (first_carry_step i cs Hi HC HR) as (cs' & E & H). exists cs'. split; auto.
  rewrite <- E. unfold first_carry, next_carry. assert (i =? 0 = false) as -> by (apply Nat.eqb_neq; lia). reflexivity.
Qed.

Lemma window_spec i l : i < N -> forall k t, wf M t -> l <= i + 1 - k ->
  (forall a, ev t a = cf (op1 a) (op2 a) l (i + 1 - k)) ->
  exists r, window M N k i t = Ok r /\ wf M r /\ forall a, ev r a = cf (op1 a) (op2 a) l (i + 1).
Proof.
  intro Hi. induction k as [|j IH]; intros t W L V; cbn [window].
  - exists t. rewrite Nat.sub_0_r in V. auto.
  - destruct (j <=? i) eqn:E.
    + apply Nat.leb_le in E. rewrite in1_get, in2_get by lia. cbn [bind].
      apply IH; [apply carry_gen_wf; auto with wf|lia|].
      intro a. rewrite carry_gen_ev, op1_var, op2_var, V. replace (i + 1 - S j) with (i - j) by lia.
      replace (i + 1 - j) with (i - j + 1) by lia. rewrite cf_step by lia. reflexivity.
    + apply Nat.leb_gt in E. replace (i + 1 - S j) with (i + 1 - j) in * by lia. now apply IH.
Qed.
Lemma window_unchecked_eq k i t : k <= i + 1 -> window_unchecked M N k i t = window M N k i t.
Proof.
  revert t. induction k as [|j IH]; intros t H; cbn [window window_unchecked]; auto.
  assert (j <=? i = true) as -> by (apply Nat.leb_le; lia).
  destruct (vget (input1 N) (i - j)); cbn [bind]; auto. destruct (vget (input2 N) (i - j)); cbn [bind]; auto.
  apply IH. lia.
Qed.
Lemma window_step i cs : i < N -> carries i cs -> restart i = true ->
  exists t, window M N P i bzero = Ok t /\ carries (i + 1) (cs ++ [t]).
Proof.
  intros Hi HC HR. destruct (window_spec i (i + 1 - P) Hi P bzero) as (t & E & W & V); auto with wf.
  - intro a. rewrite cf_low by lia. reflexivity.
  - exists t. split; auto. apply carries_push; auto. intro a. rewrite V. destruct i; cbn [lookback]; rewrite HR; reflexivity.
Qed.

Definition cut_adder (r : list bdd) : Prop :=
  wfs M r /\ length r = N + 1 /\ forall a i, i <= N -> ev (nth i r bzero) a = cut_bit (op1 a) (op2 a) start N i.

Lemma sum_bits_spec cs : carries N cs -> 0 < N -> exists r, sum_bits M N cs = Ok r /\ cut_adder r.
Proof.
  intros (L & H) HN. unfold sum_bits.
  destruct (for_each_inv (fun m s => length s = m /\ forall i, i < m -> wf M (nth i s bzero) /\ forall a, ev (nth i s bzero) a = cut_bit (op1 a) (op2 a) start N i)
    (fun i sum => a <- vget (input1 N) i ;; b <- vget (input2 N) i ;;
       (if i =? 0 then Ok (sum ++ [bxor M a (bxor M b bzero)])
        else c <- vget cs (i - 1) ;; Ok (sum ++ [bxor M a (bxor M b c)]))) N 0 []) as (s & E & Ls & Hs).
  - split; auto. intros; lia.
  - intros i s Hi (Ls & Hs). rewrite in1_get, in2_get by lia. cbn [bind].
    assert (X : exists c, (if i =? 0 then Ok (s ++ [bxor M (bvar (i * 2)) (bxor M (bvar (i * 2 + 1)) bzero)])
        else c <- vget cs (i - 1);; Ok (s ++ [bxor M (bvar (i * 2)) (bxor M (bvar (i * 2 + 1)) c)]))
        = Ok (s ++ [bxor M (bvar (i * 2)) (bxor M (bvar (i * 2 + 1)) c)]) /\ wf M c
        /\ forall a, ev c a = cin (op1 a) (op2 a) start i).
    { destruct i as [|k]; cbn [Nat.eqb]; [exists bzero; auto with wf|].
      rewrite vget_nth by lia. cbn [bind]. replace (S k - 1) with k by lia.
      destruct (H k ltac:(lia)) as [W V]. exists (nth k cs bzero). repeat split; auto. intro a. rewrite V, Nat.add_1_r. reflexivity. }
    destruct X as (c & E & W & V). eexists. split; [exact E|]. split; [rewrite app_length, Ls; reflexivity|].
    intros j Hj. destruct (Nat.eq_dec j i) as [->|Hn].
    + rewrite app_nth2, Ls, Nat.sub_diag by lia. cbn [nth]. split; [auto with wf|]. intro a.
      rewrite !ev_xor, op1_var, op2_var, V. unfold cut_bit. assert (i <? N = true) as -> by (apply Nat.ltb_lt; lia).
      now rewrite xorb_assoc.
    + rewrite app_nth1 by lia. apply Hs. lia.
  - rewrite E. cbn [bind]. rewrite vback_nth by (intro; subst cs; cbn in L; lia). cbn [bind].
    rewrite L. eexists. split; [reflexivity|]. cbn [Nat.add] in Ls, Hs.
    destruct (H (N - 1) ltac:(lia)) as [W V]. split; [|split].
    + apply Forall_app. split; [|constructor; auto]. apply Forall_forall. intros b Hb.
      destruct (In_nth s b bzero Hb) as (j & Hj & <-). apply Hs. lia.
    + rewrite app_length, Ls. reflexivity.
    + intros a i Hi. destruct (Nat.eq_dec i N) as [->|Hn].
      * rewrite app_nth2, Ls, Nat.sub_diag by lia. cbn [nth]. rewrite V. unfold cut_bit. rewrite Nat.ltb_irrefl, xorb_false_l.
        replace (N - 1 + 1) with N by lia. destruct N as [|k]; [lia|]. cbn [cin]. now replace (S k - 1) with k by lia.
      * rewrite app_nth1 by lia. apply Hs. lia.
Qed.

Lemma cut_adder_value r a : cut_adder r -> (uval r a <= number N (op1 a) + number N (op2 a))%Z.
Proof.
  intros (_ & L & H). rewrite uval_number, L, Nat.add_1_r.
  rewrite (number_ext (S N) _ (cut_bit (op1 a) (op2 a) start N)) by (intros i Hi; apply H; lia).
  apply cut_value. intro k. apply lookback_mono.
Qed.
Lemma cut_adder_exact r a i : cut_adder r -> i <= N ->
  (ev (nth i r bzero) a = Z.testbit (number N (op1 a) + number N (op2 a)) (Z.of_nat i)
   <-> (carry_into (op1 a) (op2 a) i -> generated_from (op1 a) (op2 a) (start (i - 1)) i)).
Proof.
  intros (_ & L & H) Hi. rewrite (H a i Hi). apply cut_exact; auto; intro k; apply lookback_mono.
Qed.
Lemma cut_adder_low r a i : cut_adder r -> i <= N -> start (i - 1) = 0 ->
  ev (nth i r bzero) a = Z.testbit (number N (op1 a) + number N (op2 a)) (Z.of_nat i).
Proof. intros H Hi E. apply cut_adder_exact; auto. rewrite E, carry_into_cf, cf_generated. auto. Qed.
End Adder.

(** ** the adders *)
Lemma carries_ext M r1 r2 P m cs : (forall k, k < m -> r1 k = r2 k) -> carries M r1 P m cs -> carries M r2 P m cs.
Proof.
  intros E (L & H). split; auto. intros k Hk. destruct (H k Hk) as [W V]. split; auto. intro a. rewrite V.
  f_equal. clear - E Hk. induction k as [|k IH]; cbn [lookback]; rewrite E by lia; auto. destruct (r2 (S k)); auto. apply IH. lia.
Qed.

Definition aca1_restart (Q : nat) (k : nat) : bool := Q - 1 <=? k.
Lemma aca1_ok M N Q : 0 < Q <= N -> exists r, almost_correct_adder_1 M N Q = Ok r /\ cut_adder M N (aca1_restart Q) (Q - 1) r.
Proof.
  intros H. unfold almost_correct_adder_1.
  assert ((Q <=? N) && (0 <? Q) = true) as -> by (apply andb_true_iff; split; [apply Nat.leb_le|apply Nat.ltb_lt]; lia).
  cbn [assert_ bind].
  destruct (for_each_inv (carries M (aca1_restart Q) (Q - 1)) (first_carry M N) (Q - 1) 0 [] (carries_nil _ _ _)) as (c1 & E1 & H1).
  { intros i st Hi HC. apply first_carry_step; auto; [lia|]. unfold aca1_restart. apply Nat.leb_gt. lia. }
  rewrite E1. cbn [bind Nat.add] in *.
  destruct (for_each_inv (carries M (aca1_restart Q) (Q - 1))
    (fun i cs => t <- window M N (Q - 1) i bzero ;; Ok (cs ++ [t])) (N - (Q - 1)) (Q - 1) c1 H1) as (c2 & E2 & H2).
  { intros i st Hi HC. destruct (window_step M N (aca1_restart Q) (Q - 1) i st) as (t & E & HC'); auto; [lia|apply Nat.leb_le; lia|].
    rewrite E. cbn [bind]. eauto. }
  rewrite E2. cbn [bind]. replace (Q - 1 + (N - (Q - 1))) with N in H2 by lia. apply sum_bits_spec; auto. lia.
Qed.

Lemma blocks_ok M N p P : 0 < N -> (1 < N -> 0 < p <= N) ->
  exists cs, blocks M N p P = Ok cs /\ carries M (block_end N (N / p)) P N cs.
Proof.
  intros HN Hp. unfold blocks.
  destruct (for_each_inv (carries M (block_end N (N / p)) P) (fun i carry_outs =>
    if i =? 0 then first_carry M N i carry_outs
    else
      _ <- require_ (negb (p =? 0)) ;;
      _ <- require_ (negb (N / p =? 0)) ;;
      if ((i + 1) mod (N / p) =? 0) && negb (i + 1 =? N) then
        temp_carry <- window M N P i bzero ;;
        Ok (carry_outs ++ [temp_carry])
      else next_carry M N i carry_outs) N 0 [] (carries_nil _ _ _)) as (cs & E & H).
  - intros i st Hi HC. destruct (i =? 0) eqn:E0.
    + apply first_carry_step; auto; [lia|]. unfold block_end. now rewrite E0.
    + apply Nat.eqb_neq in E0. destruct (Hp ltac:(lia)) as [Hp1 Hp2].
      assert (p =? 0 = false) as -> by (apply Nat.eqb_neq; lia). cbn [negb require_ bind].
      assert (N / p =? 0 = false) as Ed by (apply Nat.eqb_neq; pose proof (Nat.div_str_pos N p); lia).
      rewrite Ed. cbn [negb require_ bind].
      destruct (((i + 1) mod (N / p) =? 0) && negb (i + 1 =? N)) eqn:Er.
      * destruct (window_step M N (block_end N (N / p)) P i st) as (t & E & HC'); auto; [lia| |].
        -- unfold block_end. rewrite <- andb_assoc, Er. assert (i =? 0 = false) as -> by now apply Nat.eqb_neq. reflexivity.
        -- rewrite E. cbn [bind]. eauto.
      * apply next_carry_step; auto; try lia. unfold block_end. rewrite <- andb_assoc, Er. now destruct (i =? 0).
  - exists cs. rewrite E. auto.
Qed.
Lemma gda_ok M N p P : 0 < N -> (1 < N -> 0 < p <= N) ->
  exists r, gracefully_degrading_adder M N p P = Ok r /\ cut_adder M N (block_end N (N / p)) P r.
Proof.
  intros HN Hp. unfold gracefully_degrading_adder. destruct (blocks_ok M N p P HN Hp) as (cs & E & H).
  rewrite E. cbn [bind]. now apply sum_bits_spec.
Qed.
Lemma aca2_ok M N Q : 0 < Q <= N -> (Q = 1 -> N = 1) ->
  exists r, almost_correct_adder_2 M N Q = Ok r /\ cut_adder M N (block_end N (N / (N / Q + 1))) (Q / 2) r.
Proof.
  intros H H1. unfold almost_correct_adder_2.
  assert ((Q <=? N) && (0 <? Q) = true) as -> by (apply andb_true_iff; split; [apply Nat.leb_le|apply Nat.ltb_lt]; lia).
  cbn [assert_ bind]. destruct (blocks_ok M N (N / Q + 1) (Q / 2)) as (cs & E & HC).
  - lia.
  - intro HN. assert (2 <= Q) by lia. split; [lia|].
    assert (N / Q <= N / 2) by (apply Nat.div_le_compat_l; lia). pose proof (Nat.div_mod N 2). lia.
  - rewrite E. cbn [bind]. apply sum_bits_spec; auto. lia.
Qed.

Lemma gear_ok M N R P : 0 < R + P <= N + 1 -> 0 < N -> (R + P = 1 -> 1 < N) ->
  exists r, generic_accuracy_reconfigurable_adder M N R P = Ok r /\ cut_adder M N (gear_end N R P) P r.
Proof.
  intros H HN H1. unfold generic_accuracy_reconfigurable_adder.
  assert (R + P =? 0 = false) as -> by (apply Nat.eqb_neq; lia).
  destruct (for_each_inv (carries M (gear_end N R P) P) (first_carry M N) (R + P - 1) 0 [] (carries_nil _ _ _)) as (c1 & E1 & HC1).
  { intros i st Hi HC. apply first_carry_step; auto; [lia|]. unfold gear_end.
    assert (R + P - 1 <=? i = false) as -> by (apply Nat.leb_gt; lia). reflexivity. }
  rewrite E1. cbn [bind]. cbn [Nat.add] in HC1.
  destruct (for_each_inv (fun i st => carries M (gear_end N R P) P i (snd st) /\
      (i < N -> 0 < i \/ (i = 0 /\ fst st = R)) /\
      (i <= N - 1 -> (fst st =? R) = (if R =? 0 then i =? P - 1 else (i - (R + P - 1)) mod R =? 0)
          /\ (R <> 0 -> fst st = R \/ fst st = (i - (R + P - 1)) mod R)))
    (fun i '(count, carry_outs) =>
         if (count =? R) && negb (i =? N - 1) then
           temp_carry <- window_unchecked M N P i bzero ;;
           Ok (0 + 1, carry_outs ++ [temp_carry])
         else
           carry_outs <- next_carry M N i carry_outs ;;
           Ok (count + 1, carry_outs)) (N - (R + P - 1)) (R + P - 1) (R, c1)) as ([cnt c2] & E2 & HC2 & _).
  - cbn [fst snd]. split; auto. split; [intros _; destruct (R + P - 1); auto with arith|].
    intro Hi. rewrite Nat.eqb_refl, Nat.sub_diag. split; [|auto].
    destruct (R =? 0) eqn:ER; [apply Nat.eqb_eq in ER; subst; cbn [Nat.add]; now rewrite Nat.eqb_refl|].
    apply Nat.eqb_neq in ER. now rewrite Nat.mod_0_l.
  - intros i [count cs] Hi (HC & Hpos & Hcnt). cbn [fst snd] in *.
    destruct (Hcnt ltac:(lia)) as [Hc1 Hc2]. specialize (Hpos ltac:(lia)).
    assert (ER : gear_end N R P i = (count =? R) && negb (i =? N - 1)).
    { unfold gear_end. assert (R + P - 1 <=? i = true) as -> by (apply Nat.leb_le; lia). rewrite Hc1. cbn [andb]. apply andb_comm. }
    assert (NX : forall count', (R = 0 -> count' <> 0) -> (R <> 0 -> count' = S ((i - (R + P - 1)) mod R)) ->
       (i + 1 <= N - 1 -> (count' =? R) = (if R =? 0 then i + 1 =? P - 1 else (i + 1 - (R + P - 1)) mod R =? 0)
          /\ (R <> 0 -> count' = R \/ count' = (i + 1 - (R + P - 1)) mod R))).
    { intros count' HR0 HR1 _. destruct (R =? 0) eqn:ER0.
      - apply Nat.eqb_eq in ER0. subst R. split; [|lia]. transitivity false; [apply Nat.eqb_neq; auto|symmetry; apply Nat.eqb_neq; lia].
      - apply Nat.eqb_neq in ER0. specialize (HR1 ER0). subst count'.
        replace (i + 1 - (R + P - 1)) with (S (i - (R + P - 1))) by lia. set (q := i - (R + P - 1)) in *. clearbody q.
        pose proof (Nat.mod_upper_bound q R ER0) as U.
        assert (EM : S q mod R = if S (q mod R) =? R then 0 else S (q mod R)).
        { pose proof (Nat.div_mod q R ER0) as D. destruct (S (q mod R) =? R) eqn:E.
          - apply Nat.eqb_eq in E. replace (S q) with (0 + (q / R + 1) * R) by nia. rewrite Nat.mod_add by auto. now apply Nat.mod_0_l.
          - apply Nat.eqb_neq in E. replace (S q) with (S (q mod R) + (q / R) * R) by nia. rewrite Nat.mod_add by auto.
            apply Nat.mod_small. lia. }
        rewrite EM. destruct (S (q mod R) =? R) eqn:E; [apply Nat.eqb_eq in E; split; auto|]. split; auto. }
    destruct ((count =? R) && negb (i =? N - 1)) eqn:Eb.
    + rewrite window_unchecked_eq by lia.
      destruct (window_step M N (gear_end N R P) P i cs) as (t & E & HC'); auto; try (now rewrite ER); try lia. rewrite E. cbn [bind].
      eexists. split; [reflexivity|]. cbn [fst snd]. split; auto. split; [lia|].
      apply andb_true_iff in Eb. destruct Eb as [Eb _]. rewrite Eb in Hc1. apply NX; [discriminate|].
      intro HR. assert (R =? 0 = false) as E0 by now apply Nat.eqb_neq. rewrite E0 in Hc1. symmetry in Hc1. apply Nat.eqb_eq in Hc1. rewrite Hc1. reflexivity.
    + assert (0 < i).
      { destruct Hpos as [|[-> Hc]]; auto. rewrite Hc, Nat.eqb_refl in Eb. cbn [andb] in Eb. apply negb_false_iff, Nat.eqb_eq in Eb.
        assert (N = 1) by lia. subst N. assert (R + P = 1) by lia. lia. }
      destruct (next_carry_step M N (gear_end N R P) P i cs) as (cs' & E & HC'); auto; try (now rewrite ER); try lia.
      rewrite E. cbn [bind]. eexists. split; [reflexivity|]. cbn [fst snd]. split; auto. split; [lia|].
      destruct (i =? N - 1) eqn:EN; [apply Nat.eqb_eq in EN; intro; lia|].
      cbn [negb] in Eb. rewrite andb_true_r in Eb. apply NX; [lia|].
      intro HR. destruct (Hc2 HR) as [Hc|Hc]; [subst; rewrite Nat.eqb_refl in Eb; discriminate|]. lia.
  - rewrite E2. cbn [bind]. cbn [fst snd] in HC2. replace (R + P - 1 + (N - (R + P - 1))) with N in HC2 by lia.
    apply sum_bits_spec; auto.
Qed.

Lemma regular_ok M N : exists r, regular_adder M N = Ok r /\ wfs M r /\ length r = N + 1
  /\ forall a, uval r a = (number N (op1 a) + number N (op2 a))%Z.
Proof.
  unfold regular_adder.
  destruct (for_each_inv (fun m st => wfs M (fst st) /\ wf M (snd st) /\ length (fst st) = m /\
      forall a, (uval (fst st) a + pow2 m * Z.b2z (ev (snd st) a) = number m (op1 a) + number m (op2 a))%Z)
    (fun i '(sum, carry) => a <- vget (input1 N) i ;; b <- vget (input2 N) i ;;
       (let '(s, c) := full_adder M a b carry in Ok (sum ++ [s], c))) N 0 ([], bzero)) as ([s c] & E & Ws & Wc & L & V).
  - cbn. repeat split; auto.
  - intros i [s c] Hi (Ws & Wc & L & V). cbn [fst snd] in *. rewrite in1_get, in2_get by lia. cbn [bind].
    destruct (full_adder M (bvar (i * 2)) (bvar (i * 2 + 1)) c) as [s' c'] eqn:EF.
    pose proof (full_adder_spec _ _ _ _ _ _ EF) as FS. destruct (full_adder_wf _ _ _ _ _ _ EF) as [W1 W2]; auto with wf.
    eexists. split; [reflexivity|]. cbn [fst snd]. split; [apply Forall_app; auto|]. split; auto.
    split; [rewrite app_length, L; reflexivity|].
    intro a. rewrite uval_app, L. specialize (FS a). specialize (V a). rewrite op1_var, op2_var in FS. rewrite Nat.add_1_r, pow2_S. cbn [number uval].
    fold (pow2 i). nia.
  - rewrite E. cbn [bind fst snd Nat.add] in *. eexists. split; [reflexivity|].
    split; [apply Forall_app; auto|]. split; [rewrite app_length, L; reflexivity|].
    intro a. rewrite uval_app, L. cbn [uval]. rewrite <- V. ring.
Qed.

(** ** what the property files use *)
Lemma cut_under M N restart P r : cut_adder M N restart P r -> wfs M r /\ underestimates N r.
Proof.
  intro H. split; [apply H|]. split; [apply H|]. intro a. split; [apply uval_range|].
  eapply cut_adder_value; eauto.
Qed.
Lemma cut_inside M N restart P r : cut_adder M N restart P r ->
  exact_when_inside N r (fun i => lookback restart P (i - 1)).
Proof. intros H a i Hi. now apply cut_adder_exact with (M := M). Qed.
Lemma inside_ext N r s1 s2 : (forall i, 0 < i <= N -> s1 i = s2 i) -> exact_when_inside N r s1 -> exact_when_inside N r s2.
Proof.
  intros E H a i Hi. destruct i as [|i]; [|rewrite <- E by lia; auto].
  rewrite (H a 0 Hi). unfold carry_into. cbn. intuition lia.
Qed.
Lemma inside_low N r s i : exact_when_inside N r s -> i <= N -> (0 < i -> s i = 0) -> forall a, exact_bit N r a i.
Proof.
  intros H Hi E a. apply H; auto. destruct i as [|i]; [unfold carry_into; cbn; lia|].
  rewrite E, carry_into_cf, cf_generated by lia. auto.
Qed.
Lemma lookback_zero restart P k : (forall j, j <= k -> restart j = true -> j + 1 <= P) -> lookback restart P k = 0.
Proof.
  induction k as [|k IH]; intro H; cbn [lookback]; destruct (restart _) eqn:E; auto.
  - specialize (H _ (Nat.le_refl _) E). lia.
  - specialize (H _ (Nat.le_refl _) E). lia.
Qed.
Lemma aca1_start Q i : 0 < Q -> 0 < i -> lookback (aca1_restart Q) (Q - 1) (i - 1) = i - (Q - 1).
Proof.
  intros HQ H0. destruct (le_lt_dec Q i) as [H|H].
  - destruct i as [|i]; [lia|]. replace (S i - 1) with i by lia.
    assert (E : aca1_restart Q i = true) by (apply Nat.leb_le; lia). destruct i; cbn [lookback]; rewrite E; lia.
  - rewrite lookback_zero; [lia|]. intros j Hj E. apply Nat.leb_le in E. lia.
Qed.

Theorem aca1_thm M N Q : 0 < Q <= N -> exists r, almost_correct_adder_1 M N Q = Ok r
  /\ wfs M r /\ underestimates N r /\ exact_when_inside N r (fun i => i - (Q - 1))
  /\ forall a i, i < Q -> exact_bit N r a i.
Proof.
  intro H. destruct (aca1_ok M N Q H) as (r & E & C). exists r. destruct (cut_under _ _ _ _ _ C) as [W U].
  assert (X : exact_when_inside N r (fun i => i - (Q - 1))).
  { eapply inside_ext; [|exact (cut_inside _ _ _ _ _ C)]. intros i Hi. cbn beta. apply aca1_start; lia. }
  repeat (split; auto). intros a i Hi. eapply inside_low; eauto; cbn beta; lia.
Qed.
Lemma block_low N d P r i : exact_when_inside N r (fun i => lookback (block_end N d) P (i - 1)) ->
  i <= N -> i < d \/ i <= P -> forall a, exact_bit N r a i.
Proof.
  intros X Hi Hd. eapply inside_low; eauto. cbn beta. intro Hpos. apply lookback_zero. intros j Hj E.
  unfold block_end in E. apply andb_true_iff in E. destruct E as [E _]. apply andb_true_iff in E. destruct E as [E1 E2].
  apply negb_true_iff, Nat.eqb_neq in E1. apply Nat.eqb_eq in E2.
  destruct (le_lt_dec d i) as [Hdi|Hdi]; [lia|]. rewrite Nat.mod_small in E2 by lia. lia.
Qed.
Theorem aca2_thm M N Q : 0 < Q <= N -> (Q = 1 -> N = 1) -> exists r, almost_correct_adder_2 M N Q = Ok r
  /\ wfs M r /\ underestimates N r
  /\ exact_when_inside N r (fun i => lookback (block_end N (N / (N / Q + 1))) (Q / 2) (i - 1))
  /\ forall a i, i <= N -> i < N / (N / Q + 1) \/ i <= Q / 2 -> exact_bit N r a i.
Proof.
  intros H H1. destruct (aca2_ok M N Q H H1) as (r & E & C). exists r. destruct (cut_under _ _ _ _ _ C) as [W U].
  pose proof (cut_inside _ _ _ _ _ C) as X. repeat (split; auto). intros a i Hi Hd. eapply block_low; eauto.
Qed.
Theorem gda_thm M N p P : 0 < N -> (1 < N -> 0 < p <= N) -> exists r, gracefully_degrading_adder M N p P = Ok r
  /\ wfs M r /\ underestimates N r
  /\ exact_when_inside N r (fun i => lookback (block_end N (N / p)) P (i - 1))
  /\ forall a i, i <= N -> i < N / p \/ i <= P -> exact_bit N r a i.
Proof.
  intros H H1. destruct (gda_ok M N p P H H1) as (r & E & C). exists r. destruct (cut_under _ _ _ _ _ C) as [W U].
  pose proof (cut_inside _ _ _ _ _ C) as X. repeat (split; auto). intros a i Hi Hd. eapply block_low; eauto.
Qed.
Theorem gear_thm M N R P : 0 < R + P <= N + 1 -> 0 < N -> (R + P = 1 -> 1 < N) ->
  exists r, generic_accuracy_reconfigurable_adder M N R P = Ok r
  /\ wfs M r /\ underestimates N r
  /\ exact_when_inside N r (fun i => lookback (gear_end N R P) P (i - 1))
  /\ forall a i, i <= N -> i < R + P \/ R = 0 -> exact_bit N r a i.
Proof.
  intros H H0 H1. destruct (gear_ok M N R P H H0 H1) as (r & E & C). exists r. destruct (cut_under _ _ _ _ _ C) as [W U].
  pose proof (cut_inside _ _ _ _ _ C) as X. repeat (split; auto). intros a i Hi Hd. eapply inside_low; eauto. cbn beta.
  intro Hpos. apply lookback_zero. intros j Hj Ej. unfold gear_end in Ej.
  apply andb_true_iff in Ej. destruct Ej as [Ej E3]. apply andb_true_iff in Ej. destruct Ej as [E1 E2].
  apply Nat.leb_le in E1. destruct (R =? 0) eqn:ER.
  - apply Nat.eqb_eq in ER, E3. lia.
  - apply Nat.eqb_neq in ER. destruct Hd as [Hd|]; [|lia]. lia.
Qed.

(** ** outside these parameters *)
Lemma for_each_split {S} (body : nat -> S -> res S) s n m st : m <= n ->
  for_each (seq s n) st body = bind (for_each (seq s m) st body) (fun st' => for_each (seq (s + m) (n - m)) st' body).
Proof. intro H. replace n with (m + (n - m)) at 1 by lia. rewrite seq_app. apply for_each_app. Qed.
Lemma sum_bits_nil M : sum_bits M 0 [] = UB.
Proof. reflexivity. Qed.
Lemma blocks_bad M N p P : 1 < N -> ~ 0 < p <= N -> blocks M N p P = UB.
Proof.
  intros HN Hp. destruct N as [|[|n]]; try lia. unfold blocks. cbn [seq for_each]. cbn [Nat.eqb].
  unfold first_carry at 1. rewrite in1_get, in2_get by lia. cbn [bind Nat.eqb].
  destruct (p =? 0) eqn:E; [reflexivity|]. apply Nat.eqb_neq in E.
  assert (S (S n) / p = 0) as -> by (apply Nat.div_small; lia). reflexivity.
Qed.
Lemma gda_bad M N p P : ~ (0 < N /\ (1 < N -> 0 < p <= N)) -> gracefully_degrading_adder M N p P = UB.
Proof.
  intro H. unfold gracefully_degrading_adder. destruct N as [|[|n]]; [reflexivity|exfalso; apply H; lia|].
  rewrite blocks_bad by lia. reflexivity.
Qed.
Lemma aca1_bad M N Q : ~ 0 < Q <= N -> almost_correct_adder_1 M N Q = Abort.
Proof.
  intro H. unfold almost_correct_adder_1. assert ((Q <=? N) && (0 <? Q) = false) as ->; [|reflexivity].
  destruct (Q <=? N) eqn:E1, (0 <? Q) eqn:E2; auto. apply Nat.leb_le in E1. apply Nat.ltb_lt in E2. lia.
Qed.
Lemma aca2_bad M N Q : (~ 0 < Q <= N -> almost_correct_adder_2 M N Q = Abort)
  /\ (Q = 1 -> 1 < N -> almost_correct_adder_2 M N Q = UB).
Proof.
  unfold almost_correct_adder_2. split; [intro H|intros -> H].
  - assert ((Q <=? N) && (0 <? Q) = false) as ->; [|reflexivity].
    destruct (Q <=? N) eqn:E1, (0 <? Q) eqn:E2; auto. apply Nat.leb_le in E1. apply Nat.ltb_lt in E2. lia.
  - assert (1 <=? N = true) as -> by (apply Nat.leb_le; lia). cbn [andb Nat.ltb Nat.leb assert_ bind].
    rewrite Nat.div_1_r, blocks_bad by lia. reflexivity.
Qed.
Lemma gear_bad M N R P : ~ (0 < R + P <= N + 1 /\ 0 < N /\ (R + P = 1 -> 1 < N)) ->
  generic_accuracy_reconfigurable_adder M N R P = UB.
Proof.
  intro H. unfold generic_accuracy_reconfigurable_adder. destruct (R + P =? 0) eqn:E0; [reflexivity|].
  apply Nat.eqb_neq in E0. destruct (le_lt_dec (R + P) (N + 1)) as [HL|HL].
  - destruct N as [|[|n]]; [| |lia].
    + assert (R + P = 1) as -> by lia. reflexivity.
    + assert (E : R + P = 1) by lia. rewrite E. change (1 - 1) with 0. cbn [Nat.sub seq for_each bind Nat.eqb negb].
      rewrite andb_false_r. reflexivity.
  - rewrite (for_each_split _ _ _ N) by lia.
    destruct (for_each_inv (carries M (fun _ => false) 0) (first_carry M N) N 0 [] (carries_nil _ _ _)) as (c & E & HC).
    { intros i st Hi HC. apply first_carry_step; auto. lia. }
    rewrite E. cbn [bind]. replace (R + P - 1 - N) with (S (R + P - 2 - N)) by lia. cbn [seq for_each].
    unfold first_carry at 1. rewrite in1_oob by lia. reflexivity.
Qed.

(** ** per property *)
Lemma aca1_c61 M N Q : 0 < Q <= N ->
  exists r, almost_correct_adder_1 M N Q = Ok r /\ wfs M r /\ underestimates N r.
Proof. intro H. destruct (aca1_thm M N Q H) as (r & E & W & U & _). eauto. Qed.
Lemma aca2_c61 M N Q : 0 < Q <= N -> (Q = 1 -> N = 1) ->
  exists r, almost_correct_adder_2 M N Q = Ok r /\ wfs M r /\ underestimates N r.
Proof. intros H H1. destruct (aca2_thm M N Q H H1) as (r & E & W & U & _). eauto. Qed.
Lemma gda_c61 M N p P : 0 < N -> (1 < N -> 0 < p <= N) ->
  exists r, gracefully_degrading_adder M N p P = Ok r /\ wfs M r /\ underestimates N r.
Proof. intros H H1. destruct (gda_thm M N p P H H1) as (r & E & W & U & _). eauto. Qed.
Lemma gear_c61 M N R P : 0 < R + P <= N + 1 -> 0 < N -> (R + P = 1 -> 1 < N) ->
  exists r, generic_accuracy_reconfigurable_adder M N R P = Ok r /\ wfs M r /\ underestimates N r.
Proof. intros H H1 H2. destruct (gear_thm M N R P H H1 H2) as (r & E & W & U & _). eauto. Qed.

Lemma aca1_c62 M N Q r : almost_correct_adder_1 M N Q = Ok r ->
  exact_when_inside N r (fun i => i - (Q - 1)) /\ forall a i, i < Q -> exact_bit N r a i.
Proof.
  intro E. assert (D : 0 < Q <= N \/ ~ 0 < Q <= N) by lia. destruct D as [H|H].
  - destruct (aca1_thm M N Q H) as (r' & E' & _ & _ & T). rewrite E in E'. injection E' as <-. exact T.
  - rewrite aca1_bad in E by auto. discriminate.
Qed.
Lemma aca2_c62 M N Q r : almost_correct_adder_2 M N Q = Ok r ->
  exact_when_inside N r (fun i => lookback (block_end N (N / (N / Q + 1))) (Q / 2) (i - 1))
  /\ forall a i, i <= N -> i < N / (N / Q + 1) \/ i <= Q / 2 -> exact_bit N r a i.
Proof.
  intro E. destruct (aca2_bad M N Q) as [B1 B2]. assert (D : 0 < Q <= N \/ ~ 0 < Q <= N) by lia. destruct D as [H|H].
  - assert (D : (Q = 1 -> N = 1) \/ (Q = 1 /\ 1 < N)) by lia. destruct D as [H1|[H1 H2]].
    + destruct (aca2_thm M N Q H H1) as (r' & E' & _ & _ & T). rewrite E in E'. injection E' as <-. exact T.
    + rewrite B2 in E by auto. discriminate.
  - rewrite B1 in E by auto. discriminate.
Qed.
Lemma gda_c62 M N p P r : gracefully_degrading_adder M N p P = Ok r ->
  exact_when_inside N r (fun i => lookback (block_end N (N / p)) P (i - 1))
  /\ forall a i, i <= N -> i < N / p \/ i <= P -> exact_bit N r a i.
Proof.
  intro E. assert (D : (0 < N /\ (1 < N -> 0 < p <= N)) \/ ~ (0 < N /\ (1 < N -> 0 < p <= N))) by lia. destruct D as [[H1 H2]|H].
  - destruct (gda_thm M N p P H1 H2) as (r' & E' & _ & _ & T). rewrite E in E'. injection E' as <-. exact T.
  - rewrite gda_bad in E by auto. discriminate.
Qed.
Lemma gear_c62 M N R P r : generic_accuracy_reconfigurable_adder M N R P = Ok r ->
  exact_when_inside N r (fun i => lookback (gear_end N R P) P (i - 1))
  /\ forall a i, i <= N -> i < R + P \/ R = 0 -> exact_bit N r a i.
Proof.
  intro E. assert (D : (0 < R + P <= N + 1 /\ 0 < N /\ (R + P = 1 -> 1 < N)) \/ ~ (0 < R + P <= N + 1 /\ 0 < N /\ (R + P = 1 -> 1 < N))) by lia.
  destruct D as [(H1 & H2 & H3)|H].
  - destruct (gear_thm M N R P H1 H2 H3) as (r' & E' & _ & _ & T). rewrite E in E'. injection E' as <-. exact T.
  - rewrite gear_bad in E by auto. discriminate.
Qed.
Lemma full_partition_refuted : exists M N r s a, 0 < N
  /\ almost_correct_adder_1 M N N = Ok r /\ regular_adder M N = Ok s /\ uval r a <> uval s a.
Proof.
  exists (id_mgr 2), 1. eexists. eexists. exists (fun _ => true). split; [lia|].
  split; [vm_compute; reflexivity|]. split; [vm_compute; reflexivity|]. vm_compute. discriminate.
Qed.
Lemma full_partition M N r a : almost_correct_adder_1 M N N = Ok r ->
  ((number N (op1 a) + number N (op2 a)) mod 2 ^ Z.of_nat N = uval r a mod 2 ^ Z.of_nat N)%Z
  /\ ((uval r a = number N (op1 a) + number N (op2 a))%Z
      <-> (carry_into (op1 a) (op2 a) N -> generated_from (op1 a) (op2 a) 1 N)).
Proof.
  intro E. destruct (le_lt_dec N 0) as [H0|H0].
  { rewrite aca1_bad in E by lia. discriminate. }
  destruct (aca1_thm M N N ltac:(lia)) as (r' & E' & _ & (L & _) & X & Low). rewrite E in E'. injection E' as <-.
  pose proof (X a N (Nat.le_refl N)) as Top. cbn beta in Top. replace (N - (N - 1)) with 1 in Top by lia.
  set (A := (number N (op1 a) + number N (op2 a))%Z) in *.
  assert (EA : A = number (S N) (sum_bit N (op1 a) (op2 a))).
  { pose proof (exact_sum (op1 a) (op2 a) N) as ES. fold A in ES. rewrite ES. cbn [number]. f_equal; [apply number_ext|].
    - intros j Hj. unfold sum_bit, xbit. assert (j <? N = true) as -> by now apply Nat.ltb_lt. reflexivity.
    - unfold sum_bit. rewrite Nat.ltb_irrefl. now rewrite xorb_false_l. }
  assert (ER : uval r a = number (S N) (fun i => ev (nth i r bzero) a)) by (rewrite uval_number, L, Nat.add_1_r; reflexivity).
  assert (EN : number N (fun i => ev (nth i r bzero) a) = number N (sum_bit N (op1 a) (op2 a))).
  { apply number_ext. intros i Hi. rewrite (Low a i Hi). apply exact_testbit. lia. }
  assert (EB : exact_bit N r a N <-> ev (nth N r bzero) a = sum_bit N (op1 a) (op2 a) N).
  { unfold exact_bit. rewrite exact_testbit by lia. reflexivity. }
  rewrite <- Top, EB. rewrite ER, EA. cbn [number]. rewrite EN. split.
  - rewrite !(Z.mul_comm (2 ^ _)), !Z.mod_add by (apply Z.pow_nonzero; lia). reflexivity.
  - assert (0 < 2 ^ Z.of_nat N)%Z by (apply Z.pow_pos_nonneg; lia). split; [|intros ->; reflexivity].
    destruct (ev (nth N r bzero) a), (sum_bit N (op1 a) (op2 a) N); cbn [Z.b2z]; intro; auto; lia.
Qed.
