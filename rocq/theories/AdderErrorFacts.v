(** Proofs about the errors of the approximate adders *)
From Coq Require Import List Bool Arith ZArith QArith Lia Lqa.
From Verif Require Import Res Cudd CuddFacts Spec SpecFacts SpecAdder Helpers HelpersFacts Examples AdderFacts.
Import ListNotations.
Open Scope nat_scope.

(** ** which adders *)
Lemma adder_cut M N restart P r : approximate_adder M N restart P r -> 0 < N /\ cut_adder M N restart P r.
Proof.
  intros [Q s E|Q s E|p P' s E|R P' s E].
  - assert (D : 0 < Q <= N \/ ~ 0 < Q <= N) by lia. destruct D as [H|H].
    + split; [lia|]. destruct (aca1_ok M N Q H) as (s' & E' & C). rewrite E in E'. injection E' as <-. exact C.
    + rewrite aca1_bad in E by auto. discriminate.
  - destruct (aca2_bad M N Q) as [B1 B2]. assert (D : 0 < Q <= N \/ ~ 0 < Q <= N) by lia. destruct D as [H|H].
    + assert (D : (Q = 1 -> N = 1) \/ (Q = 1 /\ 1 < N)) by lia. destruct D as [H1|[H1 H2]].
      * split; [lia|]. destruct (aca2_ok M N Q H H1) as (s' & E' & C). rewrite E in E'. injection E' as <-. exact C.
      * rewrite B2 in E by auto. discriminate.
    + rewrite B1 in E by auto. discriminate.
  - assert (D : (0 < N /\ (1 < N -> 0 < p <= N)) \/ ~ (0 < N /\ (1 < N -> 0 < p <= N))) by lia. destruct D as [[H1 H2]|H].
    + split; auto. destruct (gda_ok M N p P' H1 H2) as (s' & E' & C). rewrite E in E'. injection E' as <-. exact C.
    + rewrite gda_bad in E by auto. discriminate.
  - assert (D : (0 < R + P' <= N + 1 /\ 0 < N /\ (R + P' = 1 -> 1 < N)) \/ ~ (0 < R + P' <= N + 1 /\ 0 < N /\ (R + P' = 1 -> 1 < N))) by lia.
    destruct D as [(H1 & H2 & H3)|H].
    + split; auto. destruct (gear_ok M N R P' H1 H2 H3) as (s' & E' & C). rewrite E in E'. injection E' as <-. exact C.
    + rewrite gear_bad in E by auto. discriminate.
Qed.

(** ** the forgotten carries *)
Section Forget.
Variable restart : nat -> bool.
Variable P : nat.
Notation start := (lookback restart P).
Notation prev := (before restart P).

Lemma prev_le_start k : prev k <= start k.
Proof. destruct k as [|k]; cbn [before]; [lia|apply lookback_mono]. Qed.
Lemma prev_le k : prev k <= k.
Proof. destruct k as [|k]; cbn [before]; [lia|]. pose proof (lookback_le restart P k). lia. Qed.
Lemma start_le_mono j k : j <= k -> start j <= start k.
Proof. induction 1; auto. pose proof (lookback_mono restart P m). lia. Qed.
Lemma start_restart k : restart k = true -> start k = k + 1 - P.
Proof. intro H. destruct k; cbn [lookback]; now rewrite H. Qed.
Lemma start_same k : restart k = false -> start k = prev k.
Proof. intro H. destruct k; cbn [lookback before]; now rewrite H. Qed.
Lemma prev_small k : restart k = true -> P <= k -> prev k <= k - P.
Proof.
  intros HR HP. destruct k as [|k]; cbn [before]; [lia|]. clear HR.
  assert (G : forall j, j <= k -> start j <= S k - P).
  { induction j as [|j IH]; intro Hj; cbn [lookback]; destruct (restart _); lia. }
  apply G. lia.
Qed.

Lemma generates_iff x y k g : generates x y k g = true <->
  x g = true /\ y g = true /\ forall j, g < j <= k -> xorb (x j) (y j) = true.
Proof.
  unfold generates. rewrite !andb_true_iff, forallb_forall. split.
  - intros [[H1 H2] H3]. repeat split; auto. intros j Hj. apply H3. apply in_seq. lia.
  - intros (H1 & H2 & H3). repeat split; auto. intros j Hj. apply in_seq in Hj. apply H3. lia.
Qed.
Lemma forgets_iff x y k : forgets restart P x y k = true <->
  restart k = true /\ exists g, prev k <= g < k + 1 - P /\ generates x y k g = true.
Proof.
  unfold forgets. rewrite andb_true_iff, existsb_exists. split.
  - intros (H & g & Hg & H1). split; auto. exists g. apply in_seq in Hg. split; auto. lia.
  - intros (H & g & Hg & H1). split; auto. exists g. split; auto. apply in_seq. lia.
Qed.
(** the generating position is unique *)
Lemma generates_unique x y k g h : g <= k -> h <= k -> generates x y k g = true -> generates x y k h = true -> g = h.
Proof.
  rewrite !generates_iff. intros Hg Hh (G1 & G2 & G3) (H1 & H2 & H3).
  destruct (lt_eq_lt_dec g h) as [[L|E]|L]; auto.
  - specialize (G3 h ltac:(lia)). rewrite H1, H2 in G3. discriminate.
  - specialize (H3 g ltac:(lia)). rewrite G1, G2 in H3. discriminate.
Qed.
Lemma forgets_cf x y k : forgets restart P x y k = cf x y (prev k) (S k) && negb (cf x y (start k) (S k)).
Proof.
  apply eq_true_iff_eq. rewrite forgets_iff, andb_true_iff, negb_true_iff, cf_generated. split.
  - intros (HR & g & Hg & H). pose proof (start_restart k HR) as Hs. split.
    + apply generates_iff in H. destruct H as (H1 & H2 & H3). exists g. repeat split; auto; try lia. intros j Hj. apply H3. lia.
    + destruct (cf x y (start k) (S k)) eqn:E; auto. apply cf_generated in E. destruct E as (h & Hh & E1 & E2 & E3).
      assert (E : generates x y k h = true).
      { apply generates_iff. repeat split; auto. intros j Hj. apply E3. lia. }
      assert (g = h) by (apply (generates_unique x y k); auto; lia). lia.
  - intros [(g & Hg & H1 & H2 & H3) HN].
    assert (E : generates x y k g = true).
    { apply generates_iff. repeat split; auto. intros j Hj. apply H3. lia. }
    destruct (restart k) eqn:HR.
    + split; auto. exists g. split; auto. rewrite <- (start_restart k HR). split; [lia|].
      destruct (le_lt_dec (start k) g) as [L|L]; auto. exfalso.
      assert (X : cf x y (start k) (S k) = true) by (apply cf_generated; exists g; repeat split; auto; lia). congruence.
    + exfalso. assert (X : cf x y (start k) (S k) = true).
      { apply cf_generated. rewrite (start_same k HR). exists g. repeat split; auto; lia. }
      congruence.
Qed.
Lemma forgets_b2q x y k : (b2q (forgets restart P x y k) == b2q (cf x y (prev k) (S k)) - b2q (cf x y (start k) (S k)))%Q.
Proof.
  rewrite forgets_cf. pose proof (cf_mono x y (start k) (prev k) (S k) (prev_le_start k)) as H.
  destruct (cf x y (start k) (S k)), (cf x y (prev k) (S k)); cbn [andb negb b2q]; try reflexivity.
  specialize (H eq_refl). discriminate.
Qed.
(** a forgotten carry generated at [g] implies that nothing is forgotten from [g] up to it *)
Lemma forgets_gap x y n g k : prev n <= g -> generates x y n g = true -> g <= k < n ->
  forgets restart P x y k = false.
Proof.
  intros Hp Hg Hk. destruct (forgets restart P x y k) eqn:E; auto. exfalso.
  apply forgets_iff in E. destruct E as (HR & h & Hh & E). apply generates_iff in E, Hg.
  destruct E as (E1 & E2 & E3), Hg as (G1 & G2 & G3).
  assert (start k <= prev n).
  { destruct n as [|n]; [lia|]. cbn [before]. apply start_le_mono. lia. }
  rewrite (start_restart k HR) in H. specialize (E3 g ltac:(lia)). rewrite G1, G2 in E3. discriminate.
Qed.
Lemma forgets_ext x y x' y' k : (forall i, i <= k -> x i = x' i) -> (forall i, i <= k -> y i = y' i) ->
  forgets restart P x y k = forgets restart P x' y' k.
Proof.
  intros Hx Hy. apply eq_true_iff_eq. rewrite !forgets_iff.
  assert (G : forall g, g <= k -> generates x y k g = generates x' y' k g).
  { intros g Hg. apply eq_true_iff_eq. rewrite !generates_iff, Hx, Hy by auto.
    split; intros (H1 & H2 & H3); repeat split; auto; intros j Hj; specialize (H3 j Hj);
      [rewrite <- Hx, <- Hy by lia|rewrite Hx, Hy by lia]; auto. }
  split; intros (HR & g & Hg & H); split; auto; exists g; split; auto; [rewrite <- G|rewrite G]; auto; lia.
Qed.

(** ** the sum in terms of the forgotten carries *)
Section Values.
Variables x y : nat -> bool.
Open Scope Z_scope.
Lemma maj_cin k : maj (x k) (y k) (cin x y start k) = cf x y (prev k) (S k).
Proof.
  cbn [cf]. pose proof (prev_le k). assert ((k <? prev k)%nat = false) as -> by (apply Nat.ltb_ge; lia).
  f_equal. destruct k as [|k]; reflexivity.
Qed.
Lemma cut_loss n m : (m <= n)%nat ->
  number m (cut_bit x y start n) + 2 ^ Z.of_nat m * Z.b2z (cin x y start m) + 2 * number m (forgets restart P x y)
  = number m x + number m y.
Proof.
  induction m as [|m IH]; intro H; [reflexivity|]. cbn [number]. specialize (IH ltac:(lia)).
  rewrite Nat2Z.inj_succ, Z.pow_succ_r by lia.
  pose proof (maj_cin m) as C. rewrite forgets_cf, <- C.
  change (cf x y (start m) (S m)) with (cin x y start (S m)).
  pose proof (cf_mono x y (start m) (prev m) (S m) (prev_le_start m)) as K. rewrite <- C in K.
  change (cf x y (start m) (S m)) with (cin x y start (S m)) in K.
  unfold cut_bit at 2. assert ((m <? n)%nat = true) as -> by (apply Nat.ltb_lt; lia).
  destruct (x m), (y m), (cin x y start m), (cin x y start (S m));
    cbn [maj andb orb xorb negb Z.b2z] in *; try (specialize (K eq_refl); discriminate); lia.
Qed.
Lemma cut_loss_value n : number (S n) (cut_bit x y start n) + 2 * number n (forgets restart P x y) = number n x + number n y.
Proof.
  rewrite <- (cut_loss n n (Nat.le_refl n)). cbn [number]. unfold cut_bit at 2. rewrite Nat.ltb_irrefl, xorb_false_l. lia.
Qed.
End Values.

(** ** the largest loss *)
Open Scope Z_scope.
Lemma number_zero n z : (forall k, (k < n)%nat -> z k = false) -> number n z = 0.
Proof. induction n as [|n IH]; intro H; cbn [number]; auto. rewrite IH, H by auto. cbn [Z.b2z]. lia. Qed.
Lemma number_skip g n z : (g <= n)%nat -> (forall k, (g <= k < n)%nat -> z k = false) -> number n z = number g z.
Proof. intros L H. induction L as [|n L IH]; auto. cbn [number]. rewrite IH by (intros; apply H; lia). rewrite H by lia. cbn [Z.b2z]. lia. Qed.
Lemma number_mono_le g n z : (g <= n)%nat -> number g z <= number n z.
Proof.
  induction 1 as [|n L IH]; [lia|]. cbn [number]. pose proof (Z.pow_pos_nonneg 2 (Z.of_nat n) ltac:(lia) ltac:(lia)).
  destruct (z n); cbn [Z.b2z]; lia.
Qed.
Lemma number_pos n z k : (k < n)%nat -> z k = true -> 0 < number n z.
Proof.
  intros Hk H. apply Z.lt_le_trans with (number (S k) z); [|now apply number_mono_le].
  cbn [number]. rewrite H. pose proof (number_range k z). pose proof (Z.pow_pos_nonneg 2 (Z.of_nat k) ltac:(lia) ltac:(lia)). cbn [Z.b2z]. lia.
Qed.

Definition loss (n : nat) : Z := hd 0 (largest_losses restart P n).
Lemma losses_length n : length (largest_losses restart P n) = S n.
Proof. induction n as [|n IH]; cbn [largest_losses length]; auto. Qed.
Lemma losses_nth n : forall j, (j <= n)%nat -> nth j (largest_losses restart P n) 0 = loss (n - j).
Proof.
  induction n as [|n IH]; intros j Hj.
  - assert (j = O) by lia. subst j. reflexivity.
  - destruct j as [|j]; [rewrite Nat.sub_0_r; unfold loss; now destruct (largest_losses restart P (S n))|].
    cbn [largest_losses nth]. rewrite IH by lia. reflexivity.
Qed.
Lemma loss_take n : restart n = true -> (P <= n)%nat -> loss (S n) = 2 ^ Z.of_nat n + loss (n - P).
Proof.
  intros HR HP. unfold loss at 1. cbn [largest_losses hd]. rewrite HR. apply Nat.leb_le in HP as HP'. rewrite HP'. cbn [andb].
  now rewrite losses_nth.
Qed.
Lemma loss_skip n : restart n && (P <=? n)%nat = false -> loss (S n) = loss n.
Proof. intros HR. unfold loss at 1. cbn [largest_losses hd]. rewrite HR. reflexivity. Qed.
Lemma forgets_skip x y n : restart n && (P <=? n)%nat = false -> forgets restart P x y n = false.
Proof.
  intro H. destruct (forgets restart P x y n) eqn:E; auto. exfalso. apply forgets_iff in E. destruct E as (HR & g & Hg & _).
  rewrite HR in H. cbn [andb] in H. apply Nat.leb_gt in H. lia.
Qed.

Lemma loss_bound n : forall x y, 0 <= number n (forgets restart P x y) <= loss n.
Proof.
  induction n as [n IH] using (well_founded_induction lt_wf). intros x y. split; [apply number_range|].
  destruct n as [|n]; [cbn; lia|]. destruct (restart n && (P <=? n)%nat) eqn:E.
  - apply andb_true_iff in E as [HR HP]. apply Nat.leb_le in HP. rewrite loss_take by auto. cbn [number].
    pose proof (IH (n - P)%nat ltac:(lia) x y) as I.
    destruct (forgets restart P x y n) eqn:F; cbn [Z.b2z].
    + apply forgets_iff in F. destruct F as (_ & g & Hg & G).
      rewrite (number_skip g n) by (try lia; intros k Hk; apply (forgets_gap x y n g); auto; lia).
      pose proof (number_mono_le g (n - P) (forgets restart P x y) ltac:(lia)). lia.
    + pose proof (number_range n (forgets restart P x y)). lia.
  - rewrite loss_skip by auto. cbn [number]. rewrite forgets_skip by auto. cbn [Z.b2z]. pose proof (IH n ltac:(lia) x y). lia.
Qed.
Lemma loss_attained n : exists x y, number n (forgets restart P x y) = loss n.
Proof.
  induction n as [n IH] using (well_founded_induction lt_wf). destruct n as [|n].
  - exists (fun _ => false), (fun _ => false). reflexivity.
  - destruct (restart n && (P <=? n)%nat) eqn:E.
    + apply andb_true_iff in E as E'. destruct E' as [HR HP]. apply Nat.leb_le in HP. rewrite loss_take by auto.
      destruct (IH (n - P)%nat ltac:(lia)) as (x & y & H).
      exists (fun i => if (i <? n - P)%nat then x i else true), (fun i => if (i <? n - P)%nat then y i else (i =? n - P)%nat).
      set (x' := fun i => if (i <? n - P)%nat then x i else true). set (y' := fun i => if (i <? n - P)%nat then y i else (i =? n - P)%nat).
      apply Z.le_antisymm.
      * pose proof (loss_bound (S n) x' y') as B. rewrite loss_take in B by auto. lia.
      * cbn [number].
        assert (F : forgets restart P x' y' n = true).
        { apply forgets_iff. split; auto. exists (n - P)%nat. split; [pose proof (prev_small n HR HP); lia|].
          apply generates_iff. unfold x', y'. rewrite Nat.ltb_irrefl, Nat.eqb_refl. repeat split; auto. intros j Hj.
          assert ((j <? n - P)%nat = false) as -> by (apply Nat.ltb_ge; lia).
          assert ((j =? n - P)%nat = false) as -> by (apply Nat.eqb_neq; lia). reflexivity. }
        rewrite F. cbn [Z.b2z].
        pose proof (number_mono_le (n - P) n (forgets restart P x' y') ltac:(lia)) as L.
        rewrite (number_ext (n - P) (forgets restart P x' y') (forgets restart P x y)) in L.
        -- lia.
        -- intros i Hi. apply forgets_ext; intros j Hj; unfold x', y'; assert ((j <? n - P)%nat = true) as -> by (apply Nat.ltb_lt; lia); auto.
    + destruct (IH n ltac:(lia)) as (x & y & H). exists x, y. rewrite loss_skip by auto. cbn [number]. rewrite forgets_skip by auto. cbn [Z.b2z]. lia.
Qed.
Close Scope Z_scope.
End Forget.
