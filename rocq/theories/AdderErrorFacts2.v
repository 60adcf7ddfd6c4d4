(** Proofs about the errors of the approximate adders: average case error, error rate and bit flips *)
From Coq Require Import List Bool Arith ZArith QArith Lia Lqa.
From Verif Require Import Res Cudd CuddFacts Spec SpecFacts SpecAdder Helpers HelpersFacts Examples AdderFacts AdderErrorFacts.
Import ListNotations.
Open Scope nat_scope.

(** ** averages over the operands *)
Definition stays (F : asg -> Q) (k : nat) : Prop :=
  forall a b, (F (upd a (2 * k) b) == F a)%Q /\ (F (upd a (2 * k + 1) b) == F a)%Q.
Definition part (H : bool -> bool -> Q) (G : asg -> Q) (k : nat) (a : asg) : Q := (H (op1 a k) (op2 a k) * G a)%Q.
Lemma part_ext H G k : extQ G -> extQ (part H G k).
Proof. intros E a b Hab. unfold part, op1, op2. rewrite !Hab, (E a b Hab). reflexivity. Qed.
Lemma upd_ext a b v c : (forall i, a i = b i) -> forall i, upd a v c i = upd b v c i.
Proof. intros H i. unfold upd. destruct (i =? v); auto. Qed.
Lemma average_part N H G k : extQ G -> stays G k -> k < N ->
  (average (2 * N) (part H G k) == (1#4) * (H true true + H true false + H false true + H false false) * average (2 * N) G)%Q.
Proof.
  intros E St Hk.
  assert (E1 : forall b, extQ (fun a => part H G k (upd a (2 * k) b))).
  { intros b a a' Haa. apply (part_ext H G k E). now apply upd_ext. }
  rewrite (average_split (2 * N) (2 * k) (part H G k) (part_ext H G k E)) by lia.
  rewrite (average_split (2 * N) (2 * k + 1) _ (E1 true)), (average_split (2 * N) (2 * k + 1) _ (E1 false)) by lia.
  assert (X : forall b c, (average (2 * N) (fun a => part H G k (upd (upd a (2 * k + 1) c) (2 * k) b)) == H b c * average (2 * N) G)%Q).
  { intros b c. rewrite <- average_scale. apply average_ext. intro a. unfold part.
    assert (op1 (upd (upd a (2 * k + 1) c) (2 * k) b) k = b) as ->.
    { unfold op1, upd. now rewrite Nat.eqb_refl. }
    assert (op2 (upd (upd a (2 * k + 1) c) (2 * k) b) k = c) as ->.
    { unfold op2, upd. assert (2 * k + 1 =? 2 * k = false) as -> by (apply Nat.eqb_neq; lia). now rewrite Nat.eqb_refl. }
    destruct (St (upd a (2 * k + 1) c) b) as [S1 _]. destruct (St a c) as [_ S2]. rewrite S1, S2. reflexivity. }
  rewrite !X. ring.
Qed.

(** functions of the operand positions below [k] *)
Definition low (F : asg -> Q) (k : nat) : Prop :=
  forall a b, (forall i, i < k -> op1 a i = op1 b i) -> (forall i, i < k -> op2 a i = op2 b i) -> (F a == F b)%Q.
Lemma low_ext F k : low F k -> extQ F.
Proof. intros L a b H. apply L; intros i _; unfold op1, op2; apply H. Qed.
Lemma low_stays F k : low F k -> stays F k.
Proof.
  intros L a b. split; apply L; intros i Hi; unfold op1, op2, upd.
  - assert (2 * i =? 2 * k = false) as -> by (apply Nat.eqb_neq; lia). reflexivity.
  - assert (2 * i + 1 =? 2 * k = false) as -> by (apply Nat.eqb_neq; lia). reflexivity.
  - assert (2 * i =? 2 * k + 1 = false) as -> by (apply Nat.eqb_neq; lia). reflexivity.
  - assert (2 * i + 1 =? 2 * k + 1 = false) as -> by (apply Nat.eqb_neq; lia). reflexivity.
Qed.
Lemma low_le F j k : j <= k -> low F j -> low F k.
Proof. intros H L a b H1 H2. apply L; intros i Hi; [apply H1|apply H2]; lia. Qed.
Lemma low_part H G k : low G k -> low (part H G k) (S k).
Proof.
  intros L a b H1 H2. unfold part. rewrite !H1, !H2 by lia. rewrite (L a b); [reflexivity| |]; intros i Hi; [apply H1|apply H2]; lia.
Qed.
Lemma average_low N H G k : low G k -> k < N ->
  (average (2 * N) (part H G k) == (1#4) * (H true true + H true false + H false true + H false false) * average (2 * N) G)%Q.
Proof. intros L Hk. apply average_part; auto; [eapply low_ext; eauto|now apply low_stays]. Qed.

(** ** the density of the carries *)
Definition iz (n : nat) : Q := inject_Z (pow2 n).
Lemma iz_pos n : (0 < iz n)%Q.
Proof. unfold iz. change 0%Q with (inject_Z 0). rewrite <- Zlt_Qlt. apply pow2_pos. Qed.
Lemma iz_S n : (iz (S n) == 2 * iz n)%Q.
Proof. unfold iz. rewrite pow2_S, inject_Z_mult. reflexivity. Qed.
Lemma iz_0 : (iz 0 == 1)%Q.
Proof. reflexivity. Qed.
Lemma cf_op_low l i : low (fun a => b2q (cf (op1 a) (op2 a) l i)) i.
Proof.
  intros a b H1 H2. assert (X : cf (op1 a) (op2 a) l i = cf (op1 b) (op2 b) l i); [|now rewrite X].
  induction i as [|i IH]; cbn [cf]; auto. destruct (i <? l); auto. rewrite H1, H2, IH by (auto; intros; auto). reflexivity.
Qed.
Lemma carry_density N l i : l <= i <= N ->
  (average (2 * N) (fun a => b2q (cf (op1 a) (op2 a) l i)) * iz i == (1#2) * (iz i - iz l))%Q.
Proof.
  induction i as [|i IH]; intros H.
  - assert (l = 0) by lia. subst l. rewrite (average_ext _ _ (fun _ => 0)%Q) by reflexivity. rewrite average_const. ring.
  - destruct (Nat.eq_dec l (S i)) as [->|Hn].
    + rewrite (average_ext _ _ (fun _ => 0)%Q) by (intro a; rewrite cf_low by lia; reflexivity). rewrite average_const. ring.
    + rewrite (average_ext _ _ (fun a => part (fun b c => b2q (b && c)) (fun _ => 1) i a
          + part (fun b c => b2q (xorb b c)) (fun a => b2q (cf (op1 a) (op2 a) l i)) i a)%Q).
      * rewrite average_plus. rewrite !average_low; try lia.
        -- cbn [andb xorb b2q]. rewrite average_const. specialize (IH ltac:(lia)). rewrite iz_S.
           set (v := average _ _) in *. lra.
        -- apply cf_op_low.
        -- intros a b _ _. reflexivity.
      * intro a. unfold part. rewrite <- Nat.add_1_r, cf_step by lia.
        destruct (op1 a i), (op2 a i), (cf (op1 a) (op2 a) l i); reflexivity.
Qed.

(** ** average of the loss *)
Lemma average_number N m (z : asg -> nat -> bool) :
  (average N (fun a => inject_Z (number m (z a))) ==
   sumQ (map (fun k => inject_Z (2 ^ Z.of_nat k) * average N (fun a => b2q (z a k))) (seq 0 m)))%Q.
Proof.
  induction m as [|m IH].
  - cbn [number seq map]. rewrite average_const. reflexivity.
  - rewrite seq_S, map_app, sumQ_app. cbn [map Nat.add]. rewrite sumQ_cons, sumQ_nil, <- IH, <- average_scale.
    rewrite (average_ext _ _ (fun a => inject_Z (number m (z a)) + inject_Z (2 ^ Z.of_nat m) * b2q (z a m))%Q).
    + rewrite average_plus. ring.
    + intro a. cbn [number]. rewrite inject_Z_plus, inject_Z_mult. destruct (z a m); reflexivity.
Qed.
Lemma average_loss N restart P m : m <= N ->
  (average (2 * N) (fun a => inject_Z (2 * number m (forgets restart P (op1 a) (op2 a))))
   == (1#2) * (iz (before restart P m) - 1))%Q.
Proof.
  intros Hm. rewrite (average_ext _ _ (fun a => 2 * inject_Z (number m (forgets restart P (op1 a) (op2 a))))%Q) by (intro a; rewrite inject_Z_mult; reflexivity).
  rewrite average_scale. induction m as [|m IH].
  - cbn [number before]. rewrite average_const, iz_0. ring.
  - rewrite (average_ext _ _ (fun a => inject_Z (number m (forgets restart P (op1 a) (op2 a)))
        + iz m * (b2q (cf (op1 a) (op2 a) (before restart P m) (S m)) + (-1) * b2q (cf (op1 a) (op2 a) (lookback restart P m) (S m))))%Q).
    + rewrite average_plus, average_scale, average_plus, average_scale. specialize (IH ltac:(lia)).
      pose proof (prev_le restart P m). pose proof (lookback_le restart P m).
      pose proof (carry_density N (before restart P m) (S m) ltac:(lia)) as D1.
      pose proof (carry_density N (lookback restart P m) (S m) ltac:(lia)) as D2.
      rewrite iz_S in D1, D2. cbn [before].
      set (B := average _ _) in D1 |- *. set (C := average _ _) in D2 |- *. set (A := average _ _) in *.
      assert (X : (iz m * (B + -1 * C) == (1#4) * (iz (lookback restart P m) - iz (before restart P m)))%Q) by lra.
      lra.
    + intro a. cbn [number]. rewrite inject_Z_plus, inject_Z_mult.
      pose proof (forgets_b2q restart P (op1 a) (op2 a) m) as F.
      assert (Y : (inject_Z (Z.b2z (forgets restart P (op1 a) (op2 a) m)) == b2q (forgets restart P (op1 a) (op2 a) m))%Q)
        by (destruct (forgets _ _ _ _ _); reflexivity).
      rewrite Y, F. unfold iz, pow2. ring.
Qed.

(** ** operands for which nothing is forgotten *)
Section Quiet.
Variable restart : nat -> bool.
Variable P : nat.
Notation prev := (before restart P).
Definition quiet (n : nat) (x y : nat -> bool) : bool := forallb (fun k => negb (forgets restart P x y k)) (seq 0 n).
Lemma quiet_iff n x y : quiet n x y = true <-> forall k, k < n -> forgets restart P x y k = false.
Proof.
  unfold quiet. rewrite forallb_forall. split; intros H k Hk.
  - apply negb_true_iff, H, in_seq. lia.
  - apply in_seq in Hk. apply negb_true_iff, H. lia.
Qed.
Lemma quiet_number n x y : quiet n x y = (number n (forgets restart P x y) =? 0)%Z.
Proof.
  apply eq_true_iff_eq. rewrite quiet_iff, Z.eqb_eq. split; [apply number_zero|]. intros H k Hk.
  destruct (forgets restart P x y k) eqn:E; auto. pose proof (number_pos n _ k Hk E). lia.
Qed.
Lemma quiet_S n x y : quiet (S n) x y = quiet n x y && negb (forgets restart P x y n).
Proof. unfold quiet. rewrite seq_S, forallb_app. cbn [forallb Nat.add]. now rewrite andb_true_r. Qed.
Lemma quiet_low n : low (fun a => b2q (quiet n (op1 a) (op2 a))) n.
Proof.
  intros a b H1 H2. assert (X : quiet n (op1 a) (op2 a) = quiet n (op1 b) (op2 b)); [|now rewrite X].
  apply eq_true_iff_eq. rewrite !quiet_iff. split; intros H k Hk; rewrite <- (H k Hk); apply forgets_ext; intros i Hi;
    rewrite ?H1, ?H2 by lia; auto.
Qed.
Lemma generates_S x y m g : g <= m -> generates x y (S m) g = generates x y m g && xorb (x (S m)) (y (S m)).
Proof.
  intro H. unfold generates. replace (S m - g) with (S (m - g)) by lia. rewrite seq_S, forallb_app. cbn [forallb].
  replace (S g + (m - g)) with (S m) by lia. now rewrite andb_true_r, andb_assoc.
Qed.
Lemma average_generates N n g : g <= n < N ->
  (average (2 * N) (fun a => b2q (generates (op1 a) (op2 a) n g) * b2q (quiet g (op1 a) (op2 a))) * (4 * iz (n - g))
   == average (2 * N) (fun a => b2q (quiet g (op1 a) (op2 a))))%Q.
Proof.
  intros [H1 H2].
  assert (X : low (fun a => b2q (generates (op1 a) (op2 a) n g) * b2q (quiet g (op1 a) (op2 a)))%Q (S n) /\
    (average (2 * N) (fun a => b2q (generates (op1 a) (op2 a) n g) * b2q (quiet g (op1 a) (op2 a))) * (4 * iz (n - g))
     == average (2 * N) (fun a => b2q (quiet g (op1 a) (op2 a))))%Q); [|apply X].
  induction H1 as [|n L IH].
  - assert (E : forall a, (b2q (generates (op1 a) (op2 a) g g) * b2q (quiet g (op1 a) (op2 a))
      == part (fun b c => b2q (b && c)) (fun a => b2q (quiet g (op1 a) (op2 a))) g a)%Q).
    { intro a. unfold part, generates. rewrite Nat.sub_diag. cbn [seq forallb]. rewrite andb_true_r. reflexivity. }
    split.
    + intros a b Ha Hb. rewrite !E. apply low_part; auto. apply quiet_low.
    + rewrite (average_ext _ _ _ E), average_low by (auto; apply quiet_low). rewrite Nat.sub_diag, iz_0. cbn [andb b2q].
      set (v := average _ _). lra.
  - destruct (IH ltac:(lia)) as [IL IA].
    assert (E : forall a, (b2q (generates (op1 a) (op2 a) (S n) g) * b2q (quiet g (op1 a) (op2 a))
      == part (fun b c => b2q (xorb b c)) (fun a => b2q (generates (op1 a) (op2 a) n g) * b2q (quiet g (op1 a) (op2 a))) (S n) a)%Q).
    { intro a. unfold part. rewrite generates_S by auto. destruct (generates _ _ _ _), (xorb _ _), (quiet _ _ _); reflexivity. }
    split.
    + intros a b Ha Hb. rewrite !E. apply low_part; auto.
    + rewrite (average_ext _ _ _ E), average_low by auto. replace (S n - g) with (S (n - g)) by lia. rewrite iz_S, <- IA. cbn [xorb b2q].
      set (v := average _ _). lra.
Qed.
Lemma sum_one (F : nat -> Q) l g : NoDup l -> In g l -> (forall h, In h l -> h <> g -> (F h == 0)%Q) -> (sumQ (map F l) == F g)%Q.
Proof.
  induction l as [|h l IH]; intros D I H; [destruct I|]. cbn [map]. rewrite sumQ_cons. inversion D as [|? ? D1 D2]; subst.
  assert (Z : forall l', (forall h, In h l' -> (F h == 0)%Q) -> (sumQ (map F l') == 0)%Q).
  { induction l' as [|z l' IL]; intro HZ; cbn [map]; rewrite ?sumQ_cons; [reflexivity|].
    assert (Z1 : (F z == 0)%Q) by (apply HZ; now left). assert (Z2 : (sumQ (map F l') == 0)%Q) by (apply IL; intros; apply HZ; now right).
    rewrite Z1, Z2. reflexivity. }
  destruct I as [->|I].
  - rewrite Z; [ring|]. intros h Hh. apply H; [now right|]. intros ->. auto.
  - rewrite IH; auto; [|intros; apply H; auto; now right]. rewrite (H h); [ring|now left|]. intros ->. auto.
Qed.
Lemma quiet_step n x y : (b2q (quiet (S n) x y) == b2q (quiet n x y)
  - (if restart n then sumQ (map (fun g => b2q (generates x y n g) * b2q (quiet g x y)) (seq (prev n) (n + 1 - P - prev n))) else 0))%Q.
Proof.
  rewrite quiet_S. destruct (forgets restart P x y n) eqn:E.
  - apply forgets_iff in E. destruct E as (HR & g & Hg & G). rewrite HR.
    assert (Q1 : quiet n x y = quiet g x y).
    { apply eq_true_iff_eq. rewrite !quiet_iff. split; intros H k Hk; [apply H; lia|].
      destruct (le_lt_dec g k) as [L|L]; [|auto]. apply (forgets_gap restart P x y n g); auto; lia. }
    rewrite (sum_one _ _ g).
    + rewrite G, Q1. cbn [negb]. rewrite andb_false_r. cbn [b2q]. ring.
    + apply seq_NoDup.
    + apply in_seq. lia.
    + intros h Hh Hn. apply in_seq in Hh. destruct (generates x y n h) eqn:Gh; [|cbn [b2q]; ring].
      exfalso. apply Hn. apply (generates_unique x y n); auto; lia.
  - cbn [negb]. rewrite andb_true_r. destruct (restart n) eqn:HR; [|ring].
    assert (X : (sumQ (map (fun g => b2q (generates x y n g) * b2q (quiet g x y)) (seq (prev n) (n + 1 - P - prev n))) == 0)%Q).
    { transitivity (sumQ (map (fun _ : nat => 0%Q) (seq (prev n) (n + 1 - P - prev n)))).
      - apply sumQ_map_ext. intros g Hg. apply in_seq in Hg. destruct (generates x y n g) eqn:G; [|cbn [b2q]; ring].
        exfalso. assert (F : forgets restart P x y n = true) by (apply forgets_iff; split; auto; exists g; split; auto; lia). congruence.
      - generalize (seq (prev n) (n + 1 - P - prev n)). induction l as [|z l IL]; cbn [map]; rewrite ?sumQ_cons; [reflexivity|]. rewrite IL. reflexivity. }
    rewrite X. ring.
Qed.

(** ** counting them *)
Definition pairs (n : nat) : Z := hd 0%Z (exact_pairs restart P n).
Lemma pairs_nth n : forall j, j <= n -> nth j (exact_pairs restart P n) 0%Z = pairs (n - j).
Proof.
  induction n as [|n IH]; intros j Hj.
  - assert (j = O) by lia. subst j. reflexivity.
  - destruct j as [|j]; [rewrite Nat.sub_0_r; unfold pairs; now destruct (exact_pairs restart P (S n))|].
    cbn [exact_pairs nth]. rewrite IH by lia. reflexivity.
Qed.
Lemma sumZ_app l l' : sumZ (l ++ l') = (sumZ l + sumZ l')%Z.
Proof. unfold sumZ. induction l as [|z l IH]; cbn [app fold_right]; [reflexivity|]. rewrite IH. ring. Qed.
Lemma sum_reverse n (F : nat -> Q) (G : nat -> Z) : (forall g, g <= n -> (F g == inject_Z (G (n - g)%nat))%Q) -> forall c s, s + c <= n + 1 ->
  (sumQ (map F (seq s c)) == inject_Z (sumZ (map G (seq (n + 1 - s - c) c))))%Q.
Proof.
  intro H. induction c as [|c IH]; intros s Hs; [reflexivity|].
  rewrite (seq_S c (n + 1 - s - S c)), map_app, sumZ_app, inject_Z_plus. cbn [seq map]. rewrite sumQ_cons, (IH (S s)) by lia.
  replace (n + 1 - S s - c) with (n + 1 - s - S c) by lia. rewrite (H s) by lia.
  replace (n + 1 - s - S c + c) with (n - s) by lia. unfold sumZ at 3. cbn [fold_right]. rewrite Z.add_0_r. ring.
Qed.
Lemma average_sum_list n (F : nat -> asg -> Q) l :
  (average n (fun a => sumQ (map (fun g => F g a) l)) == sumQ (map (fun g => average n (F g)) l))%Q.
Proof.
  induction l as [|z l IH]; cbn [map]; [rewrite average_const; reflexivity|].
  rewrite (average_ext _ _ (fun a => F z a + sumQ (map (fun g => F g a) l))%Q) by (intro; now rewrite sumQ_cons).
  rewrite average_plus, sumQ_cons, IH. reflexivity.
Qed.
Lemma sumQ_scale {A} c (F : A -> Q) l : (sumQ (map (fun g => c * F g) l) == c * sumQ (map F l))%Q.
Proof. induction l as [|z l IH]; cbn [map]; rewrite ?sumQ_nil, ?sumQ_cons; [ring|]. rewrite IH. ring. Qed.
Lemma iz_add m n : (iz (m + n) == iz m * iz n)%Q.
Proof. unfold iz. rewrite pow2_add, inject_Z_mult. reflexivity. Qed.

Lemma quiet_average N n : n <= N ->
  (average (2 * N) (fun a => b2q (quiet n (op1 a) (op2 a))) * iz (2 * n) == inject_Z (pairs n))%Q.
Proof.
  induction n as [n IH] using (well_founded_induction lt_wf). intro Hn. destruct n as [|n].
  - rewrite (average_ext _ _ (fun _ => 1)%Q) by reflexivity. rewrite average_const. reflexivity.
  - rewrite (average_ext _ _ _ (fun a => quiet_step n (op1 a) (op2 a))).
    unfold pairs. cbn [exact_pairs hd]. fold (pairs n).
    assert (I4 : (iz (2 * S n) == 4 * iz (2 * n))%Q).
    { replace (2 * S n) with (S (S (2 * n))) by lia. rewrite !iz_S. ring. }
    pose proof (IH n ltac:(lia) ltac:(lia)) as IHn.
    destruct (restart n) eqn:HR.
    + rewrite (average_ext _ _ (fun a => b2q (quiet n (op1 a) (op2 a))
          + (-1) * sumQ (map (fun g => b2q (generates (op1 a) (op2 a) n g) * b2q (quiet g (op1 a) (op2 a))) (seq (prev n) (n + 1 - P - prev n))))%Q)
        by (intro; ring).
      rewrite average_plus, average_scale.
      rewrite (average_sum_list (2 * N) (fun g a => b2q (generates (op1 a) (op2 a) n g) * b2q (quiet g (op1 a) (op2 a)))%Q).
      set (L := seq (prev n) (n + 1 - P - prev n)).
      set (F := fun g => average (2 * N) (fun a => b2q (generates (op1 a) (op2 a) n g) * b2q (quiet g (op1 a) (op2 a)))%Q).
      assert (X : (iz (2 * S n) * sumQ (map F L) ==
        inject_Z (sumZ (map (fun j => 2 ^ Z.of_nat j * nth j (exact_pairs restart P n) 0)%Z (seq P (n - prev n + 1 - P)))))%Q).
      { rewrite <- sumQ_scale. unfold L.
        destruct (le_lt_dec (n + 1 - prev n) P) as [HP|HP].
        - replace (n + 1 - P - prev n) with 0 by lia. pose proof (prev_le restart P n). replace (n - prev n + 1 - P) with 0 by lia. reflexivity.
        - pose proof (prev_le restart P n). replace (n - prev n + 1 - P) with (n + 1 - P - prev n) by lia.
          rewrite (sum_reverse n _ (fun j => 2 ^ Z.of_nat j * nth j (exact_pairs restart P n) 0)%Z).
          + replace (n + 1 - prev n - (n + 1 - P - prev n)) with P by lia. reflexivity.
          + intros g Hg. rewrite pairs_nth by lia. replace (n - (n - g)) with g by lia.
            pose proof (average_generates N n g ltac:(lia)) as AG. pose proof (IH g ltac:(lia) ltac:(lia)) as IHg.
            rewrite inject_Z_mult. change (inject_Z (2 ^ Z.of_nat (n - g))) with (iz (n - g)). fold (F g) in AG. rewrite <- IHg, <- AG, I4.
            assert (Y : (iz (2 * n) == iz (2 * g) * (iz (n - g) * iz (n - g)))%Q).
            { rewrite <- !iz_add. replace (2 * g + (n - g + (n - g))) with (2 * n) by lia. reflexivity. }
            rewrite Y. ring.
          + lia. }
      unfold Z.sub. rewrite inject_Z_plus, inject_Z_opp, inject_Z_mult, <- X, <- IHn, I4. set (v := average _ _). change (inject_Z 4) with 4%Q. ring.
    + rewrite (average_ext _ _ (fun a => b2q (quiet n (op1 a) (op2 a)))) by (intro; ring).
      rewrite I4. unfold Z.sub. rewrite inject_Z_plus, inject_Z_mult, <- IHn. change (inject_Z 4) with 4%Q. change (inject_Z (- 0)) with 0%Q. ring.
Qed.
End Quiet.
