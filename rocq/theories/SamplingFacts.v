(** Proofs about expectations over random draws *)
From Coq Require Import List Bool Arith ZArith QArith Qabs Lia Lqa.
From Verif Require Import Res Cudd CuddFacts Spec SpecFacts SpecSampling.
Import ListNotations.
Open Scope nat_scope.

Lemma sumQ_flat {A} (F : A -> list Q) l : (sumQ (flat_map F l) == sumQ (map (fun x => sumQ (F x)) l))%Q.
Proof.
  induction l as [|x l IH]; cbn [flat_map map]; [reflexivity|]. rewrite sumQ_app, sumQ_cons, IH. reflexivity.
Qed.
Lemma sumQ_const {A} (c : Q) (l : list A) : (sumQ (map (fun _ => c) l) == c * inject_Z (Z.of_nat (length l)))%Q.
Proof.
  induction l as [|x l IH]; cbn [map length]; [rewrite sumQ_nil; ring|]. rewrite sumQ_cons, IH, Nat2Z.inj_succ.
  unfold Z.succ. rewrite inject_Z_plus. ring.
Qed.
Lemma sumQ_map_plus {A} (F G : A -> Q) l : (sumQ (map (fun x => F x + G x) l) == sumQ (map F l) + sumQ (map G l))%Q.
Proof. induction l as [|x l IH]; cbn [map]; [reflexivity|]. rewrite !sumQ_cons, IH. ring. Qed.
Lemma sumQ_map_scale {A} c (F : A -> Q) l : (sumQ (map (fun x => c * F x) l) == c * sumQ (map F l))%Q.
Proof. induction l as [|x l IH]; cbn [map]; [rewrite !sumQ_nil; ring|]. rewrite !sumQ_cons, IH. ring. Qed.
Lemma sumQ_map_le {A} (F G : A -> Q) l : (forall x, In x l -> F x <= G x)%Q -> (sumQ (map F l) <= sumQ (map G l))%Q.
Proof.
  induction l as [|x l IH]; intro H; cbn [map]; [rewrite !sumQ_nil; lra|]. rewrite !sumQ_cons.
  pose proof (H x (or_introl eq_refl)). assert (sumQ (map F l) <= sumQ (map G l))%Q by (apply IH; intros; apply H; now right). lra.
Qed.
Lemma sumQ_map_ext_in {A} (F G : A -> Q) l : (forall x, In x l -> F x == G x)%Q -> (sumQ (map F l) == sumQ (map G l))%Q.
Proof.
  induction l as [|x l IH]; intro H; cbn [map]; [reflexivity|]. rewrite !sumQ_cons.
  rewrite (H x (or_introl eq_refl)), IH; [reflexivity|]. intros; apply H; now right.
Qed.

Section Expectation.
Variable r : nat.
Let R := inject_Z (Z.of_nat (S r)).
Lemma R_pos : (0 < R)%Q. Proof. unfold R. change 0%Q with (inject_Z 0). rewrite <- Zlt_Qlt. lia. Qed.

Lemma draw_lists_length k : Z.of_nat (length (draw_lists r k)) = (Z.of_nat (S r) ^ Z.of_nat k)%Z.
Proof.
  induction k as [|k IH]; [reflexivity|]. cbn [draw_lists].
  assert (H : forall l, length (flat_map (fun d => map (cons (Z.of_nat d)) (draw_lists r k)) l) = length l * length (draw_lists r k)).
  { induction l as [|d l IHl]; cbn [flat_map length]; [reflexivity|]. rewrite app_length, map_length, IHl. reflexivity. }
  rewrite H, seq_length, Nat2Z.inj_mul, IH, (Nat2Z.inj_succ k). rewrite Z.pow_succ_r by lia. reflexivity.
Qed.
Lemma draw_lists_in k l : In l (draw_lists r k) <-> draw_list r k l.
Proof.
  unfold draw_list. revert l. induction k as [|k IH]; intro l; cbn [draw_lists].
  - split; [intros [<-|[]]; auto|]. intros [H _]. destruct l; [now left|discriminate].
  - rewrite in_flat_map. split.
    + intros (d & Hd & H). apply in_map_iff in H. destruct H as (l' & <- & H). apply IH in H. destruct H as [H1 H2].
      apply in_seq in Hd. split; [cbn; lia|]. constructor; auto. lia.
    + intros [H1 H2]. destruct l as [|z l]; [discriminate|]. inversion_clear H2. exists (Z.to_nat z). split; [apply in_seq; lia|].
      apply in_map_iff. exists l. split; [f_equal; lia|]. apply IH. auto.
Qed.
Lemma draw_lists_pos k : (0 < inject_Z (Z.of_nat (length (draw_lists r k))))%Q.
Proof. rewrite draw_lists_length. change 0%Q with (inject_Z 0). rewrite <- Zlt_Qlt. apply Z.pow_pos_nonneg; lia. Qed.

Lemma exp_0 F : (expectation r 0 F == F [])%Q.
Proof. unfold expectation. cbn [draw_lists map length]. rewrite sumQ_cons, sumQ_nil. change (inject_Z (Z.of_nat 1)) with 1%Q. field. Qed.
Lemma exp_S k F : (expectation r (S k) F == sumQ (map (fun d => expectation r k (fun l => F (Z.of_nat d :: l))) (seq 0 (S r))) / R)%Q.
Proof.
  unfold expectation at 1. rewrite draw_lists_length. cbn [draw_lists]. rewrite (Nat2Z.inj_succ k), Z.pow_succ_r by lia.
  rewrite <- draw_lists_length, inject_Z_mult. change (inject_Z (Z.of_nat (S r))) with R.
  assert (E : (sumQ (map F (flat_map (fun d => map (cons (Z.of_nat d)) (draw_lists r k)) (seq 0 (S r))))
     == inject_Z (Z.of_nat (length (draw_lists r k))) * sumQ (map (fun d => expectation r k (fun l => F (Z.of_nat d :: l))) (seq 0 (S r))))%Q).
  { rewrite <- sumQ_map_scale. generalize (seq 0 (S r)) as ds. induction ds as [|d ds IH]; cbn [flat_map map]; [reflexivity|].
    rewrite map_app, sumQ_app, sumQ_cons, IH, map_map. unfold expectation. pose proof (draw_lists_pos k).
    rewrite Qmult_div_r by lra. reflexivity. }
  rewrite E. pose proof (draw_lists_pos k). pose proof R_pos. field. split; lra.
Qed.
Lemma exp_ext_in k F G : (forall l, draw_list r k l -> F l == G l)%Q -> (expectation r k F == expectation r k G)%Q.
Proof.
  intro H. unfold expectation. rewrite (sumQ_map_ext_in F G); [reflexivity|]. intros l Hl. apply H. now apply draw_lists_in.
Qed.
Lemma exp_ext k F G : (forall l, F l == G l)%Q -> (expectation r k F == expectation r k G)%Q.
Proof. intro H. apply exp_ext_in. auto. Qed.
Lemma exp_le_in k F G : (forall l, draw_list r k l -> F l <= G l)%Q -> (expectation r k F <= expectation r k G)%Q.
Proof.
  intro H. unfold expectation. assert (L : (sumQ (map F (draw_lists r k)) <= sumQ (map G (draw_lists r k)))%Q).
  { apply sumQ_map_le. intros l Hl. apply H. now apply draw_lists_in. }
  pose proof (draw_lists_pos k). unfold Qdiv. apply Qmult_le_compat_r; auto. apply Qlt_le_weak, Qinv_lt_0_compat; auto.
Qed.
Lemma exp_plus k F G : (expectation r k (fun l => F l + G l) == expectation r k F + expectation r k G)%Q.
Proof. unfold expectation. rewrite sumQ_map_plus. pose proof (draw_lists_pos k). field. lra. Qed.
Lemma exp_scale k c F : (expectation r k (fun l => c * F l) == c * expectation r k F)%Q.
Proof. unfold expectation. rewrite sumQ_map_scale. pose proof (draw_lists_pos k). field. lra. Qed.
Lemma exp_const k c : (expectation r k (fun _ => c) == c)%Q.
Proof. unfold expectation. rewrite sumQ_const. pose proof (draw_lists_pos k). field. lra. Qed.
Lemma exp_minus k F G : (expectation r k (fun l => F l - G l) == expectation r k F - expectation r k G)%Q.
Proof.
  rewrite (exp_ext k _ (fun l => F l + (-1) * G l)%Q) by (intro; ring). rewrite exp_plus, exp_scale. ring.
Qed.
Lemma exp_range k F lo hi : (forall l, draw_list r k l -> lo <= F l <= hi)%Q -> (lo <= expectation r k F <= hi)%Q.
Proof.
  intro H. split; [rewrite <- (exp_const k lo)|rewrite <- (exp_const k hi)]; apply exp_le_in; intros l Hl; apply H; auto.
Qed.
(** two consecutive groups of draws *)
Lemma exp_app j k F : (expectation r (j + k) F == expectation r j (fun x => expectation r k (fun y => F (x ++ y))))%Q.
Proof.
  revert F. induction j as [|j IH]; intro F; cbn [plus].
  - rewrite exp_0. reflexivity.
  - rewrite !exp_S. apply Qmult_comp; [|reflexivity]. apply sumQ_map_ext_in. intros d _. rewrite IH. reflexivity.
Qed.
Lemma exp_app_l j k F : (expectation r (j + k) (fun l => F (firstn j l)) == expectation r j F)%Q.
Proof.
  rewrite exp_app. apply exp_ext_in. intros x [Hx _]. rewrite (exp_ext k _ (fun _ => F x)); [apply exp_const|].
  intro y. rewrite <- Hx, firstn_app, Nat.sub_diag, firstn_all, app_nil_r. reflexivity.
Qed.
Lemma exp_split j k F G :
  (expectation r (j + k) (fun l => F (firstn j l) * G (skipn j l)) == expectation r j F * expectation r k G)%Q.
Proof.
  rewrite exp_app. rewrite Qmult_comm, <- exp_scale. apply exp_ext_in. intros x [Hx _].
  rewrite (exp_ext k _ (fun y => F x * G y)%Q); [rewrite exp_scale; ring|].
  intro y. rewrite <- Hx, firstn_app, skipn_app, Nat.sub_diag, firstn_all, skipn_all, app_nil_r. reflexivity.
Qed.
Lemma exp_app_r j k G : (expectation r (j + k) (fun l => G (skipn j l)) == expectation r k G)%Q.
Proof.
  rewrite (exp_ext (j + k) _ (fun l => 1 * G (skipn j l))%Q) by (intro; ring).
  rewrite (exp_split j k (fun _ => 1%Q) G), exp_const. ring.
Qed.

(** sums over blocks of [n] draws *)
Fixpoint block_sum (n : nat) (B : list Z -> Q) (s : nat) (l : list Z) : Q :=
  match s with
  | O => 0%Q
  | S s' => (B (firstn n l) + block_sum n B s' (skipn n l))%Q
  end.
Lemma block_mean n B s : (expectation r (s * n) (block_sum n B s) == inject_Z (Z.of_nat s) * expectation r n B)%Q.
Proof.
  induction s as [|s IH]; cbn [block_sum].
  - rewrite exp_const. ring.
  - cbn [Nat.mul]. rewrite exp_plus, exp_app_l, exp_app_r, IH, Nat2Z.inj_succ. unfold Z.succ. rewrite inject_Z_plus. ring.
Qed.
Lemma sum_variance j k X Y mx my : (expectation r j X == mx)%Q -> (expectation r k Y == my)%Q ->
  (expectation r (j + k) (fun l => (X (firstn j l) + Y (skipn j l) - (mx + my)) * (X (firstn j l) + Y (skipn j l) - (mx + my)))
   == expectation r j (fun l => (X l - mx) * (X l - mx)) + expectation r k (fun l => (Y l - my) * (Y l - my)))%Q.
Proof.
  intros HX HY.
  rewrite (exp_ext (j + k) _ (fun l => ((X (firstn j l) - mx) * (X (firstn j l) - mx) + (Y (skipn j l) - my) * (Y (skipn j l) - my))
     + 2 * ((X (firstn j l) - mx) * (Y (skipn j l) - my)))%Q) by (intro; ring).
  rewrite exp_plus, exp_plus, exp_scale.
  rewrite (exp_app_l j k (fun l => (X l - mx) * (X l - mx))%Q), (exp_app_r j k (fun l => (Y l - my) * (Y l - my))%Q).
  rewrite (exp_split j k (fun l => X l - mx)%Q (fun l => Y l - my)%Q), exp_minus, exp_const, HX. ring.
Qed.
Lemma block_variance n B s m : (expectation r n B == m)%Q ->
  (expectation r (s * n) (fun l => (block_sum n B s l - inject_Z (Z.of_nat s) * m) * (block_sum n B s l - inject_Z (Z.of_nat s) * m))
   == inject_Z (Z.of_nat s) * expectation r n (fun l => (B l - m) * (B l - m)))%Q.
Proof.
  intro Hm. induction s as [|s IH]; cbn [block_sum].
  - change (inject_Z (Z.of_nat 0)) with 0%Q. rewrite (exp_ext (0 * n) _ (fun _ => 0%Q)) by (intro; ring). rewrite exp_const. ring.
  - cbn [Nat.mul]. assert (E : (inject_Z (Z.of_nat (S s)) == 1 + inject_Z (Z.of_nat s))%Q).
    { rewrite Nat2Z.inj_succ. unfold Z.succ. rewrite inject_Z_plus. ring. }
    rewrite (exp_ext (n + s * n) _ (fun l => (B (firstn n l) + block_sum n B s (skipn n l) - (m + inject_Z (Z.of_nat s) * m))
       * (B (firstn n l) + block_sum n B s (skipn n l) - (m + inject_Z (Z.of_nat s) * m)))%Q) by (intro; rewrite E; ring).
    rewrite sum_variance; [|exact Hm|rewrite block_mean, Hm; reflexivity]. rewrite IH, E. ring.
Qed.
(** the variance of an indicator *)
Lemma indicator_variance n B m : (forall l, draw_list r n l -> B l == 0 \/ B l == 1)%Q -> (expectation r n B == m)%Q ->
  (expectation r n (fun l => (B l - m) * (B l - m)) == m * (1 - m))%Q.
Proof.
  intros H01 Hm. rewrite (exp_ext_in n _ (fun l => (1 - 2 * m) * B l + m * m)%Q).
  - rewrite exp_plus, exp_scale, exp_const, Hm. ring.
  - intros l Hl. destruct (H01 l Hl) as [E|E]; rewrite E; ring.
Qed.
(** Chebyshev *)
Lemma chebyshev k X m v eps : (0 < eps)%Q -> (expectation r k (fun l => (X l - m) * (X l - m)) <= v)%Q ->
  (probability r k (fun l => Qle_bool eps (Qabs (X l - m))) <= v / (eps * eps))%Q.
Proof.
  intros He Hv. assert (P : (0 < eps * eps)%Q) by (apply Qmult_lt_0_compat; auto). apply Qle_shift_div_l; [exact P|].
  rewrite Qmult_comm. unfold probability. rewrite <- exp_scale. eapply Qle_trans; [|exact Hv]. apply exp_le_in. intros l _.
  destruct (Qle_bool eps (Qabs (X l - m))) eqn:E; cbn [b2q].
  - apply Qle_bool_iff in E.
    assert (S2 : (Qabs (X l - m) * Qabs (X l - m) == (X l - m) * (X l - m))%Q).
    { rewrite <- Qabs_Qmult. apply Qabs_pos. destruct (Qlt_le_dec (X l - m) 0); nra. }
    rewrite <- S2. nra.
  - rewrite Qmult_0_r. destruct (Qlt_le_dec (X l - m) 0); nra.
Qed.

(** parities of draws *)
Definition parity (l : list Z) : list Z := map (fun d => (d mod 2)%Z) l.
Fixpoint bmean (k : nat) (H : list Z -> Q) : Q :=
  match k with
  | O => H []
  | S k' => ((bmean k' (fun l => H (1%Z :: l)) + bmean k' (fun l => H (0%Z :: l))) / 2)%Q
  end.
Lemma bmean_ext k : forall H H', (forall l, length l = k -> H l == H' l)%Q -> (bmean k H == bmean k H')%Q.
Proof.
  induction k as [|k IH]; intros H H' E; cbn [bmean]; [apply E; reflexivity|].
  rewrite (IH (fun l => H (1%Z :: l)) (fun l => H' (1%Z :: l))), (IH (fun l => H (0%Z :: l)) (fun l => H' (0%Z :: l))); [reflexivity|..];
    intros l Hl; apply E; cbn; lia.
Qed.
Lemma bmean_average k : forall H, (average k (fun a => H (input_list k a)) == bmean k H)%Q.
Proof.
  assert (G : forall k H, (sumQ (map (fun l => H (map Z.b2z l)) (all_inputs k)) == inject_Z (pow2 k) * bmean k H)%Q).
  { clear k. induction k as [|k IH]; intro H; cbn [all_inputs bmean].
    - cbn [map]. rewrite sumQ_cons, sumQ_nil. change (inject_Z (pow2 0)) with 1%Q. ring.
    - rewrite map_app, sumQ_app, !map_map. cbn [map Z.b2z].
      rewrite (IH (fun l => H (1%Z :: l))), (IH (fun l => H (0%Z :: l))), pow2_S, inject_Z_mult. change (inject_Z 2) with 2%Q. field. }
  intro H. rewrite average_eq. unfold sum_inputs.
  rewrite (sumQ_map_ext_in _ (fun l => H (map Z.b2z l))).
  - rewrite G. pose proof (pow2Q_pos k). field. lra.
  - intros l Hl. assert (L : length l = k).
    { clear - Hl. revert l Hl. induction k as [|k IH]; cbn [all_inputs]; intros l Hl; [destruct Hl as [<-|[]]; reflexivity|].
      apply in_app_or in Hl. destruct Hl as [Hl|Hl]; apply in_map_iff in Hl; destruct Hl as (l' & <- & Hl); cbn; rewrite (IH l'); auto. }
    replace (input_list k (asg_of l)) with (map Z.b2z l); [reflexivity|]. rewrite <- L. clear.
    unfold input_list, asg_of. induction l as [|b l IH]; cbn [length seq map]; [reflexivity|]. cbn [nth]. f_equal.
    rewrite IH, <- seq_shift, map_map. reflexivity.
Qed.
(** half of the draws are odd *)
Lemma parity_sum (A B : Q) m : (sumQ (map (fun d => if Nat.odd d then A else B) (seq 0 (2 * m))) == inject_Z (Z.of_nat m) * (A + B))%Q.
Proof.
  induction m as [|m IH]; [cbn; ring|]. replace (2 * S m) with (2 * m + 2) by lia. rewrite seq_app, map_app, sumQ_app, IH.
  cbn [plus seq map]. rewrite !sumQ_cons, sumQ_nil. replace (Nat.odd (2 * m)) with false.
  - replace (Nat.odd (S (2 * m))) with true.
    + rewrite Nat2Z.inj_succ. unfold Z.succ. rewrite inject_Z_plus. ring.
    + rewrite Nat.odd_succ. symmetry. apply Nat.even_spec. exists m. lia.
  - symmetry. rewrite <- Nat.negb_even. replace (Nat.even (2 * m)) with true; [reflexivity|]. symmetry. apply Nat.even_spec. exists m. lia.
Qed.
Lemma mod2_odd d : (Z.of_nat d mod 2 = if Nat.odd d then 1 else 0)%Z.
Proof.
  destruct (Nat.odd d) eqn:E.
  - apply Nat.odd_spec in E. destruct E as [k ->]. rewrite Nat2Z.inj_add, Nat2Z.inj_mul. rewrite Z.add_comm, Z.mul_comm, Z_mod_plus_full. reflexivity.
  - rewrite <- Nat.negb_even in E. apply negb_false_iff, Nat.even_spec in E. destruct E as [k ->]. rewrite Nat2Z.inj_mul, Z.mul_comm, Z_mod_mult. reflexivity.
Qed.
Hypothesis Hodd : Nat.Odd r.
Lemma half_draws (X : Z -> Q) : (sumQ (map (fun d => X (Z.of_nat d mod 2)%Z) (seq 0 (S r))) / R == (X 1%Z + X 0%Z) / 2)%Q.
Proof.
  destruct Hodd as [m Hm].
  assert (E : (sumQ (map (fun d => X (Z.of_nat d mod 2)%Z) (seq 0 (S r))) == inject_Z (Z.of_nat (S m)) * (X 1%Z + X 0%Z))%Q).
  { rewrite <- (parity_sum (X 1%Z) (X 0%Z) (S m)). replace (2 * S m) with (S r) by lia. apply sumQ_map_ext_in.
    intros d _. rewrite mod2_odd. destruct (Nat.odd d); reflexivity. }
  rewrite E. assert (ER : (R == 2 * inject_Z (Z.of_nat (S m)))%Q).
  { unfold R. replace (S r) with (2 * S m) by lia. rewrite Nat2Z.inj_mul, inject_Z_mult. reflexivity. }
  pose proof R_pos. rewrite ER in *. field. lra.
Qed.
Lemma exp_parity k : forall H, (expectation r k (fun l => H (parity l)) == bmean k H)%Q.
Proof.
  induction k as [|k IH]; intro H; [rewrite exp_0; reflexivity|]. rewrite exp_S. cbn [parity map bmean].
  rewrite <- (half_draws (fun z => bmean k (fun l => H (z :: l)))). apply Qmult_comp; [|reflexivity].
  apply sumQ_map_ext_in. intros d _. rewrite <- IH. reflexivity.
Qed.
End Expectation.
