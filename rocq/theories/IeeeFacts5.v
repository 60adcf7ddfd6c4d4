(** [to_double] is the rounding of IEEE 754: to the nearest double, or to infinity *)
From Coq Require Import List Bool Arith ZArith QArith Qabs Qround Lia Lqa.
From Verif Require Import SpecFloat Float FloatFacts RoundedAverageFacts Ieee IeeeFacts.
Open Scope Q_scope.

Lemma double_float x : double_number x -> float_number 53 x.
Proof. intros (m & e & Hm & _ & E). exists m, e. split; [lia|exact E]. Qed.
Lemma double_grid x : double_number x -> exists k, x == inject_Z k * 2 ^ (-1074).
Proof.
  intros (m & e & _ & He & E). exists (m * 2 ^ (e + 1074))%Z. rewrite E, inject_Z_mult, <- (p2_inj (e + 1074)) by lia.
  rewrite <- Qmult_assoc, <- p2_add. now replace (e + 1074 + -1074)%Z with e by lia.
Qed.
Lemma rhe_upper x k : x <= inject_Z k -> (round_half_even x <= k)%Z.
Proof.
  intro H. destruct (Z_le_gt_dec (round_half_even x) k) as [L|L]; auto. exfalso.
  pose proof (round_near x k) as N. assert (G : inject_Z k + 1 <= inject_Z (round_half_even x)).
  { change 1 with (inject_Z 1). rewrite <- inject_Z_plus, <- Zle_Qle. lia. }
  rewrite !Qabs_neg in N by lra. lra.
Qed.
Lemma rhe_lower x k : inject_Z k <= x -> (k <= round_half_even x)%Z.
Proof.
  intro H. destruct (Z_le_gt_dec k (round_half_even x)) as [L|L]; auto. exfalso.
  pose proof (round_near x k) as N. assert (G : inject_Z (round_half_even x) + 1 <= inject_Z k).
  { change 1 with (inject_Z 1). rewrite <- inject_Z_plus, <- Zle_Qle. lia. }
  rewrite !Qabs_pos in N by lra. lra.
Qed.
Definition small (q : Q) : bool := negb (Qeq_bool q 0) && (binary_exponent (Qabs q) <? -1022)%Z.
Definition subnormal (q : Q) : Q := inject_Z (round_half_even (q / 2 ^ (-1074))) * 2 ^ (-1074).
Lemma small_bound q : small q = true -> Qabs q < 2 ^ (-1022).
Proof.
  unfold small. intro H. apply andb_true_iff in H as [N E]. apply negb_true_iff in N. apply Z.ltb_lt in E.
  assert (P : 0 < Qabs q).
  { assert (NZ : ~ q == 0) by (intro Z; apply Qeq_bool_iff in Z; congruence). apply Qabs_case; intro; lra. }
  destruct (binary_exponent_spec _ P) as [_ B]. apply (Qlt_le_trans _ _ _ B), p2_mono. lia.
Qed.
Lemma not_small q : small q = false -> ~ q == 0 -> (-1022 <= binary_exponent (Qabs q))%Z.
Proof.
  unfold small. intros H N. destruct (Qeq_bool q 0) eqn:E; [apply Qeq_bool_iff in E; contradiction|]. cbn in H. now apply Z.ltb_ge in H.
Qed.
Lemma subnormal_double q : Qabs q < 2 ^ (-1022) -> double_number (subnormal q) /\ Qabs (subnormal q) <= 2 ^ (-1022).
Proof.
  intro H. unfold subnormal. set (u := 2 ^ (-1074)). assert (U : 0 < u) by apply p2_pos.
  assert (S : 2 ^ (-1022) == inject_Z (2 ^ 52) * u) by (rewrite <- (p2_inj 52) by lia; unfold u; now rewrite <- p2_add).
  assert (B : - inject_Z (2 ^ 52) <= q / u <= inject_Z (2 ^ 52)).
  { apply Qabs_Qlt_condition in H. rewrite S in H. split.
    - apply Qle_shift_div_l; auto. lra.
    - apply Qle_shift_div_r; auto. lra. }
  assert (R : (- 2 ^ 52 <= round_half_even (q / u) <= 2 ^ 52)%Z).
  { split; [apply rhe_lower; rewrite inject_Z_opp; apply B|apply rhe_upper, B]. }
  split.
  - exists (round_half_even (q / u)), (-1074)%Z. split; [lia|]. split; [lia|reflexivity].
  - rewrite Qabs_Qmult, (Qabs_pos u) by lra. rewrite S. apply Qmult_le_compat_r; [|lra].
    change (Qabs (inject_Z ?z)) with (inject_Z (Z.abs z)). rewrite <- Zle_Qle. lia.
Qed.
Lemma subnormal_nearest q x : double_number x -> Qabs (q - subnormal q) <= Qabs (q - x).
Proof.
  intro D. destruct (double_grid x D) as [k E]. rewrite E. unfold subnormal. set (u := 2 ^ (-1074)). assert (U : 0 < u) by apply p2_pos.
  pose proof (round_near (q / u) k) as N.
  assert (Q1 : forall z, q - inject_Z z * u == (q / u - inject_Z z) * u) by (intro z; field; lra).
  rewrite !Q1, !Qabs_Qmult, (Qabs_pos u) by lra. apply Qmult_le_compat_r; [exact N|lra].
Qed.
Lemma normal_double q : 0 < q -> (-1022 <= binary_exponent q)%Z -> round_pos 53 q < 2 ^ 1024 -> double_number (round_pos 53 q).
Proof.
  intros P HE HB. destruct (binary_exponent_spec q P) as [B1 B2]. unfold round_pos in *. set (e := binary_exponent q) in *.
  replace (e - (53 - 1))%Z with (e - 52)%Z in * by lia. set (u := 2 ^ (e - 52)) in *. assert (U : 0 < u) by apply p2_pos.
  assert (S : 2 ^ e == inject_Z (2 ^ 52) * u) by (rewrite <- (p2_inj 52) by lia; unfold u; rewrite <- p2_add; now replace (52 + (e - 52))%Z with e by lia).
  assert (S' : 2 ^ (e + 1) == inject_Z (2 ^ 53) * u) by (rewrite <- (p2_inj 53) by lia; unfold u; rewrite <- p2_add; now replace (53 + (e - 52))%Z with (e + 1)%Z by lia).
  assert (R : (2 ^ 52 <= round_half_even (q / u) <= 2 ^ 53)%Z).
  { split; [apply rhe_lower, Qle_shift_div_l; lra|apply rhe_upper, Qle_shift_div_r; lra]. }
  set (m := round_half_even (q / u)) in *.
  assert (L : (e < 1024)%Z).
  { apply Z.nle_gt. intro G. pose proof (p2_mono 1024 e G) as G'. rewrite S in G'.
    assert (X : inject_Z (2 ^ 52) * u <= inject_Z m * u) by (apply Qmult_le_compat_r; [rewrite <- Zle_Qle; lia|lra]). lra. }
  destruct (Z.eq_dec m (2 ^ 53)) as [F|F].
  - assert (L' : (e + 1 < 1024)%Z).
    { apply Z.nle_gt. intro G. pose proof (p2_mono 1024 (e + 1) G) as G'. rewrite S' in G'. rewrite F in HB. lra. }
    exists (2 ^ 52)%Z, (e - 51)%Z. split; [lia|]. split; [lia|]. rewrite F.
    assert (D : 2 ^ (e - 51) == 2 * u) by (unfold u; replace (e - 51)%Z with (e - 52 + 1)%Z by lia; apply p2_succ). rewrite D.
    change (2 ^ 53)%Z with (2 ^ 52 * 2)%Z. rewrite inject_Z_mult. change (inject_Z 2) with 2. ring.
  - exists m, (e - 52)%Z. split; [lia|]. split; [lia|reflexivity].
Qed.
Lemma double_opp x : double_number x -> double_number (- x).
Proof. intros (m & e & Hm & He & E). exists (- m)%Z, e. split; [lia|]. split; [exact He|]. rewrite E, inject_Z_opp. ring. Qed.
Lemma max_float : float_number 53 (2 ^ 1024 - 2 ^ 971).
Proof.
  exists (2 ^ 53 - 1)%Z, 971%Z. split; [lia|]. replace (2 ^ 1024) with (2 ^ (53 + 971)) by reflexivity. rewrite (p2_add 53 971), (p2_inj 53) by lia.
  unfold Z.sub. rewrite inject_Z_plus. change (inject_Z (- (1))) with (-(1)). ring.
Qed.
Lemma float_opp x : float_number 53 x -> float_number 53 (- x).
Proof. intros (m & e & Hm & E). exists (- m)%Z, e. split; [lia|]. rewrite E, inject_Z_opp. ring. Qed.
Lemma half_gap : 2 ^ 971 == 2 * 2 ^ 970. Proof. exact (p2_succ 970). Qed.

Definition nearest_double (q r : Q) : Prop := double_number r /\ forall x, double_number x -> Qabs (q - r) <= Qabs (q - x).
Lemma to_double_value q :
  match to_double q with
  | DFin r => nearest_double q r
  | DInf neg => 2 ^ 1024 - 2 ^ 970 <= (if neg then - q else q)
  | DNaN => False
  end.
Proof.
  unfold to_double. fold (small q). fold (subnormal q). destruct (small q) eqn:Sm.
  - apply small_bound in Sm. destruct (subnormal_double q Sm) as [D B]. pose proof (p2_lt (-1022) 1024 ltac:(lia)) as G.
    set (b := 2 ^ 1024) in *. clearbody b. set (t := 2 ^ (-1022)) in *. clearbody t. apply Qabs_Qle_condition in B.
    destruct (Qle_bool b (subnormal q)) eqn:E1; [apply Qle_bool_iff in E1; lra|].
    destruct (Qle_bool (subnormal q) (- b)) eqn:E2; [apply Qle_bool_iff in E2; lra|].
    split; [exact D|]. intros x Dx. now apply subnormal_nearest.
  - destruct (r53_near q) as [_ N].
    pose proof (N _ max_float) as N1. pose proof (N _ (float_opp _ max_float)) as N2. pose proof half_gap as HG.
    assert (P970 : 0 < 2 ^ 970) by apply p2_pos. assert (PB : 2 ^ 971 < 2 ^ 1024) by (apply p2_lt; lia).
    assert (DD : r53 q < 2 ^ 1024 -> - 2 ^ 1024 < r53 q -> double_number (r53 q)).
    { intros H1 H2. destruct (Qlt_le_dec 0 q) as [P|P]; [|destruct (Qeq_dec q 0) as [Z|Z]].
      - assert (R : r53 q = round_pos 53 q).
        { unfold round_float. destruct (Qnum q) eqn:Eq; auto; unfold Qlt in P; cbn in P; rewrite Eq in P; lia. }
        rewrite R in *. apply normal_double; auto. pose proof (not_small q Sm ltac:(lra)) as K.
        assert (Eq : Qabs q = q) by (unfold Qabs; destruct q as [[|a|a] d]; auto; unfold Qlt in P; cbn in P; lia). rewrite Eq in K. exact K.
      - exists 0%Z, 0%Z. split; [lia|]. split; [lia|]. unfold round_float. destruct (Qnum q) eqn:Eq; try (unfold Qeq in Z; cbn in Z; rewrite Eq in Z; lia). reflexivity.
      - assert (R : r53 q = - round_pos 53 (- q)).
        { unfold round_float. destruct (Qnum q) eqn:Eq; auto; exfalso; [apply Z; unfold Qeq; rewrite Eq; reflexivity|unfold Qle in P; cbn in P; rewrite Eq in P; lia]. }
        rewrite R in *. apply double_opp, normal_double; [lra| |lra]. pose proof (not_small q Sm Z) as K.
        assert (Eq : Qabs q = - q) by (unfold Qabs, Qopp; destruct q as [[|a|a] d]; auto; unfold Qle in P; cbn in P; lia). rewrite Eq in K. exact K. }
    set (b := 2 ^ 1024) in *. clearbody b. set (c := 2 ^ 970) in *. clearbody c. set (d := 2 ^ 971) in *. clearbody d.
    destruct (Qle_bool b (r53 q)) eqn:E1.
    { apply Qle_bool_iff in E1. apply Qnot_lt_le. intro L. revert N1. apply Qabs_case; intro; apply Qabs_case; intros; lra. }
    destruct (Qle_bool (r53 q) (- b)) eqn:E2.
    { apply Qle_bool_iff in E2. apply Qnot_lt_le. intro L. revert N2. apply Qabs_case; intro; apply Qabs_case; intros; lra. }
    split.
    + apply DD; apply Qnot_le_lt; intro L; apply Qle_bool_iff in L; congruence.
    + intros x Dx. now apply N, double_float.
Qed.
Lemma large_pos q : 2 ^ 1024 - 2 ^ 970 <= q -> 2 ^ 1024 <= round_pos 53 q.
Proof.
  intro H. assert (P : 0 < q).
  { apply (Qlt_le_trans _ (2 ^ 1024 - 2 ^ 970)); auto. pose proof (p2_lt 970 1024 ltac:(lia)). lra. }
  destruct (Qlt_le_dec q (2 ^ 1024)) as [L|L].
  - destruct (binary_exponent_spec q P) as [B1 B2]. unfold round_pos. set (e := binary_exponent q) in *.
    assert (Ee : e = 1023%Z).
    { apply Z.le_antisymm.
      - apply Z.lt_succ_r. apply Z.nle_gt. intro G. pose proof (p2_mono 1024 e ltac:(lia)). lra.
      - apply Z.nlt_ge. intro G. pose proof (p2_mono (e + 1) 1023 ltac:(lia)) as G'. pose proof (p2_succ 1023) as S. pose proof (p2_lt 970 1023 ltac:(lia)).
        change (1023 + 1)%Z with 1024%Z in S. lra. }
    rewrite Ee. change (1023 - (53 - 1))%Z with 971%Z. pose proof half_gap as HG. assert (U : 0 < 2 ^ 970) by apply p2_pos.
    assert (S : 2 ^ 1024 == inject_Z (2 ^ 53) * 2 ^ 971) by (rewrite <- (p2_inj 53) by lia; exact (p2_add 53 971)).
    set (x := q / 2 ^ 971).
    assert (X : inject_Z (2 ^ 53) - (1 # 2) <= x < inject_Z (2 ^ 53)).
    { unfold x. rewrite S in H, L. set (u := 2 ^ 971) in *. set (c := 2 ^ 970) in *. clearbody u c. split; [apply Qle_shift_div_l; lra|apply Qlt_shift_div_r; lra]. }
    assert (F : Qfloor x = (2 ^ 53 - 1)%Z).
    { apply Z.le_antisymm.
      - apply Z.lt_le_pred. rewrite Zlt_Qlt. apply (Qle_lt_trans _ x); [apply Qfloor_le|apply X].
      - apply Z.lt_succ_r. unfold Z.succ. rewrite Zlt_Qlt, inject_Z_plus. change (inject_Z 1) with 1. 
        pose proof (Qlt_floor x) as Y. rewrite inject_Z_plus in Y. change (inject_Z 1) with 1 in Y.
        apply (Qlt_le_trans _ x); [|apply Qlt_le_weak; exact Y]. unfold Z.sub. rewrite inject_Z_plus. change (inject_Z (- (1))) with (-(1)). lra. }
    assert (R : round_half_even x = (2 ^ 53)%Z).
    { unfold round_half_even. rewrite F. assert (Y : (1 # 2) <= x - inject_Z (2 ^ 53 - 1)).
      { unfold Z.sub. rewrite inject_Z_plus. change (inject_Z (- (1))) with (-(1)). lra. }
      apply Qle_bool_iff in Y. rewrite Y. cbn [negb]. destruct (Qle_bool (x - inject_Z (2 ^ 53 - 1)) (1 # 2)); reflexivity. }
    rewrite R, <- S. lra.
  - pose proof (r53_ge q (2 ^ 1024) (float_p2 53 ltac:(lia) 1024) L) as G. unfold round_float in G.
    destruct (Qnum q) eqn:Eq; auto; unfold Qlt in P; cbn in P; rewrite Eq in P; lia.
Qed.
Lemma to_double_overflow q : 2 ^ 1024 - 2 ^ 970 <= q -> to_double q = DInf false /\ to_double (- q) = DInf true.
Proof.
  intro H. pose proof (large_pos q H) as L. assert (P : 1 < q).
  { apply (Qlt_le_trans _ (2 ^ 1024 - 2 ^ 970)); auto. vm_compute. reflexivity. }
  assert (NS : forall x, Qabs x == q -> small x = false).
  { intros x E. destruct (small x) eqn:S; auto. apply small_bound in S. rewrite E in S. pose proof (p2_mono (-1022) 0 ltac:(lia)) as G. change (2 ^ 0) with 1 in G. lra. }
  assert (PB : 0 < 2 ^ 1024) by apply p2_pos.
  assert (R1 : r53 q = round_pos 53 q) by (unfold round_float; destruct (Qnum q) eqn:Eq; auto; unfold Qlt in P; cbn in P; rewrite Eq in P; lia).
  assert (R2 : r53 (- q) = - round_pos 53 (- - q)).
  { unfold round_float. cbn [Qopp Qnum]. destruct (Qnum q) eqn:Eq; auto; unfold Qlt in P; cbn in P; rewrite Eq in P; lia. }
  assert (Q2 : - - q = q) by (unfold Qopp; destruct q; cbn; now rewrite Z.opp_involutive). rewrite Q2 in R2.
  split; unfold to_double; [fold (small q)|fold (small (- q))].
  - rewrite (NS q), R1 by (apply Qabs_pos; lra). apply Qle_bool_iff in L. now rewrite L.
  - rewrite (NS (- q)), R2 by (rewrite Qabs_opp; apply Qabs_pos; lra). set (b := 2 ^ 1024) in *. clearbody b.
    destruct (Qle_bool b (- round_pos 53 q)) eqn:E; [apply Qle_bool_iff in E; lra|].
    assert (X : Qle_bool (- round_pos 53 q) (- b) = true) by (apply Qle_bool_iff; lra). now rewrite X.
Qed.
