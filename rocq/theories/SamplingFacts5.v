(** The distribution of random_satisfying_input with rounded weights *)
From Coq Require Import List Bool Arith ZArith QArith Qround Qabs Lia Lqa.
From Verif Require Import Res Cudd CuddFacts Spec SpecFacts SpecFloat Float FloatFacts Helpers HelpersFacts HelpersFacts2 Counting CountFacts Metrics MetricsFacts
  Rounded RoundedFacts RoundedFacts2 RoundedRel RoundedRelFacts RelFacts3 SpecSampling SamplingFacts SamplingFacts2 SamplingFacts3 SamplingFacts4
  RelMetrics Ieee IeeeFacts IeeeFacts2 IeeeFacts6.
Import ListNotations.
Open Scope nat_scope.

Lemma qp_add x i j : (qpow x (i + j) == qpow x i * qpow x j)%Q.
Proof. induction i as [|i IH]; cbn [plus qpow]; [ring|]. rewrite IH. ring. Qed.
Lemma qp_pos x k : (0 < x)%Q -> (0 < qpow x k)%Q.
Proof. intro H. induction k; cbn [qpow]; [reflexivity|]. now apply Qmult_lt_0_compat. Qed.
Lemma filter_length_le {A} (f g : A -> bool) l : (forall x, In x l -> f x = true -> g x = true) -> length (filter f l) <= length (filter g l).
Proof.
  induction l as [|x l IH]; intro H; [cbn; lia|]. cbn [filter]. assert (L : length (filter f l) <= length (filter g l)) by (apply IH; intros; apply H; [now right|auto]).
  destruct (f x) eqn:E; [rewrite (H x (or_introl eq_refl) E); cbn [length]; lia|]. destruct (g x); cbn [length]; lia.
Qed.
Lemma filter_short {A} (f : A -> bool) l : length (filter f l) <= length l.
Proof. induction l as [|x l IH]; [cbn; lia|]. cbn [filter length]. destruct (f x); cbn [length]; lia. Qed.

Section Share.
Variables (u : Q) (rnd : Q -> Q).
Hypothesis U : (0 < u < 1)%Q.
Hypothesis RE : relative_error u rnd.
Lemma qp_product k : (qpow (1 + u) k * qpow (1 - u) k <= 1)%Q.
Proof.
  induction k as [|k IH]; cbn [qpow]; [lra|]. pose proof (qp_pos (1 + u) k ltac:(lra)) as A. pose proof (qp_pos (1 - u) k ltac:(lra)) as B.
  set (a := qpow (1 + u) k) in *. set (b := qpow (1 - u) k) in *. assert (P : (0 < a * b)%Q) by now apply Qmult_lt_0_compat.
  assert (E : ((1 + u) * a * ((1 - u) * b) == (1 - u * u) * (a * b))%Q) by ring. rewrite E. nra.
Qed.
Lemma qp_bernoulli k : (1 - inject_Z (Z.of_nat k) * u <= qpow (1 - u) k)%Q.
Proof.
  induction k as [|k IH]; cbn [qpow]; [change (inject_Z (Z.of_nat 0)) with 0%Q; lra|].
  rewrite Nat2Z.inj_succ. unfold Z.succ. rewrite inject_Z_plus. change (inject_Z 1) with 1%Q.
  assert (0 <= inject_Z (Z.of_nat k))%Q by (change 0%Q with (inject_Z 0); apply injZ_mono; lia). set (q := inject_Z (Z.of_nat k)) in *.
  assert (L : ((1 - u) * (1 - q * u) <= (1 - u) * qpow (1 - u) k)%Q) by (apply Qmult_le_l; lra).
  eapply Qle_trans; [|exact L]. assert (0 <= q * (u * u))%Q by (apply Qmult_le_0_compat; [auto|nra]). nra.
Qed.

Variable r : nat.
Hypothesis Hodd : Nat.Odd r.
Let R := inject_Z (Z.of_nat (S r)).
Let rm := Z.of_nat r.
Variable h : nat.
Definition delta : Q := (8 * inject_Z (Z.of_nat (S h)) * u)%Q.
Hypothesis Small : (delta <= 1)%Q.

Lemma delta_pos : (0 < delta)%Q.
Proof.
  unfold delta. assert (1 <= inject_Z (Z.of_nat (S h)))%Q by (change 1%Q with (inject_Z 1); apply injZ_mono; lia).
  apply Qmult_lt_0_compat; [|lra]. lra.
Qed.
Lemma low_power : (1 - delta / 2 <= qpow (1 - u) (4 * h + 3))%Q.
Proof.
  eapply Qle_trans; [|apply qp_bernoulli]. unfold delta. replace (4 * h + 3) with (4 * S h - 1) by lia.
  assert (E : (inject_Z (Z.of_nat (4 * S h - 1)) == 4 * inject_Z (Z.of_nat (S h)) - 1)%Q).
  { replace (Z.of_nat (4 * S h - 1)) with (4 * Z.of_nat (S h) + (-1))%Z by lia. rewrite inject_Z_plus, inject_Z_mult. reflexivity. }
  rewrite E. set (q := inject_Z (Z.of_nat (S h))). assert (E2 : (8 * q * u / 2 == 4 * q * u)%Q) by field. rewrite E2. lra.
Qed.
Lemma power_a : ((1 - delta) * qpow (1 + u) (2 * h + 2) <= qpow (1 - u) (2 * h + 1))%Q.
Proof.
  pose proof low_power as L. replace (4 * h + 3) with ((2 * h + 1) + (2 * h + 2)) in L by lia. rewrite qp_add in L.
  pose proof (qp_product (2 * h + 2)) as P. pose proof (qp_pos (1 + u) (2 * h + 2) ltac:(lra)) as A.
  pose proof (qp_pos (1 - u) (2 * h + 1) ltac:(lra)) as B. pose proof delta_pos as D.
  set (a := qpow (1 + u) (2 * h + 2)) in *. set (b := qpow (1 - u) (2 * h + 1)) in *. set (c := qpow (1 - u) (2 * h + 2)) in *.
  assert (E : (delta / 2 == (1 # 2) * delta)%Q) by field. rewrite E in L.
  assert (L1 : ((1 - delta) * a <= b * c * a)%Q) by (apply Qmult_le_compat_r; lra).
  assert (L2 : (b * (a * c) <= b * 1)%Q) by (apply Qmult_le_l; auto). lra.
Qed.
Lemma power_b : (qpow (1 + u) (2 * h + 1) <= (1 + delta) * qpow (1 - u) (2 * h + 2))%Q.
Proof.
  pose proof low_power as L. replace (4 * h + 3) with ((2 * h + 1) + (2 * h + 2)) in L by lia. rewrite qp_add in L.
  pose proof (qp_product (2 * h + 1)) as P. pose proof (qp_pos (1 + u) (2 * h + 1) ltac:(lra)) as A.
  pose proof (qp_pos (1 - u) (2 * h + 1) ltac:(lra)) as B. pose proof delta_pos as D.
  set (a := qpow (1 + u) (2 * h + 1)) in *. set (b := qpow (1 - u) (2 * h + 1)) in *. set (c := qpow (1 - u) (2 * h + 2)) in *.
  assert (E : (delta / 2 == (1 # 2) * delta)%Q) by field. rewrite E in L.
  assert (L1 : (1 <= (1 + delta) * (b * c))%Q).
  { assert (X : ((1 + delta) * (1 - (1 # 2) * delta) <= (1 + delta) * (b * c))%Q) by (apply Qmult_le_l; lra). nra. }
  assert (L2 : (a * b <= (1 + delta) * c * b)%Q) by lra. apply Qmult_le_r in L2; auto.
Qed.

Variables ft fe tw ew : Q.
Hypothesis Wt : within u (2 * h) tw ft.
Hypothesis We : within u (2 * h) ew fe.
Hypothesis Nt : (0 <= ft)%Q.
Hypothesis Ne : (0 <= fe)%Q.
Hypothesis Ps : (0 < ft + fe)%Q.
Let p := (ft / (ft + fe))%Q.
Let s := rnd (tw + ew)%Q.
Lemma s_within : within u (2 * h + 1) s (ft + fe).
Proof.
  replace (2 * h + 1) with (S (2 * h)) by lia. apply (within_rnd u ltac:(lra) rnd RE); [lra|]. now apply within_plus.
Qed.
Lemma s_pos : (0 < s)%Q.
Proof. destruct s_within as [A _]. pose proof (qp_pos (1 - u) (2 * h + 1) ltac:(lra)). eapply Qlt_le_trans; [|exact A]. now apply Qmult_lt_0_compat. Qed.
Lemma p_range : (0 <= p <= 1)%Q.
Proof. unfold p. split; [apply Qle_shift_div_l|apply Qle_shift_div_r]; lra. Qed.
Lemma p_times : (p * (ft + fe) == ft)%Q. Proof. unfold p. field. lra. Qed.
Lemma tw_nonneg : (0 <= tw)%Q. Proof. exact (within_nonneg u ltac:(lra) _ _ _ Nt Wt). Qed.
Lemma q_low : (qpow (1 - u) (2 * h) * p <= (tw / s) * qpow (1 + u) (2 * h + 1))%Q.
Proof.
  pose proof s_pos as Sp. destruct s_within as [_ B]. destruct Wt as [A _]. pose proof p_times as E. pose proof p_range as P.
  set (q := (tw / s)%Q). assert (Q : (tw == q * s)%Q) by (unfold q; field; lra). assert (Q0 : (0 <= q)%Q) by (apply Qle_shift_div_l; [auto|]; pose proof tw_nonneg; lra).
  set (a := qpow (1 - u) (2 * h)) in *. set (b := qpow (1 + u) (2 * h + 1)) in *.
  assert (X : (a * p * (ft + fe) <= q * b * (ft + fe))%Q).
  { assert (L : (q * s <= q * (b * (ft + fe)))%Q) by (rewrite (Qmult_comm q s), (Qmult_comm q); apply Qmult_le_compat_r; auto).
    assert (E1 : (a * p * (ft + fe) == a * ft)%Q) by (rewrite <- Qmult_assoc, E; reflexivity). rewrite E1. lra. }
  apply Qmult_le_r in X; auto.
Qed.
Lemma q_high : ((tw / s) * qpow (1 - u) (2 * h + 1) <= qpow (1 + u) (2 * h) * p)%Q.
Proof.
  pose proof s_pos as Sp. destruct s_within as [A _]. destruct Wt as [_ B]. pose proof p_times as E. pose proof p_range as P.
  set (q := (tw / s)%Q). assert (Q : (tw == q * s)%Q) by (unfold q; field; lra). assert (Q0 : (0 <= q)%Q) by (apply Qle_shift_div_l; [auto|]; pose proof tw_nonneg; lra).
  set (a := qpow (1 + u) (2 * h)) in *. set (b := qpow (1 - u) (2 * h + 1)) in *.
  assert (X : (q * b * (ft + fe) <= a * p * (ft + fe))%Q).
  { assert (L : (q * (b * (ft + fe)) <= q * s)%Q) by (rewrite (Qmult_comm q s), (Qmult_comm q); apply Qmult_le_compat_r; auto).
    assert (E1 : (a * p * (ft + fe) == a * ft)%Q) by (rewrite <- Qmult_assoc, E; reflexivity). rewrite E1. lra. }
  apply Qmult_le_r in X; auto.
Qed.
Lemma taken x : (0 <= x)%Q -> (x <= p * (1 - delta))%Q -> (rnd x <= rnd (tw / s))%Q.
Proof.
  intros X0 X. pose proof s_pos as Sp. assert (Q0 : (0 <= tw / s)%Q) by (apply Qle_shift_div_l; [auto|]; pose proof tw_nonneg; lra).
  destruct (rnd_bounds u rnd RE x X0) as [_ B]. destruct (rnd_bounds u rnd RE _ Q0) as [A _].
  eapply Qle_trans; [exact B|]. eapply Qle_trans; [|exact A]. pose proof q_low as L. pose proof power_a as P. pose proof p_range as [P0 P1].
  set (q := (tw / s)%Q) in *. pose proof (qp_pos (1 + u) (2 * h + 1) ltac:(lra)) as V.
  apply (Qmult_le_r _ _ (qpow (1 + u) (2 * h + 1))); auto.
  replace (2 * h + 2) with (S (2 * h + 1)) in P by lia. replace (2 * h + 1) with (S (2 * h)) in P at 2 by lia. cbn [qpow] in P.
  set (v := qpow (1 + u) (2 * h + 1)) in *. set (w := qpow (1 - u) (2 * h)) in *.
  assert (X1 : ((1 + u) * x * v <= (1 + u) * (p * (1 - delta)) * v)%Q) by (apply Qmult_le_compat_r; [apply Qmult_le_l|]; lra).
  assert (X2 : (p * ((1 - delta) * ((1 + u) * v)) <= p * ((1 - u) * w))%Q) by (rewrite (Qmult_comm p), (Qmult_comm p); apply Qmult_le_compat_r; auto).
  assert (X3 : ((1 - u) * (w * p) <= (1 - u) * (q * v))%Q) by (apply Qmult_le_l; lra). lra.
Qed.
Lemma not_taken x : (0 <= x)%Q -> (rnd x <= rnd (tw / s))%Q -> (x <= p * (1 + delta))%Q.
Proof.
  intros X0 X. pose proof s_pos as Sp. assert (Q0 : (0 <= tw / s)%Q) by (apply Qle_shift_div_l; [auto|]; pose proof tw_nonneg; lra).
  destruct (rnd_bounds u rnd RE x X0) as [A _]. destruct (rnd_bounds u rnd RE _ Q0) as [_ B].
  pose proof q_high as L. pose proof power_b as P. pose proof p_range as [P0 P1]. set (q := (tw / s)%Q) in *.
  assert (Y : ((1 - u) * x <= (1 + u) * q)%Q) by lra. pose proof (qp_pos (1 - u) (2 * h + 1) ltac:(lra)) as V. pose proof (qp_pos (1 - u) (2 * h + 2) ltac:(lra)) as V2.
  apply (Qmult_le_r _ _ (qpow (1 - u) (2 * h + 2))); auto.
  replace (2 * h + 2) with (S (2 * h + 1)) in * by lia. replace (2 * h + 1) with (S (2 * h)) in P at 1 by lia. cbn [qpow] in P |- *.
  set (v := qpow (1 - u) (2 * h + 1)) in *. set (w := qpow (1 + u) (2 * h)) in *.
  assert (X1 : ((1 - u) * x * v <= (1 + u) * q * v)%Q) by (apply Qmult_le_compat_r; lra).
  assert (X2 : ((1 + u) * (q * v) <= (1 + u) * (w * p))%Q) by (apply Qmult_le_l; lra).
  assert (X3 : (p * ((1 + u) * w) <= p * ((1 + delta) * ((1 - u) * v)))%Q) by (rewrite (Qmult_comm p), (Qmult_comm p); apply Qmult_le_compat_r; auto). lra.
Qed.

Lemma then_share_fl :
  let cnt := inject_Z (Z.of_nat (length (filter (fun d => le_ratio_fl rnd (Z.of_nat d) rm tw ew) (seq 0 (S r))))) in
  (- (1 + R * delta) <= cnt - R * p <= 1 + R * delta)%Q.
Proof.
  cbv zeta. pose proof (r_pos r Hodd) as Rp. fold rm in Rp. pose proof (R_eq r) as RQ. fold rm in RQ. fold R in RQ.
  pose proof p_range as [P0 P1]. pose proof delta_pos as D0.
  set (S0 := filter _ _).
  assert (Step : forall d, le_ratio_fl rnd (Z.of_nat d) rm tw ew = true <-> (rnd (inject_Z (Z.of_nat d) / inject_Z rm) <= rnd (tw / s))%Q).
  { intro d. unfold le_ratio_fl. fold s. cbv zeta. destruct (Qeq_bool s 0) eqn:E; [apply Qeq_bool_iff in E; pose proof s_pos; lra|]. apply Qle_bool_iff. }
  assert (Dn : forall d, (0 <= inject_Z (Z.of_nat d) / inject_Z rm)%Q).
  { intro d. apply Qle_shift_div_l; [exact Rp|]. rewrite Qmult_0_l. change 0%Q with (inject_Z 0). apply injZ_mono. lia. }
  split.
  - set (y := (p * (1 - delta) * inject_Z rm)%Q).
    assert (Y0 : (0 <= y)%Q) by (unfold y; apply Qmult_le_0_compat; [apply Qmult_le_0_compat|]; lra).
    assert (Y1 : (y <= inject_Z rm)%Q) by (unfold y; assert (p * (1 - delta) <= 1)%Q by nra; nra).
    pose proof (Qfloor_le y) as F1. pose proof (Qlt_floor y) as F2. set (z := Qfloor y) in *.
    assert (Z0 : (0 <= z)%Z). { assert (H : (Qfloor (inject_Z 0) <= z)%Z) by (apply Qfloor_resp_le; exact Y0). now rewrite Qfloor_Z in H. }
    assert (Z1 : (z <= rm)%Z). { assert (H : (z <= Qfloor (inject_Z rm))%Z) by (apply Qfloor_resp_le; exact Y1). now rewrite Qfloor_Z in H. }
    assert (C : S (Z.to_nat z) <= length S0).
    { rewrite <- (count_le r (Z.to_nat z)) by (unfold rm in Z1; lia). apply filter_length_le. intros d _ H. apply Nat.leb_le in H. apply Step, taken; [apply Dn|].
      apply Qle_shift_div_r; [exact Rp|]. fold y. eapply Qle_trans; [|exact F1]. apply injZ_mono. lia. }
    assert (C' : (inject_Z (z + 1) <= inject_Z (Z.of_nat (length S0)))%Q) by (apply injZ_mono; lia).
    assert (E : (y == R * p - p - inject_Z rm * (p * delta))%Q) by (unfold y; rewrite RQ; ring).
    assert (B : (inject_Z rm * (p * delta) <= R * delta)%Q).
    { rewrite RQ. assert (p * delta <= delta)%Q by nra. assert (inject_Z rm * (p * delta) <= inject_Z rm * delta)%Q by (apply Qmult_le_l; auto). lra. }
    lra.
  - set (y := (p * (1 + delta) * inject_Z rm)%Q).
    assert (Y0 : (0 <= y)%Q) by (unfold y; apply Qmult_le_0_compat; [apply Qmult_le_0_compat|]; lra).
    pose proof (Qfloor_le y) as F1. set (z := Qfloor y) in *.
    assert (Z0 : (0 <= z)%Z). { assert (H : (Qfloor (inject_Z 0) <= z)%Z) by (apply Qfloor_resp_le; exact Y0). now rewrite Qfloor_Z in H. }
    assert (C : length S0 <= S (Z.to_nat z)).
    { eapply Nat.le_trans; [apply (filter_length_le _ (fun d => d <=? Z.to_nat z))|].
      - intros d _ H. apply Nat.leb_le. apply Step, not_taken in H; [|apply Dn].
        assert (L : (inject_Z (Z.of_nat d) <= y)%Q).
        { unfold y. assert (E : (inject_Z (Z.of_nat d) == inject_Z (Z.of_nat d) / inject_Z rm * inject_Z rm)%Q) by (field; lra). rewrite E. apply Qmult_le_compat_r; [exact H|lra]. }
        assert (Z.of_nat d <= z)%Z by (rewrite <- (Qfloor_Z (Z.of_nat d)); now apply Qfloor_resp_le). lia.
      - destruct (Nat.le_gt_cases (Z.to_nat z) r) as [H|H]; [rewrite (count_le r _ H); lia|].
        eapply Nat.le_trans; [apply filter_short|]. rewrite seq_length. lia. }
    assert (C' : (inject_Z (Z.of_nat (length S0)) <= inject_Z (z + 1))%Q) by (apply injZ_mono; lia). rewrite inject_Z_plus in C'. change (inject_Z 1) with 1%Q in C'.
    assert (E : (y == R * p - p + inject_Z rm * (p * delta))%Q) by (unfold y; rewrite RQ; ring).
    assert (B : (inject_Z rm * (p * delta) <= R * delta)%Q).
    { rewrite RQ. assert (p * delta <= delta)%Q by nra. assert (inject_Z rm * (p * delta) <= inject_Z rm * delta)%Q by (apply Qmult_le_l; auto). lra. }
    lra.
Qed.
End Share.

Section Uniform.
Variables (u : Q) (rnd : Q -> Q).
Hypothesis U : (0 < u < 1)%Q.
Hypothesis RE : relative_error u rnd.
Variable M : mgr.
Hypothesis HI : index_order M.
Variable r : nat.
Hypothesis Hodd : Nat.Odd r.
Let R := inject_Z (Z.of_nat (S r)).
Let rm := Z.of_nat r.
Variable root : bdd.
Variable T : nat.
Hypothesis Hv : forall i, In i (varsn (snd root)) -> i < T.
Hypothesis HhT : height (snd root) <= T.
Let dl := (8 * inject_Z (Z.of_nat T) * u)%Q.
Hypothesis Small : (dl <= 1)%Q.
Let step := (1 / R + dl)%Q.
Let mc := count_minterms_fl rnd root.

Lemma step_pos : 0 < T -> (0 < step)%Q.
Proof.
  intro H. assert (RP : (0 < R)%Q) by apply R_pos. assert (0 < 1 / R)%Q by (apply Qlt_shift_div_l; [exact RP|lra]).
  assert (0 <= inject_Z (Z.of_nat T))%Q by (change 0%Q with (inject_Z 0); apply injZ_mono; lia).
  assert (0 <= dl)%Q by (unfold dl; apply Qmult_le_0_compat; lra). unfold step. lra.
Qed.
Lemma delta_T : 0 < T -> delta u (T - 1) = dl.
Proof. intro H. unfold delta, dl. replace (S (T - 1)) with T by lia. reflexivity. Qed.
Lemma small_h : 0 < T -> (delta u (T - 1) <= 1)%Q.
Proof. intro H. now rewrite delta_T. Qed.

Lemma out_ok_fl k level c nd draws : level + k = T -> length draws = k -> In (c, nd) (reachable root) ->
  exists l, rsi_loop_fl rnd rm mc T k level c nd draws = Ok l.
Proof. intros. destruct (rsi_total_fl rnd rm root T k level c nd draws) as (l & E & _); auto. exists l. exact E. Qed.

Lemma out_cons_fl k level c nd draws (z : Z) : level + k = T -> length draws = k -> In (c, nd) (reachable root) ->
  out (l <- rsi_loop_fl rnd rm mc T k level c nd draws ;; Ok (z :: l)) = z :: out (rsi_loop_fl rnd rm mc T k level c nd draws).
Proof. intros H1 H2 H3. destruct (out_ok_fl k level c nd draws H1 H2 H3) as (l & ->). reflexivity. Qed.

Lemma rsi_bound_fl : forall k level c nd (G : list Z -> Q), level + k = T -> In (c, nd) (reachable root) -> okn M level nd ->
  (forall x, 0 <= G x <= 1)%Q ->
  (Qabs (fracn nd c * expectation r k (fun l => G (out (rsi_loop_fl rnd rm mc T k level c nd l)))
         - bmean k (fun x => b2q (ev (c, nd) (at_level level x)) * G x))
   <= fracn nd c * (inject_Z (Z.of_nat k) * step))%Q.
Proof.
  assert (RP : (0 < R)%Q) by apply R_pos.
  induction k as [|k IH]; intros level c nd G HT Hr Hok HG.
  - assert (Hno : forall i, ~ In i (varsn nd)).
    { intros i Hi. pose proof (okn_vars _ _ _ _ Hok Hi) as H. rewrite HI in H.
      assert (i < T) by (apply Hv; apply (edges_vars (snd root) (fst root) (c, nd)); auto). lia. }
    destruct nd as [|v t d e]; [|exfalso; apply (Hno v); now left]. rewrite exp_0. cbn [bmean rsi_loop_fl out].
    change (inject_Z (Z.of_nat 0)) with 0%Q.
    assert (E : (fracn One c * G [] - b2q (ev (c, One) (at_level level [])) * G [] == 0)%Q) by (destruct c; cbn; ring).
    rewrite E. destruct c; cbn [fracn]; rewrite ?Qmult_0_l, ?Qmult_0_r; discriminate.
  - assert (EK : (inject_Z (Z.of_nat (S k)) * step == inject_Z (Z.of_nat k) * step + step)%Q).
    { rewrite Nat2Z.inj_succ. unfold Z.succ. rewrite inject_Z_plus. change (inject_Z 1) with 1%Q. ring. }
    assert (B1 : (0 < step)%Q) by (apply step_pos; lia).
    assert (Bk : (0 <= inject_Z (Z.of_nat k) * step)%Q).
    { apply Qmult_le_0_compat; [|lra]. change 0%Q with (inject_Z 0). apply injZ_mono. lia. }
    rewrite EK. set (bk := (inject_Z (Z.of_nat k) * step)%Q) in *. set (b1 := step) in *. rewrite exp_S. cbn [bmean].
    destruct (Nat.ltb_spec level (node_level nd T)) as [El|El].
    + assert (Hok' : okn M (S level) nd) by (destruct nd as [|v t d' e]; cbn in *; auto; rewrite HI in *; intuition lia).
      assert (Y : forall i, In i (varsn nd) -> S level <= i) by (intros i Hi; pose proof (okn_vars _ _ _ _ Hok' Hi) as H; rewrite HI in H; exact H).
      set (X := fun z : Z => expectation r k (fun l => G (z :: out (rsi_loop_fl rnd rm mc T k (S level) c nd l)))).
      rewrite (sumQ_map_ext_in _ (fun d => X (Z.of_nat d mod 2)%Z)).
      2:{ intros d _. unfold X. apply exp_ext_in. intros l [Ll _]. cbn [rsi_loop_fl].
          rewrite (proj2 (Nat.ltb_lt _ _) El). rewrite out_cons_fl by (auto; lia). reflexivity. }
      change (inject_Z (Z.of_nat (S r))) with R.
      assert (HD : (sumQ (map (fun d => X (Z.of_nat d mod 2)%Z) (seq 0 (S r))) / R == (X 1%Z + X 0%Z) / 2)%Q) by exact (half_draws r Hodd X).
      rewrite HD.
      set (V := fun z : Z => bmean k (fun x => b2q (ev (c, nd) (at_level (S level) x)) * G (z :: x))%Q).
      assert (EV : forall z : Z, (bmean k (fun x => b2q (ev (c, nd) (at_level level (z :: x))) * G (z :: x)) == V z)%Q).
      { intro z. apply bmean_ext. intros x _. unfold ev. cbn [fst snd]. rewrite (at_level_child T) by exact Y. reflexivity. }
      rewrite (EV 1%Z), (EV 0%Z).
      pose proof (Qabs_range _ _ (IH (S level) c nd (fun x => G (1%Z :: x)) ltac:(lia) Hr Hok' (fun x => HG _))) as I1.
      pose proof (Qabs_range _ _ (IH (S level) c nd (fun x => G (0%Z :: x)) ltac:(lia) Hr Hok' (fun x => HG _))) as I0.
      cbv beta in I1, I0. fold bk in I1, I0. change (expectation r k (fun l => G (1%Z :: out (rsi_loop_fl rnd rm mc T k (S level) c nd l)))) with (X 1%Z) in I1.
      change (expectation r k (fun l => G (0%Z :: out (rsi_loop_fl rnd rm mc T k (S level) c nd l)))) with (X 0%Z) in I0.
      change (bmean k (fun x => b2q (ev (c, nd) (at_level (S level) x)) * G (1%Z :: x))%Q) with (V 1%Z) in I1.
      change (bmean k (fun x => b2q (ev (c, nd) (at_level (S level) x)) * G (0%Z :: x))%Q) with (V 0%Z) in I0.
      pose proof (frac_nonneg nd c) as N. set (q := fracn nd c) in *.
      assert (Z0 : (0 <= q * b1)%Q) by (apply Qmult_le_0_compat; lra).
      assert (E : (q * ((X 1%Z + X 0%Z) / 2) - (V 1%Z + V 0%Z) / 2 == (1 # 2) * (q * X 1%Z - V 1%Z) + (1 # 2) * (q * X 0%Z - V 0%Z))%Q) by field.
      rewrite E. clear - I1 I0 Z0. set (x1 := (q * X 1%Z - V 1%Z)%Q) in *. set (x0 := (q * X 0%Z - V 0%Z)%Q) in *. clearbody x1 x0.
      assert (Eb : (q * (bk + b1) == q * bk + q * b1)%Q) by ring. apply Qabs_le; rewrite Eb; lra.
    + destruct nd as [|v t d' e]; [cbn in El; lia|]. cbn [node_level] in El.
      pose proof Hok as Hok'. cbn [okn] in Hok'. rewrite HI in Hok'. destruct Hok' as (H1 & H2 & H3 & H4).
      assert (v = level) by lia. subst v.
      assert (R1 : In (c, t) (reachable root)).
      { eapply edges_trans; [exact Hr|]. unfold reachable; cbn. right. apply in_or_app. left. apply in_edges_refl. }
      assert (R2 : In (xorb c d', e) (reachable root)).
      { eapply edges_trans; [exact Hr|]. unfold reachable; cbn. right. apply in_or_app. right. apply in_edges_refl. }
      pose proof (count_minterms_fl_at rnd root _ R1) as Q1. pose proof (count_minterms_fl_at rnd root _ R2) as Q2.
      unfold frac_fl in Q1, Q2. cbn [fst snd] in Q1, Q2.
      pose proof (height_reachable (snd root) (fst root) (c, Nd level t d' e) Hr) as Hh. cbn [height snd] in Hh.
      assert (W1 : within u (2 * (T - 1)) (fracn_fl rnd t c) (fracn t c)).
      { apply (within_mono u ltac:(lra) (2 * height t)); [apply frac_nonneg|lia|]. apply fracn_fl_within; [lra|exact RE]. }
      assert (Wee : within u (2 * (T - 1)) (fracn_fl rnd e (xorb c d')) (fracn e (xorb c d'))).
      { apply (within_mono u ltac:(lra) (2 * height e)); [apply frac_nonneg|lia|]. apply fracn_fl_within; [lra|exact RE]. }
      set (tw := fracn_fl rnd t c) in *. set (ew := fracn_fl rnd e (xorb c d')) in *.
      pose proof (frac_nonneg t c) as N1. pose proof (frac_nonneg e (xorb c d')) as N2.
      set (A := expectation r k (fun l => G (1%Z :: out (rsi_loop_fl rnd rm mc T k (S level) c t l)))).
      set (B := expectation r k (fun l => G (0%Z :: out (rsi_loop_fl rnd rm mc T k (S level) (xorb c d') e l)))).
      set (b := fun d => le_ratio_fl rnd (Z.of_nat d) rm tw ew).
      rewrite (sumQ_map_ext_in _ (fun d => if b d then A else B)).
      2:{ intros d _. unfold b, A, B. destruct (le_ratio_fl rnd (Z.of_nat d) rm tw ew) eqn:Eb; apply exp_ext_in; intros l [Ll _]; cbn [rsi_loop_fl];
          (destruct (Nat.ltb_spec level (node_level (Nd level t d' e) T)) as [El'|_]; [cbn [node_level] in El'; lia|]);
          unfold mc; rewrite Q1, Q2; cbn [bind]; rewrite Eb; fold mc; rewrite out_cons_fl by (auto; lia); reflexivity. }
      rewrite sum_threshold, seq_length. change (inject_Z (Z.of_nat (S r))) with R.
      set (Vt := bmean k (fun x => b2q (ev (c, t) (at_level (S level) x)) * G (1%Z :: x))%Q).
      set (Ve := bmean k (fun x => b2q (ev (xorb c d', e) (at_level (S level) x)) * G (0%Z :: x))%Q).
      assert (EVt : (bmean k (fun x => b2q (ev (c, Nd level t d' e) (at_level level (1%Z :: x))) * G (1%Z :: x)) == Vt)%Q).
      { apply bmean_ext. intros x _. unfold ev. cbn [fst snd evn]. replace (at_level level (1%Z :: x) level) with true by (unfold at_level; rewrite Nat.sub_diag; reflexivity).
        rewrite (at_level_child T) by (intros i Hi; pose proof (okn_vars _ _ _ _ H2 Hi) as H; rewrite HI in H; exact H). reflexivity. }
      assert (EVe : (bmean k (fun x => b2q (ev (c, Nd level t d' e) (at_level level (0%Z :: x))) * G (0%Z :: x)) == Ve)%Q).
      { apply bmean_ext. intros x _. unfold ev. cbn [fst snd evn]. replace (at_level level (0%Z :: x) level) with false by (unfold at_level; rewrite Nat.sub_diag; reflexivity).
        rewrite (at_level_child T) by (intros i Hi; pose proof (okn_vars _ _ _ _ H3 Hi) as H; rewrite HI in H; exact H). destruct c, d', (evn e _); reflexivity. }
      rewrite EVt, EVe.
      pose proof (Qabs_range _ _ (IH (S level) c t (fun x => G (1%Z :: x)) ltac:(lia) R1 H2 (fun x => HG _))) as I1.
      pose proof (Qabs_range _ _ (IH (S level) (xorb c d') e (fun x => G (0%Z :: x)) ltac:(lia) R2 H3 (fun x => HG _))) as I0.
      cbv beta in I1, I0. fold bk A Vt in I1. fold bk B Ve in I0. cbn [fracn].
      assert (A01 : (0 <= A <= 1)%Q) by (apply exp_range; intros; apply HG).
      assert (B01 : (0 <= B <= 1)%Q) by (apply exp_range; intros; apply HG).
      set (ft := fracn t c) in *. set (fe := fracn e (xorb c d')) in *.
      set (cnt := inject_Z (Z.of_nat (length (filter b (seq 0 (S r)))))).
      destruct (Qlt_le_dec 0 (ft + fe)) as [Ps|Ps].
      * pose proof (then_share_fl u rnd U RE r Hodd (T - 1) (small_h ltac:(lia)) ft fe tw ew W1 Wee N1 N2 Ps) as C1.
        change (inject_Z (Z.of_nat (length (filter _ (seq 0 (S r)))))) with cnt in C1.
        rewrite (delta_T ltac:(lia)) in C1. change (inject_Z (Z.of_nat (S r))) with R in C1.
        pose proof Ps as Ps'. set (s := (ft + fe)%Q) in *.
        set (w := (cnt / R - ft / s)%Q).
        assert (W : (- b1 <= w <= b1)%Q).
        { assert (Ew : (w == (cnt - R * (ft / s)) / R)%Q) by (unfold w; field; split; lra). rewrite Ew.
          assert (Eb1 : (b1 == (1 + R * dl) / R)%Q) by (unfold b1, step; field; lra). destruct C1 as [C1 C1'].
          assert (Eb2 : (- b1 == - (1 + R * dl) / R)%Q) by (rewrite Eb1; field; lra). rewrite Eb2, Eb1.
          split; unfold Qdiv; apply Qmult_le_compat_r; auto; apply Qinv_le_0_compat; lra. }
        assert (E4 : ((ft * (1 # 2) + fe * (1 # 2)) * ((B * R + (A - B) * cnt) / R) - (Vt + Ve) / 2
                      == (1 # 2) * ((ft * A - Vt) + (fe * B - Ve) + s * (w * (A - B))))%Q).
        { unfold w, s. field. split; [unfold s in Ps'; lra|lra]. }
        rewrite E4. assert (D : (- (1) <= A - B <= 1)%Q) by lra.
        assert (W2 : (- b1 <= w * (A - B) <= b1)%Q) by (split; nra).
        assert (W3 : (- (s * b1) <= s * (w * (A - B)) <= s * b1)%Q).
        { destruct W2 as [W2 W2']. split.
          - assert (s * (- b1) <= s * (w * (A - B)))%Q by (apply Qmult_le_l; lra). lra.
          - apply Qmult_le_l; lra. }
        assert (E5 : ((ft * (1 # 2) + fe * (1 # 2)) * (bk + b1) == (1 # 2) * (ft * bk + fe * bk + s * b1))%Q) by (unfold s; ring).
        rewrite E5. apply Qabs_le; lra.
      * assert (Z1 : (ft == 0)%Q) by lra. assert (Z2 : (fe == 0)%Q) by lra. rewrite Z1, Z2 in *.
        assert (E6 : ((0 * (1 # 2) + 0 * (1 # 2)) * ((B * R + (A - B) * cnt) / R) - (Vt + Ve) / 2 == - ((Vt + Ve) / 2))%Q) by (field; lra).
        rewrite E6. assert (Y1 : (Vt == 0)%Q) by lra. assert (Y2 : (Ve == 0)%Q) by lra. rewrite Y1, Y2. rewrite !Qmult_0_l. discriminate.
Qed.
End Uniform.

Lemma random_input_uniform_fl u rnd M r f T (F : list Z -> Q) : (0 < u < 1)%Q -> relative_error u rnd -> (8 * inject_Z (Z.of_nat T) * u <= 1)%Q ->
  index_order M -> Nat.Odd r -> wf M f -> depends_below T f -> (exists a, ev f a = true) ->
  (forall x, 0 <= F x <= 1)%Q ->
  exists input : list Z -> list Z,
    (forall l, draw_list r T l -> random_satisfying_input_fl rnd (Z.of_nat r) f (count_minterms_fl rnd f) T l = Ok (input l))
    /\ (Qabs (expectation r T (fun l => F (input l)) - conditional T f F)
        <= inject_Z (Z.of_nat T) * (1 / inject_Z (Z.of_nat (S r)) + 8 * inject_Z (Z.of_nat T) * u))%Q.
Proof.
  intros U RE Small HI Hodd Hf Hd [a0 Ha0] HF.
  assert (Hr0 : In (fst f, snd f) (reachable f)) by (destruct f; apply in_edges_refl).
  exists (fun l => out (random_satisfying_input_fl rnd (Z.of_nat r) f (count_minterms_fl rnd f) T l)). split.
  - intros l [Ll _]. destruct (rsi_total_fl rnd (Z.of_nat r) f T T 0 (fst f) (snd f) l eq_refl Ll Hr0) as (x & E & _).
    unfold random_satisfying_input_fl. rewrite E. reflexivity.
  - assert (Hv : forall i, In i (varsn (snd f)) -> i < T) by (apply (depends_below_vars M); auto).
    assert (Hr : In (fst f, snd f) (reachable f)) by (destruct f; apply in_edges_refl).
    pose proof (rsi_bound_fl u rnd U RE M HI r Hodd f T Hv (height_below M T f Hf Hd) Small T 0 (fst f) (snd f) F eq_refl Hr Hf HF) as B. apply Qabs_range in B.
    change (fracn (snd f) (fst f)) with (frac f) in B.
    assert (Hz : f <> bzero) by (intros ->; rewrite ev_zero in Ha0; discriminate). pose proof (frac_pos M f Hf Hz) as P.
    set (E := expectation r T (fun l => F (out (random_satisfying_input_fl rnd (Z.of_nat r) f (count_minterms_fl rnd f) T l)))).
    change (expectation r T _) with E in B.
    set (b := (inject_Z (Z.of_nat T) * (1 / inject_Z (Z.of_nat (S r)) + 8 * inject_Z (Z.of_nat T) * u))%Q) in *.
    assert (C : (conditional T f F == bmean T (fun x => b2q (ev f (at_level 0 x)) * F x) / frac f)%Q).
    { unfold conditional. rewrite <- (frac_average M T f Hf Hd). rewrite <- bmean_average. apply Qmult_comp; [|reflexivity]. apply average_ext. intro a.
      rewrite (Hd a (at_level 0 (input_list T a))); [reflexivity|]. intros i Hi. unfold at_level, input_list. rewrite Nat.sub_0_r.
      rewrite (nth_indep _ 0%Z (Z.b2z (a 0))) by (rewrite map_length, seq_length; exact Hi).
      rewrite (map_nth (fun i => Z.b2z (a i))), seq_nth by exact Hi. cbn [plus]. destruct (a i); reflexivity. }
    rewrite C. destruct f as [c n]. cbn [fst snd] in B. set (V := bmean T _) in *.
    assert (E1 : (E - V / frac (c, n) == (frac (c, n) * E - V) * / frac (c, n))%Q) by (field; lra). rewrite E1.
    assert (I : (0 < / frac (c, n))%Q) by (apply Qinv_lt_0_compat; exact P).
    assert (E2 : (b == frac (c, n) * b * / frac (c, n))%Q) by (field; lra).
    destruct B as [B1 B2]. apply Qabs_le; [setoid_replace (- b)%Q with (- (frac (c, n) * b) * / frac (c, n))%Q by (rewrite E2 at 1; ring)|rewrite E2];
      apply Qmult_le_compat_r; lra.
Qed.

Lemma random_input_uniform_d M r f T (F : list Z -> Q) : index_order M -> Nat.Odd r -> (Z.of_nat r <= 2 ^ 53)%Z -> T <= 1022 ->
  wf M f -> depends_below T f -> (exists a, ev f a = true) -> (forall x, 0 <= F x <= 1)%Q ->
  exists input : list Z -> list Z,
    (forall l, draw_list r T l -> random_satisfying_input_d (Z.of_nat r) f (count_minterms_d f) T l = Ok (input l))
    /\ (Qabs (expectation r T (fun l => F (input l)) - conditional T f F)
        <= inject_Z (Z.of_nat T) * (1 / inject_Z (Z.of_nat (S r)) + inject_Z (Z.of_nat T) * 2 ^ (-50)))%Q.
Proof.
  intros HI Hodd Hr HT Hf Hd Hs HF. assert (L : (inject_Z (Z.of_nat T) <= inject_Z 1022)%Q) by (apply injZ_mono; lia).
  assert (U : (0 < 2 ^ (-53) < 1)%Q) by (split; reflexivity).
  assert (Sm : (8 * inject_Z (Z.of_nat T) * 2 ^ (-53) <= 1)%Q).
  { change (2 ^ (-53))%Q with (1 # 9007199254740992)%Q. change (inject_Z 1022) with (1022 # 1)%Q in L. lra. }
  destruct (random_input_uniform_fl (2 ^ (-53)) r53 M r f T F U relative53 Sm HI Hodd Hf Hd Hs HF) as (input & E & B).
  exists input. split.
  - intros l Hl. rewrite <- (E l Hl). apply (random_input_d_same M T); auto; [|apply Hl]. destruct Hodd as [m Hm]. lia.
  - assert (X : (8 * inject_Z (Z.of_nat T) * 2 ^ (-53) == inject_Z (Z.of_nat T) * 2 ^ (-50))%Q).
    { change (2 ^ (-53))%Q with (1 # 9007199254740992)%Q. change (2 ^ (-50))%Q with (1 # 1125899906842624)%Q. ring. }
    rewrite X in B. exact B.
Qed.
Lemma random_input_wrong_d M r f T : index_order M -> Nat.Odd r -> (Z.of_nat r <= 2 ^ 53)%Z -> T <= 1022 -> wf M f -> depends_below T f -> (exists a, ev f a = true) ->
  (probability r T (fun l => match random_satisfying_input_d (Z.of_nat r) f (count_minterms_d f) T l with
                             | Ok x => negb (ev f (asg_ints x)) | _ => true end)
   <= inject_Z (Z.of_nat T) * (1 / inject_Z (Z.of_nat (S r)) + inject_Z (Z.of_nat T) * 2 ^ (-50)))%Q.
Proof.
  intros HI Hodd Hr HT Wf Bf Hsat.
  destruct (random_input_uniform_d M r f T (fun x => b2q (negb (ev f (asg_ints x)))) HI Hodd Hr HT Wf Bf Hsat) as (input & E & B).
  { intro x. destruct (ev _ _); cbn; lra. }
  unfold probability. rewrite (exp_ext_in r T _ (fun l => b2q (negb (ev f (asg_ints (input l)))))) by (intros l Hl; rewrite (E l Hl); reflexivity).
  assert (C0 : (conditional T f (fun x => b2q (negb (ev f (asg_ints x)))) == 0)%Q).
  { unfold conditional. rewrite (average_ext T _ (fun _ => 0%Q)); [rewrite average_const; unfold Qdiv; ring|]. intro a.
    rewrite (Bf (asg_ints (input_list T a)) a); [destruct (ev f a); reflexivity|].
    intros i Hi. unfold asg_ints, input_list. rewrite (nth_indep _ 0%Z (Z.b2z (a 0))) by (rewrite map_length, seq_length; exact Hi).
    rewrite (map_nth (fun i => Z.b2z (a i))), seq_nth by exact Hi. cbn [plus]. destruct (a i); reflexivity. }
  rewrite C0 in B. apply Qabs_range in B. lra.
Qed.
