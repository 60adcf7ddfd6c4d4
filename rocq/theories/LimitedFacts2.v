(** Densities with doubles of limited range: distance from the exact densities, replaced child *)
From Coq Require Import List Bool Arith ZArith QArith Qabs Qround Lia Lqa.
From Verif Require Import Res Cudd CuddFacts Spec SpecFacts SpecFloat SpecNan SpecLimited Float FloatFacts Helpers HelpersFacts HelpersFacts2 Counting CountFacts
  Metrics Operators OperatorFacts OperatorFacts2 OperatorFacts3 OperatorFacts4 OperatorFacts5 LevelFacts OrderFacts Rounded RoundedFacts RoundedFacts2
  Ieee IeeeFacts IeeeFacts2 IeeeFacts3 IeeeFacts4 IeeeFacts6 IeeeFacts7 NanFacts NanFacts2 LimitedFacts.
Import ListNotations.
Open Scope nat_scope.

Notation eta := (2 ^ (-1075))%Q.
Lemma eta_pos : (0 < eta)%Q. Proof. exact (p2_pos (-1075)). Qed.
Lemma half_unit_nonneg x : (0 <= x)%Q -> (0 <= round_half_even x)%Z.
Proof.
  intro H. unfold round_half_even. assert (0 <= Qfloor x)%Z by (change 0%Z with (Qfloor 0); now apply Qfloor_resp_le).
  destruct (negb _); [lia|]. destruct (negb _); [lia|]. destruct (Z.even _); lia.
Qed.
Lemma to_double_unit b q : float_number 53 b -> (2 ^ (-1021) <= b <= 1)%Q -> (0 <= q <= b)%Q ->
  exists r, to_double q = DFin r /\ (0 <= r <= b)%Q /\ ((1 - u53) * q - eta <= r <= (1 + u53) * q + eta)%Q.
Proof.
  intros Fb Hb Hq. pose proof eta_pos as PE. pose proof u53_range as PU. unfold to_double.
  assert (F0 : float_number 53 0) by exact float_0.
  assert (FIN : forall r, (0 <= r <= b)%Q -> (if Qle_bool (2 ^ 1024) r then DInf false else if Qle_bool r (- 2 ^ 1024) then DInf true else DFin r) = DFin r).
  { intros r Hr. eapply to_double_fin; [|reflexivity]. split; [apply Hr|]. eapply Qle_lt_trans; [apply Hr|]. eapply Qle_lt_trans; [apply Hb|].
    change 1%Q with (2 ^ 0)%Q. apply p2_lt. lia. }
  destruct (negb (Qeq_bool q 0) && (binary_exponent (Qabs q) <? -1022)%Z) eqn:E; cbv zeta.
  - apply andb_prop in E as [E1 E2]. apply Z.ltb_lt in E2. rewrite negb_true_iff in E1.
    assert (Nq : ~ (q == 0)%Q) by (intro X; apply Qeq_bool_iff in X; congruence). assert (Pq : (0 < q)%Q) by lra.
    assert (Pa : (0 < Qabs q)%Q) by (rewrite Qabs_pos; lra). destruct (binary_exponent_spec (Qabs q) Pa) as [_ B].
    assert (Bq : (Qabs q < 2 ^ (-1022))%Q). { eapply Qlt_le_trans; [exact B|]. apply p2_mono. lia. } rewrite Qabs_pos in Bq by lra.
    set (s := (2 ^ (-1074))%Q). assert (Ps : (0 < s)%Q) by exact (p2_pos (-1074)). assert (Es : (s == 2 * eta)%Q) by (unfold s; rewrite <- p2_succ; reflexivity).
    pose proof (round_half (q / s)) as RH. set (z := round_half_even (q / s)) in *.
    assert (Dq : (q / s * s == q)%Q) by (field; lra). apply Qabs_Qle_condition in RH.
    assert (R : (q - eta <= inject_Z z * s <= q + eta)%Q).
    { set (w := (q / s)%Q) in *. set (y := inject_Z z) in *. clearbody w y. split; nra. }
    assert (Z0 : (0 <= inject_Z z * s)%Q).
    { apply Qmult_le_0_compat; [|lra]. change 0%Q with (inject_Z 0). rewrite <- Zle_Qle. apply half_unit_nonneg. apply Qle_shift_div_l; lra. }
    assert (X : (2 ^ (-1021) == 2 * 2 ^ (-1022))%Q) by (rewrite <- p2_succ; reflexivity).
    assert (Y : (eta <= 2 ^ (-1022))%Q) by (apply p2_mono; lia).
    exists (inject_Z z * s)%Q. assert (Hr : (0 <= inject_Z z * s <= b)%Q) by (split; lra). split; [now apply FIN|]. split; [exact Hr|].
    set (y := (inject_Z z * s)%Q) in *. clearbody y. split; nra.
  - assert (Hr : (0 <= r53 q <= b)%Q) by (split; [apply r53_ge; auto; lra|apply r53_le; auto; lra]).
    exists (r53 q). split; [now apply FIN|]. split; [exact Hr|].
    destruct (rnd_bounds u53 r53 relative53 q ltac:(lra)) as [X Y]. split; lra.
Qed.

(** [q] is the density [D] up to [2h] relative and [3h] absolute errors *)
Definition slack (h : nat) : Q := (inject_Z (Z.of_nat (3 * h)) * eta)%Q.
Lemma slack_S h : (slack (S h) == slack h + 3 * eta)%Q.
Proof. unfold slack. replace (Z.of_nat (3 * S h)) with (Z.of_nat (3 * h) + 3)%Z by lia. rewrite inject_Z_plus. change (inject_Z 3) with 3%Q. ring. Qed.
Lemma slack_nonneg h : (0 <= slack h)%Q.
Proof. unfold slack. apply Qmult_le_0_compat; [change 0%Q with (inject_Z 0); rewrite <- Zle_Qle; lia|]. apply Qlt_le_weak, eta_pos. Qed.
Definition close (h : nat) (q D : Q) : Prop :=
  (0 <= q <= 1)%Q /\ (qpow (1 - u53) (2 * h) * D - slack h <= q)%Q /\ (q <= qpow (1 + u53) (2 * h) * (D + slack h))%Q.
Lemma close_S h q D : (0 <= D)%Q -> close h q D -> close (S h) q D.
Proof.
  intros HD (A & B & C). split; [exact A|]. pose proof (slack_S h) as SS. pose proof (slack_nonneg h) as S0. pose proof eta_pos as PE. pose proof u53_range as PU.
  replace (2 * S h) with (S (S (2 * h))) by lia. set (p := qpow (1 - u53) (2 * h)) in *. set (P := qpow (1 + u53) (2 * h)) in *.
  assert (L1 : (qpow (1 - u53) (S (S (2 * h))) <= p)%Q) by (eapply Qle_trans; [apply qpow_down; exact PU|apply qpow_down; exact PU]).
  assert (L2 : (P <= qpow (1 + u53) (S (S (2 * h))))%Q) by (eapply Qle_trans; [|apply qpow_up; exact PU]; apply qpow_up; exact PU).
  assert (P0 : (0 <= P)%Q) by (apply qpow_nonneg; lra).
  set (p' := qpow (1 - u53) (S (S (2 * h)))) in *. set (P' := qpow (1 + u53) (S (S (2 * h)))) in *. clearbody p P p' P'. rewrite SS.
  set (s := slack h) in *. set (et := eta) in *. clearbody s et. split; nra.
Qed.
Lemma close_mono h h' q D : (0 <= D)%Q -> h <= h' -> close h q D -> close h' q D.
Proof. intros HD L H. induction L; auto. now apply close_S. Qed.
Lemma Qmult_le_l_nonneg a x y : (0 <= a)%Q -> (x <= y)%Q -> (a * x <= a * y)%Q.
Proof. intros. nra. Qed.
Lemma qpow_ge1 u k : (0 <= u)%Q -> (1 <= qpow (1 + u) k)%Q.
Proof. intro H. induction k; cbn [qpow]; [lra|]. nra. Qed.
Lemma qpow_le1 u k : (0 <= u <= 1)%Q -> (0 <= qpow (1 - u) k <= 1)%Q.
Proof. intro H. induction k; cbn [qpow]; [lra|]. split; nra. Qed.
Lemma close_node h q1 q2 D1 D2 : (0 <= D1)%Q -> (0 <= D2)%Q -> close h q1 D1 -> close h q2 D2 ->
  exists q, dadd (ddiv (DFin q1) (DFin 2)) (ddiv (DFin q2) (DFin 2)) = DFin q /\ close (S h) q (D1 * (1 # 2) + D2 * (1 # 2)).
Proof.
  intros H1 H2 (A1 & B1 & C1) (A2 & B2 & C2). pose proof u53_range as PU. pose proof eta_pos as PE.
  assert (Fh : float_number 53 (1 # 2)) by (exists 1%Z, (-1)%Z; split; [cbn; lia|reflexivity]).
  assert (F1 : float_number 53 1) by (exists 1%Z, 0%Z; split; [cbn; lia|reflexivity]).
  assert (Lh : (2 ^ (-1021) <= 1 # 2)%Q) by (change (1 # 2)%Q with (2 ^ (-1))%Q; apply p2_mono; lia).
  rewrite !ddiv_2.
  destruct (to_double_unit (1 # 2) (q1 / 2) Fh ltac:(split; [exact Lh|lra])) as (r1 & -> & R1 & X1); [setoid_replace (q1 / 2)%Q with (q1 * (1 # 2))%Q by field; lra|].
  destruct (to_double_unit (1 # 2) (q2 / 2) Fh ltac:(split; [exact Lh|lra])) as (r2 & -> & R2 & X2); [setoid_replace (q2 / 2)%Q with (q2 * (1 # 2))%Q by field; lra|].
  cbn [dadd]. destruct (to_double_unit 1 (r1 + r2) F1 ltac:(split; lra) ltac:(lra)) as (r & -> & R & X). exists r. split; [reflexivity|]. split; [exact R|].
  setoid_replace (q1 / 2)%Q with (q1 * (1 # 2))%Q in X1 by field. setoid_replace (q2 / 2)%Q with (q2 * (1 # 2))%Q in X2 by field.
  setoid_replace (D1 * (1 # 2) + D2 * (1 # 2))%Q with ((D1 + D2) * (1 # 2))%Q by field.
  pose proof (slack_nonneg h) as S0. pose proof (qpow_ge1 u53 (2 * h) ltac:(lra)) as P1. pose proof (qpow_le1 u53 (2 * h) PU) as P2.
  rewrite slack_S. replace (2 * S h) with (S (S (2 * h))) by lia. cbn [qpow].
  set (p := qpow (1 - u53) (2 * h)) in *. set (P := qpow (1 + u53) (2 * h)) in *. set (s := slack h) in *. set (et := eta) in *. set (u := u53) in *.
  clearbody p P s et u.
  set (D := ((D1 + D2) * (1 # 2))%Q). set (q := ((q1 + q2) * (1 # 2))%Q).
  assert (Lq : (p * D - s <= q)%Q) by (unfold D, q; lra). assert (Uq : (q <= P * (D + s))%Q) by (unfold D, q; lra).
  assert (D0 : (0 <= D)%Q) by (unfold D; lra). assert (q0 : (0 <= q)%Q) by (unfold q; lra).
  assert (Lr : ((1 - u) * q - 2 * et <= r1 + r2)%Q) by (unfold q; lra). assert (Ur : (r1 + r2 <= (1 + u) * q + 2 * et)%Q) by (unfold q; lra).
  clearbody D q. clear B1 C1 B2 C2 X1 X2 R1 R2 A1 A2. set (rr := (r1 + r2)%Q) in *. clearbody rr. split.
  - assert (Y1 : ((1 - u) * ((1 - u) * q - 2 * et) <= (1 - u) * rr)%Q) by (apply Qmult_le_l_nonneg; lra).
    assert (Y2 : ((1 - u) * ((1 - u) * (p * D - s)) <= (1 - u) * ((1 - u) * q))%Q) by (apply Qmult_le_l_nonneg; [lra|]; apply Qmult_le_l_nonneg; lra).
    assert (Y3' : ((1 - u) * s <= s)%Q) by nra. assert (Y3 : ((1 - u) * ((1 - u) * s) <= (1 - u) * s)%Q) by (apply Qmult_le_l_nonneg; lra). assert (Y4 : ((1 - u) * et <= et)%Q) by nra. lra.
  - assert (Y1 : ((1 + u) * rr <= (1 + u) * ((1 + u) * q + 2 * et))%Q) by (apply Qmult_le_l_nonneg; lra).
    assert (Y2 : ((1 + u) * ((1 + u) * q) <= (1 + u) * ((1 + u) * (P * (D + s))))%Q) by (apply Qmult_le_l_nonneg; [lra|]; apply Qmult_le_l_nonneg; lra).
    assert (Y3 : ((1 + u) * et <= (1 + u) * ((1 + u) * (P * et)))%Q).
    { apply Qmult_le_l_nonneg; [lra|]. assert (et <= P * et)%Q by nra. nra. }
    assert (Y4 : (et <= (1 + u) * ((1 + u) * (P * et)))%Q) by nra. lra.
Qed.

Lemma fracd_close n : forall c, exists q, fracd n c = DFin q /\ close (height n) q (fracn n c).
Proof.
  induction n as [|v t IHt d e IHe]; intro c; cbn [fracd fracn height].
  - exists (if c then 0 else 1)%Q. split; [now destruct c|]. assert (S0 : (slack 0 == 0)%Q) by (unfold slack; change (inject_Z (Z.of_nat (3 * 0))) with 0%Q; apply Qmult_0_l).
    unfold close. change (2 * 0) with 0. cbn [qpow]. rewrite S0. destruct c; repeat split; lra.
  - destruct (IHt c) as (q1 & -> & C1). destruct (IHe (xorb c d)) as (q2 & -> & C2). apply close_node; try apply frac_nonneg.
    + apply (close_mono (height t)); auto; [apply frac_nonneg|lia].
    + apply (close_mono (height e)); auto; [apply frac_nonneg|lia].
Qed.

(** ** the operators that compare densities *)
Definition minterms_gt (k k' : bdd) : bool := dgtb (fracd (snd k) (fst k)) (fracd (snd k') (fst k')).
Lemma minterms_d_in f k x : In (k, x) (count_minterms_d f) -> x = fracd (snd k) (fst k).
Proof.
  intro H. assert (N : valued []) by (intros ? ? []). destruct (minterms_rec_d_value (snd f) (fst f) [] N) as (_ & V). exact (V _ _ H).
Qed.
Lemma minterms_gt_ok f k k' x y : blookup k (count_minterms_d f) = Some x -> blookup k' (count_minterms_d f) = Some y -> dgtb x y = minterms_gt k k'.
Proof. intros X Y. apply blookup_some in X, Y. apply minterms_d_in in X, Y. subst. reflexivity. Qed.

Section Choice.
Variable M : mgr.
Variable f : bdd.
Hypothesis W : wf M f.
Variable n : nat.
Hypothesis B : depends_below n f.
Notation x := (qpow (1 - u53) (2 * n)).
Notation y := (qpow (1 + u53) (2 * n)).
Lemma close_density k : In k (reachable f) -> exists q, fracd (snd k) (fst k) = DFin q /\ close n q (density n k).
Proof.
  intro Hk. pose proof (reach_wf M f k W Hk) as Wk. assert (Dk : depends_below n k) by (eapply reachable_below; eauto; now apply (depends_below_vars M)).
  destruct (fracd_close (snd k) (fst k)) as (q & E & C). exists q. split; [exact E|].
  apply (close_mono (height (snd k)) n) in C; [|apply frac_nonneg|exact (height_below M n k Wk Dk)].
  assert (Ef : (fracn (snd k) (fst k) == density n k)%Q) by exact (frac_average M n k Wk Dk). unfold close in *. now rewrite Ef in C.
Qed.
Lemma minterms_close k v : In (k, v) (count_minterms_d f) ->
  exists q, v = DFin q /\ (0 <= q <= 1)%Q /\ (x * density n k - slack n <= q)%Q /\ (q <= y * (density n k + slack n))%Q.
Proof.
  intro H. assert (Hk : In k (reachable f)).
  { destruct (minterms_rec_d_keys (snd f) (fst f) [] closed_nil) as (_ & K).
    assert (In k (keys (count_minterms_d f))) as Hi by (apply in_map_iff; exists (k, v); auto). apply K in Hi as [[]|Hi]. exact Hi. }
  apply minterms_d_in in H. subst v. destruct (close_density k Hk) as (q & -> & C). exists q. split; [reflexivity|exact C].
Qed.
Definition choice_slack (rh k : bool) := if rh then slack_heavy_const x y (slack n) (density n) k else slack_light_const x y (slack n) (density n) k.
Lemma choice_close (rh k : bool) c v t d e ht he (h : asg -> bool) : In (c, Nd v t d e) (reachable f) ->
  (if Bool.eqb rh (minterms_gt (c, t) (xorb c d, e)) then then_const v k he h else else_const v k ht h) ->
  choice_slack rh k v (c, t) (xorb c d, e) ht he h.
Proof.
  intro Hk. assert (Ht : In (c, t) (reachable f)) by (apply (reach_trans f _ _ Hk); apply in_then).
  assert (He : In (xorb c d, e) (reachable f)) by (apply (reach_trans f _ _ Hk); apply in_else).
  unfold minterms_gt, choice_slack, slack_heavy_const, slack_light_const.
  destruct (close_density _ Ht) as (q & -> & _ & Q1 & Q2). destruct (close_density _ He) as (q' & -> & _ & Q1' & Q2').
  rewrite dgtb_fin. destruct (qgtb q q') eqn:G; [apply qgtb_true in G|apply qgtb_false in G]; destruct rh; cbn [Bool.eqb]; intro C.
  - left. split; [lra|exact C].
  - right. split; [lra|exact C].
  - right. split; [lra|exact C].
  - left. split; [lra|exact C].
Qed.
Lemma any_close ls le rh sub : exists r, round_any_d M f ls le rh sub = Ok r /\ at_range ls le (choice_slack rh (negb sub)) f (ev r).
Proof.
  unfold round_any_d.
  destruct (remove_d_rcg M minterms_gt ls le rh sub (count_minterms_d f) (snd f) (minterms_gt_ok f) (fst f) [] (minterms_full f) ltac:(intros ? ? [])) as (m1 & -> & _).
  cbn [bind]. eexists. split; [reflexivity|].
  match goal with |- at_range _ _ ?N _ _ => pose proof (rcg_shape M minterms_gt ls le rh sub N (snd f) (fst f)) as H end.
  rewrite edge_eta in H. apply H. intros c v t d e ht he h Hk HC. exact (choice_close rh (negb sub) c v t d e ht he h Hk HC).
Qed.
Lemma operators_close ls le :
  (exists r, subset_light_child_d M f ls le = Ok r /\ at_range ls le (slack_light_const x y (slack n) (density n) false) f (ev r))
  /\ (exists r, subset_heavy_child_d M f ls le = Ok r /\ at_range ls le (slack_heavy_const x y (slack n) (density n) false) f (ev r))
  /\ (exists r, superset_light_child_d M f ls le = Ok r /\ at_range ls le (slack_light_const x y (slack n) (density n) true) f (ev r))
  /\ (exists r, superset_heavy_child_d M f ls le = Ok r /\ at_range ls le (slack_heavy_const x y (slack n) (density n) true) f (ev r)).
Proof.
  split; [exact (any_close ls le false true)|]. split; [exact (any_close ls le true true)|]. split; [exact (any_close ls le false false)|exact (any_close ls le true false)].
Qed.
End Choice.
