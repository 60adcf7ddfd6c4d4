(** Doubles without overflow and underflow, continued: count_solutions, random_satisfying_input *)
From Coq Require Import List Bool Arith ZArith QArith Qabs Qround Lia Lqa.
From Verif Require Import Res Cudd CuddFacts Spec SpecFacts SpecFloat Float FloatFacts Helpers HelpersFacts HelpersFacts2 Counting AddFacts CountFacts
  Metrics MetricsFacts Operators OperatorFacts Rounded LevelFacts RoundedFacts RoundedAverageFacts RoundedMinimizeFacts2 RoundedRel Ieee IeeeFacts.
Import ListNotations.
Open Scope nat_scope.

Lemma grid_times j k e x : (0 <= e)%Z -> grid_number j k x -> grid_number j (k + e) (x * inject_Z (2 ^ e)).
Proof.
  intros He ((z & E) & P). split.
  - exists (z * 2 ^ e)%Z. rewrite E, inject_Z_mult. ring.
  - rewrite p2_add, (p2_inj e He). assert (Q0 : (0 <= inject_Z (2 ^ e))%Q) by (change 0%Q with (inject_Z 0); rewrite <- Zle_Qle; apply Z.pow_nonneg; lia). nra.
Qed.
Lemma pow_levels_fin a b : b < a -> pow_levels a b = inject_Z (2 ^ (Z.of_nat a - Z.of_nat b - 1)).
Proof. intro H. unfold pow_levels. destruct (Z.of_nat a - Z.of_nat b - 1 <? 0)%Z eqn:E; [apply Z.ltb_lt in E; lia|reflexivity]. Qed.
Lemma dpow_levels_fin a b : b < a -> a <= 1024 -> dpow_levels a b = DFin (pow_levels a b).
Proof.
  intros H L. rewrite pow_levels_fin by exact H. unfold dpow_levels. rewrite Z.mod_small by lia. unfold dpow2.
  destruct (1024 <=? Z.of_nat a - Z.of_nat b - 1)%Z eqn:E; [apply Z.leb_le in E; lia|reflexivity].
Qed.
Section Solutions.
Variable M : mgr.
Hypothesis HI : index_order M.
Variable T : nat.
Lemma levels_step v t d e lvl : okn M lvl (Nd v t d e) -> (forall i, In i (varsn (Nd v t d e)) -> i < T) ->
  v < T /\ okn M (S v) t /\ okn M (S v) e /\ (forall i, In i (varsn t) -> i < T) /\ (forall i, In i (varsn e) -> i < T)
  /\ v < node_level t T <= T /\ v < node_level e T <= T.
Proof.
  intros Hok Hv. cbn [okn] in Hok. rewrite HI in Hok. destruct Hok as (H1 & H2 & H3 & _).
  assert (Lv : v < T) by (apply Hv; now left).
  assert (Vt : forall i, In i (varsn t) -> i < T) by (intros; apply Hv; right; apply in_or_app; auto).
  assert (Ve : forall i, In i (varsn e) -> i < T) by (intros; apply Hv; right; apply in_or_app; auto).
  destruct (sols_frac M T t HI (S v) false H2 ltac:(lia) Vt) as [Lt _].
  destruct (sols_frac M T e HI (S v) false H3 ltac:(lia) Ve) as [Le _].
  assert (Nt : node_level t T <= T) by (destruct t; cbn [node_level]; [lia|apply Nat.lt_le_incl, Vt; now left]).
  assert (Ne : node_level e T <= T) by (destruct e; cbn [node_level]; [lia|apply Nat.lt_le_incl, Ve; now left]).
  repeat split; auto; lia.
Qed.
Lemma child_grid v n c : v < node_level n T <= T -> grid_number 0 (Z.of_nat T - Z.of_nat (node_level n T)) (sols_fl r53 T n c) ->
  grid_number 0 (Z.of_nat T - Z.of_nat v - 1) (sols_fl r53 T n c * pow_levels (node_level n T) v).
Proof.
  intros L G. rewrite pow_levels_fin by lia. pose proof (grid_times _ _ (Z.of_nat (node_level n T) - Z.of_nat v - 1) _ ltac:(lia) G) as G'.
  replace (Z.of_nat T - Z.of_nat v - 1)%Z with (Z.of_nat T - Z.of_nat (node_level n T) + (Z.of_nat (node_level n T) - Z.of_nat v - 1))%Z by lia. exact G'.
Qed.
Lemma sols_fl_grid n : forall lvl c, okn M lvl n -> (forall i, In i (varsn n) -> i < T) ->
  grid_number 0 (Z.of_nat T - Z.of_nat (node_level n T)) (sols_fl r53 T n c).
Proof.
  induction n as [|v t IHt d e IHe]; intros lvl c Hok Hv.
  - cbn [node_level sols_fl]. rewrite Z.sub_diag. change (2 ^ 0)%Q with 1%Q.
    destruct c; (split; [|split; vm_compute; discriminate]); [exists 0%Z|exists 1%Z]; reflexivity.
  - destruct (levels_step v t d e lvl Hok Hv) as (Lv & H2 & H3 & Vt & Ve & Lt & Le). cbn [node_level sols_fl]. apply grid_round.
    pose proof (grid_round _ _ _ (child_grid v t c Lt (IHt _ _ H2 Vt))) as G1.
    pose proof (grid_round _ _ _ (child_grid v e (xorb c d) Le (IHe _ _ H3 Ve))) as G2.
    pose proof (grid_plus _ _ _ _ G1 G2) as G. replace (Z.of_nat T - Z.of_nat v - 1 + 1)%Z with (Z.of_nat T - Z.of_nat v)%Z in G by lia. exact G.
Qed.
Lemma solutions_rec_d_same n : T <= 1023 -> forall lvl c m, okn M lvl n -> (forall i, In i (varsn n) -> i < T) -> good_mapL (solw_fl r53 T) m ->
  count_solutions_rec_d n c (dmap m) T = let '(v, m') := count_solutions_rec_fl r53 n c m T in (DFin v, dmap m').
Proof.
  intro HT. induction n as [|v t IHt d e IHe]; intros lvl c m Hok Hv G; cbn [count_solutions_rec_d count_solutions_rec_fl]; rewrite dmap_lookup.
  - destruct (blookup (c, One) m) as [w|]; cbn [option_map]; reflexivity.
  - destruct (levels_step v t d e lvl Hok Hv) as (Lv & H2 & H3 & Vt & Ve & Lt & Le).
    destruct (blookup (c, Nd v t d e) m) as [w|]; cbn [option_map]; [reflexivity|].
    pose proof (solutions_rec_fl_spec r53 T t c m G) as St. rewrite (IHt _ c m H2 Vt G).
    destruct (count_solutions_rec_fl r53 t c m T) as [hr m1]. destruct St as (-> & G1 & _).
    pose proof (solutions_rec_fl_spec r53 T e (xorb c d) m1 G1) as Se. rewrite (IHe _ (xorb c d) m1 H3 Ve G1).
    destruct (count_solutions_rec_fl r53 e (xorb c d) m1 T) as [lr m2]. destruct Se as (-> & G2 & _).
    unfold solw_fl. cbn [fst snd]. rewrite !dpow_levels_fin by lia. cbn [dmul].
    pose proof (child_grid v t c Lt (sols_fl_grid t _ _ H2 Vt)) as D1. pose proof (child_grid v e (xorb c d) Le (sols_fl_grid e _ _ H3 Ve)) as D2.
    rewrite (to_double_grid _ _ _ D1 ltac:(lia) ltac:(lia)), (to_double_grid _ _ _ D2 ltac:(lia) ltac:(lia)). cbn [dadd].
    apply grid_round in D1. apply grid_round in D2. rewrite (to_double_grid _ _ _ (grid_plus _ _ _ _ D1 D2) ltac:(lia) ltac:(lia)). reflexivity.
Qed.
End Solutions.
Lemma solutions_d_same M f T : index_order M -> wf M f -> levels_of [f] T -> T <= 1023 -> count_solutions_d f = dmap (count_solutions_fl r53 f).
Proof.
  intros HI W L HT. pose proof (levels_of_terminal [f] T L) as ET. unfold count_solutions_d, count_solutions_fl. rewrite <- ET.
  assert (Hv : forall i, In i (varsn (snd f)) -> i < T) by (intros i Hi; rewrite ET; apply (terminal_level_gt [[f]] [f] f i); cbn; auto).
  pose proof (solutions_rec_d_same M HI T (snd f) HT 0 (fst f) [] W Hv (good_mapL_nil _)) as E.
  change (dmap []) with (@nil (bdd * dbl)) in E. rewrite E. now destruct (count_solutions_rec_fl r53 (snd f) (fst f) [] T).
Qed.
Lemma round_ud_d_same M f T ls le : index_order M -> wf M f -> levels_of [f] T -> T <= 1023 ->
  round_up_d M f ls le = round_up_fl r53 M f ls le /\ round_down_d M f ls le = round_down_fl r53 M f ls le.
Proof.
  intros HI W L HT. unfold round_up_d, round_down_d, round_up_fl, round_down_fl.
  rewrite (solutions_d_same M f T HI W L HT), !remove_d_same. auto.
Qed.

(** ** random_satisfying_input *)
Lemma to_double_range k x : (0 <= x <= 2 ^ k)%Q -> (x == 0 \/ 2 ^ (-1022) <= x)%Q -> (k < 1024)%Z -> to_double x = DFin (r53 x).
Proof.
  intros (P0 & Pk) Z Hk. unfold to_double.
  assert (S : negb (Qeq_bool x 0) && (binary_exponent (Qabs x) <? -1022)%Z = false).
  { destruct (Qeq_bool x 0) eqn:E; [reflexivity|]. apply Qeq_bool_neq in E. cbn [negb andb]. apply Z.ltb_ge.
    destruct Z as [Z|Z]; [contradiction|]. pose proof (p2_pos (-1022)) as PJ.
    assert (A : (Qabs x == x)%Q) by (apply Qabs_pos; exact P0). set (b := (2 ^ (-1022))%Q) in *.
    apply exponent_low; fold b; clearbody b; lra. }
  rewrite S. clear S.
  assert (U : (r53 x <= 2 ^ k)%Q) by (apply r53_le; [exact (float_p2 53 ltac:(lia) k)|exact Pk]).
  assert (L : (0 <= r53 x)%Q) by (apply r53_ge; [exact float_0|exact P0]).
  pose proof (p2_lt k 1024 Hk) as K. pose proof (p2_pos 1024) as P. set (B := (2 ^ 1024)%Q) in *. clearbody B.
  assert (T1 : Qle_bool B (r53 x) = false) by (apply not_true_is_false; rewrite Qle_bool_iff; lra).
  assert (T2 : Qle_bool (r53 x) (- B) = false) by (apply not_true_is_false; rewrite Qle_bool_iff; lra).
  now rewrite T1, T2.
Qed.
Lemma quotient_range a b x y : (0 <= x)%Q -> (x == 0 \/ 2 ^ a <= x)%Q -> (0 < y <= 2 ^ b)%Q -> (x / y == 0 \/ 2 ^ (a - b) <= x / y)%Q.
Proof.
  intros X0 [E|L] (Y0 & Y1); [left; rewrite E; field; lra|right]. apply Qle_shift_div_l; [exact Y0|].
  pose proof (p2_pos (a - b)) as P. assert (E : (2 ^ (a - b) * 2 ^ b == 2 ^ a)%Q) by (rewrite <- p2_add; replace (a - b + b)%Z with a by lia; reflexivity). nra.
Qed.
Lemma grid_zero_or j k x : grid_number j k x -> (x == 0 \/ 2 ^ j <= x)%Q.
Proof.
  intros (Mu & P). destruct (Qeq_bool x 0) eqn:E; [left; now apply Qeq_bool_iff|right]. apply Qeq_bool_neq in E. apply multiple_low; auto. apply P.
Qed.
Lemma draw_d d rand_max : (0 <= d <= rand_max)%Z -> (0 < rand_max <= 2 ^ 53)%Z ->
  ddiv (DFin (inject_Z d)) (DFin (inject_Z rand_max)) = DFin (r53 (inject_Z d / inject_Z rand_max)).
Proof.
  intros D R. assert (R0 : (0 < inject_Z rand_max)%Q) by (change 0%Q with (inject_Z 0); rewrite <- Zlt_Qlt; lia).
  assert (D0 : (0 <= inject_Z d)%Q) by (change 0%Q with (inject_Z 0); rewrite <- Zle_Qle; lia).
  assert (DR : (inject_Z d <= inject_Z rand_max)%Q) by (rewrite <- Zle_Qle; lia).
  assert (R1 : (inject_Z rand_max <= 2 ^ 53)%Q) by (rewrite (p2_inj 53) by lia; rewrite <- Zle_Qle; lia).
  unfold ddiv. assert (N : Qeq_bool (inject_Z rand_max) 0 = false) by (apply not_true_is_false; rewrite Qeq_bool_iff; lra). rewrite N.
  apply (to_double_range 0); [split|..]; [| |auto|lia].
  - apply Qle_shift_div_l; lra.
  - apply Qle_shift_div_r; [lra|]. change (2 ^ 0)%Q with 1%Q. lra.
  - assert (DZ : (inject_Z d == 0 \/ 2 ^ 0 <= inject_Z d)%Q).
    { destruct (Z.eq_dec d 0) as [->|]; [left; reflexivity|right]. change (2 ^ 0)%Q with (inject_Z 1). rewrite <- Zle_Qle. lia. }
    destruct (quotient_range 0 53 _ _ D0 DZ (conj R0 R1)) as [Q|Q]; [now left|right]. pose proof (p2_mono (-1022) (0 - 53) ltac:(lia)) as P.
    eapply Qle_trans; [exact P|exact Q].
Qed.
Lemma ratio_d j tw ew : (-1021 <= j)%Z -> grid_number j 0 tw -> grid_number j 0 ew ->
  ddiv (DFin tw) (dadd (DFin tw) (DFin ew)) =
  if Qeq_bool (r53 (tw + ew)) 0 then (if Qeq_bool tw 0 then DNaN else DInf (negative tw)) else DFin (r53 (tw / r53 (tw + ew))).
Proof.
  intros J Gt Ge. cbn [dadd]. pose proof (grid_plus _ _ _ _ Gt Ge) as Gs. rewrite (to_double_grid _ _ _ Gs ltac:(lia) ltac:(lia)).
  apply grid_round in Gs. cbn [ddiv]. destruct (Qeq_bool (r53 (tw + ew)) 0) eqn:E; [reflexivity|]. apply Qeq_bool_neq in E.
  destruct (grid_zero_or _ _ _ Gs) as [|L]; [contradiction|]. destruct Gs as (_ & S0 & S1). pose proof (p2_pos j) as PJ.
  set (s := r53 (tw + ew)) in *. clearbody s. destruct Gt as (Mt & T0 & T1).
  assert (SP : (0 < s)%Q) by lra.
  apply (to_double_range (- j)); [split| |lia].
  - apply Qle_shift_div_l; [exact SP|lra].
  - apply Qle_shift_div_r; [exact SP|]. change (2 ^ 0)%Q with 1%Q in T1.
    assert (I : (2 ^ (- j) * 2 ^ j == 1)%Q) by (rewrite <- p2_add; replace (- j + j)%Z with 0%Z by lia; reflexivity). pose proof (p2_pos (- j)). nra.
  - assert (TZ : (tw == 0 \/ 2 ^ j <= tw)%Q) by (apply (grid_zero_or j 0); split; auto).
    destruct (quotient_range j 1 _ _ T0 TZ (conj SP S1)) as [Q|Q]; [now left|right].
    pose proof (p2_mono (-1022) (j - 1) ltac:(lia)) as P. eapply Qle_trans; [exact P|exact Q].
Qed.
Definition height_map (mc : bmap Q) : Prop := forall k v, In (k, v) mc -> grid_number (- Z.of_nat (height (snd k))) 0 v.
Lemma rsi_d_same rand_max mc T : height_map mc -> (0 < rand_max <= 2 ^ 53)%Z -> forall n level c nd draws, height nd <= 1022 ->
  Forall (fun d => 0 <= d <= rand_max)%Z draws ->
  rsi_loop_d rand_max (dmap mc) T n level c nd draws = rsi_loop_fl r53 rand_max mc T n level c nd draws.
Proof.
  intros HM HR. induction n as [|n IH]; intros level c nd draws Hh F; cbn [rsi_loop_d rsi_loop_fl]; [reflexivity|].
  destruct draws as [|d draws]; [reflexivity|]. inversion F as [|? ? D F']; subst. destruct (level <? node_level nd T); [now rewrite IH|].
  destruct nd as [|v t b e]; [reflexivity|]. cbn [height] in Hh. rewrite !dmap_at.
  destruct (bmap_at mc (c, t)) as [tw| | |] eqn:Et; cbn [bind]; try reflexivity.
  destruct (bmap_at mc (xorb c b, e)) as [ew| | |] eqn:Ee; cbn [bind]; try reflexivity.
  unfold bmap_at in Et, Ee. destruct (blookup (c, t) mc) eqn:Lt; [|discriminate]. injection Et as ->.
  destruct (blookup (xorb c b, e) mc) eqn:Le; [|discriminate]. injection Ee as ->.
  apply blookup_some in Lt. apply blookup_some in Le. apply HM in Lt. apply HM in Le. cbn [snd] in Lt, Le.
  set (h := Nat.max (height t) (height e)) in *.
  apply (grid_lower (- Z.of_nat h)) in Lt; [|lia]. apply (grid_lower (- Z.of_nat h)) in Le; [|lia].
  rewrite (draw_d d rand_max D HR), (ratio_d (- Z.of_nat h) tw ew ltac:(lia) Lt Le).
  assert (X : dleb (DFin (r53 (inject_Z d / inject_Z rand_max)))
      (if Qeq_bool (r53 (tw + ew)) 0 then if Qeq_bool tw 0 then DNaN else DInf (negative tw) else DFin (r53 (tw / r53 (tw + ew))))
      = le_ratio_fl r53 d rand_max tw ew).
  { unfold le_ratio_fl. destruct (Qeq_bool (r53 (tw + ew)) 0) eqn:E; [|reflexivity].
    assert (Z : Qeq_bool tw 0 = true); [|now rewrite Z]. apply Qeq_bool_iff. apply Qeq_bool_iff in E.
    destruct (grid_zero_or _ _ _ Lt) as [|L]; [auto|]. exfalso. destruct Le as (_ & E0 & _).
    assert (L2 : (2 ^ (- Z.of_nat h) <= r53 (tw + ew))%Q) by (apply r53_ge; [exact (float_p2 53 ltac:(lia) _)|lra]).
    pose proof (p2_pos (- Z.of_nat h)). lra. }
  rewrite X. destruct (le_ratio_fl r53 d rand_max tw ew); rewrite IH by (auto; lia); reflexivity.
Qed.
Lemma minterms_height f : height_map (count_minterms_fl r53 f).
Proof. intros k v Hk. destruct (minterms_fl_map r53 f) as [(G1 & _ & _) _]. rewrite (G1 k v Hk). apply fracn_fl_grid. Qed.
Lemma random_input_d_same M n f rand_max T draws : wf M f -> depends_below n f -> n <= 1022 -> (0 < rand_max <= 2 ^ 53)%Z ->
  Forall (fun d => 0 <= d <= rand_max)%Z draws ->
  random_satisfying_input_d rand_max f (count_minterms_d f) T draws
  = random_satisfying_input_fl r53 rand_max f (count_minterms_fl r53 f) T draws.
Proof.
  intros W D L R F. pose proof (height_below M n f W D) as H. rewrite (minterms_d_same f ltac:(lia)).
  apply rsi_d_same; auto; [apply minterms_height|lia].
Qed.
