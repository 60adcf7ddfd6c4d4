(** Doubles without overflow and underflow are the rounded rationals *)
From Coq Require Import List Bool Arith ZArith QArith Qabs Qround Lia Lqa.
From Verif Require Import Res Cudd CuddFacts Spec SpecFacts SpecFloat Float FloatFacts Helpers HelpersFacts HelpersFacts2 Counting AddFacts CountFacts
  Metrics MetricsFacts Operators OperatorFacts Rounded LevelFacts RoundedFacts RoundedAverageFacts RoundedMinimizeFacts2 RoundedRel Ieee.
Import ListNotations.
Open Scope nat_scope.

Notation r53 := (round_float 53).
Lemma r53_near : rounds_to_nearest 53 r53. Proof. apply rounds_float. lia. Qed.
Lemma float_0 : float_number 53 0.
Proof. exists 0%Z, 0%Z. split; [rewrite Z.abs_0; apply Z.pow_nonneg; lia|reflexivity]. Qed.
Lemma r53_le x g : float_number 53 g -> (x <= g)%Q -> (r53 x <= g)%Q.
Proof. apply near_le. intro y. apply r53_near. Qed.
Lemma r53_ge x g : float_number 53 g -> (g <= x)%Q -> (g <= r53 x)%Q.
Proof. apply near_ge. intro y. apply r53_near. Qed.
Lemma r53_multiple j x : (0 <= x)%Q -> multiple j x -> multiple j (r53 x).
Proof. exact (rnd_multiple 53 r53 ltac:(lia) r53_near j x). Qed.

(** a multiple of 2^j between 0 and 2^k *)
Definition grid_number (j k : Z) (x : Q) : Prop := multiple j x /\ (0 <= x <= 2 ^ k)%Q.
Lemma multiple_low j x : multiple j x -> (0 <= x)%Q -> ~ (x == 0)%Q -> (2 ^ j <= x)%Q.
Proof.
  intros (z & E) P N. assert (Z1 : (1 <= z)%Z).
  { destruct (Z_lt_le_dec z 1) as [L|L]; auto. exfalso. pose proof (p2_pos j) as P2.
    assert (Z0 : (z <> 0)%Z) by (intros ->; apply N; rewrite E; change (inject_Z 0) with 0%Q; ring).
    assert (ZQ : (inject_Z z <= -1)%Q) by (change (-1)%Q with (inject_Z (-1)); rewrite <- Zle_Qle; lia).
    rewrite E in P. nra. }
  rewrite E. assert (ZQ : (1 <= inject_Z z)%Q) by (change 1%Q with (inject_Z 1); rewrite <- Zle_Qle; lia).
  pose proof (p2_pos j). nra.
Qed.
Lemma exponent_low j x : (0 < x)%Q -> (2 ^ j <= x)%Q -> (j <= binary_exponent x)%Z.
Proof.
  intros P L. destruct (binary_exponent_spec x P) as [_ U]. destruct (Z.le_gt_cases j (binary_exponent x)) as [|G]; auto. exfalso.
  pose proof (p2_mono (binary_exponent x + 1) j ltac:(lia)). lra.
Qed.
Lemma p2_lt a b : (a < b)%Z -> (2 ^ a < 2 ^ b)%Q.
Proof. intro H. pose proof (p2_mono (a + 1) b ltac:(lia)) as K. rewrite p2_succ in K. pose proof (p2_pos a). lra. Qed.
Lemma to_double_grid j k x : grid_number j k x -> (-1022 <= j)%Z -> (k < 1024)%Z -> to_double x = DFin (r53 x).
Proof.
  intros (Mu & P0 & Pk) Hj Hk. unfold to_double.
  assert (S : negb (Qeq_bool x 0) && (binary_exponent (Qabs x) <? -1022)%Z = false).
  { destruct (Qeq_bool x 0) eqn:E; [reflexivity|]. apply Qeq_bool_neq in E. cbn [negb andb]. apply Z.ltb_ge.
    pose proof (multiple_low j x Mu P0 E) as L. pose proof (p2_pos j) as PJ.
    assert (A : (Qabs x == x)%Q) by (apply Qabs_pos; exact P0).
    pose proof (exponent_low j (Qabs x) ltac:(lra) ltac:(lra)). lia. }
  rewrite S. clear S.
  assert (U : (r53 x <= 2 ^ k)%Q) by (apply r53_le; [exact (float_p2 53 ltac:(lia) k)|exact Pk]).
  assert (L : (0 <= r53 x)%Q) by (apply r53_ge; [exact float_0|exact P0]).
  pose proof (p2_lt k 1024 Hk) as K. pose proof (p2_pos 1024) as P. set (B := (2 ^ 1024)%Q) in *. clearbody B.
  assert (T1 : Qle_bool B (r53 x) = false) by (apply not_true_is_false; rewrite Qle_bool_iff; lra).
  assert (T2 : Qle_bool (r53 x) (- B) = false) by (apply not_true_is_false; rewrite Qle_bool_iff; lra).
  now rewrite T1, T2.
Qed.
Lemma grid_round j k x : grid_number j k x -> grid_number j k (r53 x).
Proof.
  intros (Mu & P0 & Pk). split; [now apply r53_multiple|]. split; [apply r53_ge; [exact float_0|auto]|].
  apply r53_le; [exact (float_p2 53 ltac:(lia) k)|exact Pk].
Qed.
Lemma multiple_eq j x y : (x == y)%Q -> multiple j x -> multiple j y.
Proof. intros E (z & H). exists z. now rewrite <- E. Qed.
Lemma grid_half j k x : grid_number j k x -> grid_number (j - 1) (k - 1) (x / 2).
Proof.
  intros (Mu & P0 & Pk). assert (E : (x * (1 # 2) == x / 2)%Q) by (field; discriminate).
  split; [apply (multiple_eq _ _ _ E); now apply multiple_half|].
  pose proof (p2_succ (k - 1)) as S1. replace (k - 1 + 1)%Z with k in S1 by lia. rewrite <- E. lra.
Qed.
Lemma grid_plus j k x y : grid_number j k x -> grid_number j k y -> grid_number j (k + 1) (x + y).
Proof. intros (M1 & P1) (M2 & P2). split; [now apply multiple_plus|]. rewrite p2_succ. lra. Qed.
Lemma grid_lower i j k x : (i <= j)%Z -> grid_number j k x -> grid_number i k x.
Proof. intros L (Mu & P). split; [now apply (multiple_le i j)|auto]. Qed.
Lemma grid_upper i j k x : (j <= k)%Z -> grid_number i j x -> grid_number i k x.
Proof. intros L (Mu & P). split; auto. pose proof (p2_mono j k L). lra. Qed.

(** ** count_minterms *)
Lemma fracn_fl_grid n : forall c, grid_number (- Z.of_nat (height n)) 0 (fracn_fl r53 n c).
Proof.
  induction n as [|v t IHt d e IHe]; intro c; cbn [fracn_fl height].
  - destruct c; split; try (split; vm_compute; discriminate); [exists 0%Z|exists 1%Z]; reflexivity.
  - apply grid_round. set (h := Nat.max (height t) (height e)).
    assert (Ht : grid_number (- Z.of_nat h) 0 (fracn_fl r53 t c)) by (apply (grid_lower _ (- Z.of_nat (height t))); [lia|apply IHt]).
    assert (He : grid_number (- Z.of_nat h) 0 (fracn_fl r53 e (xorb c d))) by (apply (grid_lower _ (- Z.of_nat (height e))); [lia|apply IHe]).
    apply grid_half, grid_round in Ht. apply grid_half, grid_round in He.
    pose proof (grid_plus _ _ _ _ Ht He) as P. replace (- Z.of_nat (S h))%Z with (- Z.of_nat h - 1)%Z by lia. exact P.
Qed.

Definition dmap (m : bmap Q) : bmap dbl := map (fun p => (fst p, DFin (snd p))) m.
Lemma dmap_lookup k m : blookup k (dmap m) = option_map DFin (blookup k m).
Proof.
  unfold blookup, dmap. induction m as [|[k' v] m IH]; cbn [map find fst snd]; [reflexivity|]. now destruct (bdd_eqb k' k).
Qed.
Lemma ddiv_2 x : ddiv (DFin x) (DFin 2) = to_double (x / 2).
Proof. reflexivity. Qed.
Lemma minterms_rec_d_same n : height n <= 1022 -> forall c m, good_mapL (frac_fl r53) m ->
  count_minterms_rec_d n c (dmap m) = let '(v, m') := count_minterms_rec_fl r53 n c m in (DFin v, dmap m').
Proof.
  induction n as [|x t IHt d e IHe]; intros Hh c m G; cbn [count_minterms_rec_d count_minterms_rec_fl]; rewrite dmap_lookup.
  - destruct (blookup (c, One) m) as [v|]; cbn [option_map]; reflexivity.
  - destruct (blookup (c, Nd x t d e) m) as [v|]; cbn [option_map]; [reflexivity|].
    cbn [height] in Hh. pose proof (minterms_rec_fl_spec r53 t c m G) as St. rewrite (IHt ltac:(lia) c m G).
    destruct (count_minterms_rec_fl r53 t c m) as [hr m1]. destruct St as (-> & G1 & _).
    pose proof (minterms_rec_fl_spec r53 e (xorb c d) m1 G1) as Se. rewrite (IHe ltac:(lia) (xorb c d) m1 G1).
    destruct (count_minterms_rec_fl r53 e (xorb c d) m1) as [lr m2]. destruct Se as (-> & G2 & _).
    unfold frac_fl. cbn [fst snd].
    set (h := Nat.max (height t) (height e)) in *.
    assert (Ht : grid_number (- Z.of_nat h) 0 (fracn_fl r53 t c)) by (apply (grid_lower _ (- Z.of_nat (height t))); [lia|apply fracn_fl_grid]).
    assert (He : grid_number (- Z.of_nat h) 0 (fracn_fl r53 e (xorb c d))) by (apply (grid_lower _ (- Z.of_nat (height e))); [lia|apply fracn_fl_grid]).
    apply grid_half in Ht. apply grid_half in He. rewrite !ddiv_2.
    rewrite (to_double_grid _ _ _ Ht ltac:(lia) ltac:(lia)), (to_double_grid _ _ _ He ltac:(lia) ltac:(lia)). cbn [dadd].
    apply grid_round in Ht. apply grid_round in He. pose proof (grid_plus _ _ _ _ Ht He) as P.
    rewrite (to_double_grid _ _ _ P ltac:(lia) ltac:(lia)). reflexivity.
Qed.
Lemma minterms_d_same f : height (snd f) <= 1022 -> count_minterms_d f = dmap (count_minterms_fl r53 f).
Proof.
  intro H. unfold count_minterms_d, count_minterms_fl. pose proof (minterms_rec_d_same (snd f) H (fst f) [] (good_mapL_nil _)) as E.
  change (dmap []) with (@nil (bdd * dbl)) in E. rewrite E. now destruct (count_minterms_rec_fl r53 (snd f) (fst f) []).
Qed.

(** ** the operators *)
Lemma dmap_at k m : bmap_at (dmap m) k = match bmap_at m k with Ok v => Ok (DFin v) | UB => UB | Throw => Throw | Abort => Abort end.
Proof. unfold bmap_at. rewrite dmap_lookup. now destruct (blookup k m). Qed.
Lemma dgtb_fin a b : dgtb (DFin a) (DFin b) = qgtb a b. Proof. reflexivity. Qed.
Lemma remove_d_same M n : forall c ls le mc m rh sub,
  remove_children_rec_d M n c ls le (dmap mc) m rh sub = remove_children_rec M n c ls le mc m rh sub.
Proof.
  induction n as [|v t IHt d e IHe]; intros c ls le mc m rh sub; cbn [remove_children_rec_d remove_children_rec]; [reflexivity|].
  destruct (blookup (c, Nd v t d e) m); [reflexivity|]. destruct (v <? ls).
  { rewrite IHt. destruct (remove_children_rec M t c ls le mc m rh sub) as [[tb m1]| | |]; cbn [bind]; try reflexivity. now rewrite IHe. }
  destruct (v <=? le); [|reflexivity]. rewrite !dmap_at. destruct (bmap_at mc (c, t)) as [tc| | |]; cbn [bind]; try reflexivity.
  destruct (bmap_at mc (xorb c d, e)) as [ec| | |]; cbn [bind]; try reflexivity. rewrite dgtb_fin.
  destruct (Bool.eqb rh (qgtb tc ec)); [now rewrite IHe|now rewrite IHt].
Qed.
Lemma round_d_same M n : forall c ls mc m, round_rec_d M n c ls (dmap mc) m = round_rec M n c ls mc m.
Proof.
  induction n as [|v t IHt d e IHe]; intros c ls mc m; cbn [round_rec_d round_rec]; [reflexivity|].
  destruct (blookup (c, Nd v t d e) m); [reflexivity|]. destruct (v <? ls).
  { rewrite IHt. destruct (round_rec M t c ls mc m) as [[tb m1]| | |]; cbn [bind]; try reflexivity. now rewrite IHe. }
  rewrite dmap_lookup. now destruct (blookup (c, Nd v t d e) mc).
Qed.
Definition unit_map (mc : bmap Q) : Prop := forall k v, In (k, v) mc -> grid_number (-1022) 0 v.
Lemma grid_complement x : grid_number (-1022) 0 x -> grid_number (-1022) 0 (1 - x).
Proof.
  intros ((z & E) & P0 & P1). split.
  - exists (2 ^ 1022 - z)%Z. unfold Z.sub. rewrite inject_Z_plus, inject_Z_opp, <- (p2_inj 1022) by lia.
    assert (I : (2 ^ 1022 * 2 ^ (-1022) == 1)%Q) by (rewrite <- p2_add; reflexivity).
    set (a := (2 ^ 1022)%Q) in *. set (b := (2 ^ (-1022))%Q) in *. clearbody a b. rewrite E, <- I. ring.
  - change (2 ^ 0)%Q with 1%Q in *. lra.
Qed.
Lemma dsub_1 x : grid_number (-1022) 0 x -> dsub (DFin 1) (DFin x) = DFin (r53 (1 - x)).
Proof. intro G. cbn [dsub dneg dadd]. exact (to_double_grid _ _ _ (grid_complement x G) ltac:(lia) ltac:(lia)). Qed.
Lemma at_unit mc k v : unit_map mc -> bmap_at mc k = Ok v -> grid_number (-1022) 0 v.
Proof. intros U H. unfold bmap_at in H. destruct (blookup k mc) as [x|] eqn:E; [|discriminate]. injection H as <-. apply blookup_some in E. eauto. Qed.
Lemma best_d_same M n : forall c ls le mc m, unit_map mc ->
  round_best_rec_d M n c ls le (dmap mc) m = round_best_rec_fl r53 M n c ls le mc m.
Proof.
  induction n as [|v t IHt d e IHe]; intros c ls le mc m U; cbn [round_best_rec_d round_best_rec_fl]; [reflexivity|].
  destruct (blookup (c, Nd v t d e) m); [reflexivity|]. destruct (v <? ls).
  { rewrite IHt by exact U. destruct (round_best_rec_fl r53 M t c ls le mc m) as [[tb m1]| | |]; cbn [bind]; try reflexivity. now rewrite IHe. }
  destruct (v <=? le); [|reflexivity]. rewrite !dmap_at. destruct (bmap_at mc (c, t)) as [tc| | |] eqn:Et; cbn [bind]; try reflexivity.
  destruct (bmap_at mc (xorb c d, e)) as [ec| | |] eqn:Ee; cbn [bind]; try reflexivity.
  rewrite (dsub_1 ec (at_unit _ _ _ U Ee)), (dsub_1 tc (at_unit _ _ _ U Et)), !dgtb_fin.
  destruct (_ && _); [now rewrite IHe|]. destruct (_ && _); [now rewrite IHt|]. destruct (_ && _); [now rewrite IHe|].
  destruct (_ && _); [now rewrite IHt|]. reflexivity.
Qed.
Lemma minterms_unit f : height (snd f) <= 1022 -> unit_map (count_minterms_fl r53 f).
Proof.
  intros H k v Hk. destruct (minterms_fl_map r53 f) as [(G1 & _ & _) K].
  assert (R : In k (reachable f)) by (apply K; apply in_map_iff; exists (k, v); auto).
  rewrite (G1 k v Hk). unfold frac_fl.
  apply (grid_lower _ (- Z.of_nat (height (snd k)))); [|apply fracn_fl_grid].
  assert (L : height (snd k) <= height (snd f)); [|lia]. clear - R. unfold reachable in R. destruct f as [c n]. cbn [fst snd] in R. cbn [snd].
  revert c R. induction n as [|v t IHt d e IHe]; intros c R; cbn [edges] in R; destruct R as [<-|R]; cbn [snd height]; [lia|destruct R|cbn; lia|].
  apply in_app_or in R. destruct R as [R|R]; [apply IHt in R|apply IHe in R]; cbn [height]; lia.
Qed.
Lemma operators_d_same M n f l ls le : wf M f -> depends_below n f -> n <= 1022 ->
  subset_light_child_d M f ls le = subset_light_child_fl r53 M f ls le
  /\ subset_heavy_child_d M f ls le = subset_heavy_child_fl r53 M f ls le
  /\ superset_light_child_d M f ls le = superset_light_child_fl r53 M f ls le
  /\ superset_heavy_child_d M f ls le = superset_heavy_child_fl r53 M f ls le
  /\ round_bdd_d M f l = round_bdd_fl r53 M f l
  /\ round_best_d M f ls le = round_best_fl r53 M f ls le.
Proof.
  intros W D L. pose proof (height_below M n f W D) as H. assert (H2 : height (snd f) <= 1022) by lia.
  assert (A : forall rh sub, round_any_d M f ls le rh sub = round_any_fl r53 M f ls le rh sub).
  { intros rh sub. unfold round_any_d, round_any_fl. now rewrite (minterms_d_same f H2), remove_d_same. }
  repeat split; try apply A.
  - unfold round_bdd_d, round_bdd_fl. now rewrite (minterms_d_same f H2), round_d_same.
  - unfold round_best_d, round_best_fl. now rewrite (minterms_d_same f H2), best_d_same by (now apply minterms_unit).
Qed.
