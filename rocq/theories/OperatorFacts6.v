(** Proofs about the approximation operators: repeated application and complement. *)
From Coq Require Import List Bool Arith ZArith QArith Lia Lqa.
From Verif Require Import Res Cudd CuddFacts Spec SpecFacts Helpers HelpersFacts HelpersFacts2 Counting AddFacts CountFacts PathFacts MetricsFacts MetricsFacts4 Operators OperatorFacts OperatorFacts2 OperatorFacts3 OperatorFacts4 OrderFacts OperatorFacts5.
Import ListNotations.
Open Scope nat_scope.

(** ** weights *)
Lemma frac_lt_1 M f : wf M f -> f <> bone -> (frac f < 1)%Q.
Proof.
  intros W N. assert (P : (0 < frac (bnot f))%Q).
  { apply (frac_pos M); auto with wf. intro E. apply N. destruct f as [[] n]; unfold bnot, bone, bzero in *; cbn in E; congruence. }
  rewrite frac_not in P. lra.
Qed.
Lemma minterms_weighs0 M f : wf M f -> weighs0 (wt_of (count_minterms f)) (snd f) (fst f).
Proof.
  intros W k Hk. pose proof (edges_wf M (snd f) (fst f) 0 k W Hk) as Wk. pose proof (minterms_wt f k Hk) as E.
  (split; [|split; intro Z]); rewrite E.
  - apply frac_ge_0.
  - now apply (frac_zero_iff M).
  - now apply (frac_pos M).
Qed.
Lemma minterms_weighs1 M f : wf M f -> weighs1 (wt_of (count_minterms f)) (snd f) (fst f).
Proof.
  intros W k Hk. pose proof (edges_wf M (snd f) (fst f) 0 k W Hk) as Wk. pose proof (minterms_wt f k Hk) as E.
  (split; [|split; intro Z]); rewrite E.
  - apply frac_le_1.
  - subst k. reflexivity.
  - now apply (frac_lt_1 M).
Qed.
Lemma solutions_weighs0 M f : index_order M -> wf M f -> weighs0 (wt_of (count_solutions f)) (snd f) (fst f).
Proof.
  intros HI W k Hk. pose proof (edges_wf M (snd f) (fst f) 0 k W Hk) as Wk.
  assert (E : exists p, (0 < p)%Q /\ (wt_of (count_solutions f) k == frac k * p)%Q).
  { pose proof (solutions_wt f k Hk) as E.
    destruct (sols_frac M (terminal_level [[f]]) (snd k) HI 0 (fst k) Wk) as (_ & S1); [lia| |].
    { intros i Hi. apply (terminal_level_gt [[f]] [f] f i); cbn; auto. eapply edges_vars; eauto. }
    pose proof (pow2Q_pos (node_level (snd k) (terminal_level [[f]]))) as P1. pose proof (pow2Q_pos (terminal_level [[f]])) as P2.
    exists (inject_Z (pow2 (terminal_level [[f]])) / inject_Z (pow2 (node_level (snd k) (terminal_level [[f]]))))%Q. split.
    - apply Qlt_shift_div_l; lra.
    - rewrite E. unfold solw, frac. apply (Qmult_inj_r _ _ (inject_Z (pow2 (node_level (snd k) (terminal_level [[f]]))))); [lra|].
      rewrite S1. field. lra. }
  destruct E as (p & P & E). (split; [|split; intro Z]); rewrite E.
  - apply Qmult_le_0_compat; [apply frac_ge_0|lra].
  - assert (F : (frac k == 0)%Q) by now apply (frac_zero_iff M). rewrite F. lra.
  - apply Qmult_lt_0_compat; auto. now apply (frac_pos M).
Qed.

(** ** subset_light_child, superset_heavy_child, round_down *)
Lemma light_again M f ls le r : wf M f -> subset_light_child M f ls le = Ok r -> subset_light_child M r ls le = Ok r.
Proof.
  intros W E. unfold subset_light_child in *. rewrite round_any_pure in *. injection E as E.
  pose proof (rc_cut M ls le (wt_of (count_minterms f)) false true _ _ (fst f) W) as C. pose proof (rc_wf M (wt_of (count_minterms f)) ls le false true _ (fst f) W) as Wr.
  rewrite E in C, Wr. rewrite (rc_fix0 M ls le _ (snd r) 0 (fst r) Wr (minterms_weighs0 M r Wr) C). now rewrite edge_eta.
Qed.
Lemma heavy_again M f ls le r : wf M f -> superset_heavy_child M f ls le = Ok r -> superset_heavy_child M r ls le = Ok r.
Proof.
  intros W E. unfold superset_heavy_child in *. rewrite round_any_pure in *. injection E as E.
  pose proof (rc_cut M ls le (wt_of (count_minterms f)) true false _ _ (fst f) W) as C. pose proof (rc_wf M (wt_of (count_minterms f)) ls le true false _ (fst f) W) as Wr.
  rewrite E in C, Wr. rewrite (rc_fix1 M ls le _ (snd r) 0 (fst r) Wr (minterms_weighs1 M r Wr) C). now rewrite edge_eta.
Qed.
Lemma down_again M f ls le r : index_order M -> wf M f -> round_down M f ls le = Ok r -> round_down M r ls le = Ok r.
Proof.
  intros HI W E. rewrite round_down_pure in *. injection E as E.
  pose proof (rc_cut M ls le (wt_of (count_solutions f)) false true _ _ (fst f) W) as C. pose proof (rc_wf M (wt_of (count_solutions f)) ls le false true _ (fst f) W) as Wr.
  rewrite E in C, Wr. rewrite (rc_fix0 M ls le _ (snd r) 0 (fst r) Wr (solutions_weighs0 M r HI Wr) C). now rewrite edge_eta.
Qed.

(** ** round_bdd *)
Lemma mk_vars v x y i : In i (varsn (snd (mk v x y))) -> i = v \/ In i (varsn (snd x)) \/ In i (varsn (snd y)).
Proof.
  destruct (mk_cases v x y) as [(-> & ->)|(_ & c & t & d & e & -> & <- & <-)]; auto.
  cbn [snd varsn In]. rewrite in_app_iff. intuition.
Qed.
Lemma rr_vars M w l n : forall k c i, okn M k n -> In i (varsn (snd (rr M w l n c))) -> i < l.
Proof.
  induction n as [|v t IHt d e IHe]; intros k c i H Hi; [destruct Hi|]. cbn [rr] in Hi. pose proof H as (_ & H2 & H3 & _).
  destruct (v <? l) eqn:E.
  - apply Nat.ltb_lt in E. rewrite itev_mk in Hi by (apply rr_okb; auto). apply mk_vars in Hi. destruct Hi as [->|[Hi|Hi]]; eauto.
  - destruct (qgtb _ _); destruct Hi.
Qed.
Lemma rr_fix M w l n : forall k c, okn M k n -> (forall i, In i (varsn n) -> i < l) -> rr M w l n c = (c, n).
Proof.
  induction n as [|v t IHt d e IHe]; intros k c H Hv; [reflexivity|]. cbn [rr]. pose proof H as (_ & H2 & H3 & _).
  assert (v < l) by (apply Hv; now left). apply Nat.ltb_lt in H0. rewrite H0.
  rewrite (IHt _ c H2), (IHe _ (xorb c d) H3) by (intros i Hi; apply Hv; right; apply in_or_app; auto).
  rewrite itev_mk by auto. eapply mk_edges; eauto.
Qed.
Lemma round_again M f l r : wf M f -> round_bdd M f l = Ok r -> round_bdd M r l = Ok r.
Proof.
  intros W E. rewrite round_bdd_pure in *. injection E as E.
  pose proof (rr_wf M (wt_of (count_minterms f)) l (snd f) (fst f)) as Wr. pose proof (fun i => rr_vars M (wt_of (count_minterms f)) l _ _ (fst f) i W) as V.
  rewrite E in Wr, V. rewrite (rr_fix M _ l (snd r) 0 (fst r) Wr V). now rewrite edge_eta.
Qed.

(** ** round_best *)
Definition constant (z : bdd) : Prop := z = bone \/ z = bnot bone.
Lemma constant_major q : constant (major q). Proof. unfold major, constant. destruct (qgtb q _); auto. Qed.
Lemma constant_cut ls le z : constant z -> cutb ls le constant z. Proof. intros [->| ->]; exact I. Qed.
Lemma rb_cut M w ls le n : forall k c, okn M k n -> cutb ls le constant (rb M w ls le n c).
Proof.
  induction n as [|v t IHt d e IHe]; intros k c H; [exact I|]. pose proof H as (H1 & H2 & H3 & H4). cbn [rb].
  specialize (IHt _ c H2). specialize (IHe _ (xorb c d) H3).
  pose proof (rb_okb M w ls le t _ c H2) as O1. pose proof (rb_okb M w ls le e _ (xorb c d) H3) as O2.
  assert (O3 : okb M (S (lv M v)) bone) by exact I. assert (O4 : okb M (S (lv M v)) (bnot bone)) by exact I.
  pose proof (okb_major M (S (lv M v)) (w (c, t))) as O5. pose proof (okb_major M (S (lv M v)) (w (xorb c d, e))) as O6.
  assert (C1 : constant bone) by now left. assert (C0 : constant (bnot bone)) by now right.
  pose proof (constant_major (w (c, t))). pose proof (constant_major (w (xorb c d, e))).
  destruct (v <? ls) eqn:E1; [apply Nat.ltb_lt in E1; rewrite itev_mk by auto; apply cut_mk_before; auto|].
  destruct (v <=? le) eqn:E2.
  - apply Nat.ltb_nlt in E1. apply Nat.leb_le in E2. cbv zeta.
    repeat match goal with |- context [if ?b then ite _ _ _ _ else _] => destruct b end; rewrite itev_mk by auto;
      apply cut_mk_in; auto using constant_cut.
  - unfold cutb. cbn [fst snd cut]. now rewrite E1, E2.
Qed.
Lemma rb_fix M w ls le n : forall k c, okn M k n -> weighs0 w n c -> weighs1 w n c -> cut ls le constant n c ->
  rb M w ls le n c = (c, n).
Proof.
  induction n as [|v t IHt d e IHe]; intros k c H W0 W1 C; [reflexivity|]. pose proof H as (H1 & H2 & H3 & H4).
  specialize (IHt _ c H2 (weighs0_then _ _ _ _ _ _ W0) (weighs1_then _ _ _ _ _ _ W1)).
  specialize (IHe _ (xorb c d) H3 (weighs0_else _ _ _ _ _ _ W0) (weighs1_else _ _ _ _ _ _ W1)).
  pose proof (okb_then M _ c _ _ _ _ H) as Ot. pose proof (okb_else M _ (xorb c d) _ _ _ _ H) as Oe.
  pose proof (W0 _ (in_then v t d e c)) as (_ & T0 & T0'). pose proof (W0 _ (in_else v t d e c)) as (_ & E0 & E0').
  pose proof (W1 _ (in_then v t d e c)) as (_ & T1 & T1'). pose proof (W1 _ (in_else v t d e c)) as (_ & E1 & E1').
  pose proof (children_differ M _ c _ _ _ _ H) as N. pose proof (mk_edges M c v t d e k H) as MK.
  cbn [cut] in C. cbn [rb]. destruct (v <? ls).
  { rewrite IHt, IHe, itev_mk by first [apply C|assumption]. exact MK. }
  destruct (v <=? le); [|reflexivity]. cbv zeta.
  assert (DZ : forall z : bdd, z = bzero \/ z <> bzero) by (intro z; destruct (bdd_eqb z bzero) eqn:E; [left; now apply bdd_eqb_spec|right; now apply bdd_eqb_false]).
  assert (DO : forall z : bdd, z = bone \/ z <> bone) by (intro z; destruct (bdd_eqb z bone) eqn:E; [left; now apply bdd_eqb_spec|right; now apply bdd_eqb_false]).
  assert (ZO : bzero <> bone) by discriminate.
  unfold constant in C. change (bnot bone) with bzero in *.
  set (x := w (c, t)) in *. set (y := w (xorb c d, e)) in *.
  assert (MJ0 : forall q, (q < 1#2)%Q -> major q = bzero) by (intros q Hq; unfold major; destruct (qgtb q (1#2)) eqn:E; [apply qgtb_true in E; lra|reflexivity]).
  assert (MJ1 : forall q, ((1#2) < q)%Q -> major q = bone) by (intros q Hq; unfold major; destruct (qgtb q (1#2)) eqn:E; [reflexivity|apply qgtb_false in E; lra]).
  assert (X : forall (p q : Q), (qgtb p q = true /\ (q < p)%Q) \/ (qgtb p q = false /\ (p <= q)%Q)).
  { intros p q. destruct (qgtb p q) eqn:E; [left; split; auto; now apply qgtb_true|right; split; auto; now apply qgtb_false]. }
  assert (XX : forall p q, (q < p)%Q -> qgtb p q = true) by (intros; now apply qgtb_true).
  assert (XY : forall p q, (p <= q)%Q -> qgtb p q = false) by (intros; now apply qgtb_false).
  destruct C as [[[Z|Z] C]|[[Z|Z] C]].
  - (* then = 1 *)
    specialize (T1 Z). assert (NE : (xorb c d, e) <> bone) by congruence. specialize (E1' NE).
    rewrite (XY y x) by lra. cbn [andb]. rewrite (XX x y) by lra. cbn [andb].
    destruct (DZ (xorb c d, e)) as [ZE|ZE].
    + specialize (E0 ZE). rewrite (XY (1 - x)%Q y), (XY x (1 - y)%Q) by lra. rewrite MJ1, MJ0 by lra. rewrite <- Z, <- ZE, itev_mk; auto.
    + specialize (E0' ZE). rewrite (XY (1 - x)%Q y), (XX x (1 - y)%Q) by lra. rewrite IHe, <- Z, itev_mk; auto.
  - specialize (T0 Z). assert (NE : (xorb c d, e) <> bzero) by congruence. specialize (E0' NE).
    rewrite (XX y x) by lra. cbn [andb]. destruct (DO (xorb c d, e)) as [ZE|ZE].
    + specialize (E1 ZE). rewrite (XY (1 - y)%Q x), (XY x y), (XY y (1 - x)%Q) by lra. cbn [andb]. rewrite MJ0, MJ1 by lra. rewrite <- Z, <- ZE, itev_mk; auto.
    + specialize (E1' ZE). rewrite (XX (1 - y)%Q x) by lra. rewrite IHe, <- Z, itev_mk; auto.
  - specialize (E1 Z). assert (NE : (c, t) <> bone) by congruence. specialize (T1' NE).
    rewrite (XX y x), (XY (1 - y)%Q x), (XY x y) by (destruct (DZ (c, t)) as [ZE|ZE]; [specialize (T0 ZE)|specialize (T0' ZE)]; lra). cbn [andb].
    destruct (DZ (c, t)) as [ZE|ZE].
    + specialize (T0 ZE). rewrite (XY y (1 - x)%Q) by lra. rewrite MJ0, MJ1 by lra. rewrite <- Z, <- ZE, itev_mk; auto.
    + specialize (T0' ZE). rewrite (XX y (1 - x)%Q) by lra. rewrite IHt, <- Z, itev_mk; auto.
  - specialize (E0 Z). assert (NE : (c, t) <> bzero) by congruence. specialize (T0' NE).
    rewrite (XY y x), (XX x y) by lra. cbn [andb]. destruct (DO (c, t)) as [ZE|ZE].
    + specialize (T1 ZE). rewrite (XY (1 - x)%Q y), (XY x (1 - y)%Q) by lra. rewrite MJ1, MJ0 by lra. rewrite <- Z, <- ZE, itev_mk; auto.
    + specialize (T1' ZE). rewrite (XX (1 - x)%Q y) by lra. rewrite IHt, <- Z, itev_mk; auto.
Qed.
Lemma best_again M f ls le r : wf M f -> round_best M f ls le = Ok r -> round_best M r ls le = Ok r.
Proof.
  intros W E. rewrite round_best_pure in *. injection E as E.
  pose proof (rb_cut M (wt_of (count_minterms f)) ls le _ _ (fst f) W) as C. pose proof (rb_wf M (wt_of (count_minterms f)) ls le _ (fst f) W) as Wr.
  rewrite E in C, Wr. rewrite (rb_fix M _ ls le (snd r) 0 (fst r) Wr (minterms_weighs0 M r Wr) (minterms_weighs1 M r Wr) C). now rewrite edge_eta.
Qed.
