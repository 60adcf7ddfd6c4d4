(** Proofs about the approximation operators: the statements of C46-C51. *)
From Coq Require Import List Bool Arith ZArith QArith Lia Lqa.
From Verif Require Import Res Cudd CuddFacts Spec SpecFacts Helpers HelpersFacts HelpersFacts2 Counting AddFacts CountFacts PathFacts MetricsFacts MetricsFacts4 Operators OperatorFacts OperatorFacts2 OperatorFacts3.
Import ListNotations.
Open Scope nat_scope.

Lemma wf_edge M f : wf M f -> wf M (fst f, snd f).
Proof. now destruct f. Qed.
Lemma edge_eta (f : bdd) : (fst f, snd f) = f.
Proof. now destruct f. Qed.

Lemma subset_ops M f ls le : wf M f ->
  (exists r, subset_light_child M f ls le = Ok r /\ wf M r /\ forall a, ev r a = true -> ev f a = true)
  /\ (exists r, subset_heavy_child M f ls le = Ok r /\ wf M r /\ forall a, ev r a = true -> ev f a = true)
  /\ (exists r, round_down M f ls le = Ok r /\ wf M r /\ forall a, ev r a = true -> ev f a = true).
Proof.
  intro H. unfold subset_light_child, subset_heavy_child. rewrite !round_any_pure, round_down_pure.
  repeat split; (eexists; split; [reflexivity|]; split; [apply rc_wf; now apply wf_edge|]);
    intros a Ha; apply rc_subset in Ha; now rewrite edge_eta in Ha.
Qed.
Lemma superset_ops M f ls le : wf M f ->
  (exists r, superset_light_child M f ls le = Ok r /\ wf M r /\ forall a, ev f a = true -> ev r a = true)
  /\ (exists r, superset_heavy_child M f ls le = Ok r /\ wf M r /\ forall a, ev f a = true -> ev r a = true)
  /\ (exists r, round_up M f ls le = Ok r /\ wf M r /\ forall a, ev f a = true -> ev r a = true).
Proof.
  intro H. unfold superset_light_child, superset_heavy_child. rewrite !round_any_pure, round_up_pure.
  repeat split; (eexists; split; [reflexivity|]; split; [apply rc_wf; now apply wf_edge|]);
    intros a Ha; apply rc_superset; now rewrite edge_eta.
Qed.

Lemma minterms_dense f : dense (wt_of (count_minterms f)) (snd f) (fst f).
Proof. intros k Hk. now apply minterms_wt. Qed.

Lemma half_one_level M n f l : wf M f -> depends_below n f ->
  (exists r, subset_light_child M f l l = Ok r /\ (density n f <= 2 * density n r)%Q)
  /\ (exists r, superset_heavy_child M f l l = Ok r /\ (1 - density n f <= 2 * (1 - density n r))%Q).
Proof.
  intros Hf Hd. unfold subset_light_child, superset_heavy_child. rewrite !round_any_pure.
  pose proof (depends_below_vars M n f Hf Hd) as HV.
  split; eexists; (split; [reflexivity|]).
  - pose proof (rc_light1 M _ l l n true (snd f) eq_refl 0 (fst f) Hf HV (minterms_dense f)) as H.
    rewrite edge_eta in H. exact H.
  - pose proof (rc_light1 M _ l l n false (snd f) eq_refl 0 (fst f) Hf HV (minterms_dense f)) as H.
    rewrite edge_eta in H. exact H.
Qed.

Lemma range_loss M n f ls le : index_order M -> wf M f -> depends_below n f -> ls <= le ->
  (exists r, subset_light_child M f ls le = Ok r
     /\ (density n f <= inject_Z (2 ^ Z.of_nat (le - ls + 1)) * density n r)%Q)
  /\ (exists r, superset_heavy_child M f ls le = Ok r
     /\ (1 - density n f <= inject_Z (2 ^ Z.of_nat (le - ls + 1)) * (1 - density n r))%Q).
Proof.
  intros HI Hf Hd L. unfold subset_light_child, superset_heavy_child. rewrite !round_any_pure.
  pose proof (depends_below_vars M n f Hf Hd) as HV.
  assert (EL : left_levels ls le 0 = le - ls + 1) by (unfold left_levels; lia).
  split; eexists; (split; [reflexivity|]).
  - pose proof (rc_light M _ ls le n HI true (snd f) 0 (fst f) Hf HV (minterms_dense f)) as H.
    rewrite edge_eta, EL in H. exact H.
  - pose proof (rc_light M _ ls le n HI false (snd f) 0 (fst f) Hf HV (minterms_dense f)) as H.
    rewrite edge_eta, EL in H. exact H.
Qed.

Lemma outside_unchanged M f ls le : wf M f -> (forall i, In i (support f) -> ~ ls <= i <= le) ->
  subset_light_child M f ls le = Ok f /\ subset_heavy_child M f ls le = Ok f
  /\ superset_light_child M f ls le = Ok f /\ superset_heavy_child M f ls le = Ok f
  /\ round_down M f ls le = Ok f /\ round_up M f ls le = Ok f /\ round_best M f ls le = Ok f.
Proof.
  intros Hf HS.
  assert (HV : forall i, In i (varsn (snd f)) -> ~ ls <= i <= le) by (intros i Hi; apply HS; now apply support_in).
  assert (R : forall w rh sub, rc M w ls le rh sub (snd f) (fst f) = f).
  { intros. apply (canonical M); auto; [apply rc_wf; now apply wf_edge|].
    intro a. rewrite rc_outside by auto. now rewrite edge_eta. }
  assert (B : forall w, rb M w ls le (snd f) (fst f) = f).
  { intros. apply (canonical M); auto; [apply rb_wf; now apply wf_edge|].
    intro a. rewrite rb_outside by auto. now rewrite edge_eta. }
  unfold subset_light_child, subset_heavy_child, superset_light_child, superset_heavy_child.
  rewrite !round_any_pure, round_down_pure, round_up_pure, round_best_pure, !R, B. auto 10.
Qed.

Lemma child_choice M n f ls le : wf M f -> depends_below n f ->
  (exists r, subset_light_child M f ls le = Ok r /\ at_range ls le (light_const (density n) false) f (ev r))
  /\ (exists r, subset_heavy_child M f ls le = Ok r /\ at_range ls le (heavy_const (density n) false) f (ev r))
  /\ (exists r, superset_light_child M f ls le = Ok r /\ at_range ls le (light_const (density n) true) f (ev r))
  /\ (exists r, superset_heavy_child M f ls le = Ok r /\ at_range ls le (heavy_const (density n) true) f (ev r)).
Proof.
  intros Hf Hd. unfold subset_light_child, subset_heavy_child, superset_light_child, superset_heavy_child.
  rewrite !round_any_pure. pose proof (respects_frac f M n Hf Hd) as HR.
  pose proof (fun rh sub => rc_shape M _ _ ls le rh sub _ _ HR) as H. rewrite edge_eta in H.
  repeat split; eexists; (split; [reflexivity|]).
  - exact (H false true).
  - exact (H true true).
  - exact (H false false).
  - exact (H true false).
Qed.

Lemma round_optimal M n f level : index_order M -> wf M f -> depends_below n f ->
  exists r, round_bdd M f level = Ok r /\ wf M r /\ depends_below level r
    /\ forall h, below_fun level h -> (disagreement n (ev f) (ev r) <= disagreement n (ev f) h)%Q.
Proof.
  intros HI Hf Hd. rewrite round_bdd_pure. eexists. split; [reflexivity|]. split; [apply rr_wf|].
  split; [exact (rr_below M _ level (snd f) (fst f))|]. intros h Hh.
  pose proof (rr_optimal M _ level n HI (snd f) 0 (fst f) h Hf (depends_below_vars M n f Hf Hd) (minterms_dense f) Hh) as H.
  rewrite edge_eta in H. exact H.
Qed.

Lemma best_refuted : exists M f l n r (h : asg -> bool), index_order M /\ wf M f /\ depends_below n f
  /\ round_best M f l l = Ok r /\ at_range l l child_const f h
  /\ (disagreement n (ev f) h < disagreement n (ev f) (ev r))%Q.
Proof.
  pose (M := id_mgr 2). pose (f := bxor M (bvar 0) (bvar 1)).
  exists M, f, 0, 2, bzero, (fun a : asg => if a 0 then false else a 1).
  assert (Hf : wf M f) by (unfold f; auto with wf).
  split; [intro; reflexivity|]. split; auto. split.
  { apply vars_depends_below. vm_compute. intros i Hi. destruct Hi as [<-|[<-|[<-|[]]]]; lia. }
  split; [vm_compute; reflexivity|]. split; [|vm_compute; reflexivity].
  change f with (true, Nd 0 (Nd 1 One true One) true (Nd 1 One true One)).
  eapply ar_in; [lia|apply ar_after; [lia|lia|intro; reflexivity]|apply ar_after; [lia|lia|intro; reflexivity]|].
  exists false. left. intro a. cbn. destruct (a 0), (a 1); reflexivity.
Qed.

Lemma best_partial M n f l : wf M f -> depends_below n f ->
  exists r, round_best M f l l = Ok r /\ wf M r
    /\ (forall h, at_range l l child_const f h -> (disagreement n (ev f) (ev r) <= 2 * disagreement n (ev f) h)%Q)
    /\ ((forall c t d e, In (c, Nd l t d e) (reachable f) ->
           ~ (density n (c, t) == density n (xorb c d, e))%Q /\ ~ (density n (c, t) + density n (xorb c d, e) == 1)%Q) ->
        at_range l l child_const f (ev r)
        /\ forall h, at_range l l child_const f h -> (disagreement n (ev f) (ev r) <= disagreement n (ev f) h)%Q).
Proof.
  intros Hf Hd. rewrite round_best_pure. eexists. split; [reflexivity|].
  pose proof (depends_below_vars M n f Hf Hd) as HV. split; [apply rb_wf; now apply wf_edge|].
  pose proof (fun h => rb_bound M _ l n (snd f) 0 (fst f) h Hf HV (minterms_dense f)) as H. rewrite edge_eta in H.
  pose proof (rb_shape M _ l (snd f) 0 (fst f) Hf (minterms_dense f)) as HS. rewrite edge_eta in HS.
  split; [intros h Hh; apply (proj1 (H h Hh))|].
  intro T. assert (TF : tie_free l (snd f) (fst f)).
  { intros c t d e Hi. pose proof (T c t d e Hi) as [T1 T2].
    assert (W : wf M (c, Nd l t d e)) by exact (edges_wf M (snd f) (fst f) 0 _ Hf Hi).
    assert (Bt : depends_below n (c, t)).
    { apply vars_depends_below. intros i Hi'. apply HV. eapply edges_vars; [exact Hi|]. cbn [snd varsn]. right. apply in_or_app. auto. }
    assert (Be : depends_below n (xorb c d, e)).
    { apply vars_depends_below. intros i Hi'. apply HV. eapply edges_vars; [exact Hi|]. cbn [snd varsn]. right. apply in_or_app. auto. }
    rewrite (frac_average M n (c, t) (wf_then _ _ _ _ _ _ W) Bt), (frac_average M n _ (wf_else _ _ _ _ _ _ (xorb c d) W) Be). auto. }
  split; [now apply HS|]. intros h Hh. apply (proj2 (H h Hh)); auto.
Qed.

Lemma down_up_choice M f ls le : index_order M -> wf M f ->
  (exists r, round_down M f ls le = Ok r /\ at_range ls le (light_const (own_solutions (terminal_level [[f]])) false) f (ev r))
  /\ (exists r, round_up M f ls le = Ok r /\ at_range ls le (light_const (own_solutions (terminal_level [[f]])) true) f (ev r)).
Proof.
  intros HI Hf. rewrite round_down_pure, round_up_pure. pose proof (respects_sols f M HI Hf) as HR.
  pose proof (fun sub => rc_shape M _ _ ls le false sub _ _ HR) as H. rewrite edge_eta in H.
  split; eexists; (split; [reflexivity|]).
  - exact (H true).
  - exact (H false).
Qed.

Lemma down_refuted : exists M n f v t e r, index_order M /\ wf M f /\ depends_below n f
  /\ f = ite M (bvar v) t e /\ ~ In v (support t) /\ ~ In v (support e)
  /\ (density n e < density n t)%Q
  /\ round_down M f v v = Ok r /\ then_const v false (ev e) (ev r).
Proof.
  pose (M := id_mgr 4). pose (e := band M (bvar 1) (bor M (bvar 2) (bvar 3))). pose (t := bvar 3).
  exists M, 4, (ite M (bvar 0) t e), 0, t, e, (ite M (bvar 0) bzero e).
  assert (We : wf M e) by (unfold e; auto with wf). assert (Wt : wf M t) by (unfold t; auto with wf).
  split; [intro; reflexivity|]. split; [apply wf_ite; auto with wf|]. split.
  { apply vars_depends_below. vm_compute. intros i Hi. repeat (destruct Hi as [<-|Hi]; [lia|]). destruct Hi. }
  split; auto. split; [vm_compute; intros [H|[]]; discriminate|].
  split; [vm_compute; intros [H|[H|[H|[]]]]; discriminate|].
  split; [vm_compute; reflexivity|]. split; [vm_compute; reflexivity|].
  intro a. now rewrite ev_itev.
Qed.
Lemma up_refuted : exists M n f v t e r, index_order M /\ wf M f /\ depends_below n f
  /\ f = ite M (bvar v) t e /\ ~ In v (support t) /\ ~ In v (support e)
  /\ (density n t < density n e)%Q
  /\ round_up M f v v = Ok r /\ then_const v true (ev e) (ev r).
Proof.
  pose (M := id_mgr 3). pose (t := band M (bvar 1) (bvar 2)). pose (e := bvar 1).
  exists M, 3, (ite M (bvar 0) t e), 0, t, e, (ite M (bvar 0) bone e).
  assert (Wt : wf M t) by (unfold t; auto with wf). assert (We : wf M e) by (unfold e; auto with wf).
  split; [intro; reflexivity|]. split; [apply wf_ite; auto with wf|]. split.
  { apply vars_depends_below. vm_compute. intros i Hi. repeat (destruct Hi as [<-|Hi]; [lia|]). destruct Hi. }
  split; auto. split; [vm_compute; intros [H|[H|[]]]; discriminate|].
  split; [vm_compute; intros [H|[]]; discriminate|].
  split; [vm_compute; reflexivity|]. split; [vm_compute; reflexivity|].
  intro a. now rewrite ev_itev.
Qed.

(** children with the same top variable: the two counts order the children alike *)
Lemma own_density T t e : (match snd t with One => T | Nd v _ _ _ => v end) = (match snd e with One => T | Nd v _ _ _ => v end) ->
  (own_solutions T t <= own_solutions T e)%Q <-> (density T t <= density T e)%Q.
Proof.
  intro E. unfold own_solutions, density. rewrite E, !average_eq.
  set (k := match snd e with One => T | Nd v _ _ _ => v end). fold (pow2 k).
  set (x := sum_inputs T (fun a => b2q (ev t a))). set (y := sum_inputs T (fun a => b2q (ev e a))).
  unfold Qdiv.
  assert (S : forall z, (0 < z)%Q -> (x * / z <= y * / z)%Q <-> (x <= y)%Q).
  { intros z Hz. apply Qinv_lt_0_compat in Hz. split; intro H.
    - now apply (Qmult_le_r _ _ _ Hz).
    - now apply (Qmult_le_r _ _ _ Hz). }
  rewrite !S by apply pow2Q_pos. reflexivity.
Qed.
Lemma at_range_mono ls le (R R' : nat -> bdd -> bdd -> (asg -> bool) -> (asg -> bool) -> (asg -> bool) -> Prop) n :
  forall c h, (forall c' v t d e ht he h', In (c', Nd v t d e) (edges n c) -> R v (c', t) (xorb c' d, e) ht he h' -> R' v (c', t) (xorb c' d, e) ht he h') ->
  at_range ls le R (c, n) h -> at_range ls le R' (c, n) h.
Proof.
  induction n as [|v t IHt d e IHe]; intros c h HR HA.
  - apply ar_const. now apply (at_range_const ls le R).
  - assert (HT : forall h', at_range ls le R (c, t) h' -> at_range ls le R' (c, t) h').
    { intros h' Hh. apply IHt; auto. intros. apply (HR c' v0 t0 d0 e0 ht he h'0); auto. cbn [edges]. right. apply in_or_app. auto. }
    assert (HE : forall h', at_range ls le R (xorb c d, e) h' -> at_range ls le R' (xorb c d, e) h').
    { intros h' Hh. apply IHe; auto. intros. apply (HR c' v0 t0 d0 e0 ht he h'0); auto. cbn [edges]. right. apply in_or_app. auto. }
    destruct (at_range_inv _ _ _ _ _ _ _ _ _ HA) as [(L & ht & he & H6 & H7 & H8)|[(L & ht & he & H6 & H7 & H8)|(L & L' & H8)]].
    + eapply ar_before; eauto.
    + eapply ar_in; eauto. apply HR; auto. apply in_edges_refl.
    + now apply ar_after.
Qed.
Lemma down_up_same_level M f ls le : index_order M -> wf M f ->
  let T := terminal_level [[f]] in
  (forall c v t d e, In (c, Nd v t d e) (reachable f) -> ls <= v <= le -> node_level t T = node_level e T) ->
  (exists r, round_down M f ls le = Ok r /\ at_range ls le (light_const (density T) false) f (ev r))
  /\ (exists r, round_up M f ls le = Ok r /\ at_range ls le (light_const (density T) true) f (ev r)).
Proof.
  intros HI Hf T HL. destruct (down_up_choice M f ls le HI Hf) as [(r1 & E1 & A1) (r2 & E2 & A2)].
  assert (K : forall k h, at_range ls le (light_const (own_solutions T) k) f h -> at_range ls le (light_const (density T) k) f h).
  { intros k h HA. rewrite <- (edge_eta f) in *.
    assert (HA' : at_range ls le (fun v t e ht he h => ls <= v <= le /\ light_const (own_solutions T) k v t e ht he h) (fst f, snd f) h).
    { clear - HA. revert h HA. generalize (fst f). induction (snd f) as [|v t IHt d e IHe]; intros c h HA.
      - apply ar_const. exact (at_range_const _ _ _ _ _ HA).
      - destruct (at_range_inv _ _ _ _ _ _ _ _ _ HA) as [(L & ht & he & H6 & H7 & H8)|[(L & ht & he & H6 & H7 & H8)|(L & L' & H8)]].
        + eapply ar_before; eauto.
        + eapply ar_in; eauto.
        + now apply ar_after. }
    revert HA'. apply at_range_mono. intros c v t d e ht he h' Hi (L & HC).
    pose proof (own_density T (c, t) (xorb c d, e) (HL c v t d e Hi L)) as O.
    destruct HC as [[C1 C2]|[C1 C2]]; [left|right]; split; auto; [now apply O|].
    destruct (Qlt_le_dec (density T (xorb c d, e)) (density T (c, t))) as [X|X]; auto. apply O in X. lra. }
  split; [exists r1|exists r2]; auto.
Qed.
