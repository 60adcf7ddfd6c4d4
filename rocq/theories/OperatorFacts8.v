(** Proofs about the approximation operators: statements for repeated application, complement, size. *)
From Coq Require Import List Bool Arith ZArith QArith Lia Lqa.
From Verif Require Import Res Cudd CuddFacts Spec SpecFacts SpecOperators Helpers HelpersFacts HelpersFacts2 Counting AddFacts CountFacts MetricsFacts4 Operators OperatorFacts OperatorFacts2 OperatorFacts3 OperatorFacts4 OperatorFacts5 OperatorFacts6 OperatorFacts7.
Import ListNotations.
Open Scope nat_scope.

Lemma density_frac M n f k : wf M f -> depends_below n f -> In k (reachable f) -> (density n k == frac k)%Q.
Proof.
  intros W D Hk. symmetry. apply (frac_average M).
  - exact (edges_wf M (snd f) (fst f) 0 k W Hk).
  - eapply reachable_below; eauto. now apply (depends_below_vars M).
Qed.
Lemma children_frac M n ls le (P : Q -> Q -> Prop) f : wf M f -> depends_below n f -> (forall x y x' y', (x == x')%Q -> (y == y')%Q -> P x y -> P x' y') ->
  children_in_range n ls le P f ->
  forall c v t d e, In (c, Nd v t d e) (edges (snd f) (fst f)) -> ls <= v <= le -> P (frac (c, t)) (frac (xorb c d, e)).
Proof.
  intros W D C H c v t d e Hk R. eapply C; [| |exact (H c v t d e Hk R)].
  - apply (density_frac M n f); auto. eapply edges_trans; [exact Hk|]. apply in_then.
  - apply (density_frac M n f); auto. eapply edges_trans; [exact Hk|]. apply in_else.
Qed.
Lemma bnot_parts f : snd (bnot f) = snd f /\ fst (bnot f) = negb (fst f). Proof. now destruct f. Qed.

Lemma child_complement M n f ls le : wf M f -> depends_below n f -> children_in_range n ls le (fun x y => ~ (x == y)%Q) f ->
  (exists r, superset_heavy_child M f ls le = Ok r /\ subset_light_child M (bnot f) ls le = Ok (bnot r))
  /\ (exists r, superset_light_child M f ls le = Ok r /\ subset_heavy_child M (bnot f) ls le = Ok (bnot r))
  /\ (exists r, subset_heavy_child M f ls le = Ok r /\ superset_light_child M (bnot f) ls le = Ok (bnot r))
  /\ (exists r, subset_light_child M f ls le = Ok r /\ superset_heavy_child M (bnot f) ls le = Ok (bnot r)).
Proof.
  intros W D H. assert (NT : no_tie ls le (snd f) (fst f)).
  { intros c v t d e Hk R. refine (children_frac M n ls le (fun x y => ~ (x == y)%Q) f W D _ H c v t d e Hk R). intros x y x' y' E1 E2 N. lra. }
  assert (RD : forall rh sub, rc M (wt_of (count_minterms (bnot f))) ls le rh sub (snd (bnot f)) (fst (bnot f))
     = bnot (rc M (wt_of (count_minterms f)) ls le (negb rh) (negb sub) (snd f) (fst f))).
  { intros rh sub. pose proof (minterms_sound f) as S1. pose proof (minterms_sound (bnot f)) as S2.
    destruct (bnot_parts f) as [E1 E2]. rewrite E1, E2 in *. eapply rc_dual; eauto. }
  unfold subset_light_child, subset_heavy_child, superset_light_child, superset_heavy_child. rewrite !round_any_pure, !RD.
  repeat split; eexists; split; reflexivity.
Qed.
Lemma round_complement M n f l : wf M f -> depends_below n f ->
  (forall c v t d e, In (c, Nd v t d e) (reachable f) -> l <= v -> ~ (density n (c, Nd v t d e) == 1#2)%Q) ->
  exists r, round_bdd M f l = Ok r /\ round_bdd M (bnot f) l = Ok (bnot r).
Proof.
  intros W D H. rewrite !round_bdd_pure. eexists; split; [reflexivity|]. f_equal.
  pose proof (minterms_sound f) as S1. pose proof (minterms_sound (bnot f)) as S2. destruct (bnot_parts f) as [E1 E2]. rewrite E1, E2 in *.
  eapply rr_dual; eauto. intros c v t d e Hk R E. apply (H c v t d e Hk R). rewrite (density_frac M n f); auto.
Qed.
Lemma best_complement M n f ls le : wf M f -> depends_below n f -> children_in_range n ls le (fun x y => ~ (x == 1#2 /\ y == 1#2)%Q) f ->
  exists r, round_best M f ls le = Ok r /\ round_best M (bnot f) ls le = Ok (bnot r).
Proof.
  intros W D H. rewrite !round_best_pure. eexists; split; [reflexivity|]. f_equal.
  pose proof (minterms_sound f) as S1. pose proof (minterms_sound (bnot f)) as S2. destruct (bnot_parts f) as [E1 E2]. rewrite E1, E2 in *.
  eapply rb_dual; eauto. intros c v t d e Hk R.
  refine (children_frac M n ls le (fun x y => ~ (x == 1#2 /\ y == 1#2)%Q) f W D _ H c v t d e Hk R). intros x y x' y' F1 F2 N [G1 G2]. apply N. split; lra.
Qed.
Lemma complement_parts M n f ls le : wf M f -> depends_below n f ->
  (children_in_range n ls le (fun x y => ~ (x == y)%Q) f ->
    (exists r, superset_heavy_child M f ls le = Ok r /\ subset_light_child M (bnot f) ls le = Ok (bnot r))
    /\ (exists r, superset_light_child M f ls le = Ok r /\ subset_heavy_child M (bnot f) ls le = Ok (bnot r))
    /\ (exists r, subset_heavy_child M f ls le = Ok r /\ superset_light_child M (bnot f) ls le = Ok (bnot r))
    /\ (exists r, subset_light_child M f ls le = Ok r /\ superset_heavy_child M (bnot f) ls le = Ok (bnot r)))
  /\ ((forall c v t d e, In (c, Nd v t d e) (reachable f) -> ls <= v -> ~ (density n (c, Nd v t d e) == 1#2)%Q) ->
      exists r, round_bdd M f ls = Ok r /\ round_bdd M (bnot f) ls = Ok (bnot r))
  /\ (children_in_range n ls le (fun x y => ~ (x == 1#2 /\ y == 1#2)%Q) f ->
      exists r, round_best M f ls le = Ok r /\ round_best M (bnot f) ls le = Ok (bnot r)).
Proof.
  intros W D. split; [|split]; intro H; [now apply (child_complement M n)|now apply (round_complement M n)|now apply (best_complement M n)].
Qed.
Lemma again M f ls le r : wf M f ->
  (subset_light_child M f ls le = Ok r -> subset_light_child M r ls le = Ok r)
  /\ (superset_heavy_child M f ls le = Ok r -> superset_heavy_child M r ls le = Ok r)
  /\ (index_order M -> round_down M f ls le = Ok r -> round_down M r ls le = Ok r)
  /\ (round_bdd M f ls = Ok r -> round_bdd M r ls = Ok r)
  /\ (round_best M f ls le = Ok r -> round_best M r ls le = Ok r).
Proof.
  intro W. split; [|split; [|split; [|split]]]; [now apply light_again|now apply heavy_again|intro; now apply down_again|now apply round_again|now apply best_again].
Qed.

(** ** witnesses *)
Definition par3 : bdd := let M := id_mgr 3 in bxor M (bvar 0) (bxor M (bvar 1) (bvar 2)).
Lemma size_grows : exists M f ls le r, index_order M /\ wf M f /\ subset_light_child M f ls le = Ok r /\ nodeCount [f] < nodeCount [r].
Proof.
  exists (id_mgr 3), par3, 1, 1. eexists. split; [intro; reflexivity|]. split; [unfold par3; auto with wf|]. split; [vm_compute; reflexivity|]. vm_compute. lia.
Qed.
Lemma twice_differs : exists M l, index_order M
  /\ (exists f r s, wf M f /\ superset_light_child M f l l = Ok r /\ superset_light_child M r l l = Ok s /\ r <> s)
  /\ (exists f r s, wf M f /\ subset_heavy_child M f l l = Ok r /\ subset_heavy_child M r l l = Ok s /\ r <> s)
  /\ (exists f r s, wf M f /\ round_up M f l l = Ok r /\ round_up M r l l = Ok s /\ r <> s).
Proof.
  exists (id_mgr 2), 0. split; [intro; reflexivity|].
  split; [exists (bxor (id_mgr 2) (bvar 0) (bvar 1))|split; [exists (bxor (id_mgr 2) (bvar 0) (bvar 1))|exists (band (id_mgr 2) (bvar 0) (bvar 1))]]; do 2 eexists; (split; [auto with wf|]); (split; [vm_compute; reflexivity|]);
    (split; [vm_compute; reflexivity|]); vm_compute; discriminate.
Qed.
Lemma complement_differs : exists M f l r s, wf M f
  /\ superset_heavy_child M f l l = Ok r /\ subset_light_child M (bnot f) l l = Ok s /\ s <> bnot r.
Proof.
  exists (id_mgr 2), (bxor (id_mgr 2) (bvar 0) (bvar 1)), 0. do 2 eexists. split; [auto with wf|].
  split; [vm_compute; reflexivity|]. split; [vm_compute; reflexivity|]. vm_compute; discriminate.
Qed.
