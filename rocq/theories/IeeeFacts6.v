(** Up to about a thousand variables, doubles have no effect but rounding *)
From Coq Require Import List Bool Arith ZArith QArith Lia Lqa.
From Verif Require Import Res Cudd CuddFacts Spec SpecFacts SpecFloat HelpersFacts2 Float FloatFacts Helpers Counting CountFacts
  Metrics Operators LevelFacts Rounded RoundedFacts RoundedFacts2 RoundedAverageFacts RoundedRel RoundedRelFacts7 Ieee IeeeFacts IeeeFacts2 IeeeFacts5.
Import ListNotations.
Open Scope nat_scope.

Lemma dmap_in k v m : In (k, v) (dmap m) <-> exists q, v = DFin q /\ In (k, q) m.
Proof.
  unfold dmap. rewrite in_map_iff. split.
  - intros ([k' q] & [= <- <-] & H). now exists q.
  - intros (q & -> & H). exists (k, q). auto.
Qed.
Lemma dmap_keys m : map fst (dmap m) = map fst m.
Proof. unfold dmap. rewrite map_map. apply map_ext. reflexivity. Qed.
Lemma keeps53 : keeps_floats 53 r53. Proof. apply round_float_keeps. lia. Qed.
Lemma relative53 : relative_error (2 ^ (-53)) r53. Proof. exact (round_float_relative 53 ltac:(lia)). Qed.

Lemma minterms_d_values M n f : wf M f -> depends_below n f -> n <= 1022 ->
  NoDup (map fst (count_minterms_d f)) /\ (forall k, In k (map fst (count_minterms_d f)) <-> In k (reachable f))
  /\ forall k v, In (k, v) (count_minterms_d f) -> exists q, v = DFin q
     /\ within (2 ^ (-53)) (2 * n) q (average n (fun a => b2q (ev k a)))
     /\ (n <= 53 -> (q == average n (fun a => b2q (ev k a)))%Q).
Proof.
  intros W D Hn. rewrite (minterms_d_same f) by (pose proof (height_below M n f W D); lia). rewrite dmap_keys.
  split; [|split].
  - destruct (minterms_fl_map r53 f) as [(_ & G & _) _]. exact G.
  - destruct (minterms_fl_map r53 f) as [_ K]. exact K.
  - intros k v H. apply dmap_in in H as (q & -> & H). exists q. split; [reflexivity|]. split.
    + refine (minterms_fl_within (2 ^ (-53)) _ r53 relative53 M n f W D k q H). split; vm_compute; discriminate.
    + intro L. destruct (minterms_fl_exact 53 r53 M n f keeps53 W D ltac:(lia)) as (_ & _ & V). now apply V.
Qed.
Lemma solutions_d_values M f T : index_order M -> wf M f -> levels_of [f] T -> T <= 53 ->
  forall k v, In (k, v) (count_solutions_d f) -> exists q, v = DFin q
     /\ (q * inject_Z (2 ^ Z.of_nat (start_level T k)) == sum_inputs T (fun a => b2q (ev k a)))%Q.
Proof.
  intros HI W L HT k v H. rewrite (solutions_d_same M f T HI W L ltac:(lia)) in H. apply dmap_in in H as (q & -> & H). exists q. split; [reflexivity|].
  destruct (solutions_fl_exact 53 r53 M f T keeps53 HI W L ltac:(lia)) as (_ & _ & V). now apply V.
Qed.
Lemma operators_d_exact M n f l ls le : wf M f -> depends_below n f -> n <= 53 ->
  subset_light_child_d M f ls le = subset_light_child M f ls le
  /\ subset_heavy_child_d M f ls le = subset_heavy_child M f ls le
  /\ superset_light_child_d M f ls le = superset_light_child M f ls le
  /\ superset_heavy_child_d M f ls le = superset_heavy_child M f ls le
  /\ round_bdd_d M f l = round_bdd M f l /\ round_best_d M f ls le = round_best M f ls le.
Proof.
  intros W D Hn. destruct (operators_d_same M n f l ls le W D ltac:(lia)) as (-> & -> & -> & -> & -> & ->).
  exact (operators_fl_same 53 r53 M n f l ls le keeps53 W D ltac:(lia)).
Qed.
Lemma round_ud_d_exact M f T ls le : index_order M -> wf M f -> levels_of [f] T -> T <= 53 ->
  round_up_d M f ls le = round_up M f ls le /\ round_down_d M f ls le = round_down M f ls le.
Proof.
  intros HI W L HT. destruct (round_ud_d_same M f T ls le HI W L ltac:(lia)) as (-> & ->).
  exact (round_ud_fl_same 53 r53 M f T ls le keeps53 HI W L ltac:(lia)).
Qed.
Lemma random_input_d M f T rm draws : index_order M -> wf M f -> depends_below T f -> (exists a, ev f a = true) -> T <= 1022 ->
  length draws = T -> Forall (fun d => 0 < d <= rm)%Z draws -> (0 < rm <= 2 ^ 53)%Z ->
  exists l, random_satisfying_input_d rm f (count_minterms_d f) T draws = Ok l
    /\ length l = T /\ Forall (fun x => x = 0 \/ x = 1)%Z l /\ ev f (asg_ints l) = true.
Proof.
  intros HI W D Ha HT HL HF Hr.
  rewrite (random_input_d_same M T f rm T draws W D HT Hr) by (eapply Forall_impl; [|exact HF]; cbn; intros; lia).
  exact (random_input_fl r53 M rm f T draws r53_near HI W D Ha HL HF ltac:(lia)).
Qed.
