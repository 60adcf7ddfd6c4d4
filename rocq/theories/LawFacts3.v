(** approximate_worst_case_error with complemented sign bits. *)
From Coq Require Import List Bool Arith ZArith QArith Lia.
From Verif Require Import Res Cudd CuddFacts Spec SpecFacts Helpers HelpersFacts Counting Metrics MetricsFacts MetricsFacts2 MetricsFacts3
  BenchmarkFacts LawFacts LawFacts2.
Import ListNotations.
Open Scope Z_scope.

Lemma uval_of_bits f g a : map (fun b => ev b a) f = map (fun b => ev b a) g -> uval f a = uval g a.
Proof.
  revert g. induction f as [|x f IH]; intros [|y g] E; try discriminate E; auto. cbn [map uval] in *. injection E as E1 E2.
  now rewrite E1, (IH g E2).
Qed.
Lemma signed_approximate M f g s t n : wfs M f -> wfs M g -> wf M s -> wf M t -> length f = length g -> (length f <= 255)%nat -> 1 <= n ->
  exists x m, approximate_worst_case_error M (f ++ [bnot s]) (g ++ [bnot t]) n BaseTwo = Ok x
    /\ is_max (fun a => dist (sval (f ++ [s]) a) (sval (g ++ [t]) a)) m
    /\ m <= x <= m + Z.max 0 (2 ^ (Z.of_nat (length f) + 2 - n) - 2).
Proof.
  intros Wf Wg Ws Wt L B Hn. set (f' := f ++ [bnot s]). set (g' := g ++ [bnot t]).
  assert (Wf' : wfs M f') by (apply wfs_offset; auto). assert (Wg' : wfs M g') by (apply wfs_offset; auto).
  assert (L' : length f' = length g') by (unfold f', g'; rewrite !app_length; cbn [length]; lia).
  assert (Lf : length f' = S (length f)) by (unfold f'; rewrite app_length; cbn [length]; lia).
  assert (D : forall m, is_max (fun a => dist (uval f' a) (uval g' a)) m -> is_max (fun a => dist (sval (f ++ [s]) a) (sval (g ++ [t]) a)) m).
  { intros m [(a & A) U]. unfold f', g' in *. split.
    - exists a. cbv beta. rewrite <- dist_offset by auto. exact A.
    - intro b. cbv beta. rewrite <- dist_offset by auto. apply U. }
  destruct (awce_base_full M f' g' n Wf' Wg' L') as [H1 H2]; auto; [lia|].
  destruct (top_difference_dec M f' g' Wf' Wg' L') as [E|(h & T)]; cycle 1.
  - destruct (H2 h T) as (x & m & Ex & Mx & R). exists x, m. split; auto. split; [now apply D|].
    assert (Hh : (h < length f')%nat) by (apply T).
    destruct (Z.le_gt_cases n (Z.of_nat h + 1)) as [K|K].
    + assert (2 ^ (Z.of_nat (Z.to_nat (Z.of_nat h + 1 - n)) + 1) <= 2 ^ (Z.of_nat (length f) + 2 - n))
        by (apply Z.pow_le_mono_r; lia). lia.
    + replace (Z.to_nat (Z.of_nat h + 1 - n)) with 0%nat in R by lia. change (2 ^ (Z.of_nat 0 + 1)) with 2 in R. lia.
  - exists 0, 0. split; [now apply H1|]. split; [|lia]. apply D. split.
    + exists (fun _ => false). cbv beta. rewrite (uval_of_bits f' g' _ (E _)). unfold dist. lia.
    + intro a. cbv beta. rewrite (uval_of_bits f' g' _ (E _)). unfold dist. lia.
Qed.
