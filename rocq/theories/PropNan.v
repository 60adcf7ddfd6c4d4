(** Property C155: NaN among the numbers of solutions that round_down and round_up compare *)
From Coq Require Import List Bool Arith ZArith QArith Lia.
From Verif Require Import Res Cudd CuddFacts Spec SpecNan Helpers HelpersFacts Counting Operators LevelFacts Ieee NanFacts2.
Import ListNotations.
Open Scope nat_scope.

(** C155: the number of solutions of a function is never NaN. False from 1025 levels on: 0 * 2^1024 *)
Theorem C155_count_refuted : exists (M : mgr) (f : bdd), index_order M /\ wf M f /\ levels_of [f] 1025
  /\ In (f, DNaN) (count_solutions_d f).
Proof. exact nan_exists. Qed.
Print Assumptions C155_count_refuted.
(** it is NaN exactly if somewhere in the BDD one child of a node is 0 and the last level 1024 or more levels further down.
    All other counts are 0 for the constant 0, and for the other functions infinite or at least 1 *)
Theorem C155_counts : forall (M : mgr) (f : bdd) (T : nat), wf M f -> levels_of [f] T -> (Z.of_nat T < 2 ^ 64)%Z ->
  forall k x, In (k, x) (count_solutions_d f) ->
  (x = DNaN <-> has_far_zero M T k)
  /\ (x <> DNaN -> ((forall a, ev k a = false) -> x = DFin 0) /\ ((exists a, ev k a = true) -> x = DInf false \/ exists q, x = DFin q /\ (1 <= q)%Q)).
Proof. exact nan_counts. Qed.
Print Assumptions C155_counts.
(** if this is the case below the top variable, round_down and round_up always replace its then child *)
Theorem C155_rounding : forall (M : mgr) (f : bdd) (T v : nat), wf M f -> levels_of [f] T -> (Z.of_nat T < 2 ^ 64)%Z -> top_variable M f v ->
  (exists k, In k (reachable f) /\ k <> f /\ has_far_zero M T k) ->
  (exists r, round_down_d M f v v = Ok r /\ forall a, ev r a = negb (a v) && ev f a)
  /\ (exists r, round_up_d M f v v = Ok r /\ forall a, ev r a = a v || ev f a).
Proof. exact nan_rounding. Qed.
Print Assumptions C155_rounding.
(** and round_down gives the constant 0 if the else child is 0, where exact numbers leave the function as it is *)
Theorem C155_everything_lost : forall (M : mgr) (f : bdd) (T v : nat),
  index_order M -> wf M f -> levels_of [f] T -> (Z.of_nat T < 2 ^ 64)%Z -> top_variable M f v ->
  (exists k, In k (reachable f) /\ k <> f /\ has_far_zero M T k) -> (forall a, a v = false -> ev f a = false) ->
  round_down_d M f v v = Ok bzero /\ round_down M f v v = Ok f.
Proof. exact nan_lost. Qed.
Print Assumptions C155_everything_lost.
Theorem C155_conjunction : forall (M : mgr) (n : nat) (f : bdd),
  index_order M -> wf M f -> (forall a, ev f a = forallb a (seq 0 n)) -> 1026 <= n -> (Z.of_nat n < 2 ^ 64)%Z ->
  round_down_d M f 0 0 = Ok bzero /\ round_down M f 0 0 = Ok f.
Proof. exact nan_conjunction. Qed.
Print Assumptions C155_conjunction.
Example C155_case : let M := id_mgr 1031 in let g := band M (bvar 1) (bvar 1030) in let f := band M (bvar 0) g in
  index_order M /\ wf M f /\ levels_of [f] 1031 /\ top_variable M f 0
  /\ (exists k, In k (reachable f) /\ k <> f /\ has_far_zero M 1031 k) /\ blookup g (count_solutions_d f) = Some DNaN
  /\ round_down_d M f 0 0 = Ok bzero /\ round_down M f 0 0 = Ok f /\ round_up_d M f 0 0 = Ok (bvar 0)
  /\ (* 1024 levels below *) ~ In DNaN (map snd (count_solutions_d (band M (bvar 1) (bvar 1024)))).
Proof.
  cbv zeta. set (M := id_mgr 1031). set (g := band M (bvar 1) (bvar 1030)). set (f := band M (bvar 0) g).
  assert (I : index_order M) by (intro i; reflexivity). assert (Wg : wf M g) by (apply wf_and; apply wf_var). assert (W : wf M f) by (apply wf_and; auto; apply wf_var).
  split; [exact I|]. split; [exact W|]. split; [apply levels_of_check; vm_compute; reflexivity|].
  split; [split; [vm_compute; left; reflexivity|intros i Hi; apply Nat.le_0_l]|].
  split; [|repeat split; vm_compute; try reflexivity; intros [H|[H|[H|[H|[]]]]]; discriminate].
  exists g. split; [vm_compute; right; left; reflexivity|]. split; [vm_compute; discriminate|]. exists g. split; [vm_compute; left; reflexivity|].
  exists 1, false. split; [split; [vm_compute; left; reflexivity|]|].
  { intros i Hi. vm_compute in Hi. destruct Hi as [<-|[<-|[]]]; apply Nat.leb_le; vm_compute; reflexivity. }
  split; [|apply Nat.leb_le; vm_compute; reflexivity].
  intros a Ha. unfold g. rewrite (ev_and M), !ev_var by apply wf_var. now rewrite Ha.
Qed.
