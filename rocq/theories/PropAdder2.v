(** Properties C105-C106: the approximate adders as configurations of the generic one
    (src/example_bdds/approximate_adders.cpp). BDD vectors are compared, so equal means identical nodes. *)
From Coq Require Import List Bool Arith ZArith QArith Lia.
From Verif Require Import Res Cudd CuddFacts Spec SpecAdder Examples AdderErrorFacts4.
Import ListNotations.
Open Scope nat_scope.

(** C105: false as stated: the carry out of the almost correct adder 1 is also computed from a window *)
Theorem C105_aca1_gear_refuted : exists (M : mgr) (N Q : nat) (r r' : list bdd),
  almost_correct_adder_1 M N Q = Ok r /\ generic_accuracy_reconfigurable_adder M N 1 (Q - 1) = Ok r' /\ nth N r bzero <> nth N r' bzero.
Proof. exact aca1_gear_differ. Qed.
Print Assumptions C105_aca1_gear_refuted.
(** all other bits are the same *)
Theorem C105_aca1_gear_partial : forall (M : mgr) (N Q : nat) (r r' : list bdd),
  almost_correct_adder_1 M N Q = Ok r -> generic_accuracy_reconfigurable_adder M N 1 (Q - 1) = Ok r' ->
  forall i, i < N -> nth i r bzero = nth i r' bzero.
Proof. exact aca1_gear. Qed.
Print Assumptions C105_aca1_gear_partial.
Example C105_case : let M := id_mgr 8 in
  match almost_correct_adder_1 M 4 2, generic_accuracy_reconfigurable_adder M 4 1 1 with
  | Ok r, Ok r' => firstn 4 r = firstn 4 r' /\ nth 4 r bzero <> nth 4 r' bzero
  | _, _ => False
  end.
Proof. vm_compute. split; [reflexivity|discriminate]. Qed.

(** C106: false as stated *)
Theorem C106_aca2_gear_refuted : exists (M : mgr) (N h : nat) (r r' : list bdd), 0 < h /\
  almost_correct_adder_2 M N (2 * h) = Ok r /\ generic_accuracy_reconfigurable_adder M N h h = Ok r' /\ r <> r'.
Proof. exact aca2_gear_differ. Qed.
Print Assumptions C106_aca2_gear_refuted.
Theorem C106_gda_gear_refuted : exists (M : mgr) (N p P : nat) (r r' : list bdd), 0 < p <= N /\ N mod p = 0 /\ 0 < P /\
  gracefully_degrading_adder M N p P = Ok r /\ generic_accuracy_reconfigurable_adder M N (N / p) P = Ok r' /\ r <> r'.
Proof. exact gda_gear_differ. Qed.
Print Assumptions C106_gda_gear_refuted.
(** it holds if the block length computed from the number of partitions is half the partition size *)
Theorem C106_aca2_gear_partial : forall (M : mgr) (N h : nat) (r r' : list bdd),
  almost_correct_adder_2 M N (2 * h) = Ok r -> N / (N / (2 * h) + 1) = h ->
  generic_accuracy_reconfigurable_adder M N h h = Ok r' -> 0 < h -> r = r'.
Proof. exact aca2_gear. Qed.
Print Assumptions C106_aca2_gear_partial.
(** and if the lookback is a multiple of the block length *)
Theorem C106_gda_gear_partial : forall (M : mgr) (N p P : nat) (r r' : list bdd),
  gracefully_degrading_adder M N p P = Ok r -> 0 < p <= N -> P mod (N / p) = 0 -> 1 < N / p + P ->
  generic_accuracy_reconfigurable_adder M N (N / p) P = Ok r' -> r = r'.
Proof. exact gda_gear. Qed.
Print Assumptions C106_gda_gear_partial.
Example C106_case : let M := id_mgr 8 in
  match almost_correct_adder_2 M 4 2, generic_accuracy_reconfigurable_adder M 4 1 1 with Ok r, Ok r' => r = r' | _, _ => False end
  /\ match gracefully_degrading_adder M 4 2 2, generic_accuracy_reconfigurable_adder M 4 2 2 with Ok r, Ok r' => r = r' | _, _ => False end
  /\ 4 / (4 / (2 * 1) + 1) = 1 /\ 2 mod (4 / 2) = 0.
Proof. vm_compute. auto. Qed.
