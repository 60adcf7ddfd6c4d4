(** Properties C60-C63, C66, C67: example circuits
    (src/example_bdds/simple.cpp, approximate_adders.cpp). *)
From Coq Require Import List Bool Arith ZArith Lia.
From Verif Require Import Res Cudd CuddFacts Spec SpecFacts Helpers HelpersFacts Examples AdderFacts.
Import ListNotations.
Open Scope nat_scope.

(** the assignment with operands [p] and [q] *)
Definition operands (p q : Z) : asg := fun v =>
  if Nat.even v then Z.testbit p (Z.of_nat (v / 2)) else Z.testbit q (Z.of_nat (v / 2)).
Definition evaluate (r : res (list bdd)) (p q : Z) : option Z :=
  match r with Ok l => Some (uval l (operands p q)) | _ => None end.

(** C60 *)
Theorem C60_regular_adder : forall (M : mgr) (N : nat), exists r,
  regular_adder M N = Ok r /\ wfs M r /\ length r = N + 1
  /\ forall a, uval r a = (number N (op1 a) + number N (op2 a))%Z.
Proof. exact regular_ok. Qed.
Print Assumptions C60_regular_adder.
Example C60_case : evaluate (regular_adder (id_mgr 8) 4) 11 6 = Some 17%Z
  /\ number 4 (op1 (operands 11 6)) = 11%Z /\ number 4 (op2 (operands 11 6)) = 6%Z.
Proof. vm_compute. auto. Qed.

(** C61: the result never exceeds the sum *)
Theorem C61_almost_correct_adder_1 : forall (M : mgr) (N Q : nat), 0 < Q <= N ->
  exists r, almost_correct_adder_1 M N Q = Ok r /\ wfs M r /\ underestimates N r.
Proof. exact aca1_c61. Qed.
Print Assumptions C61_almost_correct_adder_1.
Theorem C61_almost_correct_adder_2 : forall (M : mgr) (N Q : nat), 0 < Q <= N -> (Q = 1 -> N = 1) ->
  exists r, almost_correct_adder_2 M N Q = Ok r /\ wfs M r /\ underestimates N r.
Proof. exact aca2_c61. Qed.
Print Assumptions C61_almost_correct_adder_2.
Theorem C61_gracefully_degrading_adder : forall (M : mgr) (N p P : nat), 0 < N -> (1 < N -> 0 < p <= N) ->
  exists r, gracefully_degrading_adder M N p P = Ok r /\ wfs M r /\ underestimates N r.
Proof. exact gda_c61. Qed.
Print Assumptions C61_gracefully_degrading_adder.
Theorem C61_generic_accuracy_reconfigurable_adder : forall (M : mgr) (N R P : nat),
  0 < R + P <= N + 1 -> 0 < N -> (R + P = 1 -> 1 < N) ->
  exists r, generic_accuracy_reconfigurable_adder M N R P = Ok r /\ wfs M r /\ underestimates N r.
Proof. exact gear_c61. Qed.
Print Assumptions C61_generic_accuracy_reconfigurable_adder.
Example C61_case : let M := id_mgr 8 in (* 11 + 7 = 18 *)
  evaluate (almost_correct_adder_1 M 4 2) 11 7 = Some 10%Z
  /\ evaluate (almost_correct_adder_2 M 4 2) 11 7 = Some 10%Z
  /\ evaluate (gracefully_degrading_adder M 4 2 1) 11 7 = Some 18%Z
  /\ evaluate (generic_accuracy_reconfigurable_adder M 4 1 1) 11 7 = Some 10%Z.
Proof. vm_compute. auto. Qed.

(** C62: bit [i] is exact precisely if the carry into it is generated inside the window *)
Theorem C62_almost_correct_adder_1 : forall (M : mgr) (N Q : nat) (r : list bdd),
  almost_correct_adder_1 M N Q = Ok r ->
  exact_when_inside N r (fun i => i - (Q - 1))
  /\ forall a i, i < Q -> exact_bit N r a i.
Proof. exact aca1_c62. Qed.
Print Assumptions C62_almost_correct_adder_1.
Theorem C62_almost_correct_adder_2 : forall (M : mgr) (N Q : nat) (r : list bdd),
  almost_correct_adder_2 M N Q = Ok r ->
  exact_when_inside N r (fun i => lookback (block_end N (N / (N / Q + 1))) (Q / 2) (i - 1))
  /\ forall a i, i <= N -> i < N / (N / Q + 1) \/ i <= Q / 2 -> exact_bit N r a i.
Proof. exact aca2_c62. Qed.
Print Assumptions C62_almost_correct_adder_2.
Theorem C62_gracefully_degrading_adder : forall (M : mgr) (N p P : nat) (r : list bdd),
  gracefully_degrading_adder M N p P = Ok r ->
  exact_when_inside N r (fun i => lookback (block_end N (N / p)) P (i - 1))
  /\ forall a i, i <= N -> i < N / p \/ i <= P -> exact_bit N r a i.
Proof. exact gda_c62. Qed.
Print Assumptions C62_gracefully_degrading_adder.
Theorem C62_generic_accuracy_reconfigurable_adder : forall (M : mgr) (N R P : nat) (r : list bdd),
  generic_accuracy_reconfigurable_adder M N R P = Ok r ->
  exact_when_inside N r (fun i => lookback (gear_end N R P) P (i - 1))
  /\ forall a i, i <= N -> i < R + P \/ R = 0 -> exact_bit N r a i.
Proof. exact gear_c62. Qed.
Print Assumptions C62_generic_accuracy_reconfigurable_adder.
Example C62_case : let M := id_mgr 12 in
  (* 5 + 3: carries 1 -> 2 -> 3, cut by a window of two positions *)
  evaluate (almost_correct_adder_1 M 6 3) 5 3 = Some 0%Z
  /\ evaluate (almost_correct_adder_1 M 6 4) 5 3 = Some 8%Z
  (* windows of the carries into the bits 0 .. 6 *)
  /\ map (fun i => lookback (block_end 6 3) 1 (i - 1)) (seq 0 7) = [0; 0; 0; 2; 2; 2; 2]
  /\ evaluate (gracefully_degrading_adder M 6 2 1) 5 3 = Some 0%Z
  /\ evaluate (gracefully_degrading_adder M 6 2 3) 5 3 = Some 8%Z
  /\ map (fun i => lookback (gear_end 6 2 1) 1 (i - 1)) (seq 0 7) = [0; 0; 0; 2; 2; 4; 4]
  /\ evaluate (generic_accuracy_reconfigurable_adder M 6 2 1) 5 3 = Some 0%Z.
Proof. vm_compute. auto 10. Qed.

(** C63 *)
Theorem C63_and_bdd : forall (M : mgr) (n : nat) (a : asg),
  ev (and_bdd M n) a = true <-> forall i, i < n -> a i = true.
Proof. exact gate_and. Qed.
Print Assumptions C63_and_bdd.
Theorem C63_or_bdd : forall (M : mgr) (n : nat) (a : asg),
  ev (or_bdd M n) a = true <-> exists i, i < n /\ a i = true.
Proof. exact gate_or. Qed.
Print Assumptions C63_or_bdd.
Theorem C63_xor_bdd : forall (M : mgr) (n : nat) (a : asg),
  ev (xor_bdd M n) a = Nat.odd (length (filter a (seq 0 n))).
Proof. exact gate_xor. Qed.
Print Assumptions C63_xor_bdd.
Theorem C63_wf : forall (M : mgr) (n : nat), wf M (and_bdd M n) /\ wf M (or_bdd M n) /\ wf M (xor_bdd M n).
Proof. exact gates_wf. Qed.
Print Assumptions C63_wf.
Example C63_case : let M := id_mgr 3 in
  and_bdd M 3 = band M (bvar 0) (band M (bvar 1) (bvar 2))
  /\ or_bdd M 3 = bor M (bvar 0) (bor M (bvar 1) (bvar 2))
  /\ xor_bdd M 3 = bxor M (bvar 0) (bxor M (bvar 1) (bvar 2)).
Proof. vm_compute. auto. Qed.

(** C66: the admissible parameters are exactly those of C61 *)
Theorem C66_almost_correct_adder_1 : forall (M : mgr) (N Q : nat), ~ 0 < Q <= N ->
  almost_correct_adder_1 M N Q = Abort.
Proof. exact aca1_bad. Qed.
Print Assumptions C66_almost_correct_adder_1.
Theorem C66_almost_correct_adder_2 : forall (M : mgr) (N Q : nat),
  (~ 0 < Q <= N -> almost_correct_adder_2 M N Q = Abort)
  /\ (Q = 1 -> 1 < N -> almost_correct_adder_2 M N Q = UB).
Proof. exact aca2_bad. Qed.
Print Assumptions C66_almost_correct_adder_2.
Theorem C66_gracefully_degrading_adder : forall (M : mgr) (N p P : nat),
  ~ (0 < N /\ (1 < N -> 0 < p <= N)) -> gracefully_degrading_adder M N p P = UB.
Proof. exact gda_bad. Qed.
Print Assumptions C66_gracefully_degrading_adder.
Theorem C66_generic_accuracy_reconfigurable_adder : forall (M : mgr) (N R P : nat),
  ~ (0 < R + P <= N + 1 /\ 0 < N /\ (R + P = 1 -> 1 < N)) ->
  generic_accuracy_reconfigurable_adder M N R P = UB.
Proof. exact gear_bad. Qed.
Print Assumptions C66_generic_accuracy_reconfigurable_adder.
Example C66_case : let M := id_mgr 8 in
  almost_correct_adder_2 M 4 1 = UB /\ gracefully_degrading_adder M 4 5 1 = UB
  /\ generic_accuracy_reconfigurable_adder M 4 3 3 = UB /\ almost_correct_adder_1 M 4 5 = Abort.
Proof. vm_compute. auto. Qed.

(** C67: false: with the partition as wide as the operands the carry out of bit [0] is still cut *)
Theorem C67_full_partition_refuted : exists (M : mgr) (N : nat) (r s : list bdd) (a : asg), 0 < N
  /\ almost_correct_adder_1 M N N = Ok r /\ regular_adder M N = Ok s /\ uval r a <> uval s a.
Proof. exact full_partition_refuted. Qed.
Print Assumptions C67_full_partition_refuted.
(** what holds: all bits but the carry out are exact, and the carry out is lost only if it comes from bit 0 *)
Theorem C67_full_partition_partial : forall (M : mgr) (N : nat) (r : list bdd) (a : asg),
  almost_correct_adder_1 M N N = Ok r ->
  ((number N (op1 a) + number N (op2 a)) mod 2 ^ Z.of_nat N = uval r a mod 2 ^ Z.of_nat N)%Z
  /\ ((uval r a = number N (op1 a) + number N (op2 a))%Z
      <-> (carry_into (op1 a) (op2 a) N -> generated_from (op1 a) (op2 a) 1 N)).
Proof. exact full_partition. Qed.
Print Assumptions C67_full_partition_partial.
Example C67_case : let M := id_mgr 6 in
  evaluate (almost_correct_adder_1 M 3 3) 5 3 = Some 0%Z
  /\ evaluate (almost_correct_adder_1 M 3 3) 6 3 = Some 9%Z.
Proof. vm_compute. auto. Qed.
