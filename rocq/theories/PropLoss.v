(** Property C192: how much the child replacing operators can change the average value of a function with several outputs
    (src/approximation_operators/approximation_operators.cpp 36-48, 105-198; src/error_metrics/average_case_error.cpp 10-33, 65-74,
    average_bit_flip_error.cpp, error_rate.cpp). *)
From Coq Require Import List Bool Arith ZArith QArith Lia.
From Verif Require Import Res Cudd Spec Helpers Counting Metrics Operators Examples LossFacts LossFacts2.
Import ListNotations.
Open Scope nat_scope.

(** C192: k levels cost at most the share (2^k - 1) / 2^k of the average value, or of its distance to the largest value *)
Theorem C192_average_loss : forall (M : mgr) (n : nat) (f : list bdd) (level_start level_end : nat),
  index_order M -> Forall (wf M) f -> below n f -> level_start <= level_end -> length f + n < 256 ->
  let K := inject_Z (2 ^ Z.of_nat (level_end - level_start + 1)) in
  (exists g q, map (fun b => subset_light_child M b level_start level_end) f = map Ok g /\ average_case_error M f g BaseTwo = Ok (Fin q)
     /\ (K * q <= (K - 1) * average n (fun a => inject_Z (uval f a)))%Q)
  /\ (exists g q, map (fun b => superset_heavy_child M b level_start level_end) f = map Ok g /\ average_case_error M f g BaseTwo = Ok (Fin q)
     /\ (K * q <= (K - 1) * average n (fun a => inject_Z (2 ^ Z.of_nat (length f) - 1 - uval f a)))%Q).
Proof. exact loss. Qed.
Print Assumptions C192_average_loss.

(** C192: the same for the flipped bits, whatever the number of outputs and variables; the error rate is no larger *)
Theorem C192_bit_flips : forall (M : mgr) (n : nat) (f : list bdd) (level_start level_end : nat),
  index_order M -> Forall (wf M) f -> below n f -> level_start <= level_end ->
  let K := inject_Z (2 ^ Z.of_nat (level_end - level_start + 1)) in
  (exists g q e, map (fun b => subset_light_child M b level_start level_end) f = map Ok g /\ average_bit_flip_error M f g = Ok q /\ error_rate M f g = Ok e
     /\ (e <= q)%Q /\ (K * q <= (K - 1) * fold_right Qplus 0 (map (density n) f))%Q)
  /\ (exists g q e, map (fun b => superset_heavy_child M b level_start level_end) f = map Ok g /\ average_bit_flip_error M f g = Ok q /\ error_rate M f g = Ok e
     /\ (e <= q)%Q /\ (K * q <= (K - 1) * fold_right Qplus 0 (map (fun b => 1 - density n b) f))%Q).
Proof. exact flips. Qed.
Print Assumptions C192_bit_flips.

(** C192: parity attains the bound *)
Theorem C192_attained : forall (M : mgr) (n level_start level_end : nat),
  index_order M -> level_start <= level_end -> S level_end < n -> n < 255 ->
  let K := inject_Z (2 ^ Z.of_nat (level_end - level_start + 1)) in let f := xor_bdd M n in
  exists g q, subset_light_child M f level_start level_end = Ok g /\ average_case_error M [f] [g] BaseTwo = Ok (Fin q)
    /\ (K * q == (K - 1) * average n (fun a => inject_Z (uval [f] a)))%Q.
Proof. exact loss_sharp. Qed.
Print Assumptions C192_attained.

(** two outputs: the majority and the parity of three inputs, average value 3/2; one level loses 5/8 of at most 3/4 *)
Example C192_case : let M := id_mgr 3 in
  let f := [bor M (band M (bvar 0) (bvar 1)) (band M (bvar 2) (bor M (bvar 0) (bvar 1))); xor_bdd M 3] in
  let g := map (fun b => match subset_light_child M b 0 0 with Ok r => r | _ => bzero end) f in
  Qred (average 3 (fun a => inject_Z (uval f a))) = (3 # 2)%Q
  /\ match average_case_error M f g BaseTwo with Ok (Fin q) => Qred q | _ => 7%Q end = (5 # 8)%Q
  /\ match average_bit_flip_error M f g, error_rate M f g with Ok q, Ok e => [Qred q; Qred e] | _, _ => [] end = [3 # 8; 3 # 8]%Q.
Proof. vm_compute. auto. Qed.
