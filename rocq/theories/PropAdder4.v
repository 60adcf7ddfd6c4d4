(** Property C178: squared and relative errors of the almost correct adder with longer sub adders
    (src/example_bdds/approximate_adders.cpp). C97 has the other metrics. *)
From Coq Require Import List Bool Arith ZArith QArith.
From Verif Require Import Res Cudd CuddFacts Spec SpecBounds Helpers Examples Metrics RelMetrics AdderErrorFacts7.
Import ListNotations.
Open Scope nat_scope.

(** C178: the averages never grow; the largest relative error is 1 for every length *)
Theorem C178_averages : forall (M : mgr) (N Q R : nat) (r r' s : list bdd),
  almost_correct_adder_1 M N Q = Ok r -> almost_correct_adder_1 M N R = Ok r' -> regular_adder M N = Ok s -> Q <= R ->
  (average (2 * N) (fun a => inject_Z (dist (uval s a) (uval r' a) * dist (uval s a) (uval r' a)))
   <= average (2 * N) (fun a => inject_Z (dist (uval s a) (uval r a) * dist (uval s a) (uval r a))))%Q
  /\ (average (2 * N) (fun a => rel (uval s a) (uval r' a)) <= average (2 * N) (fun a => rel (uval s a) (uval r a)))%Q
  /\ (average (2 * N) (low_rel BaseTwo s r') <= average (2 * N) (low_rel BaseTwo s r))%Q
  /\ (average (2 * N) (high_rel BaseTwo s r') <= average (2 * N) (high_rel BaseTwo s r))%Q
  /\ is_maxQ (fun a => rel (uval s a) (uval r' a)) 1 /\ is_maxQ (fun a => rel (uval s a) (uval r a)) 1.
Proof. exact better_means. Qed.
Print Assumptions C178_averages.
Theorem C178_metrics : forall (M : mgr) (N Q R : nat) (r r' s : list bdd),
  almost_correct_adder_1 M N Q = Ok r -> almost_correct_adder_1 M N R = Ok r' -> regular_adder M N = Ok s -> Q <= R ->
  ((Z.of_nat N + 1 < 2 ^ 32)%Z -> exists p q, worst_case_bit_flip_error M s r' = Ok p /\ worst_case_bit_flip_error M s r = Ok q
     /\ (q - p = Z.of_nat (R - Q))%Z)
  /\ (index_order M -> 2 * N <= 63 ->
       (exists p q, mean_squared_error_add M s r' BaseTwo = Ok (Fin p) /\ mean_squared_error_add M s r BaseTwo = Ok (Fin q) /\ (p <= q)%Q)
       /\ (exists p q, acre_add M s r' BaseTwo = Ok (Fin p) /\ acre_add M s r BaseTwo = Ok (Fin q) /\ (p <= q)%Q))
  /\ (3 * N + 1 < 256 -> exists lo hi lo' hi', acre_bounds M s r' BaseTwo = Ok (Fin lo', Fin hi')
       /\ acre_bounds M s r BaseTwo = Ok (Fin lo, Fin hi) /\ (lo' <= lo)%Q /\ (hi' <= hi)%Q).
Proof. exact better_metrics. Qed.
Print Assumptions C178_metrics.
Example C178_case : (* sub adders of 1, 2 and 3 bits for operands of 3 bits *)
  let M := id_mgr 6 in
  match almost_correct_adder_1 M 3 1, almost_correct_adder_1 M 3 2, almost_correct_adder_1 M 3 3, regular_adder M 3 with
  | Ok r1, Ok r2, Ok r3, Ok s =>
      map (fun r => match mean_squared_error_add M s r BaseTwo with Ok (Fin q) => Qred q | _ => 0%Q end) [r1; r2; r3] = [28; 10; 4]%Q
      /\ map (fun r => match acre_add M s r BaseTwo with Ok (Fin q) => Qred q | _ => 0%Q end) [r1; r2; r3] = [161159 # 411840; 133 # 720; 1 # 16]%Q
      /\ map (fun r => match acre_bounds M s r BaseTwo with Ok (Fin p, Fin q) => (Qred p, Qred q) | _ => (0, 0)%Q end) [r1; r2; r3] = [(229 # 840, 1 # 2); (23 # 210, 13 # 64); (1 # 30, 1 # 16)]%Q
      /\ map (worst_case_bit_flip_error M s) [r1; r2; r3] = [Ok 3; Ok 2; Ok 1]%Z
  | _, _, _, _ => False
  end.
Proof. vm_compute. auto. Qed.
