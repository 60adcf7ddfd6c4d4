(** Property C193: round_bdd on every output of a vector minimises the flipped bits, but not the other metrics
    (src/approximation_operators/approximation_operators.cpp 64-70, 200-262; src/error_metrics/average_bit_flip_error.cpp). *)
From Coq Require Import List Bool Arith ZArith QArith Lia.
From Verif Require Import Res Cudd Spec Helpers Counting Metrics Operators RoundVectorFacts.
Import ListNotations.
Open Scope nat_scope.

(** C193: no vector of functions of the variables below the level flips fewer bits on average *)
Theorem C193_fewest_flips : forall (M : mgr) (n : nat) (f : list bdd) (level : nat), index_order M -> Forall (wf M) f -> below n f ->
  exists g, map (fun b => round_bdd M b level) f = map Ok g /\ below level g
    /\ forall h, Forall (wf M) h -> below level h -> length h = length f ->
       exists q q', average_bit_flip_error M f g = Ok q /\ average_bit_flip_error M f h = Ok q' /\ (q <= q')%Q.
Proof. exact round_flips. Qed.
Print Assumptions C193_fewest_flips.

(** C193: the error rate, the average-case and the worst-case error can be smaller for another such vector *)
Theorem C193_other_metrics_refuted : exists (M : mgr) (n level : nat) (f g h : list bdd) (e e' q q' : Q) (w w' : Z),
  index_order M /\ Forall (wf M) f /\ below n f /\ Forall (wf M) h /\ below level h /\ length h = length f
  /\ map (fun b => round_bdd M b level) f = map Ok g
  /\ error_rate M f g = Ok e /\ error_rate M f h = Ok e' /\ (e' < e)%Q
  /\ average_case_error M f g BaseTwo = Ok (Fin q) /\ average_case_error M f h BaseTwo = Ok (Fin q') /\ (q' < q)%Q
  /\ worst_case_error M f g BaseTwo = Ok w /\ worst_case_error M f h BaseTwo = Ok w' /\ (w' < w)%Z.
Proof. exact round_vector_refuted. Qed.
Print Assumptions C193_other_metrics_refuted.

(** the values 3, 2, 1 for 2, 3, 3 of the eight inputs: round gives the constant 3, the constant 2 is better in all but the bits *)
Example C193_case : let M := id_mgr 3 in let f := three_values in let g := [bone; bone] in let h := [bzero; bone] in
  let value r := match r with Ok q => Qred q | _ => 9%Q end in let fin r := match r with Ok (Fin q) => Qred q | _ => 9%Q end in
  map (fun b => round_bdd M b 0) f = map Ok g
  /\ (value (average_bit_flip_error M f g), value (average_bit_flip_error M f h)) = (3 # 4, 1)%Q
  /\ (value (error_rate M f g), value (error_rate M f h)) = (3 # 4, 5 # 8)%Q
  /\ (fin (average_case_error M f g BaseTwo), fin (average_case_error M f h BaseTwo)) = (9 # 8, 5 # 8)%Q
  /\ (worst_case_error M f g BaseTwo, worst_case_error M f h BaseTwo) = (Ok 2%Z, Ok 1%Z).
Proof. vm_compute. auto 6. Qed.
