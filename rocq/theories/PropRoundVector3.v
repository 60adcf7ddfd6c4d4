(** Property C195: how far round_bdd on every output of a vector is from the best error rate and average-case error
    (src/approximation_operators/approximation_operators.cpp 64-70, 200-262; src/error_metrics/error_rate.cpp; src/error_metrics/average_case_error.cpp). *)
From Coq Require Import List Bool Arith ZArith QArith Lia.
From Verif Require Import Res Cudd Spec Helpers Counting Metrics Operators RoundVectorFacts RoundVectorFacts3.
Import ListNotations.
Open Scope nat_scope.

(** C195: for m outputs the error rate is within the factor m, the average-case error within 2^m - 1, of any vector of functions of the variables below the level *)
Theorem C195_near_best : forall (M : mgr) (n : nat) (f : list bdd) (level : nat), index_order M -> Forall (wf M) f -> below n f ->
  exists g, map (fun b => round_bdd M b level) f = map Ok g
    /\ forall h, Forall (wf M) h -> below level h -> length h = length f ->
       (exists q q', error_rate M f g = Ok q /\ error_rate M f h = Ok q' /\ (q <= inject_Z (Z.of_nat (length f)) * q')%Q)
       /\ (length f + Nat.max n level < 256 -> exists q q', average_case_error M f g BaseTwo = Ok (Fin q) /\ average_case_error M f h BaseTwo = Ok (Fin q')
             /\ (q <= inject_Z (2 ^ Z.of_nat (length f) - 1) * q')%Q).
Proof. exact round_near. Qed.
Print Assumptions C195_near_best.

(** two outputs: 3/4 <= 2 * 5/8 and 9/8 <= 3 * 5/8; without the factors both inequalities fail *)
Example C195_case : let M := id_mgr 3 in let f := three_values in let g := [bone; bone] in let h := [bzero; bone] in
  let value r := match r with Ok q => Qred q | _ => 9%Q end in let fin r := match r with Ok (Fin q) => Qred q | _ => 9%Q end in
  map (fun b => round_bdd M b 0) f = map Ok g
  /\ (value (error_rate M f g), value (error_rate M f h)) = (3 # 4, 5 # 8)%Q
  /\ (fin (average_case_error M f g BaseTwo), fin (average_case_error M f h BaseTwo)) = (9 # 8, 5 # 8)%Q.
Proof. vm_compute. auto. Qed.
