(** Property C160: error_rate_efficient_sampling (src/error_metrics/error_rate.cpp:66-141) when 2^(ReadSize() - 1) is no
    finite double: managers without variables, where ReadSize() - 1 wraps around, and with more than 1024 variables. *)
From Coq Require Import List Bool Arith ZArith QArith.
From Verif Require Import Res Cudd CuddFacts Spec Helpers Counting Metrics RelMetrics Ieee Ieee2 SpecEfficient IeeeFacts8.
Import ListNotations.
Open Scope nat_scope.

(** C160: with any number of outputs but one, a NaN is converted to an integer, or there is no first rate; whatever
    Cudd_CountMinterm and the sort return, and whatever the draws are *)
Theorem C160_undefined : forall (count : bdd -> Z -> dbl) (M : mgr) (sort : list (nat * dbl) -> list (nat * dbl)) (rm : Z) (draws : nat -> Z)
    (f g : list bdd) (samples : Z),
  permutes sort -> Forall (wf M) f -> Forall (wf M) g -> length f = length g -> infinite_size M -> length f <> 1 ->
  error_rate_efficient_sampling_d count M sort rm draws f g samples = UB.
Proof. exact efficient_many_ub. Qed.
Print Assumptions C160_undefined.
(** with one output the result is 0 if the count is finite, and otherwise 1 *)
Theorem C160_one_output : forall (count : bdd -> Z -> dbl) (M : mgr) (sort : list (nat * dbl) -> list (nat * dbl)) (rm : Z) (draws : nat -> Z)
    (x y : bdd) (samples : Z), permutes sort -> infinite_size M ->
  let c := count (bxor M x y) (Z.of_nat (read_size M) - 1)%Z in
  (finite_double c -> error_rate_efficient_sampling_d count M sort rm draws [x] [y] samples = Ok (DFin 0))
  /\ (~ finite_double c -> error_rate_efficient_sampling_d count M sort rm draws [x] [y] samples = Ok (DFin 1)).
Proof. exact efficient_one_value. Qed.
Print Assumptions C160_one_output.
(** without variables the rate of two functions that always differ is 0 *)
Theorem C160_empty_manager : exists (M : mgr) (f g : list bdd),
  read_size M = 0 /\ Forall (wf M) f /\ Forall (wf M) g /\ length f = length g /\ (forall a, differ f g a = true)
  /\ forall count sort rm draws samples, permutes sort -> (forall b k, finite_double (count b k)) ->
     error_rate_efficient_sampling_d count M sort rm draws f g samples = Ok (DFin 0).
Proof. exact efficient_empty_refuted. Qed.
Print Assumptions C160_empty_manager.
Example C160_case : (* Cudd_CountMinterm gives 2^-1 and 0 for the constants when the number of variables is -1 *)
  let count := fun (b : bdd) (k : Z) => if (k =? -1)%Z then DFin (if fst b then 0 else 1 # 2)%Q else DNaN in
  let run f g := error_rate_efficient_sampling_d count (id_mgr 0) (fun l => l) 7 (fun _ => 3%Z) f g 10 in
  infinite_size (id_mgr 0) /\ infinite_size (id_mgr 1025)
  /\ run [bone] [bzero] = Ok (DFin 0) /\ run [bone; bone] [bzero; bone] = UB /\ run [] [] = UB
  /\ (* a manager of two variables, where the rate is 3/4 *)
     match error_rate_efficient_sampling_d (fun b k => DFin (frac b * 2 ^ k)) (id_mgr 2) (fun l => l) 7 (fun i => nth i [1; 1; 2; 6]%Z 0%Z)
             [bvar 0; bvar 1] [bzero; bzero] 2 with Ok (DFin q) => Qeq_bool q (3 # 4) | _ => false end = true.
Proof. split; [split; [left; reflexivity|discriminate]|]. split; [split; [right; apply Nat.leb_le; reflexivity|discriminate]|]. vm_compute. auto. Qed.
