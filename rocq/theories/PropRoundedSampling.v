(** Property C156: the distribution of random_satisfying_input (src/util/cudd_helpers.cpp:169-213) when the
    weights, the draw and the quotient are doubles. All sequences of draws from 0..RAND_MAX are equally likely. *)
From Coq Require Import List Bool Arith ZArith QArith Qabs.
From Verif Require Import Res Cudd CuddFacts Spec SpecFacts Helpers HelpersFacts HelpersFacts2 Counting Metrics RelMetrics RelFacts3 RelFacts4 RelFacts6
  SpecSampling Ieee SamplingFacts5.
Import ListNotations.
Open Scope nat_scope.

(** C156: no statistic of the input with values between 0 and 1 is off by more than
    inputs / (RAND_MAX + 1), as with exact weights, plus inputs^2 / 2^50 *)
Theorem C156_nearly_uniform : forall (M : mgr) (r : nat) (f : bdd) (T : nat) (F : list Z -> Q),
  index_order M -> Nat.Odd r -> (Z.of_nat r <= 2 ^ 53)%Z -> T <= 1022 ->
  wf M f -> depends_below T f -> (exists a, ev f a = true) -> (forall x, 0 <= F x <= 1)%Q ->
  exists input : list Z -> list Z,
    (forall l, draw_list r T l -> random_satisfying_input_d (Z.of_nat r) f (count_minterms_d f) T l = Ok (input l))
    /\ (Qabs (expectation r T (fun l => F (input l)) - conditional T f F)
        <= inject_Z (Z.of_nat T) * (1 / inject_Z (Z.of_nat (S r)) + inject_Z (Z.of_nat T) * 2 ^ (-50)))%Q.
Proof. exact random_input_uniform_d. Qed.
Print Assumptions C156_nearly_uniform.
Theorem C156_wrong_inputs : forall (M : mgr) (r : nat) (f : bdd) (T : nat),
  index_order M -> Nat.Odd r -> (Z.of_nat r <= 2 ^ 53)%Z -> T <= 1022 -> wf M f -> depends_below T f -> (exists a, ev f a = true) ->
  (probability r T (fun l => match random_satisfying_input_d (Z.of_nat r) f (count_minterms_d f) T l with
                             | Ok x => negb (ev f (asg_ints x)) | _ => true end)
   <= inject_Z (Z.of_nat T) * (1 / inject_Z (Z.of_nat (S r)) + inject_Z (Z.of_nat T) * 2 ^ (-50)))%Q.
Proof. exact random_input_wrong_d. Qed.
Print Assumptions C156_wrong_inputs.
Definition first_bit_d (f : bdd) (l : list Z) : Q :=
  match random_satisfying_input_d 3 f (count_minterms_d f) 2 l with Ok (x :: _) => inject_Z x | _ => 7%Q end.
Example C156_case : (* the first bit of x0 | x1 is one with probability 2/3, sampled: 3/4 *)
  let f := bor (id_mgr 2) (bvar 0) (bvar 1) in
  Qred (expectation 3 2 (first_bit_d f)) = (3 # 4)%Q
  /\ Qred (conditional 2 f (fun x => inject_Z (hd 0%Z x))) = (2 # 3)%Q
  /\ (* a function without a solution for the then branch: one draw of four gives a wrong input *)
     Qred (probability 3 1 (fun l => match random_satisfying_input_d 3 (bnot (bvar 0)) (count_minterms_d (bnot (bvar 0))) 1 l with
                                     | Ok x => negb (ev (bnot (bvar 0)) (asg_ints x)) | _ => true end)) = (1 # 4)%Q.
Proof. vm_compute. auto. Qed.
