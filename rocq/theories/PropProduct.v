(** Property C180: how often random_satisfying_input returns an input that does not satisfy the function
    (src/util/cudd_helpers.cpp:169-213). All sequences of draws from 0..RAND_MAX are equally likely. *)
From Coq Require Import List Bool Arith ZArith QArith.
From Verif Require Import Res Cudd CuddFacts Spec SpecFloat SpecSampling SpecProduct Helpers HelpersFacts2 Counting ProductFacts.
Import ListNotations.
Open Scope nat_scope.

(** C180: at most with the probability that some draw is zero *)
Theorem C180_at_most : forall (M : mgr) (r : nat) (f : bdd) (T : nat),
  index_order M -> 0 < r -> wf M f -> depends_below T f -> (exists a, ev f a = true) ->
  (probability r T (fun l => match random_satisfying_input (Z.of_nat r) f (count_minterms f) T l with
                             | Ok x => negb (ev f (fun i => nth i x 0 =? 1)%Z) | _ => true end)
   <= 1 - qpow (inject_Z (Z.of_nat r) / inject_Z (Z.of_nat (S r))) T)%Q.
Proof. exact wrong_at_most. Qed.
Print Assumptions C180_at_most.
(** for a product of literals exactly with the probability that the draw for some negative literal is zero *)
Theorem C180_product : forall (M : mgr) (r : nat) (f : bdd) (T : nat) (s : nat -> option bool),
  index_order M -> 0 < r -> wf M f -> product T s f ->
  (probability r T (fun l => match random_satisfying_input (Z.of_nat r) f (count_minterms f) T l with
                             | Ok x => negb (ev f (fun i => nth i x 0 =? 1)%Z) | _ => true end)
   == 1 - qpow (inject_Z (Z.of_nat r) / inject_Z (Z.of_nat (S r))) (negative_literals T s))%Q.
Proof. exact wrong_product. Qed.
Print Assumptions C180_product.
Example C180_case : (* !x0 & x1 & !x3 of four variables, draws from 0..2: wrong with probability 1 - (2/3)^2 *)
  let M := id_mgr 4 in
  let f := band M (band M (bnot (bvar 0)) (bvar 1)) (bnot (bvar 3)) in
  let s i := match i with 0 => Some false | 1 => Some true | 3 => Some false | _ => None end in
  product 4 s f /\ negative_literals 4 s = 2
  /\ Qred (probability 2 4 (fun l => match random_satisfying_input 2 f (count_minterms f) 4 l with
                             | Ok x => negb (ev f (fun i => nth i x 0 =? 1)%Z) | _ => true end)) = (5 # 9)%Q
  /\ Qred (1 - qpow (2 # 3) 2) = (5 # 9)%Q.
Proof.
  split; [|vm_compute; auto]. intro a. vm_compute ev. split.
  - intros H i b Hi Hs. destruct (a 0) eqn:E0, (a 1) eqn:E1, (a 3) eqn:E3; try discriminate H.
    destruct i as [|[|[|[|i]]]]; cbn in Hs; congruence.
  - intro H. now rewrite (H 0 false ltac:(repeat constructor) eq_refl), (H 1 true ltac:(repeat constructor) eq_refl), (H 3 false ltac:(repeat constructor) eq_refl).
Qed.
