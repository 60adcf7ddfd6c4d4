(** Properties C163 *)
From Coq Require Import List Arith Bool Lia ZArith QArith.
From Verif Require Import Res Cudd CuddFacts Spec SpecOperators Helpers Counting Operators Examples SizeFacts SizeFacts2.
Import ListNotations.
Open Scope nat_scope.

(** C163: the gates of the examples have one node per variable and the terminal *)
Theorem C163_gates : forall (M : mgr) (n : nat), index_order M ->
  nodeCount [and_bdd M n] = n + 1 /\ nodeCount [or_bdd M n] = n + 1 /\ nodeCount [xor_bdd M n] = n + 1.
Proof. exact gate_sizes. Qed.
Print Assumptions C163_gates.
(** six operators, cutting the parity at its last level but one, nearly double it *)
Theorem C163_growth : forall (M : mgr) (n : nat) (op : bdd -> res bdd), index_order M -> 2 <= n ->
  In op (firstn 6 (the_operators M (n - 2) (n - 2))) ->
  exists r, op (xor_bdd M n) = Ok r /\ 2 * n - 1 <= nodeCount [r].
Proof. exact parity_growth. Qed.
Print Assumptions C163_growth.
(** parity does not help for round and round_best (its ties become constant); with a tie at the last level but one
    below parity they nearly double the size as well *)
Theorem C163_growth_round : forall (M : mgr) (k : nat) (op : bdd -> res bdd), index_order M ->
  let f := bxor M (xor_bdd M k) (ite M (bvar k) (bxor M (bvar (k + 2)) (bvar (k + 3))) (bvar (k + 1))) in
  In op (skipn 6 (the_operators M (k + 2) (k + 2))) ->
  nodeCount [f] = k + 5 /\ exists r, op f = Ok r /\ 2 * k + 3 <= nodeCount [r].
Proof. exact round_growth. Qed.
Print Assumptions C163_growth_round.
(** hence for each of the eight no factor below two bounds the size *)
Theorem C163_sharp : forall (factor : Q) (i : nat), (factor < 2)%Q -> i < 8 ->
  exists (M : mgr) (f : bdd) (l : nat) (op : bdd -> res bdd) (r : bdd),
  nth_error (the_operators M l l) i = Some op /\ index_order M /\ wf M f /\ op f = Ok r
  /\ (factor * inject_Z (Z.of_nat (nodeCount [f])) < inject_Z (Z.of_nat (nodeCount [r])))%Q.
Proof. exact no_smaller_factor_any. Qed.
Print Assumptions C163_sharp.
Example C163_case : let M := id_mgr 6 in
  (nodeCount [and_bdd M 6], nodeCount [or_bdd M 6], nodeCount [xor_bdd M 6]) = (7, 7, 7)
  /\ map (fun op => match op (xor_bdd M 6) with Ok r => nodeCount [r] | _ => 0 end) (the_operators M 4 4)
     = [11; 11; 11; 11; 11; 11; 1; 1].
Proof. vm_compute. auto. Qed.
Example C163_round_case : let M := id_mgr 10 in let k := 6 in
  let f := bxor M (xor_bdd M k) (ite M (bvar k) (bxor M (bvar (k + 2)) (bvar (k + 3))) (bvar (k + 1))) in
  nodeCount [f] = 11 /\ map (fun op => match op f with Ok r => nodeCount [r] | _ => 0 end) (skipn 6 (the_operators M 8 8)) = [15; 15].
Proof. vm_compute. auto. Qed.
