(** Property C159: random_satisfying_input (src/util/cudd_helpers.cpp:169-213) in other variable orders than that of
    the indices, and with other maps than the one of count_minterms. *)
From Coq Require Import List Bool Arith ZArith QArith.
From Verif Require Import Res Cudd CuddFacts Spec SpecFacts Helpers HelpersFacts HelpersFacts2 Counting CountFacts Metrics RelFacts3
  SpecMinimize SpecSampling OrderFacts SpecOrder OrderSampling.
Import ListNotations.
Open Scope nat_scope.

(** C159: when the variables come in the opposite order, the conjunction of n variables gets n - 1 arbitrary bits and a one *)
Theorem C159_value : forall (M : mgr) (n : nat) (f : bdd) (rm : Z) (draws : list Z),
  0 < n -> opposite_order M n -> wf M f -> conjunction n f -> (0 < rm)%Z -> length draws = n -> Forall (fun d => d <= rm)%Z draws ->
  random_satisfying_input rm f (count_minterms f) n draws = Ok (map (fun d => (d mod 2)%Z) (firstn (n - 1) draws) ++ [1%Z]).
Proof. exact opposite_value. Qed.
Print Assumptions C159_value.
(** so the result satisfies the function with probability 1 / 2^(n-1) only *)
Theorem C159_probability : forall (M : mgr) (n : nat) (f : bdd) (r : nat),
  0 < n -> opposite_order M n -> wf M f -> conjunction n f -> Nat.Odd r ->
  (probability r n (fun l => match random_satisfying_input (Z.of_nat r) f (count_minterms f) n l with Ok x => ev f (input_of x) | _ => false end)
   == 1 / inject_Z (2 ^ Z.of_nat (n - 1)))%Q.
Proof. exact opposite_probability. Qed.
Print Assumptions C159_probability.
(** it returns a vector in every order, with every map, or throws for a successor that has no weight *)
Theorem C159_total : forall (rm : Z) (f : bdd) (mc : bmap Q) (T : nat) (draws : list Z), length draws = T ->
  (exists l, random_satisfying_input rm f mc T draws = Ok l /\ length l = T)
  \/ (fails Exception (random_satisfying_input rm f mc T draws) /\ lacks_child mc f).
Proof. exact other_map. Qed.
Print Assumptions C159_total.
Theorem C159_missing : forall (rm : Z) (c : bool) (v : nat) (t : node) (c' : bool) (e : node) (mc : bmap Q) (T : nat) (draws : list Z),
  v < T -> length draws = T -> ~ has_weight mc (then_edge c t) \/ ~ has_weight mc (else_edge c c' e) ->
  fails Exception (random_satisfying_input rm (c, Nd v t c' e) mc T draws).
Proof. exact missing_child. Qed.
Print Assumptions C159_missing.
(** the result need not satisfy the function *)
Theorem C159_other_order : exists (M : mgr) (n : nat) (f : bdd) (rm : Z) (draws x : list Z),
  wf M f /\ conjunction n f /\ length draws = n /\ Forall (fun d => 0 < d <= rm)%Z draws
  /\ random_satisfying_input rm f (count_minterms f) n draws = Ok x /\ ev f (input_of x) = false.
Proof. exact opposite_refuted. Qed.
Print Assumptions C159_other_order.

Example C159_case : let f := band (reversed_mgr 2 2) (bvar 0) (bvar 1) in
  opposite_order (reversed_mgr 2 2) 2 /\ wf (reversed_mgr 2 2) f /\ conjunction 2 f
  /\ random_satisfying_input 7 f (count_minterms f) 2 [4; 5]%Z = Ok [0; 1]%Z
  /\ fails Exception (random_satisfying_input 7 f [] 2 [4; 5]%Z).
Proof. exact opposite_case. Qed.
