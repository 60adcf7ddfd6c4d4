(** Properties C149 and C150: the rounds of wcre_randomized_search (src/error_metrics/worst_case_relative_error.cpp:42-146) and
    the value of a constant ADD (src/util/cudd_helpers.cpp:215-223). *)
From Coq Require Import List Bool Arith ZArith QArith Qpower Lia.
From Verif Require Import Res Cudd CuddFacts Spec SpecFacts SpecSearch Helpers HelpersFacts HelpersFacts2 Counting Metrics RelMetrics ConstFacts SearchFacts.
Import ListNotations.
Open Scope nat_scope.

(** C149: it returns at once if the worst relative error is 0 or a power of two. Otherwise it starts with the power of two
    below the worst error; each round draws [samples] inputs among those with a larger error than the bound so far, each
    with the next ReadSize() results of rand(), and goes on with the largest error found *)
Theorem C149_rounds :
  forall (M : mgr) (clog2 : Z -> nat) (rand_max : Z) (rand : nat -> Z) (f g : list bdd) (samples : nat)
    (r : NumberRepresentation) (fuel : nat) (x : res (Z * Z)),
  clog2_ok clog2 -> Forall (wf M) f -> Forall (wf M) g -> below (read_size M) f -> below (read_size M) g ->
  f <> [] -> (r = TwosComplement -> g <> []) -> Nat.max (length f) (length g) <= 62 ->
  wcre_randomized_search M clog2 rand_max rand f g samples r fuel = Some x ->
  exists c e, x = Ok (c, e) /\ (0 < e)%Z
  /\ ((wcre_randomized_search M clog2 rand_max rand f g samples r 0 = Some x
       /\ ((inject_Z c / inject_Z e == 0)%Q \/ exists z, (inject_Z c / inject_Z e == Qpower 2 z)%Q))
      \/ exists z k m, k < fuel /\ wcre_randomized_search M clog2 rand_max rand f g samples r k = None
         /\ (m == inject_Z c / inject_Z e)%Q /\ (Qpower 2 z < m < 2 * Qpower 2 z)%Q
         /\ search_run M (fun h l => random_satisfying_input rand_max h (count_minterms h) (read_size M) l) asg_ints rand (read_size M)
              (wrel r f g) samples k 0 (Qpower 2 z) m).
Proof. exact randomized_rounds. Qed.
Print Assumptions C149_rounds.
(** it needs at most one round for every value of the relative error *)
Theorem C149_number_of_rounds :
  forall (M : mgr) (clog2 : Z -> nat) (rand_max : Z) (rand : nat -> Z) (f g : list bdd) (samples : nat)
    (r : NumberRepresentation) (values : list Q),
  clog2_ok clog2 -> index_order M -> Forall (wf M) f -> Forall (wf M) g ->
  below (read_size M) f -> below (read_size M) g -> f <> [] -> (r = TwosComplement -> g <> []) ->
  Nat.max (length f) (length g) <= 62 -> 0 < samples -> (forall i, 0 < rand i <= rand_max)%Z ->
  (forall a, exists q, In q values /\ (q == wrel r f g a)%Q) ->
  forall fuel, length values < fuel ->
  exists x, wcre_randomized_search M clog2 rand_max rand f g samples r fuel = Some x.
Proof. exact randomized_few_rounds. Qed.
Print Assumptions C149_number_of_rounds.
Example C149_case : (* 8 against 12, 13, 14 and 15: the worst error is 7/8, the search starts with 1/2 *)
  let f := [bzero; bzero; bzero; bone] in let g := [bvar 0; bvar 1; bone; bone] in
  let rounds rand samples := map (fun k => wcre_randomized_search (id_mgr 2) (fun z => Z.to_nat (Z.log2_up z)) 10
    (fun i => nth i rand 1%Z) f g samples BaseTwo k) [1; 2; 3] in
  let found := Some (Ok (7, 8)%Z) in
  rounds [] 1 = [None; found; found] /\ rounds [10; 10]%Z 1 = [None; None; found]
  /\ rounds [10; 10; 1; 1]%Z 2 = [None; found; found] /\ rounds [10; 10; 10; 10]%Z 2 = [None; None; found].
Proof. vm_compute. auto. Qed.

(** C150: the header says "the value of the given ADD node if it is a constant node and zero otherwise": the value is cut to
    an integer, and undefined if it is not in the range of unsigned int *)
Theorem C150_const_ADD_value :
  (forall v t e, const_ADD_value (AN v t e) = Ok 0%Z)
  /\ (forall q, (0 <= q < inject_Z (2 ^ 32))%Q -> exists z, const_ADD_value (Leaf q) = Ok z /\ (inject_Z z <= q < inject_Z z + 1)%Q)
  /\ (forall q, (- (1) < q < 0)%Q -> const_ADD_value (Leaf q) = Ok 0%Z)
  /\ (forall q, (q <= - (1) \/ inject_Z (2 ^ 32) <= q)%Q -> const_ADD_value (Leaf q) = UB).
Proof. exact const_value. Qed.
Print Assumptions C150_const_ADD_value.
Example C150_case : map const_ADD_value [Leaf (7 # 2); Leaf (- (1) # 3); Leaf (- (3) # 2); Leaf 4294967296; Leaf 4294967295; AN 0 (Leaf 5) (Leaf 6)]
  = [Ok 3; Ok 0; UB; UB; Ok 4294967295; Ok 0]%Z.
Proof. vm_compute. reflexivity. Qed.
