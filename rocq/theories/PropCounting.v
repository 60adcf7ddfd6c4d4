(** Properties C18-C23: counting satisfying inputs, sampling, value histograms and ADDs of
    vectors (src/util/cudd_helpers.cpp lines 74-403). Doubles are rationals. *)
From Coq Require Import List Bool Arith ZArith QArith.
From Verif Require Import Res Cudd CuddFacts Spec SpecFacts Helpers HelpersFacts HelpersFacts2 Counting AddFacts CountFacts PathFacts LevelFacts.
Import ListNotations.
Open Scope nat_scope.

(** C18: [count_minterms f] has exactly the reachable edges as keys, each with its density *)
Theorem C18_count_minterms : forall (M : mgr) (n : nat) (f : bdd),
  wf M f -> depends_below n f ->
  NoDup (map fst (count_minterms f))
  /\ (forall k, In k (map fst (count_minterms f)) <-> In k (reachable f))
  /\ (forall k v, In (k, v) (count_minterms f) -> (v == average n (fun a => b2q (ev k a)))%Q).
Proof. exact count_minterms_full. Qed.
Print Assumptions C18_count_minterms.
Example C18_case : (* x0 and x2: 4 edges, density 1/4 at the root *)
  let f := band (id_mgr 3) (bvar 0) (bvar 2) in
  map (fun p => (fst p, Qred (snd p))) (count_minterms f)
  = [(f, 1#4); (bvar 2, 1#2); ((true, One), 0); ((false, One), 1)]%Q.
Proof. vm_compute. reflexivity. Qed.

(** C19: the number of solutions over the variables from the level of the edge to the terminal level *)
Theorem C19_count_solutions : forall (M : mgr) (f : bdd) (T : nat), index_order M -> wf M f -> levels_of [f] T ->
  NoDup (map fst (count_solutions f))
  /\ (forall k, In k (map fst (count_solutions f)) <-> In k (reachable f))
  /\ (forall k v, In (k, v) (count_solutions f) ->
       (v * inject_Z (2 ^ Z.of_nat (start_level T k)) == sum_inputs T (fun a => b2q (ev k a)))%Q).
Proof. exact solutions_levels. Qed.
Print Assumptions C19_count_solutions.
Example C19_case : (* x0 and x2 over x0..x2 has 2 solutions, x2 has 1 over x2 *)
  let f := band (id_mgr 3) (bvar 0) (bvar 2) in
  levels_of [f] 3 /\ start_level 3 f = 0
  /\ map (fun p => (fst p, Qred (snd p))) (count_solutions f)
  = [(f, 2); (bvar 2, 1); ((true, One), 0); ((false, One), 1)]%Q.
Proof. split; [exact (levels_of_check _ _ eq_refl)|]. vm_compute. auto. Qed.

(** C20: false as stated: rand() may return 0 *)
Theorem C20_random_satisfying_input_refuted :
  exists (M : mgr) (rand_max : Z) (f : bdd) (T : nat) (draws : list Z),
    index_order M /\ (0 < rand_max)%Z /\ wf M f /\ (exists a, ev f a = true) /\ depends_below T f
    /\ length draws = T /\ Forall (fun d => 0 <= d <= rand_max)%Z draws
    /\ exists l, random_satisfying_input rand_max f (count_minterms f) T draws = Ok l
         /\ length l = T /\ ev f (fun i => nth i l 0 =? 1)%Z = false.
Proof. exact random_satisfying_input_bad. Qed.
Print Assumptions C20_random_satisfying_input_refuted.
(** what holds: with non-zero draws the result satisfies the function *)
Theorem C20_random_satisfying_input_partial :
  forall (M : mgr) (rand_max : Z) (f : bdd) (T : nat) (draws : list Z),
    index_order M -> (0 < rand_max)%Z -> wf M f -> (exists a, ev f a = true) -> depends_below T f ->
    length draws = T -> Forall (fun d => 0 < d <= rand_max)%Z draws ->
    exists l, random_satisfying_input rand_max f (count_minterms f) T draws = Ok l
      /\ length l = T /\ Forall (fun x => x = 0 \/ x = 1)%Z l
      /\ ev f (fun i => nth i l 0 =? 1)%Z = true.
Proof. exact random_satisfying_input_full. Qed.
Print Assumptions C20_random_satisfying_input_partial.
Example C20_case :
  let f := band (id_mgr 3) (bnot (bvar 0)) (bvar 2) in
  random_satisfying_input 100 f (count_minterms f) 3 [1; 51; 100]%Z = Ok [0; 1; 1]%Z.
Proof. vm_compute. reflexivity. Qed.

(** C21 *)
Theorem C21_add_terminal_values : forall (M : mgr) (A : add) (t : nat),
  index_order M -> aok M 0 A -> first_unused (fun i => In i (avars A)) t -> t <= 63 ->
  exists r, add_terminal_values A = Ok r /\ NoDup (map fst r)
   /\ (forall v, In v (map fst r) <-> exists a, aev A a = v)
   /\ (avars A <> [] ->
        (forall v c, In (v, c) r -> c = Z.of_nat (count_inputs t (fun a => Qeq_bool (aev A a) v)))
        /\ fold_right Z.add 0%Z (map snd r) = (2 ^ Z.of_nat t)%Z)
   /\ (forall q, A = Leaf q -> r = [(q, 1%Z)]).
Proof. exact histogram_levels. Qed.
Print Assumptions C21_add_terminal_values.
Example C21_case : (* x0 + 2 x2: over x0..x2 each value twice *)
  match bdd_forest_to_add (id_mgr 3) [bvar 0; bvar 2] BaseTwo with
  | Ok A => add_terminal_values A
  | _ => UB
  end = Ok [(0, 2%Z); (2, 2%Z); (1, 2%Z); (3, 2%Z)]%Q.
Proof. vm_compute. reflexivity. Qed.

(** C22 *)
Theorem C22_bdd_forest_to_add : forall (M : mgr) (f : list bdd) (r : NumberRepresentation),
  ((r = TwosComplement -> f <> []) ->
    exists A, bdd_forest_to_add M f r = Ok A
      /\ (Forall (wf M) f -> aok M 0 A)
      /\ (forall i, In i (avars A) -> vars_in f i)
      /\ forall a, (aev A a == inject_Z (value r f a))%Q)
  /\ bdd_forest_to_add M [] TwosComplement = UB.
Proof. exact forest_to_add_full. Qed.
Print Assumptions C22_bdd_forest_to_add.
Example C22_case : exists A B,
  bdd_forest_to_add (id_mgr 2) [bone; bvar 0; bvar 1] TwosComplement = Ok A
  /\ bdd_forest_to_add (id_mgr 2) [bone; bvar 0; bvar 1] BaseTwo = Ok B
  /\ aev A (fun _ => true) = (-1)%Q /\ aev B (fun _ => true) = 7%Q
  /\ aev A (fun i => i =? 1) = (-3)%Q.
Proof. do 2 eexists. repeat split; vm_compute; reflexivity. Qed.

(** C23 *)
Theorem C23_absolute_difference_add : forall (M : mgr) (f g : list bdd) (r : NumberRepresentation),
  (r = TwosComplement -> f <> [] /\ g <> []) ->
  exists A, absolute_difference_add M f g r = Ok A
    /\ (Forall (wf M) f -> Forall (wf M) g -> aok M 0 A)
    /\ (forall i, In i (avars A) -> vars_in f i \/ vars_in g i)
    /\ forall a, (aev A a == inject_Z (dist (value r f a) (value r g a)))%Q.
Proof. exact absdiff_add_spec. Qed.
Print Assumptions C23_absolute_difference_add.
Theorem C23_xor_difference_add : forall (M : mgr) (f g : list bdd),
  length f = length g ->
  exists A, xor_difference_add M f g = Ok A
    /\ (Forall (wf M) f -> Forall (wf M) g ->
         aok M 0 A /\ (forall i, In i (avars A) -> vars_in f i \/ vars_in g i))
    /\ forall a, (aev A a == inject_Z (Z.lxor (uval f a) (uval g a)))%Q.
Proof. exact xor_difference_add_full. Qed.
Print Assumptions C23_xor_difference_add.
Example C23_case : exists A B, (* 1 - (-2) = 3, no overflow on two bits; 3 xor 1 = 2 *)
  absolute_difference_add (id_mgr 2) [bvar 0; bzero] [bzero; bvar 0] TwosComplement = Ok A
  /\ aev A (fun _ => true) = 3%Q
  /\ xor_difference_add (id_mgr 2) [bvar 0; bvar 1] [bvar 0; bzero] = Ok B /\ aev B (fun _ => true) = 2%Q.
Proof. do 2 eexists. repeat split; vm_compute; reflexivity. Qed.
