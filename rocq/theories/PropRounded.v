(** Properties C91-C92: the effect of rounding in the functions that compute with doubles. [rnd] is applied
    to the result of every floating point operation (Rounded.v); it is any function that keeps the numbers
    with 53 significant bits, or any function with a relative error of at most [u]. *)
From Coq Require Import List Bool Arith ZArith QArith.
From Verif Require Import Res Cudd CuddFacts Spec SpecFloat Float Helpers Counting Metrics Operators Rounded LevelFacts RoundedFacts RoundedFacts2.
Import ListNotations.
Open Scope nat_scope.

(** disjunction of the variables [i .. i+k-1] *)
Definition disjunction (M : mgr) (i k : nat) : bdd := fold_right (fun j f => bor M (bvar j) f) bzero (seq i k).

(** C91: no error for up to 53 variables *)
Theorem C91_minterms_exact : forall (rnd : Q -> Q) (M : mgr) (n : nat) (f : bdd),
  keeps_floats 53 rnd -> wf M f -> depends_below n f -> (Z.of_nat n <= 53)%Z ->
  NoDup (map fst (count_minterms_fl rnd f))
  /\ (forall k, In k (map fst (count_minterms_fl rnd f)) <-> In k (reachable f))
  /\ (forall k v, In (k, v) (count_minterms_fl rnd f) -> (v == average n (fun a => b2q (ev k a)))%Q).
Proof. exact (minterms_fl_exact 53). Qed.
Print Assumptions C91_minterms_exact.
Theorem C91_solutions_exact : forall (rnd : Q -> Q) (M : mgr) (f : bdd) (T : nat),
  keeps_floats 53 rnd -> index_order M -> wf M f -> levels_of [f] T -> (Z.of_nat T <= 53)%Z ->
  NoDup (map fst (count_solutions_fl rnd f))
  /\ (forall k, In k (map fst (count_solutions_fl rnd f)) <-> In k (reachable f))
  /\ (forall k v, In (k, v) (count_solutions_fl rnd f) ->
       (v * inject_Z (2 ^ Z.of_nat (start_level T k)) == sum_inputs T (fun a => b2q (ev k a)))%Q).
Proof. exact (solutions_fl_exact 53). Qed.
Print Assumptions C91_solutions_exact.
Theorem C91_metrics_exact : forall (rnd : Q -> Q) (M : mgr) (n : nat) (f g : list bdd),
  keeps_floats 53 rnd -> Forall (wf M) f -> Forall (wf M) g -> below n f -> below n g -> length f = length g -> n <= 53 ->
  (exists q, error_rate_fl rnd M f g = Ok q /\ (q == average n (fun a => b2q (differ f g a)))%Q)
  /\ ((Z.of_nat (length f) * 2 ^ Z.of_nat n <= 2 ^ 53)%Z ->
      exists q, average_bit_flip_error_fl rnd M f g = Ok q /\ (q == average n (fun a => inject_Z (hamming f g a)))%Q).
Proof. exact metrics_fl_exact. Qed.
Print Assumptions C91_metrics_exact.
(** any number of variables: one relative error for each operation on the longest path *)
Theorem C91_minterms_relative : forall (u : Q), (0 <= u <= 1)%Q -> forall (rnd : Q -> Q), relative_error u rnd ->
  forall (M : mgr) (n : nat) (f : bdd), wf M f -> depends_below n f ->
  forall k v, In (k, v) (count_minterms_fl rnd f) -> within u (2 * n) v (average n (fun a => b2q (ev k a))).
Proof. exact minterms_fl_within. Qed.
Print Assumptions C91_minterms_relative.
Theorem C91_metrics_relative : forall (u : Q) (rnd : Q -> Q) (M : mgr) (n : nat) (f g : list bdd),
  (0 <= u <= 1)%Q -> relative_error u rnd ->
  Forall (wf M) f -> Forall (wf M) g -> below n f -> below n g -> length f = length g ->
  (exists q, error_rate_fl rnd M f g = Ok q /\ within u (2 * n + 1) q (average n (fun a => b2q (differ f g a))))
  /\ (exists q, average_bit_flip_error_fl rnd M f g = Ok q
       /\ within u (2 * n + length f + 1) q (average n (fun a => inject_Z (hamming f g a)))).
Proof. exact metrics_fl_relative. Qed.
Print Assumptions C91_metrics_relative.
(** rounding never hides an error *)
Theorem C91_error_rate_zero : forall (u : Q) (rnd : Q -> Q) (M : mgr) (n : nat) (f g : list bdd),
  (0 <= u < 1)%Q -> relative_error u rnd ->
  Forall (wf M) f -> Forall (wf M) g -> below n f -> below n g -> length f = length g ->
  exists q, error_rate_fl rnd M f g = Ok q /\ ((q == 0)%Q <-> forall a, map (fun b => ev b a) f = map (fun b => ev b a) g).
Proof. exact error_rate_fl_zero. Qed.
Print Assumptions C91_error_rate_zero.
(** rounding to the nearest double satisfies both hypotheses *)
Theorem C91_double_rounding : keeps_floats 53 (round_float 53) /\ relative_error (2 ^ (-53)) (round_float 53).
Proof. exact double_rounding. Qed.
Print Assumptions C91_double_rounding.
Example C91_case : (* 10 variables: exact; 54 variables: 1 - 2^-54 becomes 1, 2^-54 is kept *)
  let M := id_mgr 60 in let r := round_float 53 in
  match error_rate_fl r M [disjunction M 0 10] [bzero], error_rate_fl r M [disjunction M 0 54] [bzero],
        error_rate_fl r M [disjunction M 0 54] [bone], average_bit_flip_error_fl r M [disjunction M 0 3; bvar 1] [bone; bvar 3] with
  | Ok a, Ok b, Ok c, Ok d => Qred a = (1023 # 1024)%Q /\ Qred b = 1%Q /\ Qred (c * 2 ^ 54) = 1%Q /\ Qred d = (5 # 8)%Q
  | _, _, _, _ => False
  end.
Proof. vm_compute. auto. Qed.

(** C92: with up to 53 variables the operators give the result of exact counts *)
Theorem C92_operators : forall (rnd : Q -> Q) (M : mgr) (n : nat) (f : bdd) (l ls le : nat),
  keeps_floats 53 rnd -> wf M f -> depends_below n f -> (Z.of_nat n <= 53)%Z ->
  subset_light_child_fl rnd M f ls le = subset_light_child M f ls le
  /\ subset_heavy_child_fl rnd M f ls le = subset_heavy_child M f ls le
  /\ superset_light_child_fl rnd M f ls le = superset_light_child M f ls le
  /\ superset_heavy_child_fl rnd M f ls le = superset_heavy_child M f ls le
  /\ round_bdd_fl rnd M f l = round_bdd M f l
  /\ round_best_fl rnd M f ls le = round_best M f ls le.
Proof. exact (operators_fl_same 53). Qed.
Print Assumptions C92_operators.
Theorem C92_round_up_down : forall (rnd : Q -> Q) (M : mgr) (f : bdd) (T ls le : nat),
  keeps_floats 53 rnd -> index_order M -> wf M f -> levels_of [f] T -> (Z.of_nat T <= 53)%Z ->
  round_up_fl rnd M f ls le = round_up M f ls le /\ round_down_fl rnd M f ls le = round_down M f ls le.
Proof. exact (round_ud_fl_same 53). Qed.
Print Assumptions C92_round_up_down.
Example C92_case :
  let M := id_mgr 4 in let f := bor M (band M (bvar 0) (disjunction M 1 3)) (band M (bvar 1) (bvar 2)) in
  subset_light_child_fl (round_float 53) M f 0 0 = Ok (band M (bvar 0) (disjunction M 1 3))
  /\ round_up_fl (round_float 53) M f 0 0 = round_up M f 0 0 /\ levels_of [f] 4.
Proof. split; [|split]; [vm_compute; reflexivity|vm_compute; reflexivity|exact (levels_of_check _ _ eq_refl)]. Qed.
(** with 55 variables the compared densities 1 and 1 - 2^-54 round to the same number *)
Theorem C92_differs_beyond : exists (M : mgr) (f : bdd),
  index_order M /\ wf M f /\ depends_below 55 f
  /\ subset_light_child_fl (round_float 53) M f 0 0 <> subset_light_child M f 0 0.
Proof. exact operators_fl_differ. Qed.
Print Assumptions C92_differs_beyond.
