(** Properties C129-C131: value histograms and ADD based metrics for any number of variables
    (src/util/cudd_helpers.cpp 225-330 and its callers). [gaps], [long_edge] and [depth] are
    defined in SpecPaths.v. *)
From Coq Require Import List Bool Arith ZArith QArith.
From Verif Require Import Res Cudd CuddFacts Spec SpecPaths Helpers Counting Metrics MetricsFacts4 RelMetrics RelFacts WideFacts MinimizeFacts3.
Import ListNotations.
Open Scope nat_scope.

(** C129: without a long edge the counts are those of C21 modulo 2^64, with one the shift is undefined *)
Theorem C129_add_terminal_values_wide : forall (M : mgr) (A : add) (t : nat),
  index_order M -> aok M 0 A -> depth A t ->
  (long_edge t A -> add_terminal_values A = UB)
  /\ (~ long_edge t A -> exists r, add_terminal_values A = Ok r /\ NoDup (map fst r)
       /\ (forall v, In v (map fst r) <-> exists a, aev A a = v)
       /\ (avars A <> [] -> forall v c, In (v, c) r ->
             c = (Z.of_nat (count_inputs t (fun a => Qeq_bool (aev A a) v)) mod 2 ^ 64)%Z)
       /\ (forall q, A = Leaf q -> r = [(q, 1%Z)])).
Proof. exact histogram_wide. Qed.
Print Assumptions C129_add_terminal_values_wide.
Theorem C129_no_long_edge : forall (A : add) (t : nat), depth A t -> t <= 64 -> ~ long_edge t A.
Proof. exact short_64. Qed.
Print Assumptions C129_no_long_edge.
Example C129_case : (* x1 xor x64: every value is taken 2^64 times; x64 alone: undefined *)
  let M := id_mgr 65 in
  add_terminal_values (to_add (bxor M (bvar 1) (bvar 64))) = Ok [(0%Q, 0%Z); (1%Q, 0%Z)]
  /\ gaps 65 0 (to_add (bxor M (bvar 1) (bvar 64))) = [63; 63; 0; 0; 0; 0]
  /\ add_terminal_values (to_add (bvar 64)) = UB
  /\ gaps 65 0 (to_add (bvar 64)) = [64; 64]
  /\ add_terminal_values (to_add (bvar 63)) = Ok [(0%Q, 2 ^ 63); (1%Q, 2 ^ 63)]%Z.
Proof. vm_compute. auto. Qed.

(** C130: the maxima do not use the counts *)
Theorem C130_worst_case_error_add_wide : forall (M : mgr) (f g : list bdd) (r : NumberRepresentation),
  index_order M -> Forall (wf M) f -> Forall (wf M) g ->
  (r = TwosComplement -> f <> [] /\ g <> []) -> length f <= 256 -> length g <= 256 ->
  exists A, absolute_difference_add M f g r = Ok A /\ forall t, depth A t ->
    (long_edge t A -> worst_case_error_add M f g r = UB)
    /\ (~ long_edge t A -> exists m, worst_case_error_add M f g r = Ok m
          /\ is_max (fun a => dist (value r f a) (value r g a)) m).
Proof. exact wce_add_wide. Qed.
Print Assumptions C130_worst_case_error_add_wide.
Theorem C130_worst_case_bit_flip_error_add_wide : forall (M : mgr) (f g : list bdd),
  index_order M -> Forall (wf M) f -> Forall (wf M) g -> length f = length g -> length f <= 64 ->
  exists A, xor_difference_add M f g = Ok A /\ forall t, depth A t ->
    (long_edge t A -> worst_case_bit_flip_error_add M f g = UB)
    /\ (~ long_edge t A -> exists m, worst_case_bit_flip_error_add M f g = Ok m /\ is_max (hamming f g) m).
Proof. exact wcbf_add_wide. Qed.
Print Assumptions C130_worst_case_bit_flip_error_add_wide.
Theorem C130_wcre_add_wide : forall (M : mgr) (n : nat) (f g : list bdd) (r : NumberRepresentation),
  index_order M -> Forall (wf M) f -> Forall (wf M) g -> below n f -> below n g ->
  (r = TwosComplement -> f <> [] /\ g <> []) ->
  exists A, relative_add M f g r = Ok A /\ forall t, depth A t ->
    (long_edge t A -> wcre_add M f g r = UB)
    /\ (~ long_edge t A -> exists q, wcre_add M f g r = Ok q
          /\ is_maxQ (fun a => rel (value r f a) (value r g a)) q).
Proof. exact wcre_add_wide. Qed.
Print Assumptions C130_wcre_add_wide.
Example C130_case : let M := id_mgr 65 in
  worst_case_error_add M [bvar 64] [bzero] BaseTwo = UB
  /\ worst_case_error_add M [bvar 63; bvar 64] [bvar 2; bzero] BaseTwo = Ok 3%Z
  /\ worst_case_bit_flip_error_add M [bvar 63; bvar 64] [bvar 2; bzero] = Ok 2%Z
  /\ wcre_add M [bvar 63; bvar 64] [bvar 2; bzero] BaseTwo = Ok 1%Q.
Proof. vm_compute. auto. Qed.

(** C131: averages are exact up to 64 variables *)
Theorem C131_average_add_64 : forall (M : mgr) (n : nat) (f g : list bdd) (r : NumberRepresentation),
  index_order M -> Forall (wf M) f -> Forall (wf M) g -> below n f -> below n g -> n <= 64 ->
  (r = TwosComplement -> f <> [] /\ g <> []) ->
  (Nat.max (length f) (length g) + n <= 256 ->
     exists q, average_case_error_add M f g r = Ok (Fin q)
       /\ (q == average n (fun a => inject_Z (dist (value r f a) (value r g a))))%Q)
  /\ (2 * Nat.max (length f) (length g) + n <= 256 ->
     exists q, mean_squared_error_add M f g r = Ok (Fin q)
       /\ (q == average n (fun a => inject_Z (dist (value r f a) (value r g a) * dist (value r f a) (value r g a))))%Q)
  /\ (exists q, acre_add M f g r = Ok (Fin q)
       /\ (q == average n (fun a => rel (value r f a) (value r g a)))%Q).
Proof. exact average_add_64. Qed.
Print Assumptions C131_average_add_64.
(** but not the two with 64-bit totals: they give no number at all if the difference depends on
    variable 63 or a later one *)
Theorem C131_no_total : forall (M : mgr) (f g : list bdd) (i : nat),
  index_order M -> Forall (wf M) f -> Forall (wf M) g -> length f = length g -> 63 <= i ->
  (exists a b, (forall j, j <> i -> a j = b j) /\ Z.lxor (uval f a) (uval g a) <> Z.lxor (uval f b) (uval g b)) ->
  (error_rate_add M f g = UB \/ error_rate_add M f g = Ok NonFin)
  /\ (average_bit_flip_error_add M f g = UB \/ average_bit_flip_error_add M f g = Ok NonFin).
Proof. exact no_total_rate. Qed.
Print Assumptions C131_no_total.
(** and not beyond 64 variables *)
Theorem C131_average_add_65 : exists (M : mgr) (f g : list bdd) (n : nat) (q : Q),
  index_order M /\ Forall (wf M) f /\ Forall (wf M) g /\ below n f /\ below n g /\ length f = length g /\ n = 65
  /\ average_case_error_add M f g BaseTwo = Ok (Fin q)
  /\ ~ (q == average n (fun a => inject_Z (dist (uval f a) (uval g a))))%Q.
Proof. exact average_wide_bad. Qed.
Print Assumptions C131_average_add_65.
Example C131_case : let M := id_mgr 65 in
  match average_case_error_add M wide_f [bzero] BaseTwo, average_case_error M wide_f [bzero] BaseTwo with
  | Ok (Fin p), Ok (Fin q) => Qred p = (1 # 4)%Q /\ Qred q = (5 # 8)%Q
  | _, _ => False
  end
  /\ error_rate_add M [bvar 63] [bzero] = Ok NonFin
  /\ match error_rate M [bvar 63] [bzero] with Ok q => Qred q = (1 # 2)%Q | _ => False end
  /\ match average_case_error_add M [bvar 63] [bzero] BaseTwo with Ok (Fin q) => Qred q = (1 # 2)%Q | _ => False end.
Proof. vm_compute. auto. Qed.
