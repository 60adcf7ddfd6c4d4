(** Properties C143-C145: doubles with their limited range (subnormal numbers, infinities, NaN) in the counts and operators *)
From Coq Require Import List Bool Arith ZArith QArith Qabs.
From Verif Require Import Res Cudd Spec SpecFloat SpecOperators SpecSampling Float Helpers HelpersFacts2 Counting Metrics Operators LevelFacts Rounded Ieee IeeeFacts IeeeFacts2
  IeeeFacts3 IeeeFacts4 IeeeFacts5 IeeeFacts6 IeeeFacts7 OrderFacts CuddFacts.
Import ListNotations.
Open Scope nat_scope.

(** C143: up to 1022 variables the limited range of doubles is not noticeable. The counts are finite, and exact for up to 53 variables *)
Theorem C143_minterms : forall (M : mgr) (n : nat) (f : bdd), wf M f -> depends_below n f -> n <= 1022 ->
  NoDup (map fst (count_minterms_d f)) /\ (forall k, In k (map fst (count_minterms_d f)) <-> In k (reachable f))
  /\ forall k v, In (k, v) (count_minterms_d f) -> exists q, v = DFin q
     /\ within (2 ^ (-53)) (2 * n) q (average n (fun a => b2q (ev k a)))
     /\ (n <= 53 -> (q == average n (fun a => b2q (ev k a)))%Q).
Proof. exact minterms_d_values. Qed.
Print Assumptions C143_minterms.
Theorem C143_solutions : forall (M : mgr) (f : bdd) (T : nat), index_order M -> wf M f -> levels_of [f] T -> T <= 53 ->
  forall k v, In (k, v) (count_solutions_d f) -> exists q, v = DFin q
     /\ (q * inject_Z (2 ^ Z.of_nat (start_level T k)) == sum_inputs T (fun a => b2q (ev k a)))%Q.
Proof. exact solutions_d_values. Qed.
Print Assumptions C143_solutions.
(** the operators give the same as with rounding alone (Rounded.v); for up to 53 variables the same as with exact numbers *)
Theorem C143_operators : forall (M : mgr) (n : nat) (f : bdd) (l ls le : nat), wf M f -> depends_below n f -> n <= 1022 ->
  subset_light_child_d M f ls le = subset_light_child_fl (round_float 53) M f ls le
  /\ subset_heavy_child_d M f ls le = subset_heavy_child_fl (round_float 53) M f ls le
  /\ superset_light_child_d M f ls le = superset_light_child_fl (round_float 53) M f ls le
  /\ superset_heavy_child_d M f ls le = superset_heavy_child_fl (round_float 53) M f ls le
  /\ round_bdd_d M f l = round_bdd_fl (round_float 53) M f l
  /\ round_best_d M f ls le = round_best_fl (round_float 53) M f ls le.
Proof. exact operators_d_same. Qed.
Print Assumptions C143_operators.
Theorem C143_operators_exact : forall (M : mgr) (n : nat) (f : bdd) (l ls le : nat), wf M f -> depends_below n f -> n <= 53 ->
  subset_light_child_d M f ls le = subset_light_child M f ls le
  /\ subset_heavy_child_d M f ls le = subset_heavy_child M f ls le
  /\ superset_light_child_d M f ls le = superset_light_child M f ls le
  /\ superset_heavy_child_d M f ls le = superset_heavy_child M f ls le
  /\ round_bdd_d M f l = round_bdd M f l /\ round_best_d M f ls le = round_best M f ls le.
Proof. exact operators_d_exact. Qed.
Print Assumptions C143_operators_exact.
Theorem C143_round_up_down : forall (M : mgr) (f : bdd) (T ls le : nat), index_order M -> wf M f -> levels_of [f] T -> T <= 1023 ->
  round_up_d M f ls le = round_up_fl (round_float 53) M f ls le /\ round_down_d M f ls le = round_down_fl (round_float 53) M f ls le.
Proof. exact round_ud_d_same. Qed.
Print Assumptions C143_round_up_down.
Theorem C143_round_up_down_exact : forall (M : mgr) (f : bdd) (T ls le : nat), index_order M -> wf M f -> levels_of [f] T -> T <= 53 ->
  round_up_d M f ls le = round_up M f ls le /\ round_down_d M f ls le = round_down M f ls le.
Proof. exact round_ud_d_exact. Qed.
Print Assumptions C143_round_up_down_exact.
Theorem C143_random_satisfying_input : forall (M : mgr) (f : bdd) (T : nat) (rand_max : Z) (draws : list Z),
  index_order M -> wf M f -> depends_below T f -> (exists a, ev f a = true) -> T <= 1022 ->
  length draws = T -> Forall (fun d => 0 < d <= rand_max)%Z draws -> (0 < rand_max <= 2 ^ 53)%Z ->
  exists l, random_satisfying_input_d rand_max f (count_minterms_d f) T draws = Ok l
    /\ length l = T /\ Forall (fun x => x = 0 \/ x = 1)%Z l /\ ev f (asg_ints l) = true.
Proof. exact random_input_d. Qed.
Print Assumptions C143_random_satisfying_input.
(** the rounding of the model is that of IEEE 754 *)
Theorem C143_to_double : forall q : Q,
  match to_double q with
  | DFin r => double_number r /\ forall x, double_number x -> (Qabs (q - r) <= Qabs (q - x))%Q
  | DInf negative => (2 ^ 1024 - 2 ^ 970 <= (if negative then - q else q))%Q
  | DNaN => False
  end.
Proof. exact to_double_value. Qed.
Print Assumptions C143_to_double.
Theorem C143_to_double_overflow : forall q : Q, (2 ^ 1024 - 2 ^ 970 <= q)%Q -> to_double q = DInf false /\ to_double (- q)%Q = DInf true.
Proof. exact to_double_overflow. Qed.
Print Assumptions C143_to_double_overflow.
Example C143_case : let M := id_mgr 60 in let f := bor M (bvar 0) (band M (bvar 1) (bvar 2)) in
  subset_light_child_d M f 0 0 = Ok (bvar 0) /\ round_down_d M f 1 2 = round_down M f 1 2 /\ levels_of [f] 3
  /\ map (fun p => match snd p with DFin q => Some (Qred q) | _ => None end) (count_minterms_d (band M (bvar 0) (bvar 1)))
     = map Some [1 # 4; 1 # 2; 0; 1]%Q
  /\ random_satisfying_input_d 10 f (count_minterms_d f) 3 [10; 3; 4]%Z = Ok [0; 1; 1]%Z.
Proof.
  cbv zeta. split; [vm_compute; reflexivity|]. split; [vm_compute; reflexivity|]. split; [exact (levels_of_check _ _ eq_refl)|].
  split; vm_compute; reflexivity.
Qed.

(** C144: the same for any number of variables. False: densities below 2^-1075 become 0 *)
Theorem C144_random_satisfying_input_refuted : exists (M : mgr) (f : bdd) (n : nat),
  index_order M /\ wf M f /\ depends_below n f /\ (exists a, ev f a = true)
  /\ forall rand_max draws, length draws = n ->
     exists l, random_satisfying_input_d rand_max f (count_minterms_d f) n draws = Ok l /\ ev f (asg_ints l) = false.
Proof. exact underflow_random_refuted. Qed.
Print Assumptions C144_random_satisfying_input_refuted.
(** conjunctions of [n] variables: their density is 0 from 1075 variables on, and from 1076 on subset_light_child gives the constant 0
    instead of the function itself and random_satisfying_input the value 0 for the first variable *)
Theorem C144_underflow : forall (M : mgr) (n : nat) (f : bdd), index_order M -> wf M f -> (forall a, ev f a = forallb a (seq 0 n)) ->
  (1075 <= n -> exists v, blookup f (count_minterms_d f) = Some (DFin v) /\ (v == 0)%Q)
  /\ (1076 <= n -> subset_light_child M f 0 0 = Ok f /\ subset_light_child_d M f 0 0 = Ok bzero
      /\ forall rand_max draws, length draws = n ->
         exists l, random_satisfying_input_d rand_max f (count_minterms_d f) n draws = Ok l /\ ev f (asg_ints l) = false).
Proof. exact underflow_facts. Qed.
Print Assumptions C144_underflow.
(** error_rate divides by infinity if there are more than 1024 variables, whatever Cudd_CountMinterm returns *)
Theorem C144_error_rate : forall (count : bdd -> nat -> dbl) (M : mgr) (f g : list bdd),
  Forall (wf M) f -> Forall (wf M) g -> length f = length g -> (exists b v, In b (f ++ g) /\ In v (support b) /\ 1024 <= v) ->
  error_rate_d count M f g = Ok (DFin 0) \/ error_rate_d count M f g = Ok DNaN.
Proof. exact error_rate_wide. Qed.
Print Assumptions C144_error_rate.
(** round_down compares two infinities and keeps x1 (x2 + x1030) instead of x1 + x1030 *)
Theorem C144_round_down_refuted : exists (M : mgr) (f r r' : bdd), index_order M /\ wf M f /\ depends_below 1031 f
  /\ round_down_d M f 0 0 = Ok r /\ round_down M f 0 0 = Ok r'
  /\ (forall a, ev r a = negb (a 0) && (a 1 && (a 2 || a 1030))) /\ (forall a, ev r' a = a 0 && (a 1 || a 1030)).
Proof. exact overflow_round_down. Qed.
Print Assumptions C144_round_down_refuted.
Example C144_case : let M := id_mgr 1100 in let f := (false, chain 0 1080) in
  index_order M /\ wf M f /\ (forall a, ev f a = forallb a (seq 0 1080)) /\ subset_light_child_d M f 0 0 = Ok bzero
  /\ error_rate_d (fun _ _ => DFin (2 ^ 1000)) M [bvar 1024] [bone] = Ok (DFin 0).
Proof.
  cbv zeta. assert (I : index_order (id_mgr 1100)) by (intro i; reflexivity). split; [exact I|]. split; [now apply chain_wf|]. split; [apply chain_ev|].
  split; [apply underflow_subset; [exact I|]; apply Nat.leb_le|]; vm_compute; reflexivity.
Qed.

(** C145: in any variable order and with any number of variables, all operators end with a BDD over variables of the argument, and leave it alone
    outside the level range; six of them give a subset or superset *)
Theorem C145_operators_robust : forall (M : mgr) (ls le i : nat) op (f : bdd),
  nth_error (operators_d M ls le) i = Some op -> wf M f ->
  exists r, op f = Ok r /\ wf M r /\ (forall v, In v (support r) -> In v (support f))
  /\ ((forall v, In v (support f) -> v < ls) -> r = f)
  /\ (i <> 6 -> (forall v, In v (support f) -> ~ ls <= v <= le) -> r = f)
  /\ (In i [0; 1; 4] -> forall a, ev r a = true -> ev f a = true)
  /\ (In i [2; 3; 5] -> forall a, ev f a = true -> ev r a = true).
Proof. exact operators_d_facts. Qed.
Print Assumptions C145_operators_robust.
(** round_down keeps the heavier of the two children. False in other orders: the level difference of parent and child, an unsigned number, is
    below zero and the count infinite *)
Theorem C145_round_down_heavier_refuted : exists (M : mgr) (f r r' : bdd), wf M f /\ read_size M = 3 /\ depends_below 3 f
  /\ In (DInf false) (map snd (count_solutions_d f))
  /\ round_down_d M f 2 2 = Ok r /\ (forall a, ev r a = negb (a 2) && ev f a)
  /\ subset_light_child_d M f 2 2 = Ok r' /\ (forall a, ev r' a = a 2 && ev f a)
  /\ (average 3 (fun a => b2q (ev r a)) == 1 # 8)%Q /\ (average 3 (fun a => b2q (ev r' a)) == 3 # 8)%Q.
Proof. exact other_order_round_down. Qed.
Print Assumptions C145_round_down_heavier_refuted.
Example C145_case : let M := reversed_mgr 3 3 in let f := bor M (bvar 0) (bvar 1) in
  wf M f /\ round_up_d M f 1 1 = Ok f /\ round_down_d M f 1 1 = Ok (band M (bnot (bvar 1)) (bvar 0)).
Proof. cbv zeta. split; [auto with wf|]. split; vm_compute; reflexivity. Qed.
