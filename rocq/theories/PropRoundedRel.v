(** Properties C132-C136: rounding in the relative error metrics and in the sampling of the error rate (RoundedRel.v). [rnd]
    rounds the result of every operation on doubles to a nearest number with 53 significant bits, [dec] the result of
    every operation on cpp_dec_float_100; [wrel r f g a] is the relative error on the input [a]. *)
From Coq Require Import List Bool Arith ZArith QArith Lia.
From Verif Require Import Res Cudd CuddFacts Spec SpecFloat Float FloatFacts Helpers Counting Metrics RelMetrics RelFacts3 RelFacts6 FromPapers
  Rounded RoundedFacts RoundedFacts2 RoundedAdd RoundedMinimize RoundedMinimizeFacts RoundedAverageFacts RoundedRel RoundedRelFacts RoundedRelFacts2
  RoundedRelFacts3 RoundedRelFacts4 RoundedRelFacts5 RoundedRelFacts6 RoundedRelFacts7 HelpersFacts2.
Import ListNotations.
Open Scope nat_scope.

(** C132: the bisection computes with exact numbers as long as the bits before and after the binary point fit *)
Theorem C132_wcre_search : forall (rnd : Q -> Q) (M : mgr) (clog2 : Z -> nat) (n : nat) (f g : list bdd) (r : NumberRepresentation)
    (e : nat) (precision : Q) (s : nat),
  keeps_floats 53 rnd -> clog2_ok clog2 -> Forall (wf M) f -> Forall (wf M) g -> below n f -> below n g ->
  f <> [] -> (r = TwosComplement -> g <> []) -> 16 <= e ->
  (1 # 65536 <= precision < 1)%Q -> (2 ^ (- Z.of_nat s) <= precision)%Q -> Nat.max (length f) (length g) + s + 1 <= 53 ->
  exists top, is_maxQ (wrel r f g) top /\
  forall fuel, 142 <= fuel ->
  ((top == 0)%Q -> exists q, wcre_search_fl rnd M clog2 f g e precision r fuel = Some (Ok q) /\ (q == 0)%Q)
  /\ ((0 < top < 1)%Q -> wcre_search_fl rnd M clog2 f g e precision r fuel = Some UB)
  /\ ((1 <= top)%Q -> exists q, wcre_search_fl rnd M clog2 f g e precision r fuel = Some (Ok q)
        /\ (top - precision / 2 <= q)%Q /\ (q < (3 # 2) * top)%Q
        /\ ((forall a, (wrel r f g a == top)%Q) -> (q <= top + precision / 2)%Q)).
Proof. exact wcre_search_fl_full. Qed.
Print Assumptions C132_wcre_search.
(** the same outcome as with exact numbers after any number of rounds *)
Theorem C132_same_search : forall (rnd : Q -> Q) (M : mgr) (clog2 : Z -> nat) (n : nat) (f g : list bdd) (r : NumberRepresentation)
    (e : nat) (precision : Q) (s : Z),
  keeps_floats 53 rnd -> clog2_ok clog2 -> Forall (wf M) f -> Forall (wf M) g -> below n f -> below n g ->
  f <> [] -> (r = TwosComplement -> g <> []) -> Nat.max (length f) (length g) <= 126 -> 16 <= e ->
  (0 <= s)%Z -> (2 ^ (- s) <= precision)%Q -> (Z.of_nat (Nat.max (length f) (length g)) + s + 1 <= 53)%Z ->
  forall fuel, relopt (relres Qeq) (wcre_search_fl rnd M clog2 f g e precision r fuel) (wcre_search M clog2 f g e precision r fuel).
Proof. exact (wcre_search_fl_same 53). Qed.
Print Assumptions C132_same_search.
Definition log2_up (z : Z) : nat := Z.to_nat (Z.log2_up z).
Example C132_case : (* constants 3 and 14: 11/3; the default precision needs 14 bits, so that 38 outputs are allowed *)
  match wcre_search_fl (round_float 53) (id_mgr 1) log2_up [bone; bone; bzero; bzero] [bzero; bone; bone; bone] 16 (1 # 10000) BaseTwo 142 with
  | Some (Ok q) => Qred q = (120149 # 32768)%Q
  | _ => False
  end
  /\ (2 ^ (- Z.of_nat 14) <= 1 # 10000)%Q /\ clog2_ok log2_up.
Proof. split; [vm_compute; reflexivity|]. split; [vm_compute; discriminate|]. exact log2_up_ok. Qed.

(** C133: with doubles the search for the worst case relative error ends. Wrong: with 41 outputs and the default parameters
    neighbouring doubles are further apart than the precision, the middle becomes one of the two limits, and nothing
    changes any more *)
Theorem C133_wcre_search_ends_refuted : exists (f g : list bdd) (top : Q),
  Forall (wf (id_mgr 1)) f /\ Forall (wf (id_mgr 1)) g /\ length f = 41 /\ length g = 41
  /\ (forall a, (rel (uval f a) (uval g a) == top)%Q) /\ (1 <= top)%Q
  /\ forall rnd clog2, rounds_to_nearest 53 rnd -> clog2_ok clog2 ->
     forall fuel, wcre_search_fl rnd (id_mgr 1) clog2 f g 16 (1 # 10000) BaseTwo fuel = None.
Proof. exact wcre_search_fl_stuck. Qed.
Print Assumptions C133_wcre_search_ends_refuted.
(** always, if the relative error is the same everywhere, not itself a double, and so large that doubles near it are further
    apart than the precision *)
Theorem C133_wcre_search_never : forall (rnd : Q -> Q) (M : mgr) (clog2 : Z -> nat) (n : nat) (f g : list bdd) (r : NumberRepresentation)
    (e : nat) (precision top : Q) (k : Z),
  rounds_to_nearest 53 rnd -> clog2_ok clog2 -> Forall (wf M) f -> Forall (wf M) g -> below n f -> below n g ->
  f <> [] -> (r = TwosComplement -> g <> []) -> Nat.max (length f) (length g) <= 126 -> 16 <= e ->
  (forall a, (wrel r f g a == top)%Q) -> ~ float_number 53 top -> (36 <= k)%Z -> (2 ^ k <= top)%Q -> (precision < 2 ^ (k - 52))%Q ->
  forall fuel, wcre_search_fl rnd M clog2 f g e precision r fuel = None.
Proof. exact wcre_search_fl_never53. Qed.
Print Assumptions C133_wcre_search_never.
Example C133_case : (* 3 and 3 2^40 + 4 with 42 outputs: 2^40 + 1/3. With exact numbers it ends (C43) *)
  let f := const_bits 42 3 in let g := const_bits 42 (3 * 2 ^ 40 + 4) in let top := ((3 * 2 ^ 40 + 1) # 3)%Q in
  (forall a, (wrel BaseTwo f g a == top)%Q) /\ ~ float_number 53 top /\ (2 ^ 40 <= top)%Q /\ ((1 # 10000) < 2 ^ (40 - 52))%Q
  /\ wcre_search_fl (round_float 53) (id_mgr 1) log2_up f g 16 (1 # 10000) BaseTwo 100 = None.
Proof.
  split; [intro a; vm_compute; reflexivity|]. split.
  { apply (not_float_third 53 _ (3 * 2 ^ 40 + 1)); [vm_compute; reflexivity|]. intros [k Hk]. lia. }
  split; [vm_compute; discriminate|]. split; [vm_compute; reflexivity|]. vm_compute. reflexivity.
Qed.

(** C134: the randomized search is exact whatever the rounding does to the sampling, and ends with rounding to nearest *)
Theorem C134_randomized_search_exact :
  forall (M : mgr) (clog2 : Z -> nat) (rnd : Q -> Q) (rand_max : Z) (draws : nat -> Z) (f g : list bdd) (samples : nat)
    (r : NumberRepresentation) (fuel : nat) (x : res (Z * Z)),
  clog2_ok clog2 -> Forall (wf M) f -> Forall (wf M) g -> below (read_size M) f -> below (read_size M) g ->
  f <> [] -> (r = TwosComplement -> g <> []) -> Nat.max (length f) (length g) <= 62 ->
  wcre_randomized_search_fl rnd M clog2 rand_max draws f g samples r fuel = Some x ->
  exists c e, x = Ok (c, e) /\ (0 < e)%Z /\ is_maxQ (wrel r f g) (inject_Z c / inject_Z e).
Proof. exact randomized_search_fl_exact. Qed.
Print Assumptions C134_randomized_search_exact.
Theorem C134_randomized_search_terminates :
  forall (M : mgr) (clog2 : Z -> nat) (rnd : Q -> Q) (rand_max : Z) (draws : nat -> Z) (f g : list bdd) (samples : nat)
    (r : NumberRepresentation),
  rounds_to_nearest 53 rnd -> clog2_ok clog2 -> index_order M -> Forall (wf M) f -> Forall (wf M) g ->
  below (read_size M) f -> below (read_size M) g -> f <> [] -> (r = TwosComplement -> g <> []) ->
  Nat.max (length f) (length g) <= 62 -> 0 < samples -> (forall i, 0 < draws i <= rand_max)%Z ->
  forall fuel, (2 ^ Z.of_nat (read_size M) < Z.of_nat fuel)%Z ->
  exists x, wcre_randomized_search_fl rnd M clog2 rand_max draws f g samples r fuel = Some x.
Proof. exact (fun M clog2 rnd rm draws f g samples r => randomized_search_fl_terminates M clog2 53 rnd rm draws f g samples r ltac:(lia)). Qed.
Print Assumptions C134_randomized_search_terminates.
(** random_satisfying_input returns a satisfying input. The exponent of a double is unbounded here; C143 and C144 have its limits *)
Theorem C134_random_satisfying_input : forall (rnd : Q -> Q) (M : mgr) (rand_max : Z) (f : bdd) (T : nat) (draws : list Z),
  rounds_to_nearest 53 rnd -> index_order M -> wf M f -> depends_below T f -> (exists a, ev f a = true) ->
  length draws = T -> Forall (fun d => 0 < d <= rand_max)%Z draws -> (0 < rand_max)%Z ->
  exists l, random_satisfying_input_fl rnd rand_max f (count_minterms_fl rnd f) T draws = Ok l
    /\ length l = T /\ Forall (fun x => x = 0 \/ x = 1)%Z l /\ ev f (asg_ints l) = true.
Proof. exact random_input_fl. Qed.
Print Assumptions C134_random_satisfying_input.
Example C134_case :
  wcre_randomized_search_fl (round_float 53) (id_mgr 1) log2_up 10 (fun _ => 7%Z) four nine_or_four 3 BaseTwo 3 = Some (Ok (5, 4)%Z)
  /\ random_satisfying_input_fl (round_float 53) 10 conj55 (count_minterms_fl (round_float 53) conj55) 55 (repeat 7%Z 55) = Ok (repeat 1%Z 55).
Proof. vm_compute. auto. Qed.

(** C135: the metrics in cpp_dec_float_100 are off by one relative error per operation: the bounds by one for the worst case
    and by one per output and two more for the average case, the symbolic division by one and two *)
Theorem C135_wcre_bounds : forall (u : Q) (dec : Q -> Q) (M : mgr) (n : nat) (f g : list bdd) (r : NumberRepresentation),
  (0 <= u <= 1)%Q -> relative_error u dec -> Forall (wf M) f -> Forall (wf M) g -> below n f -> below n g -> f <> [] ->
  (r = TwosComplement -> g <> []) -> length f <= 256 -> length g <= 256 ->
  exists lo hi, wcre_bounds_fl dec M f g r = Ok (lo, hi)
    /\ (forall a, (1 - u) * wrel r f g a <= hi)%Q
    /\ (forall B, (forall a, wrel r f g a <= B)%Q -> (lo <= (1 + u) * B)%Q).
Proof. exact (fun u dec M n f g r U D => wcre_bounds_dec u U dec D M n f g r). Qed.
Print Assumptions C135_wcre_bounds.
Theorem C135_acre_bounds : forall (u : Q) (rnd dec : Q -> Q) (M : mgr) (n : nat) (f g : list bdd) (r : NumberRepresentation),
  (0 <= u <= 1)%Q -> rounds_to_nearest 53 rnd -> relative_error u dec ->
  Forall (wf M) f -> Forall (wf M) g -> below n f -> below n g -> f <> [] ->
  (r = TwosComplement -> g <> []) -> Nat.max (length f) (length g) + n < 256 ->
  let doubles := if n <=? 53 then 0 else 2 * n in
  exists lo hi, acre_bounds_fl rnd dec M f g r = Ok (Fin lo, Fin hi)
    /\ (qpow (1 - u) (length f + 2) * (qpow (1 - 2 ^ (-53)) doubles * average n (wrel r f g)) <= hi)%Q
    /\ (lo <= qpow (1 + u) (length f + 2) * (qpow (1 + 2 ^ (-53)) doubles * average n (wrel r f g)))%Q.
Proof. exact (fun u rnd dec M n f g r U R D => acre_bounds_dec u U rnd dec R D M n f g r). Qed.
Print Assumptions C135_acre_bounds.
Theorem C135_wcre_symbolic_division : forall (dec : Q -> Q) (M : mgr) (n : nat) (f g : list bdd) (e : nat) (r : NumberRepresentation),
  Forall (wf M) f -> Forall (wf M) g -> below n f -> below n g -> f <> [] ->
  (r = TwosComplement -> g <> []) -> Nat.max (length f) (length g) + e <= 256 ->
  exists m, wcre_symbolic_division_fl dec M f g e r = Ok (dec (inject_Z m / inject_Z (2 ^ Z.of_nat e)))%Q
    /\ is_max (fun a => Qround.Qfloor (wrel r f g a * inject_Z (2 ^ Z.of_nat e))) m.
Proof. exact wcre_division_fl_value. Qed.
Print Assumptions C135_wcre_symbolic_division.
Theorem C135_acre_symbolic_division : forall (u : Q) (rnd dec : Q -> Q) (M : mgr) (n : nat) (f g : list bdd) (e : nat) (r : NumberRepresentation),
  (0 <= u <= 1)%Q -> rounds_to_nearest 53 rnd -> relative_error u dec ->
  Forall (wf M) f -> Forall (wf M) g -> below n f -> below n g -> f <> [] ->
  (r = TwosComplement -> g <> []) -> Nat.max (length f) (length g) + e + n + 3 <= 256 ->
  let doubles := if n <=? 53 then 0 else 2 * n in
  exists q, acre_symbolic_division_fl rnd dec M f g e r = Ok (Fin q)
    /\ (q <= qpow (1 + u) 2 * (qpow (1 + 2 ^ (-53)) doubles * average n (wrel r f g)))%Q
    /\ (qpow (1 - u) 2 * (qpow (1 - 2 ^ (-53)) doubles * (average n (wrel r f g) - 1 / inject_Z (2 ^ Z.of_nat e))) <= q)%Q.
Proof. exact (fun u rnd dec M n f g e r U R D => acre_division_fl_value u U rnd dec R D M n f g e r). Qed.
Print Assumptions C135_acre_symbolic_division.
Example C135_case : (* with five significant bits 6/7 becomes 27/32, 3/14 becomes 7/32 and 277/1024 becomes 17/64 *)
  let M := id_mgr 4 in let d := round_float 5 in
  match wcre_bounds_fl d M [bone; bone; bone] [bone; bzero; bvar 1] BaseTwo, acre_bounds_fl (round_float 53) d M (example1a M) (example1b M) BaseTwo,
        wcre_symbolic_division_fl d M [bone; bone; bone] [bone; bzero; bvar 1] 8 BaseTwo,
        acre_symbolic_division_fl (round_float 53) d M (example1a M) (example1b M) 8 BaseTwo with
  | Ok (a, b), Ok (Fin lo, Fin hi), Ok q, Ok (Fin x) =>
      (Qred a, Qred b, Qred lo, Qred hi, Qred q, Qred x) = (27 # 32, 3 # 2, 7 # 32, 11 # 32, 27 # 32, 17 # 64)%Q
  | _, _, _, _ => False
  end.
Proof. vm_compute. auto. Qed.

(** C136: sampling. Plain sampling is rounded once. *)
Theorem C136_error_rate_sampling : forall (rnd : Q -> Q) (M : mgr) (draws : nat -> Z) (f g : list bdd) (samples : Z),
  length f = length g -> Forall (wf M) f -> Forall (wf M) g ->
  below (read_size M) f -> below (read_size M) g -> (1 <= samples < 2 ^ 31)%Z -> (forall i, 0 <= draws i)%Z ->
  exists q, error_rate_sampling_fl rnd M draws f g samples = Ok (Fin (rnd q))
    /\ (q == inject_Z (Z.of_nat (length (filter (fun k => differ f g (sample draws (read_size M) k))
                                            (seq 0 (Z.to_nat samples))))) / inject_Z samples)%Q.
Proof. exact error_rate_sampling_fl_value. Qed.
Print Assumptions C136_error_rate_sampling.
(** Efficient sampling keeps its range, and fails for the same functions, if all rates and their sum are doubles *)
Theorem C136_efficient_sampling :
  forall (rnd : Q -> Q) (M : mgr) (sort : list (nat * Q) -> list (nat * Q)) (rand_max : Z) (draws : nat -> Z) (f g : list bdd) (samples : Z),
  rounds_to_nearest 53 rnd -> sorts_down sort -> Forall (wf M) f -> Forall (wf M) g ->
  below (read_size M) f -> below (read_size M) g -> length f = length g ->
  let n := read_size M in
  (Z.of_nat (length f) * 2 ^ Z.of_nat n <= 2 ^ 53)%Z -> (1 <= samples < 2 ^ 31)%Z ->
  (length f = 1 -> exists q, error_rate_efficient_sampling_fl rnd M sort rand_max draws f g samples = Ok q /\ (q == output_rate n f g 0)%Q)
  /\ ((exists i j, i < length f /\ j < length f /\ i <> j /\ (exists a, wrong f g i a = true) /\ (exists a, wrong f g j a = true)) ->
      exists q, error_rate_efficient_sampling_fl rnd M sort rand_max draws f g samples = Ok q
        /\ (forall i, i < length f -> (output_rate n f g i <= q)%Q) /\ (q <= 1)%Q
        /\ (q <= sumQ (map (output_rate n f g) (seq 0 (length f))))%Q)
  /\ (length f <> 1 -> ~ (exists i j, i < length f /\ j < length f /\ i <> j /\ (exists a, wrong f g i a = true) /\ (exists a, wrong f g j a = true)) ->
      error_rate_efficient_sampling_fl rnd M sort rand_max draws f g samples = UB).
Proof. exact efficient_sampling_fl_ok. Qed.
Print Assumptions C136_efficient_sampling.
(** and it is exact in the cases of C45 *)
Theorem C136_efficient_sampling_exact :
  forall (rnd : Q -> Q) (M : mgr) (sort : list (nat * Q) -> list (nat * Q)) (rand_max : Z) (draws : nat -> Z) (f g : list bdd) (samples : Z),
  rounds_to_nearest 53 rnd -> sorts_down sort -> index_order M -> Forall (wf M) f -> Forall (wf M) g ->
  below (read_size M) f -> below (read_size M) g -> length f = length g ->
  let n := read_size M in
  (Z.of_nat (length f) * 2 ^ Z.of_nat n <= 2 ^ 53)%Z -> (1 <= samples < 2 ^ 31)%Z -> (forall i, 0 < draws i <= rand_max)%Z ->
  (exists i j, i < length f /\ j < length f /\ i <> j /\ (exists a, wrong f g i a = true) /\ (exists a, wrong f g j a = true)) ->
  ((exists j, j < length f /\ forall i a, i < length f -> wrong f g i a = true -> wrong f g j a = true)
   \/ ((forall i j a, i < length f -> j < length f -> i <> j -> wrong f g i a = true -> wrong f g j a = false)
       /\ forall i, i < length f -> (output_rate n f g i == 0)%Q
            \/ (sumQ (map (output_rate n f g) (seq 0 (length f))) <= inject_Z samples * output_rate n f g i)%Q)) ->
  exists q, error_rate_efficient_sampling_fl rnd M sort rand_max draws f g samples = Ok q
    /\ (q == average n (fun a => b2q (differ f g a)))%Q.
Proof. exact efficient_sampling_fl_exact. Qed.
Print Assumptions C136_efficient_sampling_exact.
(** Efficient sampling with doubles fails for no other functions. Wrong: with 55 variables a rate of 2^-55 next to one of 1 is
    lost in the sum, and the quotient by the difference is a division by 0 *)
Theorem C136_more_failures : exists (M : mgr) (f g : list bdd),
  index_order M /\ Forall (wf M) f /\ Forall (wf M) g /\ length f = length g /\ below (read_size M) f /\ below (read_size M) g
  /\ read_size M = 55 /\ length f = 2
  /\ (exists a, wrong f g 0 a = true) /\ (exists a, wrong f g 1 a = true)
  /\ (forall sort rand_max draws samples, sorts_down sort -> (1 <= samples < 2 ^ 31)%Z ->
        exists q, error_rate_efficient_sampling M sort rand_max draws f g samples = Ok q /\ (q == 1)%Q)
  /\ (forall rnd sort rand_max draws samples, rounds_to_nearest 53 rnd -> sorts_down sort ->
        error_rate_efficient_sampling_fl rnd M sort rand_max draws f g samples = UB).
Proof. exact efficient_lost. Qed.
Print Assumptions C136_more_failures.
Example C136_case : (* nested and disjoint differences, one of three samples wrong *)
  let r := round_float 53 in
  match error_rate_efficient_sampling_fl r (id_mgr 2) sort_down 10 (fun _ => 7%Z) [bvar 0; bzero] [bzero; band (id_mgr 2) (bvar 0) (bvar 1)] 10,
        error_rate_efficient_sampling_fl r (id_mgr 2) sort_down 10 (fun _ => 7%Z) [bvar 0; bvar 0] [bzero; bone] 10,
        error_rate_sampling_fl r (id_mgr 1) (fun i => if i =? 1 then 1%Z else 0%Z) [bvar 0] [bzero] 3 with
  | Ok a, Ok b, Ok (Fin q) => Qred a = (1 # 2)%Q /\ Qred b = 1%Q /\ Qred (q * 2 ^ 54) = 6004799503160661%Q
  | _, _, _ => False
  end.
Proof. vm_compute. auto. Qed.
