(** Properties C169 and C170: random_satisfying_input (src/util/cudd_helpers.cpp:169-213) when rand() returns 0, with doubles, and
    the rounds of wcre_randomized_search (src/error_metrics/worst_case_relative_error.cpp:42-146) with doubles. *)
From Coq Require Import List Bool Arith ZArith QArith Qpower.
From Verif Require Import Res Cudd Spec SpecExact SpecFloat SpecSearch Float Helpers HelpersFacts2 Counting Metrics RelMetrics RelFacts
  Rounded RoundedAdd RoundedMinimize RoundedRel Ieee ExactFacts2 ExactFacts3 RoundedSearchFacts CuddFacts.
Import ListNotations.
Open Scope nat_scope.

(** C169: with doubles too, the input is wrong exactly if rand() returned 0 at a variable that had to be false *)
Theorem C169_zero_draws : forall (rnd : Q -> Q) (M : mgr) (rand_max : Z) (f : bdd) (T : nat) (draws : list Z),
  rounds_to_nearest 53 rnd -> index_order M -> (0 < rand_max)%Z -> wf M f -> (exists a, ev f a = true) -> depends_below T f ->
  length draws = T -> Forall (fun d => 0 <= d <= rand_max)%Z draws ->
  exists l, random_satisfying_input_fl rnd rand_max f (count_minterms_fl rnd f) T draws = Ok l
    /\ length l = T /\ Forall (fun x => x = 0 \/ x = 1)%Z l
    /\ (ev f (fun i => nth i l 0 =? 1)%Z = false <-> exists i, i < T /\ nth i draws 1%Z = 0%Z /\ needs_false f l i).
Proof. exact (fun rnd M rm f T draws => random_satisfying_input_exact_fl 53 rnd M rm f T draws ltac:(discriminate)). Qed.
Print Assumptions C169_zero_draws.
(** the same with the limited range of doubles, up to 1022 variables *)
Theorem C169_zero_draws_double : forall (M : mgr) (rand_max : Z) (f : bdd) (T : nat) (draws : list Z),
  index_order M -> wf M f -> (exists a, ev f a = true) -> depends_below T f -> T <= 1022 ->
  length draws = T -> Forall (fun d => 0 <= d <= rand_max)%Z draws -> (0 < rand_max <= 2 ^ 53)%Z ->
  exists l, random_satisfying_input_d rand_max f (count_minterms_d f) T draws = Ok l
    /\ length l = T /\ Forall (fun x => x = 0 \/ x = 1)%Z l
    /\ (ev f (fun i => nth i l 0 =? 1)%Z = false <-> exists i, i < T /\ nth i draws 1%Z = 0%Z /\ needs_false f l i).
Proof. exact random_satisfying_input_exact_d. Qed.
Print Assumptions C169_zero_draws_double.
(** consequence: there are functions and random numbers for which the randomized search never ends *)
Theorem C169_search_endless : exists (M : mgr) (clog2 : Z -> nat) (f g : list bdd) (rand_max : Z) (rand : nat -> Z),
  clog2_ok clog2 /\ index_order M /\ Forall (wf M) f /\ Forall (wf M) g /\ below (read_size M) f /\ below (read_size M) g /\ f <> []
  /\ Nat.max (length f) (length g) <= 62 /\ (forall i, 0 <= rand i < rand_max)%Z
  /\ forall samples fuel, wcre_randomized_search M clog2 rand_max rand f g samples BaseTwo fuel = None
       /\ wcre_randomized_search_fl (round_float 53) M clog2 rand_max rand f g samples BaseTwo fuel = None.
Proof. exact zero_draws_endless. Qed.
Print Assumptions C169_search_endless.
Example C169_case : let f := band (id_mgr 3) (bnot (bvar 0)) (bvar 2) in
  (* the zero at x0, which has to be false, gives a wrong input; the one at x2 does not *)
  random_satisfying_input_fl (round_float 53) 100 f (count_minterms_fl (round_float 53) f) 3 [0; 51; 100]%Z = Ok [1; 1; 0]%Z
  /\ random_satisfying_input_d 100 f (count_minterms_d f) 3 [1; 51; 0]%Z = Ok [0; 1; 1]%Z.
Proof. vm_compute. auto. Qed.

(** C170: with doubles the randomized search takes the rounds of C149, with the inputs drawn by the rounded counts *)
Theorem C170_rounds :
  forall (rnd : Q -> Q) (M : mgr) (clog2 : Z -> nat) (rand_max : Z) (rand : nat -> Z) (f g : list bdd) (samples : nat)
    (r : NumberRepresentation) (fuel : nat) (x : res (Z * Z)),
  clog2_ok clog2 -> Forall (wf M) f -> Forall (wf M) g -> below (read_size M) f -> below (read_size M) g ->
  f <> [] -> (r = TwosComplement -> g <> []) -> Nat.max (length f) (length g) <= 62 ->
  wcre_randomized_search_fl rnd M clog2 rand_max rand f g samples r fuel = Some x ->
  exists c e, x = Ok (c, e) /\ (0 < e)%Z
  /\ ((wcre_randomized_search_fl rnd M clog2 rand_max rand f g samples r 0 = Some x
       /\ ((inject_Z c / inject_Z e == 0)%Q \/ exists z, (inject_Z c / inject_Z e == Qpower 2 z)%Q))
      \/ exists z k m, k < fuel /\ wcre_randomized_search_fl rnd M clog2 rand_max rand f g samples r k = None
         /\ (m == inject_Z c / inject_Z e)%Q /\ (Qpower 2 z < m < 2 * Qpower 2 z)%Q
         /\ search_run M (fun h l => random_satisfying_input_fl rnd rand_max h (count_minterms_fl rnd h) (read_size M) l) asg_ints
              rand (read_size M) (wrel r f g) samples k 0 (Qpower 2 z) m).
Proof. exact randomized_rounds_fl. Qed.
Print Assumptions C170_rounds.
Theorem C170_number_of_rounds :
  forall (rnd : Q -> Q) (M : mgr) (clog2 : Z -> nat) (rand_max : Z) (rand : nat -> Z) (f g : list bdd) (samples : nat)
    (r : NumberRepresentation) (values : list Q),
  rounds_to_nearest 53 rnd -> clog2_ok clog2 -> index_order M -> Forall (wf M) f -> Forall (wf M) g ->
  below (read_size M) f -> below (read_size M) g -> f <> [] -> (r = TwosComplement -> g <> []) ->
  Nat.max (length f) (length g) <= 62 -> 0 < samples -> (forall i, 0 < rand i <= rand_max)%Z ->
  (forall a, exists q, In q values /\ (q == wrel r f g a)%Q) ->
  forall fuel, length values < fuel ->
  exists x, wcre_randomized_search_fl rnd M clog2 rand_max rand f g samples r fuel = Some x.
Proof. exact randomized_few_rounds_fl. Qed.
Print Assumptions C170_number_of_rounds.
Example C170_case : (* 8 against 12, 13, 14 and 15: the worst error is 7/8, the search starts with 1/2 *)
  let f := [bzero; bzero; bzero; bone] in let g := [bvar 0; bvar 1; bone; bone] in
  let rounds rand samples := map (fun k => wcre_randomized_search_fl (round_float 53) (id_mgr 2) (fun z => Z.to_nat (Z.log2_up z)) 10
    (fun i => nth i rand 1%Z) f g samples BaseTwo k) [1; 2; 3] in
  let found := Some (Ok (7, 8)%Z) in
  rounds [] 1 = [None; found; found] /\ rounds [10; 10]%Z 1 = [None; None; found]
  /\ rounds [10; 10; 1; 1]%Z 2 = [None; found; found] /\ rounds [10; 10; 10; 10]%Z 2 = [None; None; found].
Proof. vm_compute. auto. Qed.
