(** Properties C86-C90: relations between the metrics of src/error_metrics, the functions of
    src/example_bdds/from_papers.cpp, and terminal_level. *)
From Coq Require Import List Bool Arith ZArith QArith.
From Verif Require Import Res Cudd CuddFacts Spec SpecFacts Helpers HelpersFacts Counting Metrics FromPapers RelMetrics Operators CrossFacts OrderFacts
  PapersFacts LevelFacts.
Import ListNotations.
Open Scope nat_scope.

(** C86 *)
Theorem C86_rates_and_maxima : forall (M : mgr) (n : nat) (f g : list bdd),
  Forall (wf M) f -> Forall (wf M) g -> below n f -> below n g -> length f = length g -> length f + n < 256 ->
  exists er abf wcb ace wce,
    error_rate M f g = Ok er /\ average_bit_flip_error M f g = Ok abf /\ worst_case_bit_flip_error M f g = Ok wcb
    /\ average_case_error M f g BaseTwo = Ok (Fin ace) /\ worst_case_error M f g BaseTwo = Ok wce
    /\ (0 <= er <= 1)%Q /\ (er <= abf <= inject_Z wcb * er)%Q /\ (0 <= wcb <= Z.of_nat (length f))%Z
    /\ (er <= ace <= inject_Z wce * er)%Q.
Proof. exact cross_bounds. Qed.
Print Assumptions C86_rates_and_maxima.
Theorem C86_squares : forall (M : mgr) (n : nat) (f g : list bdd),
  index_order M -> Forall (wf M) f -> Forall (wf M) g -> below n f -> below n g -> n <= 63 -> length f = length g ->
  2 * length f + n < 256 ->
  exists ace mse wce, average_case_error M f g BaseTwo = Ok (Fin ace) /\ mean_squared_error_add M f g BaseTwo = Ok (Fin mse)
    /\ worst_case_error M f g BaseTwo = Ok wce /\ (ace * ace <= mse)%Q /\ (ace <= mse <= inject_Z wce * ace)%Q.
Proof. exact cross_squares. Qed.
Print Assumptions C86_squares.
Theorem C86_relative : forall (M : mgr) (n : nat) (f g : list bdd),
  index_order M -> Forall (wf M) f -> Forall (wf M) g -> below n f -> below n g -> n <= 63 -> length f = length g ->
  length f + n < 256 ->
  exists wcre acre er ace wce, wcre_add M f g BaseTwo = Ok wcre /\ acre_add M f g BaseTwo = Ok (Fin acre)
    /\ error_rate M f g = Ok er /\ average_case_error M f g BaseTwo = Ok (Fin ace) /\ worst_case_error M f g BaseTwo = Ok wce
    /\ (0 <= wcre <= inject_Z wce)%Q /\ (0 <= acre <= ace)%Q /\ (acre <= wcre * er)%Q.
Proof. exact cross_relative. Qed.
Print Assumptions C86_relative.
Definition out {A} (r : res A) : option A := match r with Ok x => Some x | _ => None end.
Definition outq (r : res Q) : option Q := option_map Qred (out r).
Definition outn (r : res num) : option Q := match r with Ok (Fin q) => Some (Qred q) | _ => None end.
Example C86_case : let M := id_mgr 4 in let f := example1a M in let g := example1b M in
  outq (error_rate M f g) = Some (5#16)%Q /\ outq (average_bit_flip_error M f g) = Some (3#8)%Q
  /\ outn (average_case_error M f g BaseTwo) = Some 1%Q /\ worst_case_error M f g BaseTwo = Ok 6%Z
  /\ outn (mean_squared_error_add M f g BaseTwo) = Some 4%Q /\ outn (acre_add M f g BaseTwo) = Some (13#48)%Q
  /\ outq (wcre_add M f g BaseTwo) = Some 1%Q.
Proof. vm_compute. repeat split. Qed.

(** C87; worst_case_error satisfies the same laws (C29), and an error of zero means equal (C24, C29, C37) *)
Theorem C87_metric_laws : forall (M : mgr) (n : nat) (f g h : list bdd),
  Forall (wf M) f -> Forall (wf M) g -> Forall (wf M) h -> below n f -> below n g -> below n h ->
  length f = length g -> length g = length h -> length f + n < 256 ->
  (exists x y z x', error_rate M f h = Ok x /\ error_rate M f g = Ok y /\ error_rate M g h = Ok z /\ error_rate M h f = Ok x'
     /\ (x <= y + z)%Q /\ (x == x')%Q)
  /\ (exists x y z x', average_bit_flip_error M f h = Ok x /\ average_bit_flip_error M f g = Ok y
     /\ average_bit_flip_error M g h = Ok z /\ average_bit_flip_error M h f = Ok x' /\ (x <= y + z)%Q /\ (x == x')%Q)
  /\ (exists x y z, worst_case_bit_flip_error M f h = Ok x /\ worst_case_bit_flip_error M f g = Ok y
     /\ worst_case_bit_flip_error M g h = Ok z /\ worst_case_bit_flip_error M h f = Ok x /\ (x <= y + z)%Z)
  /\ (exists x y z x', average_case_error M f h BaseTwo = Ok (Fin x) /\ average_case_error M f g BaseTwo = Ok (Fin y)
     /\ average_case_error M g h BaseTwo = Ok (Fin z) /\ average_case_error M h f BaseTwo = Ok (Fin x')
     /\ (x <= y + z)%Q /\ (x == x')%Q).
Proof. exact metric_laws. Qed.
Print Assumptions C87_metric_laws.
Example C87_case : let M := id_mgr 4 in let f := example1a M in let g := example1b M in let h := example1d M in
  map outq [error_rate M f h; error_rate M f g; error_rate M g h; error_rate M h f]
  = [Some (11#16); Some (5#16); Some (9#16); Some (11#16)]%Q
  /\ map outn [average_case_error M f h BaseTwo; average_case_error M f g BaseTwo; average_case_error M g h BaseTwo]
     = [Some (7#4); Some 1; Some (7#4)]%Q
  /\ map out [worst_case_bit_flip_error M f h; worst_case_bit_flip_error M f g; worst_case_bit_flip_error M g h]
     = [Some 2; Some 2; Some 2]%Z.
Proof. vm_compute. repeat split. Qed.

(** C88: the same functions as BDDs for two variable orders *)
Theorem C88_single_function : forall (M1 M2 : mgr) (n : nat) (f f' : list bdd),
  Forall (wf M1) f -> Forall (wf M2) f' -> below n f -> same_functions f f' ->
  length f <= 256 -> (forall b, In b f -> 2 * length f + support_size b <= 256) ->
  get_max_value M1 f = get_max_value M2 f'
  /\ (exists p q, average_value f = Fin p /\ average_value f' = Fin q /\ (p == q)%Q)
  /\ (exists p q, mean_squared_value M1 f = Fin p /\ mean_squared_value M2 f' = Fin q /\ (p == q)%Q).
Proof. exact order_free_single. Qed.
Print Assumptions C88_single_function.
Theorem C88_rates : forall (M1 M2 : mgr) (n : nat) (f g f' g' : list bdd),
  Forall (wf M1) f -> Forall (wf M1) g -> Forall (wf M2) f' -> Forall (wf M2) g' -> below n f -> below n g ->
  same_functions f f' -> same_functions g g' -> length f = length g -> (Z.of_nat (length f) < 2 ^ 32)%Z ->
  (exists p q, error_rate M1 f g = Ok p /\ error_rate M2 f' g' = Ok q /\ (p == q)%Q)
  /\ (exists p q, average_bit_flip_error M1 f g = Ok p /\ average_bit_flip_error M2 f' g' = Ok q /\ (p == q)%Q)
  /\ worst_case_bit_flip_error M1 f g = worst_case_bit_flip_error M2 f' g'.
Proof. exact order_free_rates. Qed.
Print Assumptions C88_rates.
Theorem C88_arithmetic : forall (M1 M2 : mgr) (n : nat) (f g f' g' : list bdd),
  Forall (wf M1) f -> Forall (wf M1) g -> Forall (wf M2) f' -> Forall (wf M2) g' -> below n f -> below n g ->
  same_functions f f' -> same_functions g g' -> forall r : NumberRepresentation,
  (r = TwosComplement -> f <> [] /\ g <> []) -> 2 * Nat.max (length f) (length g) + 2 + n <= 256 ->
  worst_case_error M1 f g r = worst_case_error M2 f' g' r
  /\ (exists p q, average_case_error M1 f g r = Ok (Fin p) /\ average_case_error M2 f' g' r = Ok (Fin q) /\ (p == q)%Q)
  /\ (exists p q, mean_squared_error M1 f g r = Ok (Fin p) /\ mean_squared_error M2 f' g' r = Ok (Fin q) /\ (p == q)%Q).
Proof. exact order_free_arithmetic. Qed.
Print Assumptions C88_arithmetic.
Theorem C88_approximate : forall (M1 M2 : mgr) (f g f' g' : list bdd),
  Forall (wf M1) f -> Forall (wf M1) g -> Forall (wf M2) f' -> Forall (wf M2) g' ->
  same_functions f f' -> same_functions g g' -> forall k : Z,
  length f = length g -> length f <= 256 -> (1 <= k)%Z ->
  approximate_worst_case_error M1 f g k BaseTwo = approximate_worst_case_error M2 f' g' k BaseTwo.
Proof. exact order_free_approximate. Qed.
Print Assumptions C88_approximate.
Theorem C88_division : forall (M1 M2 : mgr) (n : nat) (f g f' g' : list bdd),
  Forall (wf M1) f -> Forall (wf M1) g -> Forall (wf M2) f' -> Forall (wf M2) g' -> below n f -> below n g ->
  same_functions f f' -> same_functions g g' -> forall (e : nat) (r : NumberRepresentation),
  f <> [] -> (r = TwosComplement -> g <> []) -> Nat.max (length f) (length g) + e <= 256 ->
  exists p q, wcre_symbolic_division M1 f g e r = Ok p /\ wcre_symbolic_division M2 f' g' e r = Ok q /\ p = q.
Proof. exact order_free_division. Qed.
Print Assumptions C88_division.
(** the same two functions for the order of the indices and for the reversed order; the BDDs differ *)
Example C88_case : let M1 := id_mgr 4 in let M2 := reversed_mgr 4 4 in
  Forall (wf M1) (example1a M1) /\ Forall (wf M2) (example1a M2)
  /\ same_functions (example1a M1) (example1a M2) /\ same_functions (example1b M1) (example1b M2)
  /\ nodeCount (example1a M1) = 11 /\ nodeCount (example1a M2) = 9
  /\ outq (error_rate M1 (example1a M1) (example1b M1)) = Some (5#16)%Q
  /\ outq (error_rate M2 (example1a M2) (example1b M2)) = Some (5#16)%Q
  /\ approximate_worst_case_error M1 (example1a M1) (example1b M1) 1 BaseTwo = Ok 7%Z
  /\ approximate_worst_case_error M2 (example1a M2) (example1b M2) 1 BaseTwo = Ok 7%Z.
Proof.
  cbv zeta. destruct (example1_same (id_mgr 4) (reversed_mgr 4 4)) as [Sa Sb].
  repeat split; try apply example1a_wf; try exact Sa; try exact Sb; vm_compute; reflexivity.
Qed.

(** C89; variable [i] of the code is [x_(i+1)] of the paper *)
Theorem C89_values : forall (M : mgr) (a : asg),
  let x (i : nat) := Z.b2z (a i) in
  uval (example1a M) a = (x 0%nat + x 1%nat + 2 * x 2%nat + 2 * x 3%nat)%Z
  /\ uval (example1b M) a =
     (Z.b2z (xorb (a 0%nat) (a 1%nat))
      + (if negb (a 2%nat) then 2 * (Z.b2z (a 0%nat && a 1%nat) + x 3%nat)
         else if a 3%nat && negb (a 0%nat && a 1%nat) then 4 else 0))%Z
  /\ uval (example1c M) a = (6 + Z.b2z (xorb (a 0%nat) (a 1%nat)))%Z
  /\ uval (example1d M) a = (Z.b2z (xorb (a 0%nat) (a 1%nat)) + 4 * Z.b2z (a 0%nat && a 1%nat))%Z
  /\ uval (example3 M) a = nth (Z.to_nat (x 0%nat + 2 * x 1%nat)) [10; 6; 13; 12]%Z 0%Z
  /\ uval (running_example M) a
     = nth (Z.to_nat (x 2%nat + 2 * x 1%nat + 4 * x 0%nat)) [1; 1; 1; 2; 3; 2; 2; 1]%Z 0%Z.
Proof. exact paper_values. Qed.
Print Assumptions C89_values.
Theorem C89_rounding : forall n : nat, let M := id_mgr n in
  map (fun b => round_down M b 2 4) (example1a M) = map Ok (example1b M)
  /\ map (fun b => round_up M b 2 4) (example1a M) = map Ok (example1c M)
  /\ map (fun b => round_bdd M b 2) (example1a M) = map Ok (example1d M).
Proof. exact example1_rounding. Qed.
Print Assumptions C89_rounding.
Example C89_case : let M := reversed_mgr 4 4 in let a := asg_of [true; true; false; true] in
  map (fun f => uval (f M) a) [example1a; example1b; example1c; example1d; example3; running_example] = [4; 4; 6; 4; 12; 2]%Z.
Proof. vm_compute. reflexivity. Qed.

(** C90 *)
Theorem C90_terminal_level : forall fs : list (list bdd),
  ((forall f, In f fs -> f = []) -> terminal_level fs = 0)
  /\ ((exists f b, In f fs /\ In b f) -> first_unused (fun i => exists f, In f fs /\ vars_in f i) (terminal_level fs)).
Proof. exact terminal_level_first. Qed.
Print Assumptions C90_terminal_level.
Example C90_case : terminal_level [[bvar 3; bone]; []; [bvar 5]] = 6 /\ terminal_level [[bone]] = 1 /\ terminal_level [[]; []] = 0.
Proof. vm_compute. auto. Qed.
