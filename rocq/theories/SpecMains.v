(** What the minimisation experiments (experiments/minimization) print. *)
From Coq Require Import String List Bool Arith NArith ZArith QArith.
From Verif Require Import Res Cudd Spec Parsing SpecParsing Genetic SpecGenetic MinimizeMains.
Import ListNotations.
Open Scope nat_scope.

(** [f] adds two numbers of [bits] bits *)
Definition adds (bits : nat) (f : list bdd) : Prop :=
  List.length f = bits + 1 /\ forall a, uval f a = (number bits (op1 a) + number bits (op2 a))%Z.
(** [f] are the outputs of the circuit in a file *)
Definition circuit (o : N) (evs : list aig_event) (f : list bdd) : Prop :=
  List.length f = N.to_nat o
  /\ forall j, (j < o)%N -> exists b lit, nth_error f (N.to_nat j) = Some b /\ output_literal evs j lit
       /\ forall a v, lit_value evs a lit v <-> ev b a = v.
(** some output of the circuit depends on the input *)
Definition varying (o : N) (evs : list aig_event) : Prop :=
  exists j lit a a' v v', (j < o)%N /\ output_literal evs j lit /\ lit_value evs a lit v /\ lit_value evs a' lit v' /\ v <> v'.

(** the initial population of the genetic algorithm *)
Definition initial (f : list bdd) (pop : list individuum) : Prop :=
  List.length pop = 100
  /\ Forall (fun d => List.length d = List.length (compute_support_positions f) /\ Forall digit d /\ changes d <= 3) pop.
(** a genetic algorithm does not change the length of the individuals *)
Definition keeps_lengths (evolve : nat -> nat -> list individuum -> list individuum) : Prop :=
  forall k i len pop, Forall (fun d => List.length d = len) pop -> Forall (fun d => List.length d = len) (evolve k i pop).
(** [r] describes a smallest acceptable function of the generations 1 to [K]; [no_result] if there is none *)
Definition reports (M : mgr) (n : nat) (f : list bdd) (max_er max_ace : Q) (both : bool)
    (evolve : nat -> list individuum -> list individuum) (start : list individuum) (r : MinimizationResult_) : Prop :=
  exists K, 0 < K <= nodeCount f + 1
  /\ ((r = Result (2 ^ 64 - 1) 0 0 /\ forall j g, 0 < j <= K -> ~ found M n f max_er max_ace both (generation evolve start j) g)
      \/ (exists j g, 0 < j <= K /\ found M n f max_er max_ace both (generation evolve start j) g /\ describes n f both r g))
  /\ (forall j g, 0 < j <= K -> found M n f max_er max_ace both (generation evolve start j) g -> (node_count r <= Z.of_nat (nodeCount g))%Z)
  /\ (both = false -> average_case_error_ r = 0%Q).

(** the three adders: name, bits, limit of the average case error, size *)
Definition adder_table : list (string * nat * Z * nat) := [("8", 8, 7%Z, 116); ("16", 16, 35%Z, 424); ("32", 32, 9000%Z, 1616)]%string.
(** the [k]-th row of the table for the adders *)
Definition genetic_adder_row (evolve : nat -> nat -> list individuum -> list individuum) (k : nat) (entry : string * nat * Z * nat) (row : genetic_row) : Prop :=
  let '(name, bits, max_ace, size) := entry in
  g_name row = name /\ g_original row = size
  /\ exists f start, let M := id_mgr (2 * bits + 1) in Forall (wf M) f /\ adds bits f /\ nodeCount f = size /\ initial f start
     /\ reports M (2 * bits) f limit_005 (inject_Z max_ace) true (evolve k) start (g_result row).

(** the [k]-th row for a circuit in [i] variables with the outputs of [evs] *)
Definition genetic_file_row (managers : string -> mgr) (evolve : nat -> nat -> list individuum -> list individuum)
    (k : nat) (name path : string) (i o : N) (evs : list aig_event) (row : genetic_row) : Prop :=
  g_name row = name
  /\ exists f start, Forall (wf (managers path)) f /\ circuit o evs f /\ g_original row = nodeCount f /\ initial f start
     /\ reports (managers path) (N.to_nat i) f limit_005 0 false (evolve k) start (g_result row).

(** [g'] is [g] with a variable of one output fixed *)
Definition fixes_one (M : mgr) (g g' : list bdd) : Prop :=
  List.length g' = List.length g
  /\ exists i v c b b', nth_error g i = Some b /\ nth_error g' i = Some b' /\ wf M b' /\ (forall a, ev b' a = ev b (upd a v c))
     /\ forall k, k <> i -> nth_error g' k = nth_error g k.
(** [g] is [f] with some variables of some outputs fixed *)
Inductive restricted (M : mgr) (f : list bdd) : list bdd -> Prop :=
| restricted_none : restricted M f f
| restricted_more g g' : restricted M f g -> fixes_one M g g' -> restricted M f g'.

(** the row [size; rate; error] of a function [g] that approximates [f] *)
Definition describes_bucket (M : mgr) (n : nat) (f : list bdd) (row : nat * Q * Q) (g : list bdd) : Prop :=
  Forall (wf M) g /\ below n g /\ List.length g = List.length f /\ restricted M f g
  /\ fst (fst row) = nodeCount g /\ (snd (fst row) == rate n f g)%Q /\ (snd row == average_distance n f g)%Q.
(** [q] lies in the interval [x] of the [grid] intervals from 0 to [limit] *)
Definition in_interval (grid x : Z) (limit q : Q) : Prop :=
  (inject_Z x * limit / inject_Z grid <= q)%Q /\ (q < (inject_Z x + 1) * limit / inject_Z grid)%Q.

(** a row of the bucket experiments for the same circuit; no function with one variable of one output
    fixed whose rate is within the limit is smaller *)
Definition bucket_file_row (managers : string -> mgr) (name path : string) (i o : N) (evs : list aig_event) (row : file_row) : Prop :=
  f_name row = name
  /\ exists f g, Forall (wf (managers path)) f /\ circuit o evs f /\ f_original row = nodeCount f
     /\ Forall (wf (managers path)) g /\ below (N.to_nat i) g /\ List.length g = List.length f /\ restricted (managers path) f g
     /\ f_smallest row = nodeCount g /\ nodeCount g <= nodeCount f
     /\ (f_rate row == rate (N.to_nat i) f g)%Q /\ (f_rate row < limit_005)%Q
     /\ forall g', fixes_one (managers path) f g' -> (rate (N.to_nat i) f g' < limit_005)%Q -> f_smallest row <= nodeCount g'.
(** a row of the bucket experiment for an adder: every bucket that is not empty holds a function whose
    errors lie in the intervals with the printed numbers; the smallest function is one of them, or the
    original if there is none; no function with one variable of one output fixed whose errors are within
    the limits is smaller *)
Definition bucket_adder_row (bits size : nat) (max_ace : Q) (row : adder_row) : Prop :=
  let M := id_mgr (2 * bits + 1) in
  a_original row = size
  /\ exists f, Forall (wf M) f /\ adds bits f /\ nodeCount f = size
     /\ List.length (a_buckets row) = 400
     /\ (forall i idx e, nth_error (a_buckets row) i = Some (idx, e) ->
           idx = [Z.of_nat (i / 20); Z.of_nat (i mod 20)]
           /\ forall r, e = Some r -> exists g, describes_bucket M (2 * bits) f r g /\ nodeCount g < size
                /\ in_interval 20 (Z.of_nat (i / 20)) limit_005 (rate (2 * bits) f g)
                /\ in_interval 20 (Z.of_nat (i mod 20)) max_ace (average_distance (2 * bits) f g)
                /\ fst (fst (a_smallest row)) <= nodeCount g)
     /\ ((exists i idx, nth_error (a_buckets row) i = Some (idx, Some (a_smallest row)))
         \/ (a_smallest row = (size, 0%Q, 0%Q) /\ forall i idx e, nth_error (a_buckets row) i = Some (idx, e) -> e = None))
     /\ forall g', fixes_one M f g' -> (rate (2 * bits) f g' < limit_005)%Q -> (average_distance (2 * bits) f g' < max_ace)%Q ->
          fst (fst (a_smallest row)) <= nodeCount g'.

(** names and paths of the circuits *)
Definition in_directory (directory : string) (names : list string) : list (string * string) :=
  map (fun name => (name, directory ++ name)%string) names.
Definition genetic_iscas_table : list (string * string) :=
  [("c432", "./iscas85/c432.aig"); ("c499", "./iscas85/c499.aig"); ("c880", "./iscas85/c880.aig"); ("c1355", "./iscas85/c1355.aig");
   ("c1908", "./iscas85/c1908.aig"); ("c2670", "./iscas85/c2670.aig"); ("c3540", "./iscas85/c3540.aig")]%string.
Definition bucket_iscas_table : list (string * string) :=
  in_directory "./iscas85/" ["c432.aig"; "c499.aig"; "c880.aig"; "c1355.aig"; "c1908.aig"; "c2670.aig"; "c3540.aig"]%string.
Definition epfl_table : list (string * string) :=
  in_directory "./epfl/" ["log2.aig"; "adder.aig"; "bar.aig"; "div.aig"; "hyp.aig"; "max.aig"; "multiplier.aig"; "sin.aig"; "sqrt.aig";
    "square.aig"]%string.
(** the file [path] holds the circuit [evs] *)
Definition holds (files : aiger_files) (path : string) (i o : N) (evs : list aig_event) : Prop :=
  exists m success, files path = Some (m, i, o, evs, success) /\ ok_file m i o evs.
Definition holds_complete (files : aiger_files) (path : string) (i o : N) (evs : list aig_event) : Prop :=
  exists m, files path = Some (m, i, o, evs, true) /\ ok_file m i o evs.
(** its diagram has fewer than 2^64 nodes *)
Definition small_circuit (M : mgr) (o : N) (evs : list aig_event) : Prop :=
  forall f, Forall (wf M) f -> circuit o evs f -> (Z.of_nat (nodeCount f) < 2 ^ 64)%Z.
