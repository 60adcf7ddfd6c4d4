(** What the metrics of benchmark_util.hpp are: [metric_of n f g m q] says that [q] is the metric [m]
    of the approximation [g] with respect to the original [f], both functions of [n] variables.
    The approximate metrics have their documented tolerance. *)
From Coq Require Import Ascii String List Bool Arith ZArith QArith.
From Verif Require Import Cudd Spec Benchmark.
Import ListNotations.
Open Scope Q_scope.

Definition absolute (f g : list bdd) (a : asg) : Z := dist (uval f a) (uval g a).
Definition relative (f g : list bdd) (a : asg) : Q := rel (uval f a) (uval g a).
(** within the factors of the middle of an interval [lo, 2 lo] *)
Definition middle_of (x q : Q) : Prop := (3 # 4) * x <= q <= (3 # 2) * x.

Definition metric_of (n : nat) (f g : list bdd) (m : Metric) (q : Q) : Prop :=
  match m with
  | WORST_CASE_ => exists z, is_max (absolute f g) z /\ q == inject_Z z
  | WORST_CASE_RELATIVE_APPROX => exists x, is_maxQ (relative f g) x /\ middle_of x q
  | WORST_CASE_RELATIVE_BINARY_SEARCH =>
      exists x, is_maxQ (relative f g) x /\ x - (1 # 20000) <= q <= x + (1 # 20000)
  | WORST_CASE_RELATIVE_RANDOMIZED => is_maxQ (relative f g) q
  | WORST_CASE_RELATIVE_ADD => is_maxQ (relative f g) q
  | WORST_CASE_RELATIVE_SYMBOLIC => exists x, is_maxQ (relative f g) x /\ q <= x < q + (1 # 65536)
  | APPROXIMATE_WORST_CASE_5 => exists z, is_max (absolute f g) z /\ inject_Z z <= q
      /\ forall h, top_difference f g h -> q <= inject_Z (z + 2 ^ (Z.max 0 (Z.of_nat h - 4) + 1) - 2)
  | AVERAGE_CASE_ => q == average n (fun a => inject_Z (absolute f g a))
  | AVERAGE_RELATIVE_APPROX => middle_of (average n (relative f g)) q
  | AVERAGE_RELATIVE_ADD => q == average n (relative f g)
  | MEAN_SQUARED_ => q == average n (fun a => inject_Z (absolute f g a * absolute f g a))
  | ERROR_RATE_ => q == average n (fun a => b2q (differ f g a))
  | AVERAGE_BIT_FLIP_ => q == average n (fun a => inject_Z (hamming f g a))
  | WORST_CASE_BIT_FLIP_ => exists z, is_max (hamming f g) z /\ q == inject_Z z
  end.

(** characters of a string in memory up to the terminating zero; [None] if there is none *)
Fixpoint read_c_string (c : list (option Ascii.ascii)) : option (list Ascii.ascii) :=
  match c with
  | [] => None
  | None :: _ => None
  | Some x :: c' =>
      if Ascii.eqb x Ascii.zero then Some []
      else option_map (cons x) (read_c_string c')
  end.

Open Scope string_scope.
Open Scope nat_scope.
(** which adders have a second parameter *)
Definition uses_par2 (a : ApproximateAdder) : bool := match a with GDA | GEAR => true | _ => false end.

(** the parameters for which an approximate adder of [N] bits is defined *)
Definition admissible (a : ApproximateAdder) (N p1 p2 : nat) : Prop :=
  match a with
  | ACA1 => 0 < p1 <= N
  | ACA2 => 0 < p1 <= N /\ (p1 = 1 -> N = 1)
  | GDA => 0 < N /\ (1 < N -> 0 < p1 <= N)
  | GEAR => 0 < p1 + p2 <= N + 1 /\ 0 < N /\ (p1 + p2 = 1 -> 1 < N)
  end.

(** the built-in inputs *)
Definition adder_names : list (string * nat) := [("adder8", 8); ("adder16", 16); ("adder32", 32)].

(** the unit for a time and its length in milliseconds *)
Definition time_unit (ms : Q) (unit : string) (len : Z) : Prop :=
  (ms < 1000 /\ unit = "ms" /\ len = 1%Z)%Q \/ (1000 <= ms < 300000 /\ unit = "s" /\ len = 1000%Z)%Q
  \/ (300000 <= ms /\ unit = "m" /\ len = 60000%Z)%Q.

(** numbers as texts: digits without unnecessary zeros, with a sign if negative *)
Definition digit_of (c : Ascii.ascii) : option Z :=
  let n := Ascii.N_of_ascii c in if ((48 <=? n) && (n <=? 57))%N then Some (Z.of_N n - 48)%Z else None.
Fixpoint read_digits (s : string) (value : Z) : option Z :=
  match s with
  | EmptyString => Some value
  | String c s' => match digit_of c with Some d => read_digits s' (10 * value + d)%Z | None => None end
  end.
Definition decimal (s : string) (z : Z) : Prop :=
  s <> "" /\ read_digits s 0 = Some z /\ forall s', s = String "0" s' -> s' = "".
Definition integer_text (s : string) (z : Z) : Prop :=
  ((0 <= z)%Z /\ decimal s z) \/ ((z < 0)%Z /\ exists t, s = "-" ++ t /\ decimal t (- z)%Z).
