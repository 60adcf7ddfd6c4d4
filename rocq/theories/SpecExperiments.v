(** The adders of the experiments and what is printed about them *)
From Coq Require Import List Bool Arith ZArith QArith.
From Verif Require Import Res Cudd Spec SpecAdder Examples Benchmark.
Import ListNotations.
Open Scope nat_scope.

(** where the carry chain of an adder restarts, and with how many positions of lookback *)
Definition restarts (adder : ApproximateAdder) (N p1 p2 k : nat) : bool :=
  match adder with
  | ACA1 => p1 - 1 <=? k
  | ACA2 => block_end N (N / (N / p1 + 1)) k
  | GDA => block_end N (N / p1) k
  | GEAR => gear_end N p1 p2 k
  end.
Definition looks_back (adder : ApproximateAdder) (p1 p2 : nat) : nat :=
  match adder with ACA1 => p1 - 1 | ACA2 => p1 / 2 | GDA => p2 | GEAR => p2 end.

(** the parameters for which an adder exists *)
Definition exists_for (adder : ApproximateAdder) (N p1 p2 : nat) : Prop :=
  match adder with
  | ACA1 => 0 < p1 <= N
  | ACA2 => 1 < p1 <= N
  | GDA => 0 < p1 <= N
  | GEAR => 1 < p1 + p2 <= N + 1
  end.

(** error rate, average case error and worst case error *)
Definition error_rate_of (adder : ApproximateAdder) (N p1 p2 : nat) : Q :=
  1 - inject_Z (hd 0%Z (exact_pairs (restarts adder N p1 p2) (looks_back adder p1 p2) N)) / inject_Z (4 ^ Z.of_nat N).
Definition average_error_of (adder : ApproximateAdder) (N p1 p2 : nat) : Q :=
  (inject_Z (2 ^ Z.of_nat (lookback (restarts adder N p1 p2) (looks_back adder p1 p2) (N - 1))) - 1) / 2.
Definition worst_error_of (adder : ApproximateAdder) (N p1 p2 : nat) : Z :=
  2 * hd 0%Z (largest_losses (restarts adder N p1 p2) (looks_back adder p1 p2) N).

(** the configurations of approximate_adder_error_metrics.cpp 39-80, acr_approx.cpp 33-41 and
    er_ace_adder_comparison.cpp 34-37, with error rate, average case error and worst case error *)
Definition benchmark_adders : list (ApproximateAdder * (nat * nat * nat) * (Q * Q * Z)) :=
  [(ACA1, (8, 5, 0), (1 # 16, 15 # 2, 256%Z)); (ACA2, (8, 4, 0), (3 # 16, 15 # 2, 64%Z));
   (GDA, (8, 4, 2), (3 # 16, 15 # 2, 64%Z)); (GDA, (8, 4, 4), (3 # 128, 3 # 2, 64%Z));
   (GDA, (8, 8, 1), (77 # 128, 63 # 2, 168%Z)); (GDA, (8, 8, 2), (77 # 256, 31 # 2, 144%Z));
   (GDA, (8, 8, 3), (1 # 8, 15 # 2, 128%Z)); (GDA, (8, 8, 4), (3 # 64, 7 # 2, 128%Z));
   (GDA, (8, 8, 5), (1 # 64, 3 # 2, 128%Z));
   (GEAR, (8, 1, 1), (77 # 128, 63 # 2, 168%Z)); (GEAR, (8, 1, 2), (77 # 256, 31 # 2, 144%Z));
   (GEAR, (8, 1, 3), (1 # 8, 15 # 2, 128%Z)); (GEAR, (8, 1, 4), (3 # 64, 7 # 2, 128%Z));
   (GEAR, (8, 1, 5), (1 # 64, 3 # 2, 128%Z)); (GEAR, (8, 2, 2), (3 # 16, 15 # 2, 64%Z));
   (GEAR, (8, 2, 4), (3 # 128, 3 # 2, 64%Z));
   (ACA1, (16, 4, 0), (381023 # 1048576, 8191 # 2, 69904%Z)); (ACA2, (16, 4, 0), (444721 # 1048576, 8191 # 2, 37448%Z));
   (ACA2, (16, 8, 0), (19657 # 262144, 2047 # 2, 33824%Z));
   (GDA, (16, 4, 4), (15 # 256, 255 # 2, 4096%Z)); (GDA, (16, 4, 8), (15 # 8192, 15 # 2, 4096%Z));
   (GEAR, (16, 2, 4), (1893 # 16384, 1023 # 2, 16640%Z)); (GEAR, (16, 4, 4), (15 # 256, 255 # 2, 4096%Z));
   (GEAR, (16, 4, 8), (15 # 8192, 15 # 2, 4096%Z)); (GEAR, (16, 6, 4), (63 # 2048, 63 # 2, 1024%Z));
   (ACA1, (32, 8, 0), (3315419647 # 68719476736, 33554431 # 2, 4311810304%Z));
   (ACA1, (32, 16, 0), (2228223 # 17179869184, 131071 # 2, 4295032832%Z));
   (ACA2, (32, 16, 0), (46037067 # 8589934592, 4194303 # 2, 1074791424%Z))].
