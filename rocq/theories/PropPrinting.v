(** Property C164: numbers printed by the programs *)
From Coq Require Import Ascii String List Bool Arith ZArith QArith Qabs.
From Verif Require Import Float SpecFloat Printing SpecPrinting PrintingFacts2 PrintingFacts3 PrintingFacts4.
Import ListNotations.
Open Scope string_scope.

(** C164: the text is a number with at most six digits, none is closer *)
Theorem C164_nearest : forall q : Q, exists r, reads_as (put_double q) r /\ nearest_six_digits q r
  /\ (Qabs (q - r) <= (5 # 1000000) * Qabs q)%Q.
Proof. exact put_double_ok. Qed.
Print Assumptions C164_nearest.
(** the text is determined by the number: rounded to six digits, ties to even, and written in the one form of the format *)
Theorem C164_text : forall (q : Q) (s : string), put_double q = s <-> exists r, rounded_to_six q r /\ printed_form s r.
Proof. exact put_double_text. Qed.
Print Assumptions C164_text.
Theorem C164_exact : forall q : Q, six_digit_number q -> reads_as (put_double q) q.
Proof. exact put_double_exact. Qed.
Print Assumptions C164_exact.
Theorem C164_monotone : forall q q' r r' : Q, (q <= q')%Q ->
  reads_as (put_double q) r -> reads_as (put_double q') r' -> (r <= r')%Q.
Proof. exact put_double_monotone. Qed.
Print Assumptions C164_monotone.
(** a number has a single text: what was printed and read is printed again in the same way *)
Theorem C164_again : forall q r : Q, reads_as (put_double q) r -> put_double r = put_double q.
Proof. exact put_double_again. Qed.
Print Assumptions C164_again.
Theorem C164_same : forall q q' r : Q, reads_as (put_double q) r ->
  (reads_as (put_double q') r <-> put_double q' = put_double q).
Proof. exact put_double_same. Qed.
Print Assumptions C164_same.
Theorem C164_length : forall q : Q, double_number q -> (String.length (put_double q) <= 13)%nat.
Proof. exact put_double_length. Qed.
Print Assumptions C164_length.
Example C164_case :
  map put_double [1 # 3; 100000; 1000000; 1999999 # 2; 1 # 10000; 1 # 100000; 123456789; 0; -5 # 2; - (2 ^ (-1074)); 2 ^ 1023; 999999999 # 1000000000; 2000001 # 2; 2000003 # 2; 200001 # 2; 200003 # 2]%Q
  = ["0.333333"; "100000"; "1e+06"; "1e+06"; "0.0001"; "1e-05"; "1.23457e+08"; "0"; "-2.5"; "-4.94066e-324"; "8.98847e+307"; "1"; "1e+06"; "1e+06"; "100000"; "100002"]
  /\ map (fun s => option_map Qred (read_number s)) ["0.05"; "1.23457e+08"; "-2.5e-03"; "7"; "1.5.2"; "e+05"; ""]
     = [Some (1 # 20); Some 123457000; Some (-1 # 400); Some 7; None; None; None]%Q
  /\ double_number (2 ^ (-1074)) /\ six_digit_number (-5 # 2).
Proof.
  split; [vm_compute; reflexivity|]. split; [vm_compute; reflexivity|]. split; [exists 1%Z, (-1074)%Z; repeat split; (reflexivity || discriminate)|].
  exists (-25)%Z, (-1)%Z. split; reflexivity.
Qed.
