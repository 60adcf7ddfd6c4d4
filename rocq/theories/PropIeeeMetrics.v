(** Property C175: error_rate and average_bit_flip_error with the range of doubles (src/error_metrics/error_rate.cpp:10-29,
    src/error_metrics/average_bit_flip_error.cpp:8-31). *)
From Coq Require Import List Bool Arith ZArith QArith Lia.
From Verif Require Import Res Cudd CuddFacts Spec SpecFloat Float Counting Metrics Rounded Ieee Ieee3 IeeeFacts4 IeeeFacts10 IeeeFacts11.
Import ListNotations.
Open Scope nat_scope.

(** C175: up to 1022 variables both are finite and close to the exact value, if the sum of the counts is below 2^1024. [count] is
    Cudd_CountMinterm, which rounds each of its operations *)
Theorem C175_in_range :
  forall (count : bdd -> nat -> dbl) (M : mgr) (n s : nat) (f g : list bdd),
  n <= 1022 -> (forall b k, wf M b -> depends_below n b -> k <= n -> count b k = DFin (CountMinterm_fl (round_float 53) b k)) ->
  Forall (wf M) f -> Forall (wf M) g -> below n f -> below n g -> length f = length g -> largest_support (f ++ g) s ->
  (exists q, error_rate_d count M f g = Ok (DFin q) /\ within (2 ^ (-53)) (2 * n + 1) q (average n (fun a => b2q (differ f g a)))
     /\ (n <= 53 -> (q == average n (fun a => b2q (differ f g a)))%Q))
  /\ ((Z.of_nat (length f) <= 2 ^ 53)%Z -> (Z.of_nat (length f) * 2 ^ Z.of_nat s < 2 ^ 1024)%Z ->
      exists q, average_bit_flip_error_d count M f g = Ok (DFin q)
        /\ within (2 ^ (-53)) (2 * n + length f + 1) q (average n (fun a => inject_Z (hamming f g a)))).
Proof. exact metrics_in_range. Qed.
Print Assumptions C175_in_range.
(** the limit is sharp: if all bits of all outputs are wrong, the error is the number of outputs, and infinity beyond the limit *)
Theorem C175_overflow :
  forall (count : bdd -> nat -> dbl) (M : mgr) (f : list bdd) (s : nat),
  (forall k, k <= 1023 -> count bone k = DFin (inject_Z (2 ^ Z.of_nat k))) -> Forall (wf M) f -> largest_support f s -> s <= 1023 ->
  (Z.of_nat (length f) <= 2 ^ 53)%Z ->
  ((Z.of_nat (length f) * 2 ^ Z.of_nat s < 2 ^ 1024)%Z ->
     exists q, average_bit_flip_error_d count M f (map bnot f) = Ok (DFin q) /\ (q == inject_Z (Z.of_nat (length f)))%Q)
  /\ ((2 ^ 1024 <= Z.of_nat (length f) * 2 ^ Z.of_nat s)%Z -> average_bit_flip_error_d count M f (map bnot f) = Ok (DInf false)).
Proof. exact flips_complement. Qed.
Print Assumptions C175_overflow.
(** and from 1024 variables in one output on, it is 0 or not a number, whatever is counted *)
Theorem C175_division_by_infinity :
  forall (count : bdd -> nat -> dbl) (M : mgr) (f g : list bdd),
  length f = length g -> (exists b, In b (f ++ g) /\ 1024 <= support_size b) ->
  average_bit_flip_error_d count M f g = Ok (DFin 0) \/ average_bit_flip_error_d count M f g = Ok DNaN.
Proof. exact flips_wide. Qed.
Print Assumptions C175_division_by_infinity.
Example C175_case : (* a conjunction of 1023 variables and its complement: one output has 1 wrong bit, two have infinitely many *)
  let M := id_mgr 1023 in let f := (false, chain 0 1023) in let count b k := DFin (CountMinterm_fl (round_float 53) b k) in
  largest_support [f] 1023 /\ largest_support [f; f] 1023
  /\ (exists q, average_bit_flip_error_d count M [f] [bnot f] = Ok (DFin q) /\ (q == 1)%Q)
  /\ average_bit_flip_error_d count M [f; f] [bnot f; bnot f] = Ok (DInf false)
  /\ match average_bit_flip_error_d count M [bvar 0; band M (bvar 0) (bvar 1)] [bvar 1; bzero] with
     | Ok (DFin q) => Qred q = (3 # 4)%Q
     | _ => False
     end.
Proof.
  intros M f count. assert (W : wf M f) by (apply chain_wf; intro i; reflexivity).
  assert (S : support_size f = 1023) by (vm_compute; reflexivity).
  assert (L1 : largest_support [f] 1023) by (split; [intros b [<-|[]]; rewrite S; lia|right; exists f; split; [left; reflexivity|exact S]]).
  assert (L2 : largest_support [f; f] 1023) by (split; [intros b [<-|[<-|[]]]; rewrite S; lia|right; exists f; split; [left; reflexivity|exact S]]).
  split; [exact L1|]. split; [exact L2|]. split; [|split].
  - apply (C175_overflow count M [f] 1023 (fun _ _ => eq_refl) ltac:(auto) L1); vm_compute; [lia|discriminate|reflexivity].
  - apply (C175_overflow count M [f; f] 1023 (fun _ _ => eq_refl) ltac:(auto) L2); vm_compute; [lia|discriminate|discriminate].
  - vm_compute. reflexivity.
Qed.
