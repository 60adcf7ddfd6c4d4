(** Property C186, continued: approximate_worst_case_error with complemented sign bits. *)
From Coq Require Import List Bool Arith ZArith QArith.
From Verif Require Import Res Cudd CuddFacts Spec Helpers Metrics LawFacts3.
Import ListNotations.
Open Scope Z_scope.

(** C186: with TwosComplement the sign bit is not searched for differences (C34); with complemented sign bits and BaseTwo
    the signed error is never underestimated *)
Theorem C186_approximate_worst_case_error : forall (M : mgr) (f g : list bdd) (s t : bdd) (n : Z),
  Forall (wf M) f -> Forall (wf M) g -> wf M s -> wf M t -> length f = length g -> (length f <= 255)%nat -> 1 <= n ->
  exists x m, approximate_worst_case_error M (f ++ [bnot s]) (g ++ [bnot t]) n BaseTwo = Ok x
    /\ is_max (fun a => dist (sval (f ++ [s]) a) (sval (g ++ [t]) a)) m
    /\ m <= x <= m + Z.max 0 (2 ^ (Z.of_nat (length f) + 2 - n) - 2).
Proof. exact signed_approximate. Qed.
Print Assumptions C186_approximate_worst_case_error.
(** only the sign bits differ: 1 against x0 ? -7 : 1 on four bits, error 8 *)
Example C186_approximate_case : let f := [bone; bzero; bzero] in
  let a s t n r := approximate_worst_case_error (id_mgr 1) (f ++ [s]) (f ++ [t]) n r in
  a bzero (bvar 0) 2 TwosComplement = Ok 0
  /\ map (fun n => a (bnot bzero) (bnot (bvar 0)) n BaseTwo) [1; 2; 3; 4] = [Ok 15; Ok 11; Ok 9; Ok 8].
Proof. vm_compute. auto. Qed.
