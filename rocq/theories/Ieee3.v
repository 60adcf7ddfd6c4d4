(** average_bit_flip_error with IEEE 754 doubles (the numbers of Ieee.v). [count] is [Cudd_CountMinterm]. *)
From Coq Require Import List Bool Arith ZArith QArith.
From Verif Require Import Res Cudd Helpers Counting Metrics Ieee.
Import ListNotations.
Open Scope nat_scope.

(** average_bit_flip_error.cpp 23-27 *)
Fixpoint flip_sum_d (count : bdd -> nat -> dbl) (M : mgr) (f f_hat : list bdd) (s : nat) (result : dbl) : res dbl :=
  match f with
  | [] => Ok result
  | x :: f' =>
      match f_hat with
      | [] => UB
      | y :: g' => flip_sum_d count M f' g' s (dadd result (count (bxor M x y) s))
      end
  end.
(** average_bit_flip_error.cpp 8-31 *)
Definition average_bit_flip_error_d (count : bdd -> nat -> dbl) (M : mgr) (f f_hat : list bdd) : res dbl :=
  _ <- assert_ (length f =? length f_hat) ;;
  let max_support_size := max_support f_hat (max_support f 0) in
  result <- flip_sum_d count M f f_hat max_support_size (DFin 0) ;;
  Ok (ddiv result (dpow2 (Z.of_nat max_support_size))).
