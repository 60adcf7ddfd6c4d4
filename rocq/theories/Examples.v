(** Model of /repo/src/example_bdds/simple.cpp and approximate_adders.cpp.

    Widths and parameters are natural numbers. Simplification: they are below 2^30, so that the
    conversions to [int] and the variable indices [2 * i + 1] are exact; a parameter wraps only
    where said. *)
From Coq Require Import List Bool Arith.
From Verif Require Import Res Cudd Helpers.
Import ListNotations.
Open Scope nat_scope.

(** a [for] loop over the given indices *)
Fixpoint for_each {S} (l : list nat) (s : S) (body : nat -> S -> res S) : res S :=
  match l with
  | [] => Ok s
  | i :: l' => s' <- body i s ;; for_each l' s' body
  end.

Section Examples.
Variable M : mgr.

(** simple.cpp 8-18, 20-30, 32-42 *)
Definition and_bdd (n_vars : nat) : bdd := fold_left (fun r i => band M r (bvar i)) (seq 0 n_vars) bone.
Definition or_bdd (n_vars : nat) : bdd := fold_left (fun r i => bor M r (bvar i)) (seq 0 n_vars) bzero.
Definition xor_bdd (n_vars : nat) : bdd := fold_left (fun r i => bxor M r (bvar i)) (seq 0 n_vars) bzero.

(** approximate_adders.cpp 7-10 *)
Definition carry_generate (a b carry_in : bdd) : bdd :=
  bor M (bor M (band M a b) (band M a carry_in)) (band M b carry_in).

(** the inputs, e.g. lines 17-26 *)
Definition input1 (num_bits : nat) : list bdd := map (fun i => bvar (i * 2)) (seq 0 num_bits).
Definition input2 (num_bits : nat) : list bdd := map (fun i => bvar (i * 2 + 1)) (seq 0 num_bits).

(** one step of lines 30-42 / 238-250: [i == 0] starts with carry zero *)
Definition first_carry (num_bits i : nat) (carry_outs : list bdd) : res (list bdd) :=
  a <- vget (input1 num_bits) i ;;
  b <- vget (input2 num_bits) i ;;
  if i =? 0 then Ok (carry_outs ++ [carry_generate a b bzero])
  else c <- vback carry_outs ;; Ok (carry_outs ++ [carry_generate a b c]).
(** lines 125, 192, 271: always uses the last carry *)
Definition next_carry (num_bits i : nat) (carry_outs : list bdd) : res (list bdd) :=
  a <- vget (input1 num_bits) i ;;
  b <- vget (input2 num_bits) i ;;
  c <- vback carry_outs ;;
  Ok (carry_outs ++ [carry_generate a b c]).

(** the loops [for (int j = k - 1; j >= 0; j--) if (i - j >= 0) ...] of lines 46-55, 112-120, 179-187 *)
Fixpoint window (num_bits k i : nat) (temp_carry : bdd) : res bdd :=
  match k with
  | O => Ok temp_carry
  | S j =>
      if j <=? i then
        a <- vget (input1 num_bits) (i - j) ;;
        b <- vget (input2 num_bits) (i - j) ;;
        window num_bits j i (carry_generate a b temp_carry)
      else window num_bits j i temp_carry
  end.
(** the loop of lines 262-266 has no such test; [i - j] is unsigned and out of bounds if [j > i] *)
Fixpoint window_unchecked (num_bits k i : nat) (temp_carry : bdd) : res bdd :=
  match k with
  | O => Ok temp_carry
  | S j =>
      if j <=? i then
        a <- vget (input1 num_bits) (i - j) ;;
        b <- vget (input2 num_bits) (i - j) ;;
        window_unchecked num_bits j i (carry_generate a b temp_carry)
      else UB
  end.

(** lines 59-78, 129-148, 196-215, 277-296 *)
Definition sum_bits (num_bits : nat) (carry_outs : list bdd) : res (list bdd) :=
  sum <- for_each (seq 0 num_bits) [] (fun i sum =>
    a <- vget (input1 num_bits) i ;;
    b <- vget (input2 num_bits) i ;;
    if i =? 0 then Ok (sum ++ [bxor M a (bxor M b bzero)])
    else c <- vget carry_outs (i - 1) ;; Ok (sum ++ [bxor M a (bxor M b c)])) ;;
  c <- vback carry_outs ;;
  Ok (sum ++ [c]).

(** lines 12-79 almost_correct_adder_1 *)
Definition almost_correct_adder_1 (num_bits partition_size : nat) : res (list bdd) :=
  _ <- assert_ ((partition_size <=? num_bits) && (0 <? partition_size)) ;;
  carry_outs <- for_each (seq 0 (partition_size - 1)) [] (first_carry num_bits) ;;
  carry_outs <- for_each (seq (partition_size - 1) (num_bits - (partition_size - 1))) carry_outs
    (fun i carry_outs =>
       temp_carry <- window num_bits (partition_size - 1) i bzero ;;
       Ok (carry_outs ++ [temp_carry])) ;;
  sum_bits num_bits carry_outs.

(** the loop of lines 100-127 / 167-194; [num_bits / num_partitions] and the remainder are
    evaluated for [i > 0] only *)
Definition blocks (num_bits num_partitions prediction_bits : nat) : res (list bdd) :=
  for_each (seq 0 num_bits) [] (fun i carry_outs =>
    if i =? 0 then first_carry num_bits i carry_outs
    else
      _ <- require_ (negb (num_partitions =? 0)) ;;
      _ <- require_ (negb (num_bits / num_partitions =? 0)) ;;
      if ((i + 1) mod (num_bits / num_partitions) =? 0) && negb (i + 1 =? num_bits) then
        temp_carry <- window num_bits prediction_bits i bzero ;;
        Ok (carry_outs ++ [temp_carry])
      else next_carry num_bits i carry_outs).

(** lines 81-149 almost_correct_adder_2 *)
Definition almost_correct_adder_2 (num_bits partition_size : nat) : res (list bdd) :=
  _ <- assert_ ((partition_size <=? num_bits) && (0 <? partition_size)) ;;
  let num_partitions := num_bits / partition_size + 1 in
  carry_outs <- blocks num_bits num_partitions (partition_size / 2) ;;
  sum_bits num_bits carry_outs.

(** lines 151-216 gracefully_degrading_adder *)
Definition gracefully_degrading_adder (num_bits num_partitions prediction_bits : nat) : res (list bdd) :=
  carry_outs <- blocks num_bits num_partitions prediction_bits ;;
  sum_bits num_bits carry_outs.

(** lines 218-297 generic_accuracy_reconfigurable_adder. If [sub_adder_length] is 0 the bound
    [sub_adder_length - 1] wraps to 2^32 - 1 and the first loop leaves the input vectors. *)
Definition generic_accuracy_reconfigurable_adder (num_bits resultant_bits previous_bits : nat) : res (list bdd) :=
  let sub_adder_length := resultant_bits + previous_bits in
  if sub_adder_length =? 0 then UB
  else
    carry_outs <- for_each (seq 0 (sub_adder_length - 1)) [] (first_carry num_bits) ;;
    '(_, carry_outs) <- for_each (seq (sub_adder_length - 1) (num_bits - (sub_adder_length - 1)))
      (resultant_bits, carry_outs)
      (fun i '(count, carry_outs) =>
         if (count =? resultant_bits) && negb (i =? num_bits - 1) then
           temp_carry <- window_unchecked num_bits previous_bits i bzero ;;
           Ok (0 + 1, carry_outs ++ [temp_carry])
         else
           carry_outs <- next_carry num_bits i carry_outs ;;
           Ok (count + 1, carry_outs)) ;;
    sum_bits num_bits carry_outs.

(** lines 299-324 regular_adder *)
Definition regular_adder (num_bits : nat) : res (list bdd) :=
  '(sum, carry) <- for_each (seq 0 num_bits) ([], bzero) (fun i '(sum, carry) =>
    a <- vget (input1 num_bits) i ;;
    b <- vget (input2 num_bits) i ;;
    let '(s, c) := full_adder M a b carry in
    Ok (sum ++ [s], c)) ;;
  Ok (sum ++ [carry]).
End Examples.
