(** Model of the bit-vector arithmetic in /repo/src/util/cudd_helpers.cpp.

    [size_t], [unsigned] and [int] loop counters are [nat]/[Z]; vectors are assumed
    to be shorter than 2^31 so that the [int(f.size())] casts are exact. *)
From Coq Require Import List Bool Arith ZArith QArith Qround Lia.
From Verif Require Import Res Cudd.
Import ListNotations.
Open Scope nat_scope.

(** src/util/number_representation.hpp: enum class NumberRepresentation *)
Inductive NumberRepresentation := BaseTwo | TwosComplement.

(** monadic map over a list *)
Fixpoint mapM {A B} (f : A -> res B) (l : list A) : res (list B) :=
  match l with
  | [] => Ok []
  | x :: l' => y <- f x ;; ys <- mapM f l' ;; Ok (y :: ys)
  end.

(** cudd_helpers.cpp 480-485 full_adder: (sum, carry_out) *)
Definition full_adder (M : mgr) (f g carry_in : bdd) : bdd * bdd :=
  let carry_out := bor M (bor M (band M f g) (band M f carry_in)) (band M g carry_in) in
  let sum := bxor M (bxor M f g) carry_in in
  (sum, carry_out).

(** loop of bdd_subtract, lines 497-503 *)
Fixpoint subtract_loop (M : mgr) (minuend subtrahend : list bdd) (carry : bdd) : res (list bdd) :=
  match minuend with
  | [] => Ok []
  | m :: ms =>
      match subtrahend with
      | [] => UB (* subtrahend[i] out of bounds *)
      | s :: ss =>
          let '(d, c) := full_adder M m (bnot s) carry in
          ds <- subtract_loop M ms ss c ;; Ok (d :: ds)
      end
  end.

(** cudd_helpers.cpp 487-506 bdd_subtract *)
Definition bdd_subtract (M : mgr) (minuend subtrahend : list bdd) : res (list bdd) :=
  subtract_loop M minuend subtrahend bone.

(** loop of bdd_add, lines 606-611 *)
Fixpoint add_loop (M : mgr) (f g : list bdd) (carry : bdd) : res (list bdd) :=
  match f with
  | [] => Ok []
  | x :: xs =>
      match g with
      | [] => UB (* g[i] out of bounds *)
      | y :: ys =>
          let '(s, c) := full_adder M x y carry in
          ss <- add_loop M xs ys c ;; Ok (s :: ss)
      end
  end.

(** cudd_helpers.cpp 597-614 bdd_add *)
Definition bdd_add (M : mgr) (f g : list bdd) : res (list bdd) := add_loop M f g bzero.

(** cudd_helpers.cpp 548-573 bdd_abs *)
Definition bdd_abs (M : mgr) (f : list bdd) (num_rep : NumberRepresentation) : res (list bdd) :=
  match num_rep with
  | BaseTwo => Ok f
  | TwosComplement =>
      sign_bit <- vback f ;;
      let mask := repeat sign_bit (length f) in
      let tmp := map (fun b => bxor M b sign_bit) f in
      bdd_subtract M tmp mask
  end.

(** [while (f.size() < n) f.push_back(f.back())], lines 526-527 *)
Definition sign_extend (f : list bdd) (n : nat) : res (list bdd) :=
  if length f <? n then
    b <- vback f ;; Ok (f ++ repeat b (n - length f))
  else Ok f.

(** cudd_helpers.cpp 508-546 bdd_absolute_difference *)
Definition bdd_absolute_difference (M : mgr) (f g : list bdd) (num_rep : NumberRepresentation)
  : res (list bdd) :=
  let f0 := match num_rep with BaseTwo => f ++ [bzero] | TwosComplement => f end in
  let g0 := match num_rep with BaseTwo => g ++ [bzero] | TwosComplement => g end in
  f_ <- sign_extend f0 (length g0) ;;
  g_ <- sign_extend g0 (length f_) ;;
  let smaller := negb (existsb (fun p => bgt M (fst p) (snd p)) (combine f_ g_)) in
  let f__ := if smaller then g_ else f_ in
  let g__ := if smaller then f_ else g_ in
  difference <- bdd_subtract M f__ g__ ;;
  bdd_abs M difference TwosComplement.

(** cudd_helpers.cpp 575-595 bdd_shift *)
Definition bdd_shift (f : list bdd) (bits_to_shift : Z) : res (list bdd) :=
  mapM (fun i =>
          let i := Z.of_nat i in
          if ((i <? bits_to_shift) || (Z.of_nat (length f) + bits_to_shift <=? i))%Z
          then Ok bzero
          else vget f (Z.to_nat (i - bits_to_shift)%Z))
       (seq 0 (length f)).

(** the loops of bdd_multiply_constant, cudd_helpers.cpp 637-643, 647-654 and 677-683: add the shifted function for every set bit
    in a list of (bit set?, shift amount) pairs *)
Fixpoint add_shifted (M : mgr) (fc : list bdd) (bits : list (bool * Z)) (result : list bdd)
  : res (list bdd) :=
  match bits with
  | [] => Ok result
  | (b, k) :: bits' =>
      r <- (if b then s <- bdd_shift fc k ;; bdd_add M result s else Ok result) ;;
      add_shifted M fc bits' r
  end.

Definition pad_to (f : list bdd) (n : nat) : list bdd := f ++ repeat bzero (n - length f).

(** bits of a [uint256_t] as tested by [great_factor & (one << i)], i = 0..255, cudd_helpers.cpp 637-639 and 677-679 *)
Definition great_bits (z : Z) : list (bool * Z) :=
  map (fun i => (Z.testbit z (Z.of_nat i), Z.of_nat i)) (seq 0 256).

(** cudd_helpers.cpp 659-685 bdd_multiply_constant(mgr, f, uint256_t).
    [clog2 z] stands for [size_t(max(0.0, ceil(log2(double(z)))))]. *)
Definition bdd_multiply_constant_u256 (M : mgr) (clog2 : Z -> nat) (f : list bdd) (factor : Z)
  : res (list bdd) :=
  let extra_bits := clog2 factor + 2 in
  let result := repeat bzero (length f + extra_bits) in
  let fc := pad_to f (length result) in
  add_shifted M fc (great_bits factor) result.

(** bits of [lesser_factor], lines 645-654 *)
Definition lesser_bits (z : Z) (num_extra_bits : nat) : list (bool * Z) :=
  map (fun i => (Z.testbit z (Z.of_nat i), (- (Z.of_nat num_extra_bits - Z.of_nat i))%Z))
      (seq 0 num_extra_bits).

(** cudd_helpers.cpp 616-657 bdd_multiply_constant(mgr, f, double, unsigned).
    The double is the rational it represents. [ceil(log2(factor))] is negative iff
    factor <= 1/2, and its conversion to size_t is then undefined; otherwise it equals
    [clog2] of the ceiling of the factor. *)
Definition bdd_multiply_constant_double (M : mgr) (clog2 : Z -> nat) (f : list bdd) (factor : Q)
           (num_extra_bits : nat) : res (list bdd) :=
  if Qle_bool factor (1#2) then UB
  else
    let extra_bits := clog2 (Qceiling factor) + 2 in
    let result := repeat bzero (length f + extra_bits) in
    let fc := pad_to f (length result) in
    _ <- assert_ (Qle_bool factor (inject_Z (2 ^ 256))) ;;
    (* the conversion of exactly 2^256 does not fit into uint256_t *)
    _ <- require_ (Qfloor factor <? 2 ^ 256)%Z ;;
    result <- add_shifted M fc (great_bits (Qfloor factor)) result ;;
    _ <- require_ (num_extra_bits <? 64) ;; (* 1UL << num_extra_bits *)
    let fractional := (factor - inject_Z (Qfloor factor))%Q in
    let lesser_factor := Qfloor (fractional * inject_Z (pow2 num_extra_bits)) in
    add_shifted M fc (lesser_bits lesser_factor num_extra_bits) result.

(** cudd_helpers.cpp 686-698 equalize_vector_size: both vectors after the call *)
Definition equalize_vector_size (f1 f2 : list bdd) : list bdd * list bdd :=
  let f1' := pad_to f1 (length f2) in
  (f1', pad_to f2 (length f1')).

(** one bit of the comparison loops, cudd_helpers.cpp 722, 763 and 787: [(f & g) | (!f & !g)] *)
Definition bxnor (M : mgr) (f g : bdd) : bdd :=
  bor M (band M f g) (band M (bnot f) (bnot g)).

(** loop of exists_greater_equals, lines 711-728, over the bit pairs from the most
    significant one down *)
Fixpoint ege_loop (M : mgr) (l : list (bdd * bdd)) (zero_condition equal_condition : bdd)
  : bool * bool :=
  match l with
  | [] => if negb (is_zero equal_condition) then (true, true) else (false, false)
  | (x, y) :: l' =>
      let zero_condition := band M zero_condition (bnot y) in
      if negb (is_zero (band M x zero_condition)) then (true, false)
      else if negb (is_zero (band M (band M x (bnot y)) equal_condition)) then (true, false)
      else ege_loop M l' zero_condition (band M equal_condition (bxnor M x y))
  end.

(** cudd_helpers.cpp 700-729 exists_greater_equals *)
Definition exists_greater_equals (M : mgr) (f1 f2 : list bdd) : bool * bool :=
  let '(f1_, f2_) := equalize_vector_size f1 f2 in
  ege_loop M (rev (combine f1_ f2_)) bone bone.

(** loop shared by greater_equals and greater_than, lines 758-764 / 782-788:
    returns (result, equal_condition) *)
Fixpoint compare_loop (M : mgr) (l : list (bdd * bdd)) (zero_condition equal_condition result : bdd)
  : bdd * bdd :=
  match l with
  | [] => (result, equal_condition)
  | (x, y) :: l' =>
      let zero_condition := band M zero_condition (bnot y) in
      let result := bor M result (band M x zero_condition) in
      let result := bor M result (band M (band M x (bnot y)) equal_condition) in
      let equal_condition := band M equal_condition (bxnor M x y) in
      compare_loop M l' zero_condition equal_condition result
  end.

(** cudd_helpers.cpp 745-767 greater_equals *)
Definition greater_equals (M : mgr) (f g : list bdd) : bdd :=
  let '(f_, g_) := equalize_vector_size f g in
  let '(result, equal_condition) := compare_loop M (rev (combine f_ g_)) bone bone bzero in
  bor M result equal_condition.

(** cudd_helpers.cpp 769-790 greater_than *)
Definition greater_than (M : mgr) (f g : list bdd) : bdd :=
  let '(f_, g_) := equalize_vector_size f g in
  fst (compare_loop M (rev (combine f_ g_)) bone bone bzero).

(** cudd_helpers.cpp 731-743 bdd_max_one; the loop runs over the indices
    size-1 .. 1, writing result[0] is undefined for an empty vector *)
Definition bdd_max_one (M : mgr) (f : list bdd) : res (list bdd) :=
  match f with
  | [] => UB
  | b :: f' =>
      let zero_condition := fold_left (fun z x => band M z (bnot x)) (rev f') bone in
      Ok (bor M b zero_condition :: f')
  end.

(** one iteration of the loop of bdd_divide, lines 812-821: (new temp, subtract_condition) *)
Definition divide_step (M : mgr) (g_ temp : list bdd) (i : Z) : res (list bdd * bdd) :=
  shifted <- bdd_shift g_ i ;;
  let subtract_condition := greater_equals M temp shifted in
  let to_subtract := map (fun b => band M b subtract_condition) shifted in
  let '(to_subtract, temp) := equalize_vector_size to_subtract temp in
  temp <- bdd_subtract M temp to_subtract ;;
  Ok (temp, subtract_condition).

(** the loop, cudd_helpers.cpp 810-822, with the shift amounts listed from the largest to the smallest;
    returns the conditions in that order *)
Fixpoint divide_loop (M : mgr) (g_ temp : list bdd) (shifts : list Z) : res (list bdd) :=
  match shifts with
  | [] => Ok []
  | i :: shifts' =>
      '(temp, c) <- divide_step M g_ temp i ;;
      cs <- divide_loop M g_ temp shifts' ;;
      Ok (c :: cs)
  end.

(** the integers hi, hi-1, ..., hi-n+1 *)
Definition down_from (hi : Z) (n : nat) : list Z :=
  map (fun i => (hi - Z.of_nat i)%Z) (seq 0 n).

(** cudd_helpers.cpp 792-825 bdd_divide; the loop runs from f.size()+1 down to -extra_bits *)
Definition bdd_divide (M : mgr) (f g : list bdd) (extra_bits : nat) : res (list bdd) :=
  let values := repeat bzero extra_bits in
  let temp := values ++ f in
  let g_ := values ++ (g ++ repeat bzero (length f + 1)) in
  cs <- divide_loop M g_ temp (down_from (Z.of_nat (length f) + 1) (length f + 1 + extra_bits + 1)) ;;
  Ok (rev cs).

(** [while (result.size() > 1 && result.back().IsZero()) result.pop_back()], cudd_helpers.cpp 840-842, on the
    reversed vector *)
Fixpoint pop_zeros (l : list bdd) : list bdd :=
  match l with
  | [] => []
  | x :: l' =>
      match l' with
      | [] => [x]
      | _ => if is_zero x then pop_zeros l' else x :: l'
      end
  end.

(** cudd_helpers.cpp 827-844 number_to_bdds; [number] is a uint256_t *)
Definition number_to_bdds (number : Z) : list bdd :=
  let result := map (fun i => if Z.testbit number (Z.of_nat i) then bone else bzero) (seq 0 256) in
  rev (pop_zeros (rev result)).

(** cudd_helpers.cpp 439-456 high: [Cudd_T] of the node, which is stored regular *)
Definition high (v : bdd) : res bdd :=
  match snd v with
  | One => Throw
  | Nd _ t _ _ => if fst v then Ok (bnot (false, t)) else Ok (false, t)
  end.

(** cudd_helpers.cpp 458-475 low: [Cudd_E] is the raw else edge [(c, e)];
    [Cudd_Regular] clears its flag *)
Definition low (v : bdd) : res bdd :=
  match snd v with
  | One => Throw
  | Nd _ _ c e => if fst v then Ok (bnot (false, e)) else Ok (c, e)
  end.

(** cudd_helpers.cpp 21-36 terminal_level *)
Definition terminal_level (fs : list (list bdd)) : nat :=
  fold_left (fun m f =>
    fold_left (fun m b => Nat.max m (list_max0 (support b) + 1)) f m) fs 0.

(** [result |= 1L << i], cudd_helpers.cpp 53 and 67, for a set bit [i] of a 64-bit long; i = 63 is the sign bit *)
Definition set_bit_long (result : Z) (i : nat) : res Z :=
  if i <? 63 then Ok (Z.lor result (2 ^ Z.of_nat i))
  else if i =? 63 then Ok (Z.lor result (- 2 ^ 63))
  else UB.

(** loop of eval / eval_adder, lines 63-69 / 49-55 *)
Fixpoint eval_loop (f : list bdd) (i : nat) (input : list Z) (result : Z) : res Z :=
  match f with
  | [] => Ok result
  | b :: f' =>
      r <- Eval b input ;;
      result <- (if is_one r then set_bit_long result i else Ok result) ;;
      eval_loop f' (S i) input result
  end.

(** cudd_helpers.cpp 60-72 eval *)
Definition eval (f : list bdd) (input : list Z) : res Z := eval_loop f 0 input 0.

(** [(input & (1 << i)) > 0 ? 1 : 0] with an [int] shift, line 44; for i = 31 the mask is
    INT_MIN converted to long *)
Definition adder_bit (input : Z) (i : nat) : res Z :=
  if i <? 31 then Ok (if 0 <? Z.land input (2 ^ Z.of_nat i) then 1 else 0)%Z
  else if i =? 31 then Ok (if 0 <? Z.land input (- 2 ^ 31) then 1 else 0)%Z
  else UB.

Fixpoint adder_inputs (input1 input2 : Z) (i n : nat) : res (list Z) :=
  match n with
  | O => Ok []
  | S n' =>
      x <- adder_bit input1 i ;;
      y <- adder_bit input2 i ;;
      l <- adder_inputs input1 input2 (S i) n' ;;
      Ok (x :: y :: l)
  end.

(** cudd_helpers.cpp 38-58 eval_adder *)
Definition eval_adder (adder : list bdd) (input1 input2 : Z) (bits : nat) : res Z :=
  bdd_inputs <- adder_inputs input1 input2 0 bits ;;
  eval_loop adder 0 bdd_inputs 0.
