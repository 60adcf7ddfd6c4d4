(** Properties C01-C17: arithmetic on vectors of BDDs (src/util/cudd_helpers.cpp).
    [uval]/[sval] (Spec.v) are the unsigned / two's complement numbers encoded by a
    vector at an input; [wf M] are the BDDs CUDD can hold under variable order [M].
    Each theorem is followed by a concrete instance evaluated in the model. *)
From Coq Require Import List Bool Arith ZArith QArith Qround.
From Verif Require Import Res Cudd CuddFacts Spec SpecFacts Helpers HelpersFacts HelpersFacts2 EvalAdderFacts.
Import ListNotations.
Open Scope Z_scope.

(** C01 *)
Theorem C01_bdd_add : forall (M : mgr) (f g : list bdd),
  ((length f <= length g)%nat ->
    exists r, bdd_add M f g = Ok r /\ length r = length f
      /\ (Forall (wf M) f -> Forall (wf M) g -> Forall (wf M) r)
      /\ forall a, uval r a = (uval f a + uval (firstn (length f) g) a) mod 2 ^ Z.of_nat (length f))
  /\ ((length g < length f)%nat -> bdd_add M f g = UB).
Proof. exact bdd_add_full. Qed.
Print Assumptions C01_bdd_add.
Example C01_case : (* x0 x1 + x1 1 at x0=1 x1=1: 3 + 3 mod 4 *)
  exists r, bdd_add (id_mgr 2) [bvar 0; bvar 1] [bvar 1; bone] = Ok r
    /\ uval r (fun _ => true) = 2 /\ uval r (fun i => i =? 1)%nat = 1.
Proof. eexists; split; [vm_compute; reflexivity|]. split; vm_compute; reflexivity. Qed.

(** C02 *)
Theorem C02_bdd_subtract : forall (M : mgr) (m s : list bdd),
  ((length m <= length s)%nat ->
    exists r, bdd_subtract M m s = Ok r /\ length r = length m
      /\ (Forall (wf M) m -> Forall (wf M) s -> Forall (wf M) r)
      /\ forall a, uval r a = (uval m a - uval (firstn (length m) s) a) mod 2 ^ Z.of_nat (length m))
  /\ ((length s < length m)%nat -> bdd_subtract M m s = UB).
Proof. exact bdd_subtract_full. Qed.
Print Assumptions C02_bdd_subtract.
Example C02_case : (* 1 - 3 mod 4 *)
  exists r, bdd_subtract (id_mgr 2) [bvar 0; bzero] [bvar 1; bone] = Ok r
    /\ uval r (fun _ => true) = 2 /\ uval r (fun i => i =? 0)%nat = 3.
Proof. eexists; split; [vm_compute; reflexivity|]. split; vm_compute; reflexivity. Qed.

(** C03 *)
Theorem C03_bdd_abs : forall (M : mgr) (f : list bdd),
  (f <> [] -> exists r, bdd_abs M f TwosComplement = Ok r /\ length r = length f
     /\ (Forall (wf M) f -> Forall (wf M) r) /\ forall a, uval r a = Z.abs (sval f a))
  /\ bdd_abs M f BaseTwo = Ok f
  /\ bdd_abs M [] TwosComplement = UB.
Proof. exact bdd_abs_full. Qed.
Print Assumptions C03_bdd_abs.
Example C03_case : (* most negative 3-bit number *)
  exists r, bdd_abs (id_mgr 2) [bzero; bvar 0; bvar 1] TwosComplement = Ok r
    /\ sval [bzero; bvar 0; bvar 1] (fun i => i =? 1)%nat = -4
    /\ uval r (fun i => i =? 1)%nat = 4 /\ uval r (fun _ => true) = 2.
Proof. eexists; split; [vm_compute; reflexivity|]. repeat split; vm_compute; reflexivity. Qed.

(** C04 *)
Theorem C04_absolute_difference_unsigned : forall (M : mgr) (f g : list bdd),
  exists r, bdd_absolute_difference M f g BaseTwo = Ok r
    /\ length r = S (Nat.max (length f) (length g))
    /\ (Forall (wf M) f -> Forall (wf M) g -> Forall (wf M) r)
    /\ forall a, uval r a = Z.abs (uval f a - uval g a).
Proof. exact absdiff_base. Qed.
Print Assumptions C04_absolute_difference_unsigned.
Example C04_case : exists r, bdd_absolute_difference (id_mgr 2) [bvar 0] [bvar 1; bone; bone] BaseTwo = Ok r
    /\ uval r (fun _ => true) = 6 /\ uval r (fun i => i =? 0)%nat = 5.
Proof. eexists; split; [vm_compute; reflexivity|]. split; vm_compute; reflexivity. Qed.

(** C05. Full statement: for non-empty f, g the value is [dist (sval f a) (sval g a)] at every
    input. The code is wrong when the difference does not fit: 1 - (-2) on two bits gives 1. *)
Theorem C05_absolute_difference_signed_refuted :
  exists (M : mgr) (f g r : list bdd) (a : asg),
    f <> [] /\ g <> [] /\ Forall (wf M) f /\ Forall (wf M) g
    /\ bdd_absolute_difference M f g TwosComplement = Ok r
    /\ uval r a = 1 /\ sval f a = 1 /\ sval g a = -2.
Proof.
  exists (id_mgr 1), [bone; bzero], [bzero; bone], [bone; bzero], (fun _ => false).
  repeat split; try discriminate; try (vm_compute; reflexivity); repeat constructor.
Qed.
Print Assumptions C05_absolute_difference_signed_refuted.
(** what holds for all inputs: the result is the distance modulo the word size, and hence
    exact iff the distance is at most half the word size *)
Theorem C05_absolute_difference_signed_partial : forall (M : mgr) (f g : list bdd), f <> [] -> g <> [] ->
  exists r, bdd_absolute_difference M f g TwosComplement = Ok r
    /\ length r = Nat.max (length f) (length g)
    /\ (Forall (wf M) f -> Forall (wf M) g -> Forall (wf M) r)
    /\ forall a, uval r a = Z.min (dist (sval f a) (sval g a))
                                  (pow2 (Nat.max (length f) (length g)) - dist (sval f a) (sval g a)).
Proof. exact absdiff_twos. Qed.
Print Assumptions C05_absolute_difference_signed_partial.
Example C05_case : (* -1 - 1 on different widths *)
  exists r, bdd_absolute_difference (id_mgr 1) [bvar 0] [bone; bzero; bzero] TwosComplement = Ok r
    /\ uval r (fun _ => true) = 2 /\ uval r (fun _ => false) = 1.
Proof. eexists; split; [vm_compute; reflexivity|]. split; vm_compute; reflexivity. Qed.

(** C06 *)
Theorem C06_bdd_shift : forall (M : mgr) (f : list bdd) (k : Z),
  exists r, bdd_shift f k = Ok r /\ length r = length f /\ (Forall (wf M) f -> Forall (wf M) r)
    /\ forall a, uval r a = if 0 <=? k then (uval f a * 2 ^ k) mod 2 ^ Z.of_nat (length f)
                                       else uval f a / 2 ^ (- k).
Proof. exact bdd_shift_full. Qed.
Print Assumptions C06_bdd_shift.
Example C06_case : bdd_shift [bvar 0; bvar 1; bone] 1 = Ok [bzero; bvar 0; bvar 1]
  /\ bdd_shift [bvar 0; bvar 1; bone] (-2) = Ok [bone; bzero; bzero]
  /\ bdd_shift [bvar 0; bvar 1] 7 = Ok [bzero; bzero].
Proof. repeat split; vm_compute; reflexivity. Qed.

(** C07. [clog2_ok clog2]: the modelled [ceil(log2 z)] satisfies z < 2^(clog2 z + 2),
    which leaves the libm function room for being off by one. *)
Theorem C07_multiply_constant_integer : forall (M : mgr) (clog2 : Z -> nat) (f : list bdd) (c : Z),
  clog2_ok clog2 -> 0 <= c < 2 ^ 256 ->
  exists r, bdd_multiply_constant_u256 M clog2 f c = Ok r
    /\ length r = (length f + clog2 c + 2)%nat
    /\ (Forall (wf M) f -> Forall (wf M) r)
    /\ forall a, uval r a = c * uval f a.
Proof. exact multiply_u256_spec. Qed.
Print Assumptions C07_multiply_constant_integer.
Definition log2_up_nat (z : Z) : nat := Z.to_nat (Z.log2_up z).
Example C07_clog2 : clog2_ok log2_up_nat.
Proof. exact log2_up_ok. Qed.
Example C07_case : exists r, bdd_multiply_constant_u256 (id_mgr 2) log2_up_nat [bvar 0; bvar 1] 11 = Ok r
    /\ length r = 8%nat /\ uval r (fun _ => true) = 33 /\ uval r (fun i => i =? 0)%nat = 11.
Proof. eexists; split; [vm_compute; reflexivity|]. repeat split; vm_compute; reflexivity. Qed.

(** C08 *)
Theorem C08_multiply_constant_real : forall (M : mgr) (clog2 : Z -> nat) (f : list bdd) (c : Q) (e : nat),
  clog2_ok clog2 -> (1#2 < c)%Q -> (c < inject_Z (2 ^ 256))%Q -> (e < 64)%nat ->
  exists r, bdd_multiply_constant_double M clog2 f c e = Ok r
    /\ length r = (length f + clog2 (Qceiling c) + 2)%nat
    /\ (Forall (wf M) f -> Forall (wf M) r)
    /\ forall a,
         (inject_Z (uval r a) <= c * inject_Z (uval f a))%Q
         /\ (c * inject_Z (uval f a) - inject_Z (uval r a)
             <= inject_Z (Z.of_nat e) + inject_Z (uval f a) / inject_Z (2 ^ Z.of_nat e))%Q
         /\ ((exists z, c == inject_Z z)%Q -> (inject_Z (uval r a) == c * inject_Z (uval f a))%Q)
         /\ ((2 ^ Z.of_nat e | uval f a) -> (exists z, c * inject_Z (2 ^ Z.of_nat e) == inject_Z z)%Q ->
             (inject_Z (uval r a) == c * inject_Z (uval f a))%Q).
Proof. exact multiply_double_full. Qed.
Print Assumptions C08_multiply_constant_real.
Theorem C08_multiply_constant_small : forall (M : mgr) (clog2 : Z -> nat) (f : list bdd) (c : Q) (e : nat),
  (c <= 1#2)%Q -> bdd_multiply_constant_double M clog2 f c e = UB.
Proof. exact multiply_double_ub. Qed.
Print Assumptions C08_multiply_constant_small.
Example C08_case : (* 2.75 * 12 = 33, 2.75 * 7 = 19.25 -> 14 + 1 + 3 = 18 *)
  exists r, bdd_multiply_constant_double (id_mgr 2) log2_up_nat [bvar 0; bvar 0; bone; bvar 1] (11#4) 2 = Ok r
    /\ uval r (fun i => i =? 1)%nat = 33 /\ uval r (fun i => i =? 0)%nat = 18.
Proof. eexists; split; [vm_compute; reflexivity|]. repeat split; vm_compute; reflexivity. Qed.

(** C09 *)
Theorem C09_greater_equals : forall (M : mgr) (f g : list bdd) (a : asg),
  ev (greater_equals M f g) a = (uval g a <=? uval f a).
Proof. exact greater_equals_spec. Qed.
Print Assumptions C09_greater_equals.
Theorem C09_greater_than : forall (M : mgr) (f g : list bdd) (a : asg),
  ev (greater_than M f g) a = (uval g a <? uval f a).
Proof. exact greater_than_spec. Qed.
Print Assumptions C09_greater_than.
Theorem C09_well_formed : forall (M : mgr) (f g : list bdd), Forall (wf M) f -> Forall (wf M) g ->
  wf M (greater_equals M f g) /\ wf M (greater_than M f g).
Proof. exact (fun M f g Hf Hg => conj (greater_equals_wf M f g Hf Hg) (greater_than_wf M f g Hf Hg)). Qed.
Print Assumptions C09_well_formed.
Example C09_case : greater_than (id_mgr 2) [bvar 0; bvar 1] [bone] = bvar 1
  /\ greater_equals (id_mgr 2) [bvar 0] [bvar 1] = bor (id_mgr 2) (bvar 0) (bnot (bvar 1)).
Proof. split; vm_compute; reflexivity. Qed.

(** C10 *)
Theorem C10_exists_greater_equals : forall (M : mgr) (f1 f2 : list bdd),
  Forall (wf M) f1 -> Forall (wf M) f2 ->
  match exists_greater_equals M f1 f2 with
  | (true, false) => exists a, uval f2 a < uval f1 a
  | (true, true) => (forall a, uval f1 a <= uval f2 a) /\ exists a, uval f1 a = uval f2 a
  | (false, false) => forall a, uval f1 a < uval f2 a
  | (false, true) => False
  end.
Proof. exact exists_greater_equals_spec. Qed.
Print Assumptions C10_exists_greater_equals.
Example C10_case : exists_greater_equals (id_mgr 2) [bvar 0] [bvar 1] = (true, false)
  /\ exists_greater_equals (id_mgr 2) [band (id_mgr 2) (bvar 0) (bvar 1)] [bvar 1] = (true, true)
  /\ exists_greater_equals (id_mgr 2) [bvar 0] [bzero; bone] = (false, false).
Proof. repeat split; vm_compute; reflexivity. Qed.

(** C11 *)
Theorem C11_bdd_max_one : forall (M : mgr) (f : list bdd), f <> [] ->
  exists r, bdd_max_one M f = Ok r /\ length r = length f /\ (Forall (wf M) f -> Forall (wf M) r)
    /\ forall a, uval r a = Z.max 1 (uval f a).
Proof. exact bdd_max_one_spec. Qed.
Print Assumptions C11_bdd_max_one.
Theorem C11_bdd_max_one_empty : forall M : mgr, bdd_max_one M [] = UB.
Proof. exact (fun M => eq_refl). Qed.
Print Assumptions C11_bdd_max_one_empty.
Example C11_case : exists r, bdd_max_one (id_mgr 2) [bvar 0; bvar 1] = Ok r
  /\ uval r (fun _ => false) = 1 /\ uval r (fun i => i =? 1)%nat = 2 /\ uval r (fun _ => true) = 3.
Proof. eexists; split; [vm_compute; reflexivity|]. repeat split; vm_compute; reflexivity. Qed.

(** C12 *)
Theorem C12_bdd_divide : forall (M : mgr) (f g : list bdd) (e : nat),
  exists r, bdd_divide M f g e = Ok r
    /\ length r = (length f + e + 2)%nat
    /\ (Forall (wf M) f -> Forall (wf M) g -> Forall (wf M) r)
    /\ forall a, (0 < uval g a -> uval r a = (uval f a * 2 ^ Z.of_nat e) / uval g a)
              /\ (uval g a = 0 -> uval r a = 2 ^ Z.of_nat (length f + e + 2) - 1).
Proof. exact bdd_divide_spec. Qed.
Print Assumptions C12_bdd_divide.
Example C12_case : (* 7/3 with two fractional bits: floor(28/3) = 9; 7/2: 14 *)
  exists r, bdd_divide (id_mgr 1) [bone; bone; bone] [bvar 0; bone] 2 = Ok r
  /\ uval r (fun _ => true) = 9 /\ uval r (fun _ => false) = 14.
Proof. eexists; split; [vm_compute; reflexivity|]. repeat split; vm_compute; reflexivity. Qed.

(** C13 *)
Theorem C13_number_to_bdds : forall (M : mgr) (n : Z), 0 <= n < 2 ^ 256 ->
  Forall (wf M) (number_to_bdds n)
  /\ (forall a, uval (number_to_bdds n) a = n)
  /\ number_to_bdds n <> []
  /\ ((1 < length (number_to_bdds n))%nat -> 2 ^ Z.of_nat (length (number_to_bdds n) - 1) <= n).
Proof. exact number_to_bdds_spec. Qed.
Print Assumptions C13_number_to_bdds.
Example C13_case : number_to_bdds 6 = [bzero; bone; bone] /\ number_to_bdds 0 = [bzero].
Proof. split; vm_compute; reflexivity. Qed.

(** C14 *)
Theorem C14_high : forall (M : mgr) (f : bdd) (v : nat), wf M f -> top f = Some v ->
  exists r, high f = Ok r /\ wf M r /\ forall a, ev r a = ev f (upd a v true).
Proof. exact high_spec. Qed.
Print Assumptions C14_high.
Theorem C14_high_constant : forall c : bool, high (c, One) = Throw.
Proof. exact (fun c => eq_refl). Qed.
Print Assumptions C14_high_constant.
Example C14_case : high (bxor (id_mgr 2) (bvar 0) (bvar 1)) = Ok (bnot (bvar 1))
  /\ high (bnot (bvar 1)) = Ok bzero.
Proof. split; vm_compute; reflexivity. Qed.

(** C15. Full statement: [low f] evaluates to [ev f (upd a v false)] at every input.
    It fails for x0 xor x1, whose low cofactor is x1 but for which the code returns not x1. *)
Theorem C15_low_refuted :
  exists (M : mgr) (f r : bdd) (v : nat) (a : asg),
    wf M f /\ top f = Some v /\ low f = Ok r /\ ev r a <> ev f (upd a v false).
Proof.
  exists (id_mgr 2), (bxor (id_mgr 2) (bvar 0) (bvar 1)), (bnot (bvar 1)), 0%nat, (fun _ => true).
  split; [apply wf_xor; apply wf_var|]. repeat split; vm_compute; try reflexivity. discriminate.
Qed.
Print Assumptions C15_low_refuted.
(** what the code computes for every BDD: the cofactor, complemented exactly when both the
    edge to the node and its else edge are complemented *)
Theorem C15_low_partial : forall (M : mgr) (f : bdd), wf M f ->
  match snd f with
  | One => low f = Throw
  | Nd v t else_complemented e =>
      exists r, low f = Ok r /\
        forall a, ev r a = xorb (fst f && else_complemented) (ev f (upd a v false))
  end.
Proof. exact low_full. Qed.
Print Assumptions C15_low_partial.
Example C15_case : low (band (id_mgr 2) (bvar 0) (bvar 1)) = Ok bzero
  /\ low (bor (id_mgr 2) (bnot (bvar 0)) (bvar 1)) = Ok bone.
Proof. split; vm_compute; reflexivity. Qed.

(** C16. [asg_ints l] reads entry i of the int vector as variable i (1 is true). *)
Theorem C16_eval : forall (f : list bdd) (l : list Z),
  (forall b i, In b f -> In i (varsn (snd b)) -> (i < length l)%nat) -> (length f <= 64)%nat ->
  eval f l = Ok (if uval f (asg_ints l) <? 2 ^ 63 then uval f (asg_ints l)
                 else uval f (asg_ints l) - 2 ^ 64).
Proof. exact eval_spec. Qed.
Print Assumptions C16_eval.
Theorem C16_eval_too_wide : forall (f : list bdd) (l : list Z) (i : nat),
  (forall b i, In b f -> In i (varsn (snd b)) -> (i < length l)%nat) ->
  (64 <= i < length f)%nat -> ev (nth i f bzero) (asg_ints l) = true -> eval f l = UB.
Proof. exact eval_ub. Qed.
Print Assumptions C16_eval_too_wide.
Example C16_case : eval [bvar 0; bvar 2; bnot (bvar 1)] [1; 0; 0] = Ok 5
  /\ eval [bvar 0; bvar 2] [1; 0] = UB /\ eval (repeat bone 64) [] = Ok (-1).
Proof. repeat split; vm_compute; reflexivity. Qed.

(** C17. [adder_asg x y bits]: variable 2i is bit i of x, variable 2i+1 bit i of y. *)
Theorem C17_eval_adder : forall (f : list bdd) (x y : Z) (bits : nat),
  ((bits <= 31)%nat \/ (bits = 32%nat /\ 0 <= x < 2 ^ 32)) ->
  ((bits <= 31)%nat \/ (bits = 32%nat /\ 0 <= y < 2 ^ 32)) ->
  (forall b i, In b f -> In i (varsn (snd b)) -> (i < 2 * bits)%nat) -> (length f <= 63)%nat ->
  eval_adder f x y bits = Ok (uval f (adder_asg x y bits)).
Proof. exact eval_adder_spec. Qed.
Print Assumptions C17_eval_adder.
Theorem C17_eval_adder_too_wide : forall (f : list bdd) (x y : Z) (bits : nat),
  (32 < bits)%nat -> eval_adder f x y bits = UB.
Proof. exact eval_adder_ub. Qed.
Print Assumptions C17_eval_adder_too_wide.
(** 32 bits, any operands: the mask of bit 31 is negative, so this bit is read as one exactly from 2^31 on, whatever bit 31 is *)
Theorem C17_eval_adder_32 : forall (f : list bdd) (x y : Z),
  (forall b i, In b f -> In i (varsn (snd b)) -> (i < 64)%nat) -> (length f <= 63)%nat ->
  let read x := x mod 2 ^ 31 + (if 2 ^ 31 <=? x then 2 ^ 31 else 0) in
  eval_adder f x y 32 = Ok (uval f (adder_asg (read x) (read y) 32)).
Proof. exact eval_adder_32. Qed.
Print Assumptions C17_eval_adder_32.
Example C17_case_32 : (* bit 31 of 2^32 is zero and that of -1 is one *)
  eval_adder [bvar 62; bvar 63; bvar 0] (2 ^ 32) (-1) 32 = Ok 1 /\ eval_adder [bvar 62; bvar 63; bvar 1] (2 ^ 31) (-1) 32 = Ok 5.
Proof. vm_compute. auto. Qed.
Example C17_case : eval_adder [bvar 0; bvar 3; bvar 2] 6 3 3 = Ok 6.
Proof. vm_compute; reflexivity. Qed.
