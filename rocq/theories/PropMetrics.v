(** Properties C24-C38: absolute error metrics (src/error_metrics). Doubles and decimal
    floats are rationals; 64 and 256 bit integers wrap around. [average n F] is the mean of
    [F] over all inputs of [n] variables, [is_max F m] says that [m] is the maximum. *)
From Coq Require Import List Bool Arith ZArith QArith.
From Verif Require Import Res Cudd CuddFacts Spec SpecFacts Helpers HelpersFacts Counting Metrics FromPapers MetricsFacts MetricsFacts2 MetricsFacts3 MetricsFacts4 MetricsFacts5 MetricsFacts6 TwosFacts.
Import ListNotations.
Open Scope nat_scope.

(** C24 *)
Theorem C24_error_rate : forall (M : mgr) (n : nat) (f g : list bdd),
  Forall (wf M) f -> Forall (wf M) g -> below n f -> below n g ->
  (length f = length g -> exists q, error_rate M f g = Ok q
     /\ (q == average n (fun a => b2q (differ f g a)))%Q
     /\ ((q == 0)%Q <-> forall a, map (fun b => ev b a) f = map (fun b => ev b a) g))
  /\ (length g < length f -> error_rate M f g = UB).
Proof. exact error_rate_full. Qed.
Print Assumptions C24_error_rate.
Example C24_case : (* the three values of the unit test: 1/8, 3/8, 7/8 *)
  let M := id_mgr 3 in
  let f := band M (band M (bvar 0) (bvar 1)) (bvar 2) in
  map (fun g => match error_rate M [f] [g] with Ok q => Qred q | _ => 0%Q end)
      [band M (bvar 0) (bvar 2); bvar 2; bone] = [1#8; 3#8; 7#8]%Q
  /\ error_rate M [bvar 0; bvar 1] [bvar 0] = UB.
Proof. vm_compute. auto. Qed.

(** C25 *)
Theorem C25_error_rate_add : forall (M : mgr) (n : nat) (f g : list bdd),
  index_order M -> Forall (wf M) f -> Forall (wf M) g -> below n f -> below n g -> n <= 63 ->
  length f = length g ->
  exists p q, error_rate_add M f g = Ok (Fin p) /\ error_rate M f g = Ok q /\ (p == q)%Q
    /\ (p == average n (fun a => b2q (differ f g a)))%Q.
Proof. exact error_rate_add_full. Qed.
Print Assumptions C25_error_rate_add.
Example C25_case :
  match error_rate_add (id_mgr 4) (example1a (id_mgr 4)) (example1b (id_mgr 4)),
        error_rate (id_mgr 4) (example1a (id_mgr 4)) (example1b (id_mgr 4)) with
  | Ok (Fin p), Ok q => Qred p = (5#16)%Q /\ Qred q = (5#16)%Q
  | _, _ => False
  end.
Proof. vm_compute. auto. Qed.

(** C26 *)
Theorem C26_average_bit_flip_error : forall (M : mgr) (n : nat) (f g : list bdd),
  Forall (wf M) f -> Forall (wf M) g -> below n f -> below n g ->
  (length f = length g ->
     exists q, average_bit_flip_error M f g = Ok q /\ (q == average n (fun a => inject_Z (hamming f g a)))%Q)
  /\ (length f = length g -> index_order M -> n <= 63 -> length f <= 64 ->
      (Z.of_nat (length f) * 2 ^ Z.of_nat n < 2 ^ 64)%Z ->
     exists q, average_bit_flip_error_add M f g = Ok (Fin q)
       /\ (q == average n (fun a => inject_Z (hamming f g a)))%Q)
  /\ (length f <> length g -> average_bit_flip_error M f g = Abort).
Proof. exact average_bit_flip_full. Qed.
Print Assumptions C26_average_bit_flip_error.
Example C26_case :
  match average_bit_flip_error (id_mgr 4) (example1a (id_mgr 4)) (example1c (id_mgr 4)),
        average_bit_flip_error_add (id_mgr 4) (example1a (id_mgr 4)) (example1c (id_mgr 4)) with
  | Ok p, Ok (Fin q) => Qred p = (9#8)%Q /\ Qred q = (9#8)%Q
  | _, _ => False
  end.
Proof. vm_compute. auto. Qed.

(** C27 *)
Theorem C27_worst_case_bit_flip_error : forall (M : mgr) (n : nat) (f g : list bdd),
  Forall (wf M) f -> Forall (wf M) g -> length f = length g ->
  ((Z.of_nat (length f) < 2 ^ 32)%Z ->
     exists m, worst_case_bit_flip_error M f g = Ok m /\ is_max (hamming f g) m)
  /\ (index_order M -> below n f -> below n g -> n <= 63 -> length f <= 64 ->
      exists m, worst_case_bit_flip_error_add M f g = Ok m /\ is_max (hamming f g) m).
Proof. exact worst_case_bit_flip_full. Qed.
Print Assumptions C27_worst_case_bit_flip_error.
Example C27_case :
  worst_case_bit_flip_error (id_mgr 4) (example1a (id_mgr 4)) (example1c (id_mgr 4)) = Ok 2%Z
  /\ worst_case_bit_flip_error_add (id_mgr 4) (example1a (id_mgr 4)) (example1c (id_mgr 4)) = Ok 2%Z.
Proof. vm_compute. auto. Qed.

(** C28: beyond 256 bits the maximum is returned modulo 2^256 *)
Theorem C28_get_max_value : forall (M : mgr) (f : list bdd), Forall (wf M) f ->
  (exists m, is_max (uval f) m /\ get_max_value M f = (m mod 2 ^ 256)%Z)
  /\ (length f <= 256 -> is_max (uval f) (get_max_value M f)).
Proof. exact get_max_value_full. Qed.
Print Assumptions C28_get_max_value.
Example C28_case : get_max_value (id_mgr 2) (example3 (id_mgr 2)) = 13%Z. (* unit test *)
Proof. vm_compute. reflexivity. Qed.

(** C29 *)
Theorem C29_worst_case_error : forall (M : mgr) (f g h : list bdd),
  Forall (wf M) f -> Forall (wf M) g -> Forall (wf M) h ->
  length f <= 256 -> length g <= 256 -> length h <= 256 ->
  exists m, worst_case_error M f g BaseTwo = Ok m
    /\ is_max (fun a => dist (uval f a) (uval g a)) m
    /\ (m = 0%Z <-> forall a, uval f a = uval g a)
    /\ worst_case_error M g f BaseTwo = Ok m
    /\ (exists m1 m2, worst_case_error M f h BaseTwo = Ok m1 /\ worst_case_error M h g BaseTwo = Ok m2
          /\ (m <= m1 + m2)%Z)
    /\ (forall n, index_order M -> below n f -> below n g -> n <= 63 ->
          worst_case_error_add M f g BaseTwo = Ok m).
Proof. exact wce_base_full. Qed.
Print Assumptions C29_worst_case_error.
Example C29_case :
  worst_case_error (id_mgr 4) (example1a (id_mgr 4)) (example1b (id_mgr 4)) BaseTwo = Ok 6%Z
  /\ worst_case_error (id_mgr 4) (example1a (id_mgr 4)) (example1c (id_mgr 4)) BaseTwo = Ok 6%Z
  /\ worst_case_error_add (id_mgr 4) (example1a (id_mgr 4)) (example1c (id_mgr 4)) BaseTwo = Ok 6%Z.
Proof. vm_compute. auto. Qed.

(** C30: false as stated, the subtraction overflows *)
Theorem C30_worst_case_error_twos_refuted : exists (M : mgr) (f g : list bdd) (m : Z) (a : asg),
  Forall (wf M) f /\ Forall (wf M) g /\ f <> [] /\ g <> [] /\ length f <= 256 /\ length g <= 256
  /\ worst_case_error M f g TwosComplement = Ok m /\ (m < dist (sval f a) (sval g a))%Z.
Proof. exact wce_twos_bad. Qed.
Print Assumptions C30_worst_case_error_twos_refuted.
(** what holds: the maximum of min(d, 2^w - d), the true maximum if no distance exceeds half the
    word; the ADD variant is exact *)
Theorem C30_worst_case_error_twos_partial : forall (M : mgr) (f g : list bdd),
  Forall (wf M) f -> Forall (wf M) g -> f <> [] -> g <> [] -> length f <= 256 -> length g <= 256 ->
  (exists m, worst_case_error M f g TwosComplement = Ok m
    /\ is_max (fun a => Z.min (dist (sval f a) (sval g a))
                (2 ^ Z.of_nat (Nat.max (length f) (length g)) - dist (sval f a) (sval g a))) m
    /\ ((forall a, 2 * dist (sval f a) (sval g a) <= 2 ^ Z.of_nat (Nat.max (length f) (length g)))%Z ->
        is_max (fun a => dist (sval f a) (sval g a)) m))
  /\ (forall n, index_order M -> below n f -> below n g -> n <= 63 ->
      exists m, worst_case_error_add M f g TwosComplement = Ok m
        /\ is_max (fun a => dist (sval f a) (sval g a)) m).
Proof. exact wce_twos_full. Qed.
Print Assumptions C30_worst_case_error_twos_partial.
Example C30_case :
  worst_case_error (id_mgr 2) [bvar 0; bvar 1; bvar 1] [bone; bone; bzero] TwosComplement = Ok 4%Z
  /\ worst_case_error_add (id_mgr 2) [bvar 0; bvar 1; bvar 1] [bone; bone; bzero] TwosComplement = Ok 5%Z.
Proof. vm_compute. auto. Qed.

(** C31: the denominator 2^w - 1 is computed in double precision and is 2^w for w > 53 *)
Theorem C31_worst_case_error_percent : forall (M : mgr) (f g : list bdd) (r : NumberRepresentation),
  Forall (wf M) f -> Forall (wf M) g -> length f = length g -> 1 <= length f <= 256 ->
  exists m q, worst_case_error M f g r = Ok m /\ worst_case_error_percent M f g r = Ok (Fin q)
    /\ (0 <= q <= 1)%Q
    /\ (length f <= 53 -> (q == inject_Z m / inject_Z (2 ^ Z.of_nat (length f) - 1))%Q)
    /\ (53 < length f -> (q == inject_Z m / inject_Z (2 ^ Z.of_nat (length f)))%Q).
Proof. exact wce_percent_full. Qed.
Print Assumptions C31_worst_case_error_percent.
Example C31_case :
  match worst_case_error_percent (id_mgr 4) (example1a (id_mgr 4)) (example1b (id_mgr 4)) BaseTwo with
  | Ok (Fin q) => Qred q = (6#7)%Q
  | _ => False
  end /\ worst_case_error_percent (id_mgr 4) [] [] BaseTwo = Ok NonFin.
Proof. vm_compute. auto. Qed.

(** C32: [h] is the most significant differing output, so [s] low outputs are dropped *)
Theorem C32_approximate_worst_case_error : forall (M : mgr) (f g : list bdd) (n : Z),
  Forall (wf M) f -> Forall (wf M) g -> length f = length g -> length f <= 256 -> (1 <= n)%Z ->
  ((forall a, map (fun b => ev b a) f = map (fun b => ev b a) g) ->
     approximate_worst_case_error M f g n BaseTwo = Ok 0%Z)
  /\ (forall h, top_difference f g h -> let s := Z.to_nat (Z.of_nat h + 1 - n) in
      exists x wc, approximate_worst_case_error M f g n BaseTwo = Ok x
        /\ is_max (fun a => dist (uval f a) (uval g a)) wc
        /\ (wc <= x <= wc + 2 ^ (Z.of_nat s + 1) - 2)%Z).
Proof. exact awce_base_full. Qed.
Print Assumptions C32_approximate_worst_case_error.
(** the exact value: the worst case error of the values without the low outputs, scaled back *)
Theorem C32_approximate_worst_case_error_value : forall (M : mgr) (f g : list bdd) (n : Z) (h : nat),
  Forall (wf M) f -> Forall (wf M) g -> length f = length g -> length f <= 256 -> (1 <= n)%Z ->
  top_difference f g h -> let s := Z.to_nat (Z.of_nat h + 1 - n) in
  exists m, is_max (fun a => dist (uval f a / 2 ^ Z.of_nat s) (uval g a / 2 ^ Z.of_nat s)) m
    /\ approximate_worst_case_error M f g n BaseTwo = Ok ((m + 1) * 2 ^ Z.of_nat s - 1)%Z.
Proof. exact awce_base_value. Qed.
Print Assumptions C32_approximate_worst_case_error_value.
Example C32_case : (* worst case error 6, top difference at bit 2 *)
  map (fun n => approximate_worst_case_error (id_mgr 4) (example1a (id_mgr 4)) (example1b (id_mgr 4)) n BaseTwo)
      [1; 2; 3; 9]%Z = [Ok 7; Ok 7; Ok 6; Ok 6]%Z.
Proof. vm_compute. reflexivity. Qed.

(** C33: false as stated, the leading difference can be cancelled by a lower bit *)
Theorem C33_approximate_bound_refuted : exists (M : mgr) (f g : list bdd) (n x wc : Z),
  Forall (wf M) f /\ Forall (wf M) g /\ length f = length g /\ (1 <= n)%Z
  /\ approximate_worst_case_error M f g n BaseTwo = Ok x
  /\ is_max (fun a => dist (uval f a) (uval g a)) wc
  /\ (inject_Z wc * (1 + 1 / inject_Z (2 ^ (n + 1) - 1)) < inject_Z x)%Q.
Proof. exact awce_bound_bad. Qed.
Print Assumptions C33_approximate_bound_refuted.
(** what holds: if the worst case error is at least the weight of the leading difference, the
    relative error is at most 4/2^n *)
Theorem C33_approximate_bound_partial : forall (M : mgr) (f g : list bdd) (n : Z) (h : nat) (x wc : Z),
  Forall (wf M) f -> Forall (wf M) g -> length f = length g -> length f <= 256 -> (1 <= n)%Z ->
  top_difference f g h -> is_max (fun a => dist (uval f a) (uval g a)) wc -> (2 ^ Z.of_nat h <= wc)%Z ->
  approximate_worst_case_error M f g n BaseTwo = Ok x ->
  (wc * 2 ^ n <= x * 2 ^ n <= wc * (2 ^ n + 4))%Z /\ ((Z.of_nat h < n)%Z -> x = wc).
Proof. exact awce_relative. Qed.
Print Assumptions C33_approximate_bound_partial.
Example C33_case : (* error 4 = 2^2 at bit 2, one bit of precision: 7 *)
  approximate_worst_case_error (id_mgr 1) [bvar 0; bzero; bvar 0] [bvar 0; bzero; bzero] 1 BaseTwo = Ok 7%Z
  /\ worst_case_error (id_mgr 1) [bvar 0; bzero; bvar 0] [bvar 0; bzero; bzero] BaseTwo = Ok 4%Z.
Proof. vm_compute. auto. Qed.

(** C34: false as stated, the sign bit is not searched for differences *)
Theorem C34_approximate_twos_refuted : exists (M : mgr) (f g : list bdd) (n x : Z) (a : asg),
  Forall (wf M) f /\ Forall (wf M) g /\ length f = length g /\ (1 <= n)%Z
  /\ approximate_worst_case_error M f g n TwosComplement = Ok x
  /\ (x < dist (sval f a) (sval g a))%Z.
Proof. exact awce_twos_bad. Qed.
Print Assumptions C34_approximate_twos_refuted.
(** what holds: the bound for functions with the same sign bit *)
Theorem C34_approximate_twos_partial :
  forall (M : mgr) (f0 g0 : list bdd) (sf sg : bdd) (n : Z),
  Forall (wf M) f0 -> Forall (wf M) g0 -> wf M sf -> wf M sg ->
  length f0 = length g0 -> length f0 < 256 -> (1 <= n)%Z -> (forall a, ev sf a = ev sg a) ->
  ((forall a, map (fun b => ev b a) f0 = map (fun b => ev b a) g0) ->
     approximate_worst_case_error M (f0 ++ [sf]) (g0 ++ [sg]) n TwosComplement = Ok 0%Z)
  /\ (forall h, top_difference f0 g0 h -> let s := Z.to_nat (Z.of_nat h + 1 - n) in
      exists x wc, approximate_worst_case_error M (f0 ++ [sf]) (g0 ++ [sg]) n TwosComplement = Ok x
        /\ is_max (fun a => dist (sval (f0 ++ [sf]) a) (sval (g0 ++ [sg]) a)) wc
        /\ (wc <= x <= wc + 2 ^ (Z.of_nat s + 1) - 2)%Z).
Proof. exact awce_twos_full. Qed.
Print Assumptions C34_approximate_twos_partial.
(** and the exact value for any sign bits, with the wrap-around of C05; zero if only the sign bits differ *)
Theorem C34_approximate_twos_value_partial :
  forall (M : mgr) (f0 g0 : list bdd) (sf sg : bdd) (n : Z),
  Forall (wf M) f0 -> Forall (wf M) g0 -> wf M sf -> wf M sg ->
  length f0 = length g0 -> length f0 < 256 -> (1 <= n)%Z ->
  ((forall a, map (fun b => ev b a) f0 = map (fun b => ev b a) g0) ->
     approximate_worst_case_error M (f0 ++ [sf]) (g0 ++ [sg]) n TwosComplement = Ok 0%Z)
  /\ (forall h, top_difference f0 g0 h -> let s := Z.to_nat (Z.of_nat h + 1 - n) in
      let d := fun a => dist (sval (f0 ++ [sf]) a / 2 ^ Z.of_nat s) (sval (g0 ++ [sg]) a / 2 ^ Z.of_nat s) in
      exists m, is_max (fun a => Z.min (d a) (2 ^ Z.of_nat (length f0 + 1 - s) - d a)) m
        /\ approximate_worst_case_error M (f0 ++ [sf]) (g0 ++ [sg]) n TwosComplement
           = Ok ((m + 1) * 2 ^ Z.of_nat s - 1)%Z).
Proof. exact awce_twos_value. Qed.
Print Assumptions C34_approximate_twos_value_partial.
(** for any sign bits it is an upper bound of the wrapped difference (C05) as soon as some other output differs, and of the
    true one if that never exceeds half the range *)
Theorem C34_approximate_twos_wrapped_partial :
  forall (M : mgr) (f0 g0 : list bdd) (sf sg : bdd) (n : Z),
  Forall (wf M) f0 -> Forall (wf M) g0 -> wf M sf -> wf M sg ->
  length f0 = length g0 -> length f0 < 256 -> (1 <= n)%Z ->
  forall h, top_difference f0 g0 h -> let s := Z.to_nat (Z.of_nat h + 1 - n) in let f := f0 ++ [sf] in let g := g0 ++ [sg] in
  exists x w, approximate_worst_case_error M f g n TwosComplement = Ok x
    /\ is_max (wrapped TwosComplement f g) w /\ (w <= x <= w + 2 ^ (Z.of_nat s + 1) - 2)%Z
    /\ ((forall a, dist (sval f a) (sval g a) <= 2 ^ Z.of_nat (length f0))%Z -> forall a, (dist (sval f a) (sval g a) <= x)%Z).
Proof. exact awce_twos_wrapped. Qed.
Print Assumptions C34_approximate_twos_wrapped_partial.
Example C34_signs : (* 1 or 0 against -2 or 2, and 1 or 0 against -4 or 0 where 5 is seen as 3 *)
  let approximate f g n := approximate_worst_case_error (id_mgr 1) f g n TwosComplement in
  map (approximate [bvar 0; bzero; bzero] [bzero; bone; bvar 0]) [1; 2]%Z = [Ok 3; Ok 3]%Z
  /\ map (approximate [bvar 0; bzero; bzero] [bzero; bzero; bvar 0]) [1; 2]%Z = [Ok 3; Ok 3]%Z.
Proof. vm_compute. auto. Qed.
Example C34_case : (* same sign bit x3, worst case error 6 *)
  map (fun n => approximate_worst_case_error (id_mgr 4) (example1a (id_mgr 4) ++ [bvar 3])
                  (example1b (id_mgr 4) ++ [bvar 3]) n TwosComplement) [1; 3]%Z = [Ok 7; Ok 6]%Z.
Proof. vm_compute. reflexivity. Qed.

(** C35 *)
Theorem C35_average_value : forall (M : mgr) (n : nat) (f : list bdd),
  Forall (wf M) f -> below n f -> (forall b, In b f -> length f + support_size b <= 256) ->
  exists q, average_value f = Fin q /\ (q == average n (fun a => inject_Z (uval f a)))%Q.
Proof. exact average_value_full. Qed.
Print Assumptions C35_average_value.
Example C35_case :
  match average_value (example3 (id_mgr 2)) with Fin q => Qred q = (41#4)%Q | _ => False end.
Proof. vm_compute. reflexivity. Qed.

(** C36: false as stated, the products can have a larger support than the single outputs *)
Theorem C36_mean_squared_value_refuted : exists (M : mgr) (f : list bdd) (n : nat) (q : Q),
  Forall (wf M) f /\ below n f /\ mean_squared_value M f = Fin q
  /\ ~ (q == average n (fun a => inject_Z (uval f a * uval f a)))%Q.
Proof. exact mean_squared_value_bad. Qed.
Print Assumptions C36_mean_squared_value_refuted.
(** what holds: a lower bound; exact if some output depends on all variables of the vector *)
Theorem C36_mean_squared_value_partial : forall (M : mgr) (n : nat) (f : list bdd),
  Forall (wf M) f -> below n f -> (forall b, In b f -> 2 * length f + support_size b <= 256) ->
  exists q, mean_squared_value M f = Fin q
    /\ (q <= average n (fun a => inject_Z (uval f a * uval f a)))%Q
    /\ ((exists b, In b f /\ forall i, vars_in f i -> In i (varsn (snd b))) ->
        (q == average n (fun a => inject_Z (uval f a * uval f a)))%Q).
Proof. exact mean_squared_value_full. Qed.
Print Assumptions C36_mean_squared_value_partial.
(** the exact value: the counts of the pairs are rounded down to multiples of 2^-s *)
Theorem C36_mean_squared_value_exact_partial : forall (M : mgr) (n : nat) (f : list bdd) (s : nat),
  Forall (wf M) f -> below n f -> (forall b, In b f -> 2 * length f + support_size b <= 256) ->
  largest_support f s ->
  exists q, mean_squared_value M f = Fin q /\ (q == truncated_square n s f)%Q.
Proof. exact mean_squared_value_exact. Qed.
Print Assumptions C36_mean_squared_value_exact_partial.
Example C36_truncated : (* (x0 + 2 x1)^2 has mean 7/2, one variable per output: 5/2 *)
  largest_support [bvar 0; bvar 1] 1
  /\ match mean_squared_value (id_mgr 2) [bvar 0; bvar 1] with Fin q => Qred q = (5#2)%Q | _ => False end
  /\ Qred (truncated_square 2 1 [bvar 0; bvar 1]) = (5#2)%Q.
Proof.
  split; [|vm_compute; auto].
  split; [intros b [<-|[<-|[]]]; vm_compute; auto|right; exists (bvar 0); split; [now left|reflexivity]].
Qed.
Example C36_case :
  match mean_squared_value (id_mgr 2) (example3 (id_mgr 2)) with Fin q => Qred q = (449#4)%Q | _ => False end
  /\ average 2 (fun a => inject_Z (uval (example3 (id_mgr 2)) a * uval (example3 (id_mgr 2)) a)) = (449#4)%Q.
Proof. vm_compute. auto. Qed.

(** C37 *)
Theorem C37_average_case_error : forall (M : mgr) (n : nat) (f g : list bdd),
  Forall (wf M) f -> Forall (wf M) g -> below n f -> below n g ->
  Nat.max (length f) (length g) + n < 256 ->
  (exists q q' m, average_case_error M f g BaseTwo = Ok (Fin q)
    /\ (q == average n (fun a => inject_Z (dist (uval f a) (uval g a))))%Q
    /\ ((q == 0)%Q <-> forall a, uval f a = uval g a)
    /\ average_case_error M g f BaseTwo = Ok (Fin q') /\ (q' == q)%Q
    /\ worst_case_error M f g BaseTwo = Ok m /\ (q <= inject_Z m)%Q)
  /\ (index_order M -> n <= 63 -> forall r, (r = TwosComplement -> f <> [] /\ g <> []) ->
      exists q, average_case_error_add M f g r = Ok (Fin q)
        /\ (q == average n (fun a => inject_Z (dist (value r f a) (value r g a))))%Q).
Proof. exact ace_full. Qed.
Print Assumptions C37_average_case_error.
(** the BDD variant in either representation, with the overflow of C05 *)
Theorem C37_average_case_error_wrapped :
  forall (M : mgr) (n : nat) (f g : list bdd) (r : NumberRepresentation),
  Forall (wf M) f -> Forall (wf M) g -> below n f -> below n g ->
  (r = TwosComplement -> f <> [] /\ g <> []) -> Nat.max (length f) (length g) + n < 256 ->
  exists q, average_case_error M f g r = Ok (Fin q)
    /\ (q == average n (fun a => inject_Z (wrapped r f g a)))%Q.
Proof. exact ace_spec. Qed.
Print Assumptions C37_average_case_error_wrapped.
Example C37_case :
  match average_case_error (id_mgr 4) (example1a (id_mgr 4)) (example1b (id_mgr 4)) BaseTwo,
        average_case_error_add (id_mgr 4) (example1a (id_mgr 4)) (example1b (id_mgr 4)) BaseTwo with
  | Ok (Fin p), Ok (Fin q) => Qred p = 1%Q /\ Qred q = 1%Q
  | _, _ => False
  end.
Proof. vm_compute. auto. Qed.

(** C38: false as stated for the BDD variant (C36) *)
Theorem C38_mean_squared_error_refuted : exists (M : mgr) (f g : list bdd) (n : nat) (q : Q),
  Forall (wf M) f /\ Forall (wf M) g /\ below n f /\ below n g /\ length f = length g
  /\ mean_squared_error M f g BaseTwo = Ok (Fin q)
  /\ ~ (q == average n (fun a => inject_Z (dist (uval f a) (uval g a) * dist (uval f a) (uval g a))))%Q.
Proof. exact mean_squared_error_bad. Qed.
Print Assumptions C38_mean_squared_error_refuted.
(** what holds: the BDD variant is a lower bound, exact if some bit of the difference depends on all
    its variables *)
Theorem C38_mean_squared_error_partial :
  forall (M : mgr) (n : nat) (f g : list bdd) (r : NumberRepresentation),
  Forall (wf M) f -> Forall (wf M) g -> below n f -> below n g ->
  (r = TwosComplement -> f <> [] /\ g <> []) -> 2 * Nat.max (length f) (length g) + 2 + n <= 256 ->
  exists d q, bdd_absolute_difference M f g r = Ok d /\ mean_squared_error M f g r = Ok (Fin q)
    /\ (q <= average n (fun a => inject_Z (wrapped r f g a * wrapped r f g a)))%Q
    /\ ((exists b, In b d /\ forall i, vars_in d i -> In i (varsn (snd b))) ->
        (q == average n (fun a => inject_Z (wrapped r f g a * wrapped r f g a)))%Q).
Proof. exact mse_spec. Qed.
Print Assumptions C38_mean_squared_error_partial.
Theorem C38_mean_squared_error_exact_partial :
  forall (M : mgr) (n : nat) (f g : list bdd) (r : NumberRepresentation),
  Forall (wf M) f -> Forall (wf M) g -> below n f -> below n g ->
  (r = TwosComplement -> f <> [] /\ g <> []) -> 2 * Nat.max (length f) (length g) + 2 + n <= 256 ->
  exists d q, bdd_absolute_difference M f g r = Ok d /\ (forall a, uval d a = wrapped r f g a)
    /\ mean_squared_error M f g r = Ok (Fin q) /\ forall s, largest_support d s -> (q == truncated_square n s d)%Q.
Proof. exact mse_exact. Qed.
Print Assumptions C38_mean_squared_error_exact_partial.
(** the ADD variant is exact *)
Theorem C38_mean_squared_error_add :
  forall (M : mgr) (n : nat) (f g : list bdd) (r : NumberRepresentation),
  index_order M -> Forall (wf M) f -> Forall (wf M) g -> below n f -> below n g -> n <= 63 ->
  (r = TwosComplement -> f <> [] /\ g <> []) -> 2 * Nat.max (length f) (length g) + n <= 256 ->
  exists q, mean_squared_error_add M f g r = Ok (Fin q)
    /\ (q == average n (fun a => inject_Z
          (dist (value r f a) (value r g a) * dist (value r f a) (value r g a))))%Q.
Proof. exact mse_add_full. Qed.
Print Assumptions C38_mean_squared_error_add.
Example C38_case :
  match mean_squared_error (id_mgr 4) (example1a (id_mgr 4)) (example1b (id_mgr 4)) BaseTwo,
        mean_squared_error_add (id_mgr 4) (example1a (id_mgr 4)) (example1b (id_mgr 4)) BaseTwo with
  | Ok (Fin p), Ok (Fin q) => Qred p = 4%Q /\ Qred q = 4%Q
  | _, _ => False
  end.
Proof. vm_compute. auto. Qed.
