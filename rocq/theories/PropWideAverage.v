(** Property C153: the 256-bit sums of the average case error and the mean squared error
    (src/error_metrics/average_case_error.cpp:12-85) for any number of outputs and variables. *)
From Coq Require Import List Bool Arith ZArith QArith Lia.
From Verif Require Import Res Cudd CuddFacts Spec SpecWide Helpers HelpersFacts Counting Metrics WideAverageFacts.
Import ListNotations.
Open Scope nat_scope.

(** C153: with [s] the largest number of variables of an output, the average is reduced modulo [2^(256 - s)], and it is a
    quotient by zero if [s] is 256 or more *)
Theorem C153_average_value : forall (M : mgr) (n : nat) (f : list bdd) (s : nat),
  Forall (wf M) f -> below n f -> largest_support f s ->
  (256 <= s -> average_value f = NonFin)
  /\ (s < 256 -> exists q, average_value f = Fin q
       /\ (q == remainderQ (average n (fun a => inject_Z (uval f a))) (inject_Z (2 ^ Z.of_nat (256 - s))))%Q).
Proof. exact average_value_wide. Qed.
Print Assumptions C153_average_value.
Theorem C153_mean_squared_value : forall (M : mgr) (n : nat) (f : list bdd) (s : nat),
  Forall (wf M) f -> below n f -> largest_support f s ->
  (256 <= s -> mean_squared_value M f = NonFin)
  /\ (s < 256 -> exists q, mean_squared_value M f = Fin q
       /\ (q == remainderQ (truncated_square n s f) (inject_Z (2 ^ Z.of_nat (256 - s))))%Q).
Proof. exact mean_squared_wide. Qed.
Print Assumptions C153_mean_squared_value.
(** the two metrics never overestimate; the average case error is exact if and only if it is below the modulus *)
Theorem C153_errors : forall (M : mgr) (n : nat) (f g : list bdd) (r : NumberRepresentation),
  Forall (wf M) f -> Forall (wf M) g -> below n f -> below n g -> (r = TwosComplement -> f <> [] /\ g <> []) ->
  exists d, bdd_absolute_difference M f g r = Ok d /\ (forall a, uval d a = wrapped r f g a) /\ forall s, largest_support d s ->
    (256 <= s -> average_case_error M f g r = Ok NonFin /\ mean_squared_error M f g r = Ok NonFin)
    /\ (s < 256 ->
        let m := average n (fun a => inject_Z (wrapped r f g a)) in
        (exists q, average_case_error M f g r = Ok (Fin q) /\ (q == remainderQ m (inject_Z (2 ^ Z.of_nat (256 - s))))%Q
           /\ (q <= m)%Q /\ ((q == m)%Q <-> (m < inject_Z (2 ^ Z.of_nat (256 - s)))%Q))
        /\ (exists q, mean_squared_error M f g r = Ok (Fin q)
           /\ (q <= average n (fun a => inject_Z (wrapped r f g a * wrapped r f g a)))%Q)).
Proof. exact ace_wide. Qed.
Print Assumptions C153_errors.
Example C153_case : (* 60 equal outputs above a conjunction of 200 variables: 2^60 - 1 + 2^-200, reduced modulo 2^56 *)
  let conj M n := fold_right (fun v acc => band M (bvar v) acc) bone (seq 0 n) in
  let M := id_mgr 200 in let f := conj M 200 :: repeat (bvar 0) 60 in
  let m := (inject_Z (2 ^ 60 - 1) + (1 # 2 ^ 200))%Q in
  support_size (conj M 200) = 200
  /\ match average_case_error M f (repeat bzero 61) BaseTwo with
     | Ok (Fin q) => (q == m - inject_Z (15 * 2 ^ 56))%Q /\ (q == remainderQ m (inject_Z (2 ^ 56)))%Q
     | _ => False
     end
  /\ map (fun k => match average_value [conj (id_mgr k) k] with Fin q => Qred q | NonFin => 9%Q end) [3; 255; 256]
     = [1 # 8; 1 # 2 ^ 255; 9]%Q.
Proof. vm_compute. auto. Qed.
