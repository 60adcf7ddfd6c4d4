(** How far the results of the claims C32, C33, C36, C38, C74 and C100 can be off, and what happens instead *)
From Coq Require Import String Ascii List Bool Arith ZArith QArith Lia.
From Verif Require Import Res Cudd CuddFacts Spec SpecFacts SpecPartial Helpers HelpersFacts Counting Metrics FromPapers Operators Parsing SpecParsing PartialFacts PartialFacts2.
Import List ListNotations.
Open Scope list_scope.
Open Scope nat_scope.

(** C32: the upper bound of approximate_worst_case_error is attained; C33: the relative error has no bound *)
Theorem C32_bound_attained : forall (M : mgr) (N : nat) (n : Z), (1 <= n <= Z.of_nat N + 1)%Z -> S N <= 256 ->
  let f := constant_number (S N) (2 ^ Z.of_nat N) in let g := constant_number (S N) (2 ^ Z.of_nat N - 1) in
  top_difference f g N /\ is_max (fun a => dist (uval f a) (uval g a)) 1
  /\ approximate_worst_case_error M f g n BaseTwo = Ok (2 ^ (Z.of_nat N + 2 - n) - 1)%Z.
Proof. exact awce_worst. Qed.
Print Assumptions C32_bound_attained.
Example C32_bound_case : map (fun n => approximate_worst_case_error (id_mgr 1) [bzero; bzero; bzero; bone] [bone; bone; bone; bzero] n BaseTwo) [1; 2; 3; 4]%Z
  = [Ok 15; Ok 7; Ok 3; Ok 1]%Z.
Proof. vm_compute. reflexivity. Qed.

(** C33: the relative error 4/2^n of the partial theorem cannot be improved by more than a factor close to 1:
    it is (4/2^n) * (2^N - 2^(n-1)) / (2^N + 1) *)
Theorem C33_bound_sharp : forall (M : mgr) (N : nat) (n : Z), (2 <= n <= Z.of_nat N + 1)%Z -> S N <= 256 ->
  let s := (Z.of_nat N + 1 - n)%Z in
  let f := constant_number (S N) (2 ^ Z.of_nat N + 2 ^ s) in let g := constant_number (S N) (2 ^ s - 1) in
  top_difference f g N /\ is_max (fun a => dist (uval f a) (uval g a)) (2 ^ Z.of_nat N + 1)
  /\ approximate_worst_case_error M f g n BaseTwo = Ok (2 ^ Z.of_nat N + 1 + (2 ^ (s + 1) - 2))%Z.
Proof. exact awce_worst_top. Qed.
Print Assumptions C33_bound_sharp.
Example C33_bound_case : (* 2^3 + 2^2 = 12 and 2^2 - 1 = 3 with two bits of precision: 15 instead of 9 *)
  approximate_worst_case_error (id_mgr 1) [bzero; bzero; bone; bone] [bone; bone; bzero; bzero] 2 BaseTwo = Ok 15%Z
  /\ worst_case_error (id_mgr 1) [bzero; bzero; bone; bone] [bone; bone; bzero; bzero] BaseTwo = Ok 9%Z.
Proof. vm_compute. auto. Qed.

(** C36: how far mean_squared_value is off, and exactly when it is right *)
Theorem C36_mean_squared_value_gap : forall (M : mgr) (n : nat) (f : list bdd) (s : nat),
  Forall (wf M) f -> below n f -> (forall b, In b f -> 2 * List.length f + support_size b <= 256) -> largest_support f s ->
  exists q, mean_squared_value M f = Fin q /\
  let e := average n (fun a => inject_Z (uval f a * uval f a)) in
  (q <= e)%Q
  /\ (f <> [] -> e - q < inject_Z ((2 ^ Z.of_nat (List.length f) - 1) * (2 ^ Z.of_nat (List.length f) - 1)) / inject_Z (2 ^ Z.of_nat s))%Q
  /\ ((q == e)%Q <-> forall x y, In x f -> In y f ->
        exists z, (inject_Z (2 ^ Z.of_nat s) * average n (fun a => b2q (ev x a && ev y a)) == inject_Z z)%Q).
Proof. exact mean_squared_value_gap. Qed.
Print Assumptions C36_mean_squared_value_gap.
Example C36_gap_case : (* mean 7/2, result 5/2, the difference 1 is below 3*3/2 *)
  largest_support [bvar 0; bvar 1] 1
  /\ match mean_squared_value (id_mgr 2) [bvar 0; bvar 1] with Fin q => Qred (average 2 (fun a => inject_Z (uval [bvar 0; bvar 1] a * uval [bvar 0; bvar 1] a)) - q) = 1%Q | _ => False end
  /\ Qred (inject_Z (2 ^ 1) * average 2 (fun a => b2q (ev (bvar 0) a && ev (bvar 1) a))) = (1 # 2)%Q.
Proof.
  split; [|vm_compute; auto].
  split; [intros b [<-|[<-|[]]]; vm_compute; auto|right; exists (bvar 0); split; [now left|reflexivity]].
Qed.

(** C38: the same for the mean squared error *)
Theorem C38_mean_squared_error_gap : forall (M : mgr) (n : nat) (f g : list bdd) (r : NumberRepresentation),
  Forall (wf M) f -> Forall (wf M) g -> below n f -> below n g ->
  (r = TwosComplement -> f <> [] /\ g <> []) -> 2 * Nat.max (List.length f) (List.length g) + 2 + n <= 256 ->
  exists d q, bdd_absolute_difference M f g r = Ok d /\ (forall a, uval d a = wrapped r f g a) /\ mean_squared_error M f g r = Ok (Fin q)
  /\ forall s, largest_support d s ->
  let e := average n (fun a => inject_Z (wrapped r f g a * wrapped r f g a)) in
  (q <= e)%Q
  /\ (d <> [] -> e - q < inject_Z ((2 ^ Z.of_nat (List.length d) - 1) * (2 ^ Z.of_nat (List.length d) - 1)) / inject_Z (2 ^ Z.of_nat s))%Q
  /\ ((q == e)%Q <-> forall x y, In x d -> In y d ->
        exists z, (inject_Z (2 ^ Z.of_nat s) * average n (fun a => b2q (ev x a && ev y a)) == inject_Z z)%Q).
Proof. exact mean_squared_error_gap. Qed.
Print Assumptions C38_mean_squared_error_gap.
Example C38_gap_case : (* (x0 + 2 x1) against 0 *)
  match mean_squared_error (id_mgr 2) [bvar 0; bvar 1] [bzero; bzero] BaseTwo with Ok (Fin q) => Qred q = (5 # 2)%Q | _ => False end
  /\ Qred (average 2 (fun a => inject_Z (wrapped BaseTwo [bvar 0; bvar 1] [bzero; bzero] a * wrapped BaseTwo [bvar 0; bvar 1] [bzero; bzero] a))) = (7 # 2)%Q.
Proof. vm_compute. auto. Qed.

(** C74: the names that are registered, and exactly when they are right *)
Theorem C74_registered_names : forall (M : mgr) (evs : list pla_event) (st : pla), pla_run M evs pla_start = Ok st ->
  exists ni, Forall2 words_of (values_of "ilb" evs) ni /\ innames st = concat ni /\ variable_names st = prefixes_joined ni
    /\ (variable_names st = innames st <-> concat (removelast ni) = []).
Proof. exact registered_names. Qed.
Print Assumptions C74_registered_names.
Example C74_registered_case :
  match pla_run (id_mgr 3) [Keyword (ch "ilb") (ch "a"); Keyword (ch "ilb") (ch "b c"); Keyword (ch "ilb") (ch "d")] pla_start with
  | Ok st => innames st = [ch "a"; ch "b"; ch "c"; ch "d"]
             /\ variable_names st = [ch "a"; ch "a"; ch "b"; ch "c"; ch "a"; ch "b"; ch "c"; ch "d"]
  | _ => False
  end
  /\ prefixes_joined [[1]; [2; 3]; [4]] = [1; 1; 2; 3; 1; 2; 3; 4].
Proof. vm_compute. repeat split. Qed.

(** C100: subset_heavy_child and superset_light_child replace every node of the range by the constant when they are
    applied twice; a third time changes nothing *)
Theorem C100_twice_then_stable : forall (M : mgr) (f : bdd) (level_start level_end : nat), wf M f ->
  (exists r s, subset_heavy_child M f level_start level_end = Ok r /\ subset_heavy_child M r level_start level_end = Ok s
     /\ subset_heavy_child M s level_start level_end = Ok s
     /\ at_range level_start level_end (whole_const false) f (ev s))
  /\ (exists r s, superset_light_child M f level_start level_end = Ok r /\ superset_light_child M r level_start level_end = Ok s
     /\ superset_light_child M s level_start level_end = Ok s
     /\ at_range level_start level_end (whole_const true) f (ev s)).
Proof. exact heavy_light_twice. Qed.
Print Assumptions C100_twice_then_stable.
Example C100_twice_case : let M := id_mgr 3 in
  let f := bor M (band M (bvar 0) (bor M (bvar 1) (bvar 2))) (band M (bnot (bvar 0)) (bvar 2)) in
  let g := band M (bvar 0) (band M (bvar 1) (bvar 2)) in
  let twice op f := bind (op f) (fun r => bind (op r) (fun s => Ok (r, s))) in
  twice (fun x => subset_heavy_child M x 1 1) f = Ok (bor M (band M (bvar 0) (band M (bnot (bvar 1)) (bvar 2))) (band M (bnot (bvar 0)) (bvar 2)), band M (bnot (bvar 0)) (bvar 2))
  /\ twice (fun x => superset_light_child M x 1 1) g = Ok (band M (bvar 0) (bor M (bnot (bvar 1)) (bvar 2)), bvar 0).
Proof. vm_compute. auto. Qed.
