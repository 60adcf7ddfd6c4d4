(** Properties C151-C152: the bounds of the relative error and the symbolic division
    (src/error_metrics/worst_case_relative_error.cpp:218-281, src/error_metrics/average_case_relative_error.cpp:12-52,
    src/error_metrics/average_case_relative_error.cpp:80-98): their exact values, and their growth with the range of levels. *)
From Coq Require Import List Bool Arith ZArith QArith Qround Lia.
From Verif Require Import Res Cudd CuddFacts Spec SpecBounds SpecOperators Helpers HelpersFacts Examples Counting Metrics RelMetrics Operators BoundsFacts RangeFacts2.
Import ListNotations.
Open Scope nat_scope.

(** C151: the bounds are the largest (the average) distance divided by the largest number with as many bits as the
    reference value, and by the power of two below it *)
Theorem C151_wcre_bounds_value : forall (M : mgr) (n : nat) (f g : list bdd) (r : NumberRepresentation),
  Forall (wf M) f -> Forall (wf M) g -> below n f -> below n g -> f <> [] ->
  (r = TwosComplement -> g <> []) -> length f <= 256 -> length g <= 256 ->
  exists lo hi, wcre_bounds M f g r = Ok (lo, hi) /\ is_maxQ (low_rel r f g) lo /\ is_maxQ (high_rel r f g) hi.
Proof. exact wcre_bounds_exact. Qed.
Print Assumptions C151_wcre_bounds_value.
Theorem C151_acre_bounds_value : forall (M : mgr) (n : nat) (f g : list bdd) (r : NumberRepresentation),
  Forall (wf M) f -> Forall (wf M) g -> below n f -> below n g -> f <> [] ->
  (r = TwosComplement -> g <> []) -> Nat.max (length f) (length g) + n < 256 ->
  exists lo hi, acre_bounds M f g r = Ok (Fin lo, Fin hi)
    /\ (lo == average n (low_rel r f g))%Q /\ (hi == average n (high_rel r f g))%Q.
Proof. exact acre_bounds_exact. Qed.
Print Assumptions C151_acre_bounds_value.
(** the division rounds every relative error down to [e] binary digits *)
Theorem C151_acre_division_value : forall (M : mgr) (n : nat) (f g : list bdd) (e : nat) (r : NumberRepresentation),
  Forall (wf M) f -> Forall (wf M) g -> below n f -> below n g -> f <> [] ->
  (r = TwosComplement -> g <> []) -> Nat.max (length f) (length g) + e + n + 3 <= 256 ->
  exists q, acre_symbolic_division M f g e r = Ok (Fin q)
    /\ (q == average n (fun a => inject_Z (Qfloor (wrel r f g a * inject_Z (2 ^ Z.of_nat e)))) / inject_Z (2 ^ Z.of_nat e))%Q.
Proof. exact acre_division_exact. Qed.
Print Assumptions C151_acre_division_value.
Example C151_case : (* two outputs; the bounds and the average quotients with no and one binary digit *)
  let M := id_mgr 2 in let f := [bvar 0; bvar 1] in let g := [bone; bone] in
  map (fun a => (Qred (low_rel BaseTwo f g a), Qred (high_rel BaseTwo f g a)))
    [fun _ => false; fun i => i =? 0; fun i => i =? 1; fun _ => true] = [(3, 3); (2, 2); (1#3, 1#2); (0, 0)]%Q
  /\ match wcre_bounds M f g BaseTwo, acre_bounds M f g BaseTwo with
     | Ok (p, q), Ok (Fin p', Fin q') => (Qred p, Qred q, Qred p', Qred q') = (3, 3, 4#3, 11#8)%Q
     | _, _ => False
     end
  /\ map (fun e => match acre_symbolic_division M f g e BaseTwo with Ok (Fin q) => Qred q | _ => 9%Q end) [0; 1] = [5#4; 11#8]%Q
  /\ (all_ones (2 ^ 52), all_ones (2 ^ 53)) = (2 ^ 53 - 1, 2 ^ 54)%Z.
Proof. vm_compute. auto. Qed.

(** C152: with a larger range of levels no relative metric of the one-sided operators decreases, nor the mean squared
    error computed with ADDs *)
Theorem C152_range_relative : forall (M : mgr) (n ls le ls' le' k : nat) (op op' : bdd -> res bdd) (f g h : list bdd) (e : nat),
  wfs M f -> below n f -> f <> [] -> length f + n + e + 3 <= 256 ->
  ls' <= ls -> ls <= le -> le <= le' -> k < 6 ->
  nth_error (the_operators M ls le) k = Some op -> nth_error (the_operators M ls' le') k = Some op' ->
  Forall2 (fun x y => op x = Ok y) f g -> Forall2 (fun x y => op' x = Ok y) f h ->
  (exists lo hi lo' hi', wcre_bounds M f g BaseTwo = Ok (lo, hi) /\ wcre_bounds M f h BaseTwo = Ok (lo', hi')
     /\ (lo <= lo')%Q /\ (hi <= hi')%Q)
  /\ (exists lo hi lo' hi', acre_bounds M f g BaseTwo = Ok (Fin lo, Fin hi) /\ acre_bounds M f h BaseTwo = Ok (Fin lo', Fin hi')
     /\ (lo <= lo')%Q /\ (hi <= hi')%Q)
  /\ (exists q q', wcre_symbolic_division M f g e BaseTwo = Ok q /\ wcre_symbolic_division M f h e BaseTwo = Ok q' /\ (q <= q')%Q)
  /\ (exists q q', acre_symbolic_division M f g e BaseTwo = Ok (Fin q) /\ acre_symbolic_division M f h e BaseTwo = Ok (Fin q')
     /\ (q <= q')%Q)
  /\ (index_order M -> n <= 63 ->
     (exists q q', wcre_add M f g BaseTwo = Ok q /\ wcre_add M f h BaseTwo = Ok q' /\ (q <= q')%Q)
     /\ (exists q q', acre_add M f g BaseTwo = Ok (Fin q) /\ acre_add M f h BaseTwo = Ok (Fin q') /\ (q <= q')%Q)
     /\ (2 * length f + n <= 256 -> exists q q', mean_squared_error_add M f g BaseTwo = Ok (Fin q)
           /\ mean_squared_error_add M f h BaseTwo = Ok (Fin q') /\ (q <= q')%Q)).
Proof. exact range_relative. Qed.
Print Assumptions C152_range_relative.
Example C152_case : (* conjunction and disjunction of two variables, enlarged at level 1 and at levels 0 and 1 *)
  let M := id_mgr 2 in let f := [band M (bvar 0) (bvar 1); bor M (bvar 0) (bvar 1)] in
  let go ls le := map (fun x => match superset_light_child M x ls le with Ok r => r | _ => x end) f in
  let num r := match r with Ok (Fin q) => Qred q | _ => 9%Q end in
  map (fun g => (match wcre_bounds M f g BaseTwo with Ok (p, q) => (Qred p, Qred q) | _ => (9, 9)%Q end,
                 match wcre_add M f g BaseTwo with Ok p => Qred p | _ => 9%Q end,
                 num (acre_add M f g BaseTwo), num (mean_squared_error_add M f g BaseTwo))) [go 1 1; go 0 1]
  = [((2, 2), 2, 5#8, 5#4); ((3, 3), 3, 1, 11#4)]%Q.
Proof. vm_compute. auto. Qed.
