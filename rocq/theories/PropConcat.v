(** Property C187: the outputs of both functions are split into a low part [f], [g] and a high part [f'], [g']. *)
From Coq Require Import List Bool Arith ZArith QArith.
From Verif Require Import Res Cudd CuddFacts Spec Helpers Counting Metrics ConcatFacts.
Import ListNotations.
Open Scope Z_scope.

(** C187 *)
Theorem C187_error_rate : forall (M : mgr) (f g f' g' : list bdd),
  Forall (wf M) f -> Forall (wf M) g -> Forall (wf M) f' -> Forall (wf M) g' -> length f = length g -> length f' = length g' ->
  forall n, below n f -> below n g -> below n f' -> below n g' ->
  exists q l h, error_rate M (f ++ f') (g ++ g') = Ok q /\ error_rate M f g = Ok l /\ error_rate M f' g' = Ok h
    /\ (l <= q /\ h <= q /\ q <= l + h)%Q.
Proof. exact parts_error_rate. Qed.
Print Assumptions C187_error_rate.
Theorem C187_average_bit_flip_error : forall (M : mgr) (f g f' g' : list bdd),
  Forall (wf M) f -> Forall (wf M) g -> Forall (wf M) f' -> Forall (wf M) g' -> length f = length g -> length f' = length g' ->
  forall n, below n f -> below n g -> below n f' -> below n g' ->
  exists q l h, average_bit_flip_error M (f ++ f') (g ++ g') = Ok q /\ average_bit_flip_error M f g = Ok l
    /\ average_bit_flip_error M f' g' = Ok h /\ (q == l + h)%Q.
Proof. exact parts_average_flips. Qed.
Print Assumptions C187_average_bit_flip_error.
Theorem C187_worst_case_bit_flip_error : forall (M : mgr) (f g f' g' : list bdd),
  Forall (wf M) f -> Forall (wf M) g -> Forall (wf M) f' -> Forall (wf M) g' -> length f = length g -> length f' = length g' ->
  Z.of_nat (length f + length f') < 2 ^ 32 ->
  exists q l h, worst_case_bit_flip_error M (f ++ f') (g ++ g') = Ok q /\ worst_case_bit_flip_error M f g = Ok l
    /\ worst_case_bit_flip_error M f' g' = Ok h /\ l <= q /\ h <= q /\ q <= l + h.
Proof. exact parts_worst_flips. Qed.
Print Assumptions C187_worst_case_bit_flip_error.
Theorem C187_worst_case_error : forall (M : mgr) (f g f' g' : list bdd),
  Forall (wf M) f -> Forall (wf M) g -> Forall (wf M) f' -> Forall (wf M) g' -> length f = length g -> length f' = length g' ->
  (length f + length f' <= 256)%nat ->
  let k := 2 ^ Z.of_nat (length f) in
  exists q l h, worst_case_error M (f ++ f') (g ++ g') BaseTwo = Ok q /\ worst_case_error M f g BaseTwo = Ok l
    /\ worst_case_error M f' g' BaseTwo = Ok h /\ k * h - l <= q /\ l - k * h <= q /\ q <= l + k * h.
Proof. exact parts_worst. Qed.
Print Assumptions C187_worst_case_error.
Theorem C187_average_case_error : forall (M : mgr) (f g f' g' : list bdd),
  Forall (wf M) f -> Forall (wf M) g -> Forall (wf M) f' -> Forall (wf M) g' -> length f = length g -> length f' = length g' ->
  forall n, below n f -> below n g -> below n f' -> below n g' -> (length f + length f' + n < 256)%nat ->
  let k := inject_Z (2 ^ Z.of_nat (length f)) in
  exists q l h, average_case_error M (f ++ f') (g ++ g') BaseTwo = Ok (Fin q) /\ average_case_error M f g BaseTwo = Ok (Fin l)
    /\ average_case_error M f' g' BaseTwo = Ok (Fin h) /\ (k * h - l <= q /\ l - k * h <= q /\ q <= l + k * h)%Q.
Proof. exact parts_average. Qed.
Print Assumptions C187_average_case_error.
(** low part x0 x1 against x0 0, high part x1 against x0 *)
Example C187_case : let M := id_mgr 2 in let f := [bvar 0; bvar 1] in let g := [bvar 0; bzero] in let f' := [bvar 1] in let g' := [bvar 0] in
  (worst_case_error M (f ++ f') (g ++ g') BaseTwo, worst_case_error M f g BaseTwo, worst_case_error M f' g' BaseTwo) = (Ok 6, Ok 2, Ok 1)
  /\ (worst_case_bit_flip_error M (f ++ f') (g ++ g'), worst_case_bit_flip_error M f g, worst_case_bit_flip_error M f' g') = (Ok 2, Ok 1, Ok 1)
  /\ match error_rate M (f ++ f') (g ++ g'), error_rate M f g, error_rate M f' g' with
     | Ok q, Ok l, Ok h => (Qred q, Qred l, Qred h) = (3 # 4, 1 # 2, 1 # 2)%Q | _, _, _ => False end.
Proof. vm_compute. auto. Qed.
