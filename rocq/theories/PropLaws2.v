(** Properties C185, C186: complementing and reordering the outputs. *)
From Coq Require Import List Bool Arith ZArith QArith Permutation.
From Verif Require Import Res Cudd CuddFacts Spec SpecLaws Helpers Counting Metrics Ieee Ieee3 LawFacts2.
Import ListNotations.
Open Scope Z_scope.

(** C185: any set [s] of outputs is complemented in both functions *)
Theorem C185_complemented_outputs : forall (count : bdd -> nat -> dbl) (M : mgr) (f g : list bdd) (s : list bool),
  length s = length f -> length f = length g -> Forall (wf M) f -> Forall (wf M) g ->
  error_rate M (complement_outputs s f) (complement_outputs s g) = error_rate M f g
  /\ error_rate_d count M (complement_outputs s f) (complement_outputs s g) = error_rate_d count M f g
  /\ average_bit_flip_error M (complement_outputs s f) (complement_outputs s g) = average_bit_flip_error M f g
  /\ average_bit_flip_error_d count M (complement_outputs s f) (complement_outputs s g) = average_bit_flip_error_d count M f g
  /\ worst_case_bit_flip_error M (complement_outputs s f) (complement_outputs s g) = worst_case_bit_flip_error M f g.
Proof. exact bitwise_complement. Qed.
Print Assumptions C185_complemented_outputs.
Theorem C185_complemented_numbers : forall (M : mgr) (f g : list bdd) (r : NumberRepresentation),
  length f = length g -> Forall (wf M) f -> Forall (wf M) g ->
  worst_case_error M (map bnot f) (map bnot g) r = worst_case_error M f g r
  /\ average_case_error M (map bnot f) (map bnot g) r = average_case_error M f g r
  /\ mean_squared_error M (map bnot f) (map bnot g) r = mean_squared_error M f g r.
Proof. exact arithmetic_complement. Qed.
Print Assumptions C185_complemented_numbers.
(** the outputs of both functions are reordered in the same way *)
Theorem C185_reordered_outputs : forall (count : bdd -> nat -> dbl) (M : mgr) (f g f' g' : list bdd),
  length f = length g -> length f' = length g' -> Forall (wf M) f -> Forall (wf M) g ->
  Permutation (combine f g) (combine f' g') ->
  error_rate M f' g' = error_rate M f g /\ error_rate_d count M f' g' = error_rate_d count M f g.
Proof. exact error_rate_permutation. Qed.
Print Assumptions C185_reordered_outputs.
Definition flip_f : list bdd := [bvar 0; band (id_mgr 2) (bvar 0) (bvar 1); bvar 1].
Definition flip_g : list bdd := [bvar 0; bzero; bvar 0].
Example C185_case : let M := id_mgr 2 in let s := [true; false; true] in
  complement_outputs s flip_f = [bnot (bvar 0); band M (bvar 0) (bvar 1); bnot (bvar 1)]
  /\ worst_case_bit_flip_error M flip_f flip_g = Ok 1
  /\ worst_case_bit_flip_error M (complement_outputs s flip_f) (complement_outputs s flip_g) = Ok 1
  /\ worst_case_error M flip_f flip_g BaseTwo = Ok 4 /\ worst_case_error M (map bnot flip_f) (map bnot flip_g) BaseTwo = Ok 4
  (* complementing one output only can change the arithmetic errors *)
  /\ worst_case_error M [bvar 0; bvar 0] [bzero; bzero] BaseTwo = Ok 3
  /\ worst_case_error M [bnot (bvar 0); bvar 0] [bone; bzero] BaseTwo = Ok 1.
Proof. vm_compute. auto 10. Qed.

(** C186: complementing both sign bits and measuring unsigned gives the errors of the signed numbers *)
Theorem C186_worst_case_error : forall (M : mgr) (f g : list bdd) (s t : bdd),
  Forall (wf M) f -> Forall (wf M) g -> wf M s -> wf M t -> length f = length g -> (length f <= 255)%nat ->
  exists m, worst_case_error M (f ++ [bnot s]) (g ++ [bnot t]) BaseTwo = Ok m
    /\ is_max (fun a => dist (sval (f ++ [s]) a) (sval (g ++ [t]) a)) m.
Proof. exact signed_worst. Qed.
Print Assumptions C186_worst_case_error.
Theorem C186_average_case_error : forall (M : mgr) (n : nat) (f g : list bdd) (s t : bdd),
  Forall (wf M) f -> Forall (wf M) g -> wf M s -> wf M t ->
  below n f -> below n g -> depends_below n s -> depends_below n t -> length f = length g -> (length f + n < 255)%nat ->
  exists q, average_case_error M (f ++ [bnot s]) (g ++ [bnot t]) BaseTwo = Ok (Fin q)
    /\ (q == average n (fun a => inject_Z (dist (sval (f ++ [s]) a) (sval (g ++ [t]) a))))%Q.
Proof. exact signed_average. Qed.
Print Assumptions C186_average_case_error.
Example C186_case : (* the witness of C05: 1 and -2 on two bits *)
  worst_case_error (id_mgr 1) ([bone] ++ [bzero]) ([bzero] ++ [bone]) TwosComplement = Ok 1
  /\ worst_case_error (id_mgr 1) ([bone] ++ [bnot bzero]) ([bzero] ++ [bnot bone]) BaseTwo = Ok 3
  /\ (match average_case_error (id_mgr 2) ([bvar 0] ++ [bnot (bvar 1)]) ([bone] ++ [bnot bzero]) BaseTwo with
      | Ok (Fin q) => Qred q = (3 # 2)%Q | _ => False end).
Proof. vm_compute. auto. Qed.
