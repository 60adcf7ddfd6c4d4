(** Property C188: exactly when the ADD variants of the metrics, the largest number of flipped bits and the metrics on doubles fail, and how. *)
From Coq Require Import List Bool Arith ZArith QArith Lia.
From Verif Require Import Res Cudd Spec Helpers Counting Metrics RelMetrics SpecMinimize SpecPaths SpecOutcomes Ieee Ieee3 CuddFacts HelpersFacts AddFacts OutcomeFacts3.
Import ListNotations.
Open Scope nat_scope.

(** C188: the ADD variants that use numbers, with any number of variables *)
Theorem C188_arithmetic_add : forall (M : mgr) (f g : list bdd) (r : NumberRepresentation),
  index_order M -> Forall (wf M) f -> Forall (wf M) g -> (r = TwosComplement -> f <> [] /\ g <> []) ->
  exists A, absolute_difference_add M f g r = Ok A /\ forall t, depth A t ->
    undefined_iff (worst_case_error_add M f g r) (long_edge t A)
    /\ undefined_iff (average_case_error_add M f g r) (long_edge t A)
    /\ undefined_iff (mean_squared_error_add M f g r) (long_edge t A).
Proof. exact arithmetic_add_failures. Qed.
Print Assumptions C188_arithmetic_add.
Example C188_arithmetic_add_case : let M := id_mgr 65 in
  mean_squared_error_add M [bvar 64] [bzero] BaseTwo = UB /\ average_case_error_add M [bvar 64] [bzero] BaseTwo = UB
  /\ match average_case_error_add M [bvar 63; bvar 64] [bvar 2; bzero] BaseTwo with Ok _ => True | _ => False end.
Proof. vm_compute. auto. Qed.

(** C188: the relative errors *)
Theorem C188_relative_add : forall (M : mgr) (n : nat) (f g : list bdd) (r : NumberRepresentation),
  index_order M -> Forall (wf M) f -> Forall (wf M) g -> below n f -> below n g -> (r = TwosComplement -> f <> [] /\ g <> []) ->
  exists A, relative_add M f g r = Ok A /\ forall t, depth A t ->
    undefined_iff (wcre_add M f g r) (long_edge t A) /\ undefined_iff (acre_add M f g r) (long_edge t A).
Proof. exact relative_add_failures. Qed.
Print Assumptions C188_relative_add.
Example C188_relative_add_case : let M := id_mgr 65 in
  acre_add M [bvar 64] [bzero] BaseTwo = UB /\ wcre_add M [bvar 64] [bzero] BaseTwo = UB
  /\ match acre_add M [bvar 63; bvar 64] [bvar 2; bzero] BaseTwo with Ok _ => True | _ => False end.
Proof. vm_compute. auto. Qed.

(** C188: the ADD variants that use the outputs bit by bit; the bits of a difference are counted in 64 bits *)
Theorem C188_bitwise_add : forall (M : mgr) (f g : list bdd),
  index_order M -> Forall (wf M) f -> Forall (wf M) g -> length f = length g ->
  exists A, xor_difference_add M f g = Ok A /\ forall t, depth A t ->
    undefined_iff (error_rate_add M f g) (long_edge t A)
    /\ undefined_iff (average_bit_flip_error_add M f g) (long_edge t A \/ high_difference f g)
    /\ undefined_iff (worst_case_bit_flip_error_add M f g) (long_edge t A \/ high_difference f g).
Proof. exact bitwise_add_failures. Qed.
Print Assumptions C188_bitwise_add.
Example C188_bitwise_add_case : let M := id_mgr 1 in let f := repeat bzero 64 ++ [bvar 0] in let g := repeat (bvar 0) 64 ++ [bvar 0] in
  worst_case_bit_flip_error_add M f (repeat bzero 65) = UB /\ average_bit_flip_error_add M f (repeat bzero 65) = UB
  /\ worst_case_bit_flip_error_add M f g = Ok 64%Z /\ worst_case_bit_flip_error M f (repeat bzero 65) = Ok 1%Z
  /\ error_rate_add (id_mgr 65) [bvar 64] [bzero] = UB.
Proof. vm_compute. auto 6. Qed.

(** C188: up to 64 variables no edge is too long *)
Theorem C188_add_64 : forall (M : mgr) (n : nat) (f g : list bdd) (r : NumberRepresentation),
  index_order M -> Forall (wf M) f -> Forall (wf M) g -> below n f -> below n g -> n <= 64 ->
  ((r = TwosComplement -> f <> [] /\ g <> []) ->
     never_fails (worst_case_error_add M f g r) /\ never_fails (average_case_error_add M f g r) /\ never_fails (mean_squared_error_add M f g r))
  /\ (length f = length g ->
     never_fails (error_rate_add M f g)
     /\ undefined_iff (average_bit_flip_error_add M f g) (high_difference f g)
     /\ undefined_iff (worst_case_bit_flip_error_add M f g) (high_difference f g)).
Proof. exact add_failures_64. Qed.
Print Assumptions C188_add_64.
Example C188_add_64_case : high_difference (repeat bzero 64 ++ [bvar 0]) (repeat bzero 65) /\ ~ high_difference [bvar 0; bone] [bzero; bvar 1].
Proof.
  split.
  - exists 64, (fun _ => true). split; [lia|]. vm_compute. discriminate.
  - intros (i & a & Hi & H). apply H. rewrite !nth_overflow by (cbn; lia). reflexivity.
Qed.

(** C188: the largest number of flipped bits is an unsigned int *)
Theorem C188_worst_case_bit_flip_error : forall (M : mgr) (f g : list bdd) (e : failure), Forall (wf M) f -> Forall (wf M) g ->
  (fails e (worst_case_bit_flip_error M f g) <->
   (e = FailedAssert /\ length f <> length g) \/ (e = Undefined /\ length f = length g /\ exists a, (2 ^ 32 <= hamming f g a)%Z)).
Proof. exact worst_flip_failures. Qed.
Print Assumptions C188_worst_case_bit_flip_error.
Example C188_worst_case_bit_flip_error_case : let M := id_mgr 2 in
  worst_case_bit_flip_error M [bvar 0] [] = Abort /\ worst_case_bit_flip_error M [bvar 0; bvar 1] [bvar 1; bvar 0] = Ok 2%Z.
Proof. vm_compute. auto. Qed.

(** C188: the two metrics computed on IEEE doubles, whatever the counts of CUDD are *)
Theorem C188_doubles : forall (count : bdd -> nat -> dbl) (M : mgr) (f g : list bdd),
  undefined_iff (error_rate_d count M f g) (length g < length f)
  /\ abort_iff (average_bit_flip_error_d count M f g) (length f <> length g).
Proof. exact double_failures. Qed.
Print Assumptions C188_doubles.
Example C188_doubles_case : let M := id_mgr 1 in let count := fun (_ : bdd) (_ : nat) => DFin 1 in
  error_rate_d count M [bvar 0] [] = UB /\ average_bit_flip_error_d count M [bvar 0] [] = Abort
  /\ match error_rate_d count M [] [bvar 0] with Ok _ => True | _ => False end.
Proof. vm_compute. auto. Qed.
