(** Properties C167-C168: exactly when the functions on vectors and the error metrics fail, and how. Nothing is assumed of the functions
    (but for the sampling, where they have to be functions of the manager). *)
From Coq Require Import List Bool Arith ZArith QArith Lia.
From Verif Require Import Res Cudd Spec Helpers Counting Metrics RelMetrics Operators Rounded RoundedAdd RoundedMinimize RoundedRel SpecFloat SpecMinimize
  SpecOutcomes CuddFacts HelpersFacts OutcomeFacts OutcomeFacts2.
Import ListNotations.
Open Scope nat_scope.

(** C167: the vector functions are undefined exactly if the second vector is too short, or if there is no sign bit, or no lowest bit; the
    shift, the product with an integer and the division never fail *)
Theorem C167_vectors : forall (M : mgr) (clog2 : Z -> nat) (f g : list bdd) (r : NumberRepresentation) (k z : Z) (extra : nat),
  undefined_iff (bdd_add M f g) (length g < length f)
  /\ undefined_iff (bdd_subtract M f g) (length g < length f)
  /\ undefined_iff (bdd_abs M f r) (r = TwosComplement /\ f = [])
  /\ undefined_iff (bdd_absolute_difference M f g r) (r = TwosComplement /\ (f = [] \/ g = []))
  /\ undefined_iff (bdd_max_one M f) (f = [])
  /\ never_fails (bdd_shift f k)
  /\ never_fails (bdd_multiply_constant_u256 M clog2 f z)
  /\ never_fails (bdd_divide M f g extra)
  /\ undefined_iff (bdd_forest_to_add M f r) (r = TwosComplement /\ f = [])
  /\ undefined_iff (xor_difference_add M f g) (length g < length f)
  /\ undefined_iff (absolute_difference_add M f g r) (r = TwosComplement /\ (f = [] \/ g = [])).
Proof. exact helper_outcomes. Qed.
Print Assumptions C167_vectors.

(** C167: the product with a double *)
Theorem C167_multiply_double : forall (M : mgr) (clog2 : Z -> nat) (f : list bdd) (factor : Q) (extra : nat) (e : failure),
  fails e (bdd_multiply_constant_double M clog2 f factor extra) <->
  (e = Undefined /\ ((factor <= 1 # 2)%Q \/ (factor == inject_Z (2 ^ 256))%Q \/ ((factor < inject_Z (2 ^ 256))%Q /\ 64 <= extra)))
  \/ (e = FailedAssert /\ (inject_Z (2 ^ 256) < factor)%Q).
Proof. exact double_outcomes. Qed.
Print Assumptions C167_multiply_double.
Example C167_case : let M := id_mgr 2 in let f := [bvar 0; bvar 1] in let clog2 := fun z => Z.to_nat (Z.log2_up z) in
  fails Undefined (bdd_add M f [bone]) /\ never_fails (bdd_add M [bone] f) /\ fails Undefined (bdd_absolute_difference M f [] TwosComplement)
  /\ never_fails (bdd_absolute_difference M f [] BaseTwo)
  /\ fails Undefined (bdd_multiply_constant_double M clog2 f (1 # 2) 16) /\ never_fails (bdd_multiply_constant_double M clog2 f (3 # 4) 16)
  /\ fails Undefined (bdd_multiply_constant_double M clog2 f (3 # 4) 64).
Proof. repeat split; try reflexivity; eexists; vm_compute; reflexivity. Qed.

(** C168: the error metrics, exact and for all rounding functions *)
Theorem C168_metrics : forall (rnd dec : Q -> Q) (M : mgr) (f g : list bdd) (r : NumberRepresentation) (n : Z) (extra : nat),
  undefined_iff (error_rate M f g) (length g < length f)
  /\ undefined_iff (error_rate_fl rnd M f g) (length g < length f)
  /\ abort_iff (average_bit_flip_error M f g) (length f <> length g)
  /\ abort_iff (average_bit_flip_error_fl rnd M f g) (length f <> length g)
  /\ undefined_iff (worst_case_error M f g r) (r = TwosComplement /\ (f = [] \/ g = []))
  /\ undefined_iff (worst_case_error_percent M f g r) (r = TwosComplement /\ (f = [] \/ g = []))
  /\ undefined_iff (worst_case_error_percent_fl rnd M f g r) (r = TwosComplement /\ (f = [] \/ g = []))
  /\ undefined_iff (average_case_error M f g r) (r = TwosComplement /\ (f = [] \/ g = []))
  /\ undefined_iff (average_case_error_fl rnd M f g r) (r = TwosComplement /\ (f = [] \/ g = []))
  /\ undefined_iff (mean_squared_error M f g r) (r = TwosComplement /\ (f = [] \/ g = []))
  /\ undefined_iff (mean_squared_error_fl rnd M f g r) (r = TwosComplement /\ (f = [] \/ g = []))
  /\ abort_iff (approximate_worst_case_error M f g n r) (length f <> length g \/ (n < 1)%Z)
  /\ undefined_iff (wcre_bounds M f g r) (f = [] \/ (r = TwosComplement /\ g = []))
  /\ undefined_iff (wcre_bounds_fl dec M f g r) (f = [] \/ (r = TwosComplement /\ g = []))
  /\ undefined_iff (acre_bounds M f g r) (f = [] \/ (r = TwosComplement /\ g = []))
  /\ undefined_iff (acre_bounds_fl rnd dec M f g r) (f = [] \/ (r = TwosComplement /\ g = []))
  /\ undefined_iff (wcre_symbolic_division M f g extra r) (f = [] \/ (r = TwosComplement /\ g = []))
  /\ undefined_iff (wcre_symbolic_division_fl dec M f g extra r) (f = [] \/ (r = TwosComplement /\ g = []))
  /\ undefined_iff (acre_symbolic_division M f g extra r) (f = [] \/ (r = TwosComplement /\ g = []))
  /\ undefined_iff (acre_symbolic_division_fl rnd dec M f g extra r) (f = [] \/ (r = TwosComplement /\ g = [])).
Proof. exact metric_outcomes. Qed.
Print Assumptions C168_metrics.
Example C168_case : let M := id_mgr 2 in let f := [bvar 0; bvar 1] in
  fails Undefined (error_rate M f [bone]) /\ never_fails (error_rate M [bone] f) /\ fails FailedAssert (average_bit_flip_error M [bone] f)
  /\ fails Undefined (wcre_bounds M [] f BaseTwo) /\ never_fails (wcre_bounds M f [] BaseTwo)
  /\ fails FailedAssert (approximate_worst_case_error M f f 0 BaseTwo).
Proof. repeat split; try reflexivity; eexists; vm_compute; reflexivity. Qed.

(** C168: naive sampling *)
Theorem C168_sampling : forall (rnd : Q -> Q) (M : mgr) (draws : nat -> Z) (f g : list bdd) (samples : Z) (e : failure),
  wfs M f -> wfs M g -> below (read_size M) f -> below (read_size M) g ->
  (fails e (error_rate_sampling M draws f g samples) <->
     (e = FailedAssert /\ length f <> length g) \/ (e = Undefined /\ length f = length g /\ (2 ^ 31 <= samples)%Z))
  /\ (fails e (error_rate_sampling_fl rnd M draws f g samples) <->
     (e = FailedAssert /\ length f <> length g) \/ (e = Undefined /\ length f = length g /\ (2 ^ 31 <= samples)%Z)).
Proof. exact sampling_outcomes. Qed.
Print Assumptions C168_sampling.
Example C168_sampling_case : let M := id_mgr 2 in let f := [bvar 0; bvar 1] in
  wfs M f /\ below (read_size M) f
  /\ fails Undefined (error_rate_sampling M (fun _ => 3%Z) f f (2 ^ 31)) /\ never_fails (error_rate_sampling M (fun _ => 3%Z) f f 5)
  /\ fails FailedAssert (error_rate_sampling M (fun _ => 3%Z) f [bone] (2 ^ 31)).
Proof.
  split; [repeat (apply Forall_cons; [apply wf_var|]); apply Forall_nil|].
  split; [repeat (apply Forall_cons; [intros a a' H; rewrite !ev_var; apply H; cbn; lia|]); apply Forall_nil|].
  repeat split; try reflexivity. eexists. vm_compute. reflexivity.
Qed.

(** C168: the rounded metrics on ADDs, and sampling by activation: no exception for any rounding function, and an assertion fails only for
    vectors of different length *)
Theorem C168_rounded : forall (rnd : Q -> Q) (M : mgr) (clog2 : Z -> nat) (sort : list (nat * Q) -> list (nat * Q)) (rand_max : Z) (draws : nat -> Z)
    (f g : list bdd) (r : NumberRepresentation) (samples : Z),
  only_undefined (error_rate_add_fl rnd M f g) /\ only_undefined (average_bit_flip_error_add_fl rnd M f g)
  /\ only_undefined (worst_case_bit_flip_error_add_fl rnd M f g) /\ only_undefined (worst_case_error_add_fl rnd M f g r)
  /\ only_undefined (average_case_error_add_fl rnd M f g r) /\ only_undefined (mean_squared_error_add_fl rnd M f g r)
  /\ only_undefined (wcre_add_fl rnd M f g r) /\ only_undefined (acre_add_fl rnd M f g r)
  /\ (length f = length g -> only_undefined (worst_case_bit_flip_error_fl rnd M f g)
        /\ only_undefined (error_rate_efficient_sampling_fl rnd M sort rand_max draws f g samples))
  /\ (length f <> length g -> fails FailedAssert (worst_case_bit_flip_error_fl rnd M f g)
        /\ fails FailedAssert (error_rate_efficient_sampling_fl rnd M sort rand_max draws f g samples)).
Proof. exact rounded_outcomes. Qed.
Print Assumptions C168_rounded.
Example C168_rounded_case : let M := id_mgr 2 in
  fails FailedAssert (worst_case_bit_flip_error_fl (fun x => x) M [bvar 0] []) /\ fails Undefined (error_rate_add_fl (fun x => x) M [bvar 0] []).
Proof. split; reflexivity. Qed.

(** C168: the two searches with rounding *)
Theorem C168_searches : forall (rnd : Q -> Q) (M : mgr) (clog2 : Z -> nat) (rand_max : Z) (draws : nat -> Z) (f g : list bdd) (r : NumberRepresentation)
    (extra samples fuel : nat) (precision : Q),
  (forall o, wcre_randomized_search_fl rnd M clog2 rand_max draws f g samples r fuel = Some o -> only_undefined o)
  /\ (rounds_to_nearest 53 rnd -> forall o, wcre_search_fl rnd M clog2 f g extra precision r fuel = Some o -> only_undefined o).
Proof. exact search_outcomes. Qed.
Print Assumptions C168_searches.
Example C168_searches_case : let M := id_mgr 1 in let clog2 := fun z => Z.to_nat (Z.log2_up z) in
  wcre_search_fl (fun x => x) M clog2 [] [bone] 16 (1 # 100) BaseTwo 9 = Some UB
  /\ wcre_randomized_search_fl (fun x => x) M clog2 7 (fun _ => 3%Z) [bone] [bvar 0] 1 BaseTwo 9 = Some (Ok (1%Z, 1%Z)).
Proof. split; vm_compute; reflexivity. Qed.
