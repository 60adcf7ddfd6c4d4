(** Properties C182, C183: algebraic laws of the vector operations and of the metrics, as equality of the results
    themselves (the same diagrams, the same number, the same failure). *)
From Coq Require Import List Bool Arith ZArith QArith.
From Verif Require Import Res Cudd CuddFacts Spec Helpers HelpersFacts HelpersFacts2 Counting Metrics Ieee Ieee3 LawFacts.
Import ListNotations.
Open Scope Z_scope.

(** C182 *)
Theorem C182_add_commutes : forall (M : mgr) (f g : list bdd), length f = length g ->
  Forall (wf M) f -> Forall (wf M) g -> bdd_add M f g = bdd_add M g f.
Proof. exact add_commutes. Qed.
Print Assumptions C182_add_commutes.
Theorem C182_add_associates : forall (M : mgr) (f g h : list bdd), length f = length g -> length g = length h ->
  Forall (wf M) f -> Forall (wf M) g -> Forall (wf M) h ->
  (x <- bdd_add M f g ;; bdd_add M x h) = (y <- bdd_add M g h ;; bdd_add M f y)
  /\ exists r, (x <- bdd_add M f g ;; bdd_add M x h) = Ok r.
Proof. exact add_associates. Qed.
Print Assumptions C182_add_associates.
Theorem C182_subtract_inverts_add : forall (M : mgr) (f g : list bdd), length f = length g ->
  Forall (wf M) f -> Forall (wf M) g ->
  (x <- bdd_add M f g ;; bdd_subtract M x g) = Ok f /\ (x <- bdd_subtract M f g ;; bdd_add M x g) = Ok f.
Proof. exact subtract_of_add. Qed.
Print Assumptions C182_subtract_inverts_add.
Theorem C182_subtract_self : forall (M : mgr) (f : list bdd), Forall (wf M) f ->
  bdd_subtract M f f = Ok (repeat bzero (length f)).
Proof. exact subtract_self. Qed.
Print Assumptions C182_subtract_self.
Theorem C182_add_zero : forall (M : mgr) (f : list bdd), Forall (wf M) f ->
  bdd_add M f (repeat bzero (length f)) = Ok f.
Proof. exact add_zero. Qed.
Print Assumptions C182_add_zero.
Theorem C182_add_self_is_shift : forall (M : mgr) (f : list bdd), Forall (wf M) f ->
  bdd_add M f f = bdd_shift f 1.
Proof. exact add_self. Qed.
Print Assumptions C182_add_self_is_shift.
Theorem C182_shifts_compose : forall (M : mgr) (f : list bdd) (j k : Z), Forall (wf M) f ->
  (0 <= j /\ 0 <= k \/ j <= 0 /\ k <= 0) ->
  (x <- bdd_shift f j ;; bdd_shift x k) = bdd_shift f (j + k) /\ exists r, bdd_shift f (j + k) = Ok r.
Proof. exact shift_shift. Qed.
Print Assumptions C182_shifts_compose.
Theorem C182_divide_inverts_multiply : forall (M : mgr) (clog2 : Z -> nat) (f : list bdd) (c : Z),
  clog2_ok clog2 -> 0 < c < 2 ^ 256 -> Forall (wf M) f ->
  (x <- bdd_multiply_constant_u256 M clog2 f c ;; bdd_divide M x (number_to_bdds c) 0)
  = Ok (f ++ repeat bzero (clog2 c + 4)).
Proof. exact divide_of_multiply. Qed.
Print Assumptions C182_divide_inverts_multiply.
Definition law_f : list bdd := [bvar 0; bxor (id_mgr 3) (bvar 1) (bvar 2); bvar 2].
Definition law_g : list bdd := [bvar 2; bnot (bvar 1); band (id_mgr 3) (bvar 0) (bvar 1)].
Example C182_case : let M := id_mgr 3 in
  (exists r, bdd_add M law_f law_g = Ok r /\ bdd_add M law_g law_f = Ok r /\ bdd_subtract M r law_g = Ok law_f
     /\ r <> law_f /\ uval r (fun i => i =? 0)%nat = 3 /\ uval law_f (fun i => i =? 0)%nat = 1)
  /\ (x <- bdd_shift law_f 1 ;; bdd_shift x 1) = Ok [bzero; bzero; bvar 0]
  /\ (x <- bdd_shift law_f (-1) ;; bdd_shift x (-1)) = Ok [bvar 2; bzero; bzero]
  (* shifts in opposite directions lose bits *)
  /\ (x <- bdd_shift law_f 1 ;; bdd_shift x (-1)) <> bdd_shift law_f 0
  /\ (x <- bdd_multiply_constant_u256 M (fun z => Z.to_nat (Z.log2_up z)) law_f 5 ;; bdd_divide M x (number_to_bdds 5) 0)
     = Ok (law_f ++ repeat bzero 7).
Proof.
  split; [eexists; split; [vm_compute; reflexivity|]; repeat split; try (vm_compute; reflexivity); vm_compute; discriminate|].
  repeat split; try (vm_compute; reflexivity); vm_compute; discriminate.
Qed.

(** C183 *)
Theorem C183_absolute_difference : forall (M : mgr) (f g : list bdd) (r : NumberRepresentation),
  Forall (wf M) f -> Forall (wf M) g -> bdd_absolute_difference M f g r = bdd_absolute_difference M g f r.
Proof. exact absdiff_swap. Qed.
Print Assumptions C183_absolute_difference.
Theorem C183_worst_case_error : forall (M : mgr) (f g : list bdd) (r : NumberRepresentation),
  Forall (wf M) f -> Forall (wf M) g -> worst_case_error M f g r = worst_case_error M g f r.
Proof. exact worst_case_error_swap. Qed.
Print Assumptions C183_worst_case_error.
Theorem C183_approximate_worst_case_error : forall (M : mgr) (f g : list bdd) (n : Z) (r : NumberRepresentation),
  Forall (wf M) f -> Forall (wf M) g ->
  approximate_worst_case_error M f g n r = approximate_worst_case_error M g f n r.
Proof. exact approximate_worst_case_error_swap. Qed.
Print Assumptions C183_approximate_worst_case_error.
Theorem C183_average_case_error : forall (M : mgr) (f g : list bdd) (r : NumberRepresentation),
  Forall (wf M) f -> Forall (wf M) g -> average_case_error M f g r = average_case_error M g f r.
Proof. exact average_case_error_swap. Qed.
Print Assumptions C183_average_case_error.
Theorem C183_mean_squared_error : forall (M : mgr) (f g : list bdd) (r : NumberRepresentation),
  Forall (wf M) f -> Forall (wf M) g -> mean_squared_error M f g r = mean_squared_error M g f r.
Proof. exact mean_squared_error_swap. Qed.
Print Assumptions C183_mean_squared_error.
Theorem C183_average_bit_flip_error : forall (M : mgr) (f g : list bdd),
  Forall (wf M) f -> Forall (wf M) g -> average_bit_flip_error M f g = average_bit_flip_error M g f.
Proof. exact average_bit_flip_error_swap. Qed.
Print Assumptions C183_average_bit_flip_error.
Theorem C183_average_bit_flip_error_doubles : forall (count : bdd -> nat -> dbl) (M : mgr) (f g : list bdd),
  Forall (wf M) f -> Forall (wf M) g -> average_bit_flip_error_d count M f g = average_bit_flip_error_d count M g f.
Proof. exact average_bit_flip_error_d_swap. Qed.
Print Assumptions C183_average_bit_flip_error_doubles.
Theorem C183_worst_case_bit_flip_error : forall (M : mgr) (f g : list bdd),
  Forall (wf M) f -> Forall (wf M) g -> worst_case_bit_flip_error M f g = worst_case_bit_flip_error M g f.
Proof. exact worst_case_bit_flip_error_swap. Qed.
Print Assumptions C183_worst_case_bit_flip_error.
Theorem C183_error_rate : forall (M : mgr) (f g : list bdd), length f = length g ->
  Forall (wf M) f -> Forall (wf M) g -> error_rate M f g = error_rate M g f.
Proof. exact error_rate_swap. Qed.
Print Assumptions C183_error_rate.
Theorem C183_error_rate_doubles : forall (count : bdd -> nat -> dbl) (M : mgr) (f g : list bdd), length f = length g ->
  Forall (wf M) f -> Forall (wf M) g -> error_rate_d count M f g = error_rate_d count M g f.
Proof. exact error_rate_d_swap. Qed.
Print Assumptions C183_error_rate_doubles.
(** without equal lengths error_rate depends on the order of its arguments *)
Theorem C183_error_rate_needs_lengths : exists (M : mgr) (f g : list bdd),
  Forall (wf M) f /\ Forall (wf M) g /\ error_rate M f g <> error_rate M g f.
Proof.
  exists (id_mgr 1), [bone], []. split; [repeat constructor; auto with wf|]. split; [constructor|]. vm_compute. discriminate.
Qed.
Print Assumptions C183_error_rate_needs_lengths.
Example C183_case : let M := id_mgr 3 in
  worst_case_error M law_f law_g BaseTwo = Ok 4 /\ worst_case_error M law_g law_f BaseTwo = Ok 4
  /\ worst_case_error M law_f law_g TwosComplement = Ok 4 /\ worst_case_error M law_g law_f TwosComplement = Ok 4
  /\ bdd_absolute_difference M law_f law_g TwosComplement = bdd_absolute_difference M law_g law_f TwosComplement
  /\ bdd_subtract M law_f law_g <> bdd_subtract M law_g law_f.
Proof. repeat split; try (vm_compute; reflexivity). vm_compute. discriminate. Qed.
