(** Properties C112 and C120: rounding in the metrics that are computed with ADDs (RoundedAdd.v). [rnd] rounds the result
    of every operation on doubles; it is any function that keeps the numbers with 53 significant bits, and in
    the second part has a relative error of at most [u]. *)
From Coq Require Import List Bool Arith ZArith QArith Lia.
From Verif Require Import Res Cudd CuddFacts Spec SpecFloat Float FloatFacts Helpers Counting Metrics RelMetrics RoundedFacts2 RoundedAdd RoundedAddFacts2 RoundedAddFacts3.
Import ListNotations.
Open Scope nat_scope.

(** C112: no error for up to 53 outputs *)
Theorem C112_exact : forall (rnd : Q -> Q) (M : mgr) (f g : list bdd),
  keeps_floats 53 rnd -> Forall (wf M) f -> Forall (wf M) g ->
  (length f <= 53 -> worst_case_bit_flip_error_add_fl rnd M f g = worst_case_bit_flip_error_add M f g)
  /\ ((Z.of_nat (length f) <= 2 ^ 53)%Z -> worst_case_bit_flip_error_fl rnd M f g = worst_case_bit_flip_error M f g)
  /\ forall r, length f <= 53 -> length g <= 53 ->
     worst_case_error_add_fl rnd M f g r = worst_case_error_add M f g r
     /\ average_case_error_add_fl rnd M f g r = average_case_error_add M f g r
     /\ mean_squared_error_add_fl rnd M f g r = mean_squared_error_add M f g r.
Proof. exact add_metrics_exact. Qed.
Print Assumptions C112_exact.
(** the error rate tolerates any number of outputs: rounding never turns a difference into zero *)
Theorem C112_error_rate : forall (u : Q) (rnd : Q -> Q), (0 <= u < 1)%Q -> keeps_floats 53 rnd -> relative_error u rnd ->
  forall (M : mgr) (n : nat) (f g : list bdd),
  index_order M -> Forall (wf M) f -> Forall (wf M) g -> below n f -> below n g -> n <= 63 -> length f = length g ->
  exists q, error_rate_add_fl rnd M f g = Ok (Fin q) /\ within u 2 q (average n (fun a => b2q (differ f g a)))
    /\ (n <= 53 -> (q == average n (fun a => b2q (differ f g a)))%Q).
Proof. exact error_rate_add_fl_spec. Qed.
Print Assumptions C112_error_rate.
Theorem C112_average_bit_flip : forall (u : Q) (rnd : Q -> Q), (0 <= u < 1)%Q -> keeps_floats 53 rnd -> relative_error u rnd ->
  forall (M : mgr) (n : nat) (f g : list bdd),
  index_order M -> Forall (wf M) f -> Forall (wf M) g -> below n f -> below n g -> n <= 63 -> length f = length g ->
  length f <= 53 -> (Z.of_nat (length f) * 2 ^ Z.of_nat n < 2 ^ 64)%Z ->
  exists q, average_bit_flip_error_add_fl rnd M f g = Ok (Fin q) /\ within u 2 q (average n (fun a => inject_Z (hamming f g a)))
    /\ ((Z.of_nat (length f) * 2 ^ Z.of_nat n <= 2 ^ 53)%Z -> (q == average n (fun a => inject_Z (hamming f g a)))%Q).
Proof. exact average_bit_flip_add_fl_spec. Qed.
Print Assumptions C112_average_bit_flip.
(** relative errors: one rounding, that of the division *)
Theorem C112_wcre : forall (u : Q) (rnd : Q -> Q), (0 <= u < 1)%Q -> keeps_floats 53 rnd -> relative_error u rnd ->
  forall (M : mgr) (n : nat) (f g : list bdd) (r : NumberRepresentation),
  index_order M -> Forall (wf M) f -> Forall (wf M) g -> below n f -> below n g -> n <= 63 ->
  (r = TwosComplement -> f <> [] /\ g <> []) -> length f <= 53 -> length g <= 53 ->
  exists q m, wcre_add_fl rnd M f g r = Ok q /\ is_maxQ (fun a => rel (value r f a) (value r g a)) m /\ within u 1 q m.
Proof. exact wcre_add_fl_spec. Qed.
Print Assumptions C112_wcre.
Theorem C112_acre : forall (u : Q) (rnd : Q -> Q), (0 <= u < 1)%Q -> keeps_floats 53 rnd -> relative_error u rnd ->
  forall (M : mgr) (n : nat) (f g : list bdd) (r : NumberRepresentation),
  index_order M -> Forall (wf M) f -> Forall (wf M) g -> below n f -> below n g -> n <= 63 ->
  (r = TwosComplement -> f <> [] /\ g <> []) -> length f <= 53 -> length g <= 53 ->
  exists q, acre_add_fl rnd M f g r = Ok (Fin q) /\ within u 1 q (average n (fun a => rel (value r f a) (value r g a))).
Proof. exact acre_add_fl_spec. Qed.
Print Assumptions C112_acre.
(** 53 cannot be raised: 54 outputs that are all wrong are reported as one flipped bit and as 2^54 *)
Theorem C112_more_outputs : exists (f g : list bdd), let M := id_mgr 1 in
  length f = 54 /\ length g = 54 /\ Forall (wf M) f /\ Forall (wf M) g
  /\ worst_case_bit_flip_error_add M f g = Ok 54%Z
  /\ worst_case_bit_flip_error_add_fl (round_float 53) M f g = Ok 1%Z
  /\ worst_case_error_add M f g BaseTwo = Ok (2 ^ 54 - 1)%Z
  /\ worst_case_error_add_fl (round_float 53) M f g BaseTwo = Ok (2 ^ 54)%Z
  /\ exists q, error_rate_add_fl (round_float 53) M f g = Ok (Fin q) /\ (q == 1)%Q.
Proof. exact add_metrics_beyond. Qed.
Print Assumptions C112_more_outputs.

Example C112_case : (* (x2 x1 x0) against (x2 x1 x1): the quotients with denominators 3, 5 and 7 are rounded *)
  let M := id_mgr 3 in
  let f := [bvar 0; bvar 1; bvar 2] in
  let g := [bvar 1; bvar 1; bvar 2] in
  let rnd := round_float 53 in
  Forall (wf M) f /\ Forall (wf M) g
  /\ worst_case_bit_flip_error_fl rnd M f g = Ok 1%Z
  /\ worst_case_error_add_fl rnd M f g TwosComplement = Ok 1%Z
  /\ (exists q, error_rate_add_fl rnd M f g = Ok (Fin q) /\ (q == 1 # 2)%Q)
  /\ wcre_add_fl rnd M f g BaseTwo = Ok 1%Q
  /\ (exists p q, acre_add M f g BaseTwo = Ok (Fin p) /\ acre_add_fl rnd M f g BaseTwo = Ok (Fin q)
       /\ (p == 7 # 30)%Q /\ (p < q)%Q /\ (q <= (1 + 2 ^ (-53)) * p)%Q).
Proof.
  cbv zeta. split; [repeat apply Forall_cons; auto with wf|]. split; [repeat apply Forall_cons; auto with wf|].
  split; [vm_compute; reflexivity|]. split; [vm_compute; reflexivity|]. split; [eexists; split; [vm_compute; reflexivity|reflexivity]|].
  split; [vm_compute; reflexivity|]. eexists. eexists. split; [vm_compute; reflexivity|]. split; [vm_compute; reflexivity|].
  repeat split; vm_compute; congruence.
Qed.
Example C112_rounding : keeps_floats 53 (round_float 53) /\ relative_error (2 ^ (-53)) (round_float 53).
Proof. exact double_rounding. Qed.

(** C120: leaves closer than epsilon. A leaf is replaced by one that is closer than epsilon *)
Theorem C120_leaf : forall (hash : Q -> Z) (epsilon : Q) (leaves : list Q) (x : Q), (0 < epsilon)%Q ->
  (Qabs.Qabs (unique_const hash epsilon leaves x - x) < epsilon)%Q.
Proof. exact unique_const_close. Qed.
Print Assumptions C120_leaf.
(** as long as all leaves are integers, nothing changes *)
Theorem C120_integers : forall (hash : Q -> Z) (epsilon : Q) (leaves : list Q) (k : Z), (0 < epsilon <= 1)%Q ->
  Forall (fun y => exists z, (y == inject_Z z)%Q) leaves ->
  (unique_const hash epsilon leaves (inject_Z k) == inject_Z k)%Q.
Proof. exact unique_const_int. Qed.
Print Assumptions C120_integers.
Theorem C120_wcre : forall (u : Q) (rnd : Q -> Q) (hash : Q -> Z) (epsilon : Q) (table : Q -> Q -> list Q),
  (0 <= u < 1)%Q -> keeps_floats 53 rnd -> relative_error u rnd -> (0 < epsilon)%Q ->
  forall (M : mgr) (n : nat) (f g : list bdd) (r : NumberRepresentation),
  index_order M -> Forall (wf M) f -> Forall (wf M) g -> below n f -> below n g -> n <= 63 ->
  (r = TwosComplement -> f <> [] /\ g <> []) -> length f <= 53 -> length g <= 53 ->
  exists q m, wcre_add_merged rnd hash epsilon table M f g r = Ok q
    /\ is_maxQ (fun a => rel (value r f a) (value r g a)) m
    /\ ((1 - u) * m - epsilon <= q <= (1 + u) * m + epsilon)%Q.
Proof. exact wcre_add_merged_spec. Qed.
Print Assumptions C120_wcre.
Theorem C120_acre : forall (u : Q) (rnd : Q -> Q) (hash : Q -> Z) (epsilon : Q) (table : Q -> Q -> list Q),
  keeps_floats 53 rnd -> relative_error u rnd -> (0 < epsilon)%Q ->
  forall (M : mgr) (n : nat) (f g : list bdd) (r : NumberRepresentation),
  index_order M -> Forall (wf M) f -> Forall (wf M) g -> below n f -> below n g -> n <= 63 ->
  (r = TwosComplement -> f <> [] /\ g <> []) -> length f <= 53 -> length g <= 53 ->
  exists q, acre_add_merged rnd hash epsilon table M f g r = Ok (Fin q)
    /\ let m := average n (fun a => rel (value r f a) (value r g a)) in
       ((1 - u) * m - epsilon <= q <= (1 + u) * m + epsilon)%Q.
Proof. exact acre_add_merged_spec. Qed.
Print Assumptions C120_acre.
(** with CUDD's epsilon and at most 39 outputs an error is never reported as zero *)
Theorem C120_zero : forall (u : Q) (rnd : Q -> Q) (hash : Q -> Z) (epsilon : Q) (table : Q -> Q -> list Q),
  (0 <= u < 1)%Q -> keeps_floats 53 rnd -> relative_error u rnd -> (0 < epsilon)%Q ->
  forall (M : mgr) (n : nat) (f g : list bdd) (r : NumberRepresentation),
  index_order M -> Forall (wf M) f -> Forall (wf M) g -> below n f -> below n g -> n <= 63 ->
  (r = TwosComplement -> f <> [] /\ g <> []) -> length f <= 39 -> length g <= 53 ->
  (u <= 1 # 1000)%Q -> (epsilon <= 1 # (10 ^ 12))%Q ->
  wcre_add_merged rnd hash epsilon table M f g r = Ok 0%Q -> forall a, value r f a = value r g a.
Proof. exact wcre_add_merged_zero. Qed.
Print Assumptions C120_zero.
(** with 41 outputs it can be: 2^40 against 2^40 + 1 when the quotient and 0 share a chain of the table *)
Theorem C120_hidden : exists (hash : Q -> Z) (f g : list bdd), let M := id_mgr 1 in
  length f = 41 /\ length g = 41 /\ Forall (wf M) f /\ Forall (wf M) g
  /\ (forall a, (uval g a = uval f a + 1)%Z)
  /\ wcre_add_merged (round_float 53) hash (1 # (10 ^ 12)) (fun _ _ => [0%Q]) M f g BaseTwo = Ok 0%Q
  /\ acre_add_merged (round_float 53) hash (1 # (10 ^ 12)) (fun _ _ => [0%Q]) M f g BaseTwo = Ok (Fin 0%Q).
Proof. exact wcre_add_merged_hidden. Qed.
Print Assumptions C120_hidden.

Example C120_case : (* a coarse epsilon merges 1/5 and 1/6 with 1/4: the maximum 1 stays, the mean 7/30 becomes 1/4 *)
  let M := id_mgr 3 in
  let f := [bvar 0; bvar 1; bvar 2] in
  let g := [bvar 1; bvar 1; bvar 2] in
  Forall (wf M) f /\ Forall (wf M) g /\ below 3 f /\ below 3 g
  /\ wcre_add_merged (round_float 53) (fun _ => 0%Z) (1 # 8) (fun _ _ => [1 # 4]) M f g BaseTwo = Ok 1%Q
  /\ exists q, acre_add_merged (round_float 53) (fun _ => 0%Z) (1 # 8) (fun _ _ => [1 # 4]) M f g BaseTwo = Ok (Fin q) /\ (q == 1 # 4)%Q.
Proof.
  cbv zeta. split; [repeat apply Forall_cons; auto with wf|]. split; [repeat apply Forall_cons; auto with wf|].
  split; [unfold below; repeat apply Forall_cons; auto; intros a b H; cbn; rewrite H; auto; lia|].
  split; [unfold below; repeat apply Forall_cons; auto; intros a b H; cbn; rewrite H; auto; lia|].
  split; [vm_compute; reflexivity|]. eexists. split; [vm_compute; reflexivity|]. reflexivity.
Qed.
