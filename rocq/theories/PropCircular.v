(** Property C184: what the two's complement metrics still guarantee although their subtraction can overflow (C05, C30). *)
From Coq Require Import List Bool Arith ZArith QArith.
From Verif Require Import Res Cudd CuddFacts Spec Helpers Counting Metrics CircularFacts.
Import ListNotations.
Open Scope Z_scope.

(** C184 *)
Theorem C184_worst_case_error : forall (M : mgr) (f g h : list bdd),
  Forall (wf M) f -> Forall (wf M) g -> Forall (wf M) h -> f <> [] -> length f = length g -> length g = length h ->
  (length f <= 256)%nat ->
  exists x y z, worst_case_error M f h TwosComplement = Ok x /\ worst_case_error M f g TwosComplement = Ok y
    /\ worst_case_error M g h TwosComplement = Ok z
    /\ x <= y + z /\ (y = 0 <-> f = g) /\ 0 <= y <= 2 ^ Z.of_nat (length f - 1).
Proof. exact worst_twos_circle. Qed.
Print Assumptions C184_worst_case_error.
Theorem C184_average_case_error : forall (M : mgr) (n : nat) (f g h : list bdd),
  Forall (wf M) f -> Forall (wf M) g -> Forall (wf M) h -> below n f -> below n g -> below n h ->
  f <> [] -> length f = length g -> length g = length h -> (length f + n < 256)%nat ->
  exists x y z, average_case_error M f h TwosComplement = Ok (Fin x) /\ average_case_error M f g TwosComplement = Ok (Fin y)
    /\ average_case_error M g h TwosComplement = Ok (Fin z)
    /\ (x <= y + z)%Q /\ ((y == 0)%Q <-> f = g) /\ (0 <= y <= inject_Z (2 ^ Z.of_nat (length f - 1)))%Q.
Proof. exact average_twos_circle. Qed.
Print Assumptions C184_average_case_error.
(** the triangle inequality needs equal lengths: 1 and -2 on two bits, 1 on three bits *)
Theorem C184_needs_equal_lengths : exists (M : mgr) (f g h : list bdd) (x y z : Z),
  Forall (wf M) f /\ Forall (wf M) g /\ Forall (wf M) h /\ length g = length h /\ f <> [] /\ g <> []
  /\ worst_case_error M f h TwosComplement = Ok x /\ worst_case_error M f g TwosComplement = Ok y
  /\ worst_case_error M g h TwosComplement = Ok z /\ y + z < x.
Proof.
  exists (id_mgr 1), [bone; bzero; bzero], [bone; bzero], [bzero; bone], 3, 0, 1.
  repeat split; try discriminate; try (vm_compute; reflexivity); repeat constructor.
Qed.
Print Assumptions C184_needs_equal_lengths.
(** 3, -4 and x0 + 2 x1 - 4 x2 on three bits: the error of 3 against -4 is 7, the code reports 1 *)
Example C184_case : let M := id_mgr 3 in
  let f := [bone; bone; bzero] in let g := [bzero; bzero; bone] in let h := [bvar 0; bvar 1; bvar 2] in
  worst_case_error M f g TwosComplement = Ok 1 /\ worst_case_error M f h TwosComplement = Ok 4
  /\ worst_case_error M g h TwosComplement = Ok 4
  /\ average_case_error M f h TwosComplement = average_case_error M g h TwosComplement.
Proof. repeat split; vm_compute; reflexivity. Qed.
