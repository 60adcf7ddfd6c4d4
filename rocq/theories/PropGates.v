(** Property C111: the gates of src/example_bdds/simple.cpp approximated by cofactors, the general
    form of the tests "Generic OR/AND constraint error rate test" of tests/error_metrics_test.cpp.
    [Constrain] by a literal is the cofactor. *)
From Coq Require Import List Bool Arith ZArith QArith.
From Verif Require Import Res Cudd Spec Metrics Examples GateFacts.
Import ListNotations.
Open Scope nat_scope.

(** C111: literals [(i, b)] on different variables are applied one after the other *)
Theorem C111_gate_cofactors : forall (M : mgr) (n : nat) (l : list (nat * bool)),
  NoDup (map fst l) -> (forall p, In p l -> fst p < n) ->
  let k := length l in
  let rate f e := exists q, error_rate_single M f (fold_left (fun r p => cofactor M r (fst p) (snd p)) l f) = Ok q /\ (q == e)%Q in
  let grown := (inject_Z (pow2 k - 1) / inject_Z (pow2 n))%Q in
  let one := (1 / inject_Z (pow2 n))%Q in
  ((forall p, In p l -> snd p = false) -> rate (or_bdd M n) grown)
  /\ ((exists p, In p l /\ snd p = true) -> rate (or_bdd M n) one)
  /\ ((forall p, In p l -> snd p = true) -> rate (and_bdd M n) grown)
  /\ ((exists p, In p l /\ snd p = false) -> rate (and_bdd M n) one)
  /\ (l <> [] -> rate (xor_bdd M n) (1 # 2)%Q).
Proof. exact gate_rates. Qed.
Print Assumptions C111_gate_cofactors.
Example C111_case : let M := id_mgr 5 in
  let steps f l := fold_left (fun r p => cofactor M r (fst p) (snd p)) l f in
  map (fun p => match error_rate_single M (fst p) (steps (fst p) (snd p)) with Ok q => Qred q | _ => 7%Q end)
    [(or_bdd M 5, [(3, false); (0, false); (4, false)]); (or_bdd M 5, [(3, false); (0, true)]); (and_bdd M 5, [(2, true); (1, true)]);
     (and_bdd M 5, [(2, true); (1, false)]); (xor_bdd M 5, [(2, true); (1, false); (4, true)])]
  = [7 # 32; 1 # 32; 3 # 32; 1 # 32; 1 # 2]%Q.
Proof. vm_compute. reflexivity. Qed.
