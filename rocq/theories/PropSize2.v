(** Properties C177 *)
From Coq Require Import List Arith Bool Lia ZArith QArith.
From Verif Require Import Res Cudd CuddFacts Spec SpecOperators Helpers Counting Operators Examples SizeFacts SizeFacts2 SizeFacts3.
Import ListNotations.
Open Scope nat_scope.

(** C177: in any variable order round at most doubles the number of nodes *)
Theorem C177_round : forall (M : mgr) (f : bdd) (level : nat), wf M f ->
  exists r, round_bdd M f level = Ok r /\ nodeCount [r] <= 2 * nodeCount [f].
Proof. exact round_doubles. Qed.
Print Assumptions C177_round.
(** and for the seven other operators no factor below three bounds it (three does, C99) *)
Theorem C177_sharp : forall (factor : Q) (i : nat), (factor < 3)%Q -> i < 8 -> i <> 6 ->
  exists (M : mgr) (f : bdd) (l : nat) (op : bdd -> res bdd) (r : bdd),
  nth_error (the_operators M l l) i = Some op /\ wf M f /\ op f = Ok r
  /\ (factor * inject_Z (Z.of_nat (nodeCount [f])) < inject_Z (Z.of_nat (nodeCount [r])))%Q.
Proof. exact no_factor_below_three. Qed.
Print Assumptions C177_sharp.
(** the seventh in the list is round *)
Example C177_sixth : forall M l, nth_error (the_operators M l l) 6 = Some (fun f => round_bdd M f l).
Proof. reflexivity. Qed.
(** round_down and round_up are left out here: their counts raise two to a difference of levels which wraps in this order *)
Example C177_case : map (lv (second_mgr 8 10)) (seq 0 10) = [0; 2; 3; 4; 5; 6; 7; 8; 9; 1]
  /\ (nodeCount [guarded_parity 6], nodeCount [guarded_tie 6]) = (11, 13)
  /\ map (fun op => match op (guarded_parity 6) with Ok r => nodeCount [r] | _ => 0 end) (firstn 4 (the_operators (second_mgr 8 10) 7 7))
     = [24; 24; 24; 24]
  /\ (match round_best (second_mgr 10 12) (guarded_tie 6) 9 9 with Ok r => nodeCount [r] | _ => 0 end) = 26.
Proof. vm_compute. auto. Qed.
