(** Vectors that show how far a result can be off *)
From Coq Require Import List Bool ZArith.
From Verif Require Import Cudd.
Import ListNotations.
Open Scope nat_scope.

(** the [N] lowest bits of a number as constant functions *)
Definition constant_number (N : nat) (z : Z) : list bdd := map (fun i => if Z.testbit z (Z.of_nat i) then bone else bzero) (seq 0 N).
(** a node in the range becomes the constant [k], whatever its children are *)
Definition whole_const (k : bool) (v : nat) (t e : bdd) (ht he h : asg -> bool) : Prop := forall a, h a = k.
(** the names that are registered if every list of a line registers the names of all lines so far *)
Definition prefixes_joined {A} (ls : list (list A)) : list A := concat (map (fun k => concat (firstn (S k) ls)) (seq 0 (length ls))).
