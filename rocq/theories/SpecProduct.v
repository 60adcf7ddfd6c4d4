(** Products of literals *)
From Coq Require Import List Bool Arith.
From Verif Require Import Cudd Spec.
Import ListNotations.
Open Scope nat_scope.

(** [f] is the product of the literals in [s] over the first [T] variables; [None] means that the variable does not occur *)
Definition product (T : nat) (s : nat -> option bool) (f : bdd) : Prop :=
  forall a, ev f a = true <-> forall i b, i < T -> s i = Some b -> a i = b.
Definition negative_literal (s : nat -> option bool) (i : nat) : bool := match s i with Some false => true | _ => false end.
Definition negative_literals (T : nat) (s : nat -> option bool) : nat := length (filter (negative_literal s) (seq 0 T)).
