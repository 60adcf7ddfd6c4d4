(** Specification: where the counts of solutions multiply zero by infinity *)
From Coq Require Import List Bool Arith.
From Verif Require Import Cudd Spec.
Import ListNotations.
Open Scope nat_scope.

(** [v] is the variable of [f] that comes first in the order *)
Definition top_variable (M : mgr) (f : bdd) (v : nat) : Prop :=
  In v (support f) /\ forall i, In i (support f) -> lv M v <= lv M i.
(** one value of the top variable makes [f] false, and [T] is so far below that 2^(T - v - 1) is no [double] *)
Definition far_zero (M : mgr) (T : nat) (f : bdd) : Prop :=
  exists v b, top_variable M f v /\ (forall a, a v = b -> ev f a = false) /\ v + 1025 <= T.
(** there is such a node in the BDD *)
Definition has_far_zero (M : mgr) (T : nat) (f : bdd) : Prop := exists k, In k (reachable f) /\ far_zero M T k.
