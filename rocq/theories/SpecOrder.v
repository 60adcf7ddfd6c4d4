(** Variable orders and maps of weights: specification for sampling in other orders *)
From Coq Require Import List Bool Arith ZArith QArith.
From Verif Require Import Cudd Spec Counting.
Import ListNotations.
Open Scope nat_scope.

(** the variables below [n] come in the opposite order *)
Definition opposite_order (M : mgr) (n : nat) : Prop := forall i j, i < j -> j < n -> lv M j < lv M i.
(** [f] is the conjunction of the variables below [n] *)
Definition conjunction (n : nat) (f : bdd) : Prop := forall a, ev f a = true <-> forall i, i < n -> a i = true.
(** the input given by a vector of integers *)
Definition input_of (x : list Z) : asg := fun i => Z.odd (nth i x 0%Z).
(** the map has a weight for the key *)
Definition has_weight (m : bmap Q) (k : bdd) : Prop := exists v, blookup k m = Some v.
(** the two successors of an edge, with the complement attributes met on the way *)
Definition then_edge (c : bool) (t : node) : bdd := (c, t).
Definition else_edge (c c' : bool) (e : node) : bdd := (xorb c c', e).
(** some node of [f] has a successor without a weight *)
Definition lacks_child (m : bmap Q) (f : bdd) : Prop :=
  exists c v t c' e, In (c, Nd v t c' e) (reachable f) /\ (~ has_weight m (then_edge c t) \/ ~ has_weight m (else_edge c c' e)).
