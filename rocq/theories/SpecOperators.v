(** The approximation operators as a family *)
From Coq Require Import List Bool Arith ZArith QArith.
From Verif Require Import Res Cudd Spec Operators.
Import ListNotations.
Open Scope nat_scope.

(** all operators, applied to the levels [ls .. le] ([round_bdd] only has a first level) *)
Definition the_operators (M : mgr) (ls le : nat) : list (bdd -> res bdd) :=
  [fun f => subset_light_child M f ls le; fun f => subset_heavy_child M f ls le;
   fun f => superset_light_child M f ls le; fun f => superset_heavy_child M f ls le;
   fun f => round_down M f ls le; fun f => round_up M f ls le;
   fun f => round_bdd M f ls; fun f => round_best M f ls le].

(** a property [P] of the densities of the children of every node in the range *)
Definition children_in_range (n ls le : nat) (P : Q -> Q -> Prop) (f : bdd) : Prop :=
  forall c v t d e, In (c, Nd v t d e) (reachable f) -> ls <= v <= le -> P (density n (c, t)) (density n (xorb c d, e)).
