(** What the reference counting of the operators is measured against *)
From Coq Require Import List Bool Arith.
From Verif Require Import Res Cudd Spec.
Import ListNotations.
Open Scope nat_scope.

(** [L] has the subfunctions of [f] that an operator builds anew: without repetition, only subfunctions whose variable is below
    [bound], [f] itself, and with a subfunction above the first level also its two children *)
Definition built_anew (first bound : nat) (f : bdd) (L : list bdd) : Prop :=
  let eligible x := exists v, top x = Some v /\ v < bound in
  NoDup L /\ (forall x, In x L -> In x (reachable f) /\ eligible x) /\ (eligible f -> In f L)
  /\ (forall c v t d e, In (c, Nd v t d e) L -> v < first ->
        (eligible (c, t) -> In (c, t) L) /\ (eligible (xorb c d, e) -> In (xorb c d, e) L)).

(** the variables below this bound are rebuilt, for the operators in the order of [SpecOperators.the_operators] *)
Definition operator_bounds (first last : nat) : list nat :=
  repeat (Nat.max first (S last)) 6 ++ [first; Nat.max first (S last)].
