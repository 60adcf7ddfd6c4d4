(** Vocabulary for the exact behaviour in the cases in which a documented property fails. *)
From Coq Require Import List Bool Arith ZArith QArith.
From Verif Require Import Res Cudd Spec.

(** [a] has the first [i] entries of [l] *)
Definition starts_with (l : list Z) (i : nat) (a : asg) : Prop := forall j, j < i -> a j = (nth j l 0 =? 1)%Z.
(** after the first [i] entries of [l] the function can still be satisfied, but only with variable [i] false *)
Definition needs_false (f : bdd) (l : list Z) (i : nat) : Prop :=
  (exists a, starts_with l i a /\ ev f a = true)
  /\ forall a, starts_with l i a -> a i = true -> ev f a = false.

(** the child with the smaller distance to a constant becomes this constant; if two choices are equally
    good both children become the constant they are closer to *)
Definition best_const (W : bdd -> Q) (v : nat) (t e : bdd) (ht he h : asg -> bool) : Prop :=
  ((W t < W e /\ W t + W e < 1 /\ then_const v false he h)
   \/ (W e < W t /\ W t + W e < 1 /\ else_const v false ht h)
   \/ (W e < W t /\ 1 < W t + W e /\ then_const v true he h)
   \/ (W t < W e /\ 1 < W t + W e /\ else_const v true ht h)
   \/ ((W t == W e \/ W t + W e == 1) /\ forall a, (h a = true <-> 1#2 < if a v then W t else W e)))%Q.
