(** Edges of a decision diagram that pass over many levels *)
From Coq Require Import List Arith.
From Verif Require Import Cudd Spec.
Import ListNotations.

(** the level at which a diagram starts if terminals are at level [t] *)
Definition met (t : nat) (A : add) : nat := match A with Leaf _ => t | AN v _ _ => v end.
(** how many levels each edge of [A] passes over if [A] starts at level [l] *)
Fixpoint gaps (t l : nat) (A : add) : list nat :=
  match A with
  | Leaf _ => []
  | AN _ x y => (met t x - l - 1) :: (met t y - l - 1) :: gaps t (met t x) x ++ gaps t (met t y) y
  end.
(** some edge passes over 64 levels or more; the first edges are counted from level 0 *)
Definition long_edge (t : nat) (A : add) : Prop := exists k, In k (gaps t 0 A) /\ 64 <= k.
(** one more than the largest variable of [A] *)
Definition depth (A : add) (t : nat) : Prop := first_unused (fun i => In i (avars A)) t.
