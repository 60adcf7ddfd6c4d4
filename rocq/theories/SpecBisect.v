(** A binary search for the largest of some numbers that also takes numbers below its interval for a hit *)
From Coq Require Import QArith.
From Verif Require Import Cudd Spec.
Open Scope Q_scope.

(** [m] is the least value of [F] *)
Definition is_minQ (F : asg -> Q) (m : Q) : Prop := (exists a, F a == m) /\ forall a, m <= F a.

(** Searching between [lo] and [hi] for [top], the largest number, ends with [q]. [low] is the smallest number. A middle
    counts as hit if it is the largest number, or above all numbers while some number is not above [lo]. *)
Inductive bisection (low top precision : Q) : Q -> Q -> Q -> Prop :=
| ends_close lo hi q : hi - lo <= precision -> q == (lo + hi) / 2 -> bisection low top precision lo hi q
| ends_exact lo hi q : precision < hi - lo -> q == (lo + hi) / 2 -> q == top -> bisection low top precision lo hi q
| ends_masked lo hi q : precision < hi - lo -> q == (lo + hi) / 2 -> top < q -> low <= lo -> bisection low top precision lo hi q
| goes_up lo hi m q : precision < hi - lo -> m == (lo + hi) / 2 -> m < top -> bisection low top precision m hi q -> bisection low top precision lo hi q
| goes_down lo hi m q : precision < hi - lo -> m == (lo + hi) / 2 -> top < m -> lo < low -> bisection low top precision lo m q -> bisection low top precision lo hi q.
