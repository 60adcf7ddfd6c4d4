(** Specification: which child is replaced if weights are known up to a factor and only below a limit *)
From Coq Require Import List Bool Arith QArith.
From Verif Require Import Cudd Spec SpecNan.
Import ListNotations.
Open Scope nat_scope.

(** The then child becomes [k] if its weight is not clearly larger, if both weights may be beyond the limit [L] or if one of the weights is not
    [known]; the else child becomes [k] only if both are known and its weight is below the limit and less than that of the then child. Weights whose ratio is below [y / x] may be confused. *)
Definition limited_light_const (x y L : Q) (known : bdd -> Prop) (W : bdd -> Q) (k : bool) (v : nat) (t e : bdd) (ht he h : asg -> bool) : Prop :=
  (then_const v k he h /\ (known t -> known e -> (x * W t <= y * W e)%Q \/ (L <= y * W t /\ L <= y * W e)%Q))
  \/ (else_const v k ht h /\ known t /\ known e /\ (x * W e < L)%Q /\ (x * W e < y * W t)%Q).
(** the child of smaller / larger weight becomes [k], where weights are known up to the factors [x], [y] and the distance [a] *)
Definition slack_light_const (x y a : Q) (W : bdd -> Q) (k : bool) (v : nat) (t e : bdd) (ht he h : asg -> bool) : Prop :=
  (x * W t - a <= y * (W e + a) /\ then_const v k he h)%Q \/ (x * W e - a < y * (W t + a) /\ else_const v k ht h)%Q.
Definition slack_heavy_const (x y a : Q) (W : bdd -> Q) (k : bool) (v : nat) (t e : bdd) (ht he h : asg -> bool) : Prop :=
  (x * W e - a < y * (W t + a) /\ then_const v k he h)%Q \/ (x * W t - a <= y * (W e + a) /\ else_const v k ht h)%Q.
