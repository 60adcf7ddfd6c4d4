(** Specification: failures of the bucket search with doubles. *)
From Coq Require Import List ZArith QArith.
From Verif Require Import Res Cudd Spec Helpers Metrics Minimize SpecMinimize.
Import ListNotations.

(** a value that has no cell number: not finite, a division by 0, or out of the range of [std::size_t] after the roundings of the
    grid size, the product and the quotient *)
Definition no_rounded_cell (rnd : Q -> Q) (grid : Z) (value : num) (B : Q) : Prop :=
  match value with
  | NonFin => True
  | Fin v => let q := rnd (rnd (rnd (inject_Z grid) * v) / B)%Q in (B == 0)%Q \/ (q <= -1)%Q \/ (inject_Z (2 ^ 64) <= q)%Q
  end.
(** a failure of an operator or a metric on a function that the operators can reach *)
Definition rounded_caused (rnd : Q -> Q) (function : list bdd) (metrics : list MetricDimension) (operators : list OperatorFunction)
    (e : failure) : Prop :=
  exists g, derived operators function g
    /\ ((exists op, In op operators /\ fails e (op g))
        \/ exists m, In m metrics
             /\ (fails e (metric m function g)
                 \/ (e = Undefined /\ exists value, metric m function g = Ok value
                      /\ no_rounded_cell rnd (grid_size m) value (bound m)))).
