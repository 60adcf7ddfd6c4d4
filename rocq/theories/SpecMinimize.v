(** Specification vocabulary of the bucket minimisation that needs the configuration types
    ([ErrorMetric], [MetricDimension], [Bucket]) of the model. *)
From Coq Require Import List Bool Arith ZArith QArith.
From Verif Require Import Res Cudd Spec Helpers Metrics Minimize.
Import ListNotations.
Open Scope nat_scope.

(** the error of [kind] between [f] and [g], over all inputs of [n] variables, is below [B] *)
Definition error_below (kind : ErrorMetric) (n : nat) (f g : list bdd) (B : Q) : Prop :=
  match kind with
  | WORST_CASE => worst_below (fun a => inject_Z (dist (uval f a) (uval g a))) B
  | WORST_CASE_PERCENT => worst_below (fun a => inject_Z (dist (uval f a) (uval g a))
      / inject_Z (if length f <=? 53 then 2 ^ Z.of_nat (length f) - 1 else 2 ^ Z.of_nat (length f)))%Q B
  | WORST_CASE_RELATIVE => worst_below (fun a => rel (uval f a) (uval g a)) B
  | AVERAGE_CASE => average_below n (fun a => inject_Z (dist (uval f a) (uval g a))) B
  | AVERAGE_CASE_RELATIVE | AVERAGE_CASE_RELATIVE_ADD => average_below n (fun a => rel (uval f a) (uval g a)) B
  | MEAN_SQUARED => average_below n (fun a => inject_Z (dist (uval f a) (uval g a) * dist (uval f a) (uval g a))) B
  | ERROR_RATE => average_below n (fun a => b2q (differ f g a)) B
  | AVERAGE_BIT_FLIP => average_below n (fun a => inject_Z (hamming f g a)) B
  | WORST_CASE_BIT_FLIP => worst_below (fun a => inject_Z (hamming f g a)) B
  end.
(** sizes for which the metric is computed exactly *)
Definition admissible (M : mgr) (n len : nat) (kind : ErrorMetric) : Prop :=
  match kind with
  | WORST_CASE => len <= 256
  | WORST_CASE_PERCENT => 1 <= len <= 256
  | WORST_CASE_RELATIVE | AVERAGE_CASE_RELATIVE | AVERAGE_CASE_RELATIVE_ADD => index_order M /\ n <= 63
  | AVERAGE_CASE => len + n < 256
  | MEAN_SQUARED => False
  | ERROR_RATE | AVERAGE_BIT_FLIP => True
  | WORST_CASE_BIT_FLIP => (Z.of_nat len < 2 ^ 32)%Z
  end.
(** the same for doubles: the relative errors need exact differences *)
Definition admissible_fl (M : mgr) (n len : nat) (kind : ErrorMetric) : Prop :=
  admissible M n len kind /\
  match kind with
  | WORST_CASE_RELATIVE | AVERAGE_CASE_RELATIVE | AVERAGE_CASE_RELATIVE_ADD => len <= 53
  | _ => True
  end.
(** number of roundings between the exact value of the metric and the double that is compared with the bound *)
Definition roundings (n len : nat) (kind : ErrorMetric) : nat :=
  match kind with
  | WORST_CASE => if len <=? 53 then 0 else 1
  | WORST_CASE_PERCENT => if len <=? 53 then 1 else 2
  | WORST_CASE_RELATIVE => 1
  | AVERAGE_CASE_RELATIVE | AVERAGE_CASE_RELATIVE_ADD => 2
  | AVERAGE_CASE | MEAN_SQUARED => if n <=? 53 then 1 else 2 * n + 1
  | ERROR_RATE => if n <=? 53 then 0 else 2 * n + 1
  | AVERAGE_BIT_FLIP => if (n <=? 53) && (Z.of_nat len * 2 ^ Z.of_nat n <=? 2 ^ 53)%Z then 0 else 2 * n + len + 1
  | WORST_CASE_BIT_FLIP => 0
  end.
(** largest possible value of the metric *)
Definition cap (len : nat) (kind : ErrorMetric) : Q :=
  match kind with
  | WORST_CASE_PERCENT | ERROR_RATE => 1
  | AVERAGE_BIT_FLIP | WORST_CASE_BIT_FLIP => inject_Z (Z.of_nat len)
  | _ => inject_Z (2 ^ Z.of_nat len)
  end.

(** the errors of [g] with respect to [function] lie in the cell [index] of the grid *)
Definition in_cell (function : list bdd) (ms : list MetricDimension) (g : list bdd) (index : list Z) : Prop :=
  Forall2 (fun m c => (0 <= c < grid_size m)%Z /\ exists v, metric m function g = Ok (Fin v)
    /\ (inject_Z c * bound m / inject_Z (grid_size m) <= v)%Q
    /\ (v < (inject_Z c + 1) * bound m / inject_Z (grid_size m))%Q) ms index.

(** Pareto domination: no metric larger, size not larger, and something strictly smaller *)
Definition dominates (x y : Bucket) : Prop :=
  Forall2 Qle (metric_values x) (metric_values y) /\ bdd_size x <= bdd_size y
  /\ (bdd_size x < bdd_size y \/ exists k p q, nth_error (metric_values x) k = Some p
        /\ nth_error (metric_values y) k = Some q /\ (p < q)%Q).

(** ** failures *)
Inductive failure := Undefined | Exception | FailedAssert.
Definition fails {A} (e : failure) (r : res A) : Prop :=
  r = match e with Undefined => UB | Exception => Throw | FailedAssert => Abort end.
(** a value that has no cell number: not finite, a division by 0, or out of the range of [std::size_t] *)
Definition no_cell (grid : Z) (value : num) (B : Q) : Prop :=
  match value with
  | NonFin => True
  | Fin v => (B == 0)%Q \/ (inject_Z grid * v / B <= -1)%Q \/ (inject_Z (2 ^ 64) <= inject_Z grid * v / B)%Q
  end.
(** a failure of an operator or a metric on a function that the operators can reach *)
Definition caused (function : list bdd) (metrics : list MetricDimension) (operators : list OperatorFunction) (e : failure) : Prop :=
  exists g, derived operators function g
    /\ ((exists op, In op operators /\ fails e (op g))
        \/ exists m, In m metrics
             /\ (fails e (metric m function g)
                 \/ (e = Undefined /\ exists value, metric m function g = Ok value /\ no_cell (grid_size m) value (bound m)))).

(** ** order of the search *)
Inductive lex_less : list Z -> list Z -> Prop :=
| lex_shorter x a y : lex_less x (x ++ a :: y)
| lex_differ p a x b y : (a < b)%Z -> lex_less (p ++ a :: x) (p ++ b :: y).
Definition total (x : list Z) : Z := fold_right Z.add 0%Z x.
(** the smallest total, then the lexicographic order *)
Definition next_position (pending : list (list Z)) (pos : list Z) : Prop :=
  In pos pending /\ forall y, In y pending -> y = pos \/ (total pos < total y)%Z \/ (total pos = total y /\ lex_less pos y).
(** buckets and pending positions after a number of rounds *)
Inductive rounds (function : list bdd) (metrics : list MetricDimension) (operators : list OperatorFunction) (pop_all : bool) :
    nat -> list Bucket -> list (list Z) -> Prop :=
| rounds_start : rounds function metrics operators pop_all 0
    (repeat (Bkt function (nodeCount function) (repeat 0%Q (length metrics)) (repeat true (length operators)) true)
       (Z.to_nat (volume (map grid_size metrics))))
    [repeat 0%Z (length metrics)]
| rounds_step k buckets first rest buckets' test' :
    rounds function metrics operators pop_all k buckets (first :: rest) ->
    explore function metrics operators pop_all buckets first rest = Ok (buckets', test') ->
    rounds function metrics operators pop_all (S k) buckets' test'.

(** some metric of [g], or the first one, is at least its bound *)
Definition too_bad (function : list bdd) (metrics : list MetricDimension) (g : list bdd) : Prop :=
  exists m e, In m metrics /\ metric m function g = Ok (Fin e) /\ ((0 < bound m)%Q -> (bound m <= e)%Q).
Definition first_bad (function : list bdd) (metrics : list MetricDimension) (g : list bdd) : Prop :=
  exists m ms e, metrics = m :: ms /\ metric m function g = Ok (Fin e) /\ (0 < bound m)%Q /\ (bound m <= e)%Q.

(** undefined behaviour is the only failure of [r]: no exception, no failed assertion *)
Definition only_undefined {A} (r : res A) : Prop := forall e, fails e r -> e = Undefined.
