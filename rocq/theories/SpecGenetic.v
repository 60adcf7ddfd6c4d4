(** What the genetic minimisation (experiments/minimization/nsga2) is about. *)
From Coq Require Import List Bool Arith ZArith QArith.
From Verif Require Import Res Cudd Spec Genetic.
Import ListNotations.
Open Scope nat_scope.

(** the order of the positions (output, variable) *)
Definition before (p q : nat * nat) : Prop := fst p < fst q \/ (fst p = fst q /\ snd p < snd q).

(** the value [x] of a variable with the value [old] in the input, for the parameter [p] *)
Definition chosen (p : Q) (old x : bool) : Prop :=
  ((3 # 2 < p)%Q -> x = true) /\ ((1 # 2 < p <= 3 # 2)%Q -> x = false) /\ ((p <= 1 # 2)%Q -> x = old).

(** [b] is the input [a] with the choices made for output [o] *)
Definition chosen_input (positions : list (nat * nat)) (params : list Q) (o : nat) (a b : asg) : Prop :=
  (forall k v, nth_error positions k = Some (o, v) -> chosen (nth k params 0%Q) (a v) (b v))
  /\ (forall v, ~ In (o, v) positions -> b v = a v).

(** error rate and average case error of [g] as an approximation of [f] *)
Definition rate (n : nat) (f g : list bdd) : Q := average n (fun a => b2q (differ f g a)).
Definition average_distance (n : nat) (f g : list bdd) : Q := average n (fun a => inject_Z (dist (uval f a) (uval g a))).

(** a smaller function within the limits *)
Definition acceptable (n : nat) (f : list bdd) (max_er max_ace : Q) (both : bool) (g : list bdd) : Prop :=
  nodeCount g < nodeCount f /\ (rate n f g < max_er)%Q /\ (both = true -> (average_distance n f g < max_ace)%Q).

(** the population after [k] steps *)
Fixpoint generation {A} (evolve : nat -> A -> A) (start : A) (k : nat) : A :=
  match k with O => start | S k' => evolve k' (generation evolve start k') end.

(** number of entries that are not zero *)
Definition changes (d : list Q) : nat := length (filter (fun q => negb (Qeq_bool q 0)) d).
(** an entry of an individual of the initial population *)
Definition digit (q : Q) : Prop := q = 0%Q \/ q = 1%Q \/ q = 2%Q.

(** [r] describes the function [g] *)
Definition describes (n : nat) (f : list bdd) (both : bool) (r : MinimizationResult_) (g : list bdd) : Prop :=
  node_count r = Z.of_nat (nodeCount g) /\ (error_rate_ r == rate n f g)%Q
  /\ (both = true -> (average_case_error_ r == average_distance n f g)%Q).
(** [g] is the function of some individual, and acceptable *)
Definition found (M : mgr) (n : nat) (f : list bdd) (max_er max_ace : Q) (both : bool) (inds : list individuum) (g : list bdd) : Prop :=
  exists ind, In ind inds /\ function_from_individuum M (make_problem f max_er both max_ace) ind = Ok g
    /\ acceptable n f max_er max_ace both g.

(** the size of [g] as it is counted for the limits [limit_er] and [limit_ace] *)
Definition counted (n : nat) (f : list bdd) (limit_er limit_ace : Q) (both : bool) (g : list bdd) : Q :=
  (inject_Z (Z.of_nat (nodeCount g))
   * (if Qlt_le_dec limit_er (rate n f g) then 10000 * rate n f g + 50 else 1)
   * (if both then if Qlt_le_dec limit_ace (average_distance n f g) then 100 + average_distance n f g else 1 else 1))%Q.
