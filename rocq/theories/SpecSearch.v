(** The randomized search for the largest relative error, as a sequence of rounds *)
From Coq Require Import List Bool Arith ZArith QArith.
From Verif Require Import Res Cudd Spec.
Import ListNotations.
Open Scope nat_scope.

(** [q'] is the largest of [q] and the values in [l] *)
Definition best_of (q : Q) (l : list Q) (q' : Q) : Prop :=
  (q <= q')%Q /\ Forall (fun x => x <= q')%Q l /\ ((q' == q)%Q \/ Exists (fun x => x == q')%Q l).

(** [search_run … k pos q m]: starting with the bound [q] and after [pos] calls of rand() the search ends with [m] after
    [k] rounds. In each round [samples] inputs are drawn by [draw] from the inputs [h] with an error above the bound;
    every input takes the next [T] results of rand(). *)
Inductive search_run (M : mgr) (draw : bdd -> list Z -> res (list Z)) (read : list Z -> asg) (rand : nat -> Z) (T : nat)
    (error : asg -> Q) (samples : nat) : nat -> nat -> Q -> Q -> Prop :=
| run_done pos q : (forall a, (error a <= q)%Q) -> search_run M draw read rand T error samples 0 pos q q
| run_round k pos q q' m h (w : nat -> list Z) : wf M h -> (forall a, ev h a = true <-> (q < error a)%Q) -> (exists a, ev h a = true) ->
    (forall i, i < samples -> draw h (map rand (seq (pos + i * T) T)) = Ok (w i)) ->
    best_of q (map (fun i => error (read (w i))) (seq 0 samples)) q' ->
    search_run M draw read rand T error samples k (pos + samples * T) q' m ->
    search_run M draw read rand T error samples (S k) pos q m.
