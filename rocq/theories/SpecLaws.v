(** Vocabulary for the laws of the metrics. *)
From Coq Require Import List Bool.
From Verif Require Import Cudd.
Import ListNotations.

(** complement the outputs marked in [s] *)
Definition complement_outputs (s : list bool) (f : list bdd) : list bdd :=
  map (fun p => if fst p : bool then bnot (snd p) else snd p) (combine s f).
