(** Model of /repo/src/example_bdds/from_papers.cpp: example functions used in the unit tests. *)
From Coq Require Import List Bool Arith.
From Verif Require Import Cudd.
Import ListNotations.

Section Papers.
Variable M : mgr.
Local Infix "*" := (band M).
Local Infix "||" := (bor M).
Local Notation "! x" := (bnot x) (at level 35).
Local Notation x1 := (bvar 0).
Local Notation x2 := (bvar 1).
Local Notation x3 := (bvar 2).
Local Notation x4 := (bvar 3).

(** lines 13-47 *)
Definition example1a : list bdd :=
  let cube01 := !x1 * x2 in
  let cube02 := x1 * !x2 in
  let cube11 := !x1 * x3 * !x4 in
  let cube12 := !x1 * !x3 * x4 in
  let cube13 := x1 * !x2 * x3 * !x4 in
  let cube14 := x1 * !x2 * !x3 * x4 in
  let cube15 := x1 * x2 * x3 * x4 in
  let cube16 := x1 * x2 * !x3 * !x4 in
  let cube21 := x1 * x2 * x3 in
  let cube22 := x1 * x2 * !x3 * x4 in
  let cube23 := x1 * !x2 * x3 * x4 in
  let cube24 := !x1 * x3 * x4 in
  [cube01 || cube02;
   cube11 || cube12 || cube13 || cube14 || cube15 || cube16;
   cube21 || cube22 || cube23 || cube24].

(** lines 49-79 *)
Definition example1b : list bdd :=
  let cube01 := !x1 * x2 in
  let cube02 := x1 * !x2 in
  let cube11 := x1 * x2 * !x3 * !x4 in
  let cube12 := !x1 * !x3 * x4 in
  let cube13 := x1 * !x2 * !x3 * x4 in
  let cube21 := x1 * x2 * !x3 * x4 in
  let cube22 := x1 * !x2 * x3 * x4 in
  let cube23 := !x1 * x3 * x4 in
  [cube01 || cube02; cube11 || cube12 || cube13; cube21 || cube22 || cube23].

(** lines 81-100 *)
Definition example1c : list bdd := [(x1 * !x2) || (!x1 * x2); bone; bone].

(** lines 102-121 *)
Definition example1d : list bdd := [(x1 * !x2) || (!x1 * x2); bzero; x1 * x2].

(** lines 123-146 *)
Definition example3 : list bdd :=
  let cube1 := !x2 * !x1 in
  let cube2 := !x2 * x1 in
  let cube3 := x2 * !x1 in
  let cube4 := x2 * x1 in
  [cube3; cube1 || cube2; cube2 || cube3 || cube4; cube1 || cube3 || cube4; bzero].

(** lines 148-175; the variables are in reverse order. The variable names pushed to the manager
    are not modelled. *)
Definition running_example : list bdd :=
  let x1 := bvar 2 in
  let x2 := bvar 1 in
  let x3 := bvar 0 in
  let cube1 := !x3 * !x2 * !x1 in
  let cube2 := !x3 * !x2 * x1 in
  let cube3 := !x3 * x2 * !x1 in
  let cube4 := !x3 * x2 * x1 in
  let cube5 := x3 * !x2 * !x1 in
  let cube6 := x3 * !x2 * x1 in
  let cube7 := x3 * x2 * !x1 in
  let cube8 := x3 * x2 * x1 in
  [cube1 || cube2 || cube3 || cube5 || cube8; cube4 || cube5 || cube6 || cube7].
End Papers.
