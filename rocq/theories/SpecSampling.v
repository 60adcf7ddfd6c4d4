(** Random draws: the specification of sampling. The values of rand() are independent and uniform
    between 0 and [r], that is, all sequences of draws are equally likely. *)
From Coq Require Import List Bool Arith ZArith QArith.
From Verif Require Import Cudd Spec.
Import ListNotations.
Open Scope nat_scope.

(** all sequences of [k] draws *)
Fixpoint draw_lists (r k : nat) : list (list Z) :=
  match k with
  | O => [[]]
  | S k' => flat_map (fun d => map (cons (Z.of_nat d)) (draw_lists r k')) (seq 0 (S r))
  end.
Definition expectation (r k : nat) (F : list Z -> Q) : Q :=
  (sumQ (map F (draw_lists r k)) / inject_Z (Z.of_nat (length (draw_lists r k))))%Q.
Definition probability (r k : nat) (P : list Z -> bool) : Q := expectation r k (fun l => b2q (P l)).
Definition draw_list (r k : nat) (l : list Z) : Prop := length l = k /\ Forall (fun d => 0 <= d <= Z.of_nat r)%Z l.

(** the sequence of draws that starts with [l] *)
Definition draws_from (l : list Z) : nat -> Z := fun i => nth i l 0%Z.
(** an input as a vector of [T] integers *)
Definition input_list (T : nat) (a : asg) : list Z := map (fun i => Z.b2z (a i)) (seq 0 T).
(** mean of [F] over the inputs that satisfy [f] *)
Definition conditional (T : nat) (f : bdd) (F : list Z -> Q) : Q :=
  (average T (fun a => b2q (ev f a) * F (input_list T a)) / average T (fun a => b2q (ev f a)))%Q.
