(** Specification vocabulary for error_rate_efficient_sampling in doubles of limited range *)
From Coq Require Import List Bool Arith ZArith QArith Permutation Sorted.
From Verif Require Import Cudd CuddFacts Spec Ieee.
Import ListNotations.
Open Scope nat_scope.

(** a sort of which nothing is known but that it keeps the elements; the order of NaN is not defined *)
Definition permutes (sort : list (nat * dbl) -> list (nat * dbl)) : Prop := forall l, Permutation (sort l) l.
(** [2^(ReadSize() - 1)] is no finite double; without variables the [unsigned int] wraps around *)
Definition infinite_size (M : mgr) : Prop := (read_size M = 0 \/ 1025 <= read_size M) /\ (Z.of_nat (read_size M) <= 2 ^ 31)%Z.
Definition finite_double (x : dbl) : Prop := exists q, x = DFin q.
(** [std::sort] by decreasing second component on finite numbers *)
Definition sorts_doubles (sort : list (nat * dbl) -> list (nat * dbl)) : Prop := forall l, Permutation l (sort l)
  /\ (Forall (fun p => finite_double (snd p)) l -> StronglySorted (fun p q => dleb (snd q) (snd p) = true) (sort l)).
(** [Cudd_CountMinterm] for one variable less than there are: half the number of satisfying inputs, which is a double *)
Definition counts_exactly (M : mgr) (count : bdd -> Z -> dbl) : Prop := forall b, wf M b -> depends_below (read_size M) b ->
  exists c, count b (Z.of_nat (read_size M) - 1)%Z = DFin c
    /\ (c == average (read_size M) (fun a => b2q (ev b a)) * inject_Z (2 ^ (Z.of_nat (read_size M) - 1)))%Q.
