(** Vocabulary of C167, C168 and C188: exactly when a function fails, and how. *)
From Coq Require Import List.
From Verif Require Import Res Cudd SpecMinimize.

(** the behaviour is undefined exactly if [P] holds, and there is no other failure *)
Definition undefined_iff {A} (r : res A) (P : Prop) : Prop := forall e, fails e r <-> e = Undefined /\ P.
(** an assertion fails exactly if [P] holds, and there is no other failure *)
Definition abort_iff {A} (r : res A) (P : Prop) : Prop := forall e, fails e r <-> e = FailedAssert /\ P.
(** an exception is thrown exactly if [P] holds, and there is no other failure *)
Definition throws_iff {A} (r : res A) (P : Prop) : Prop := forall e, fails e r <-> e = Exception /\ P.
Definition never_fails {A} (r : res A) : Prop := exists v, r = Ok v.
(** two functions differ in an output beyond the first 64 *)
Definition high_difference (f g : list bdd) : Prop := exists i a, 64 <= i /\ ev (nth i f bzero) a <> ev (nth i g bzero) a.
