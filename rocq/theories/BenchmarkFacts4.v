(** Proofs about numbers in texts *)
From Coq Require Import Ascii String List Bool Arith NArith ZArith QArith Lia DecimalString DecimalN DecimalFacts.
From Verif Require Import Res Cudd Metrics Benchmark SpecBenchmark BenchmarkFacts2.
Import ListNotations.
Open Scope string_scope.

Lemma read_digits_acc d : forall p, read_digits (NilEmpty.string_of_uint d) (Zpos p) = Some (Zpos (Pos.of_uint_acc d p)).
Proof.
  induction d; intro p; cbn [NilEmpty.string_of_uint read_digits Pos.of_uint_acc]; [reflexivity|..];
    match goal with |- context [digit_of ?c] => let v := eval vm_compute in (digit_of c) in change (digit_of c) with v end; cbv iota beta;
    rewrite <- IHd; f_equal; lia.
Qed.
Lemma read_digits_zero d : read_digits (NilEmpty.string_of_uint d) 0 = Some (Z.of_N (N.of_uint d)).
Proof.
  induction d; cbn [NilEmpty.string_of_uint read_digits]; [reflexivity|..];
    match goal with |- context [digit_of ?c] => let v := eval vm_compute in (digit_of c) in change (digit_of c) with v end; cbv iota beta;
    [exact IHd|..]; exact (read_digits_acc _ _).
Qed.
Lemma to_string_decimal n : decimal (to_string n) (Z.of_N n).
Proof.
  unfold to_string. pose proof (read_digits_zero (N.to_uint n)) as H. rewrite Unsigned.of_to in H.
  split; [|split; [exact H|]].
  - intro E. assert (K : N.to_uint n = Decimal.Nil) by (destruct (N.to_uint n); try discriminate E; reflexivity).
    destruct n as [|p]; [discriminate K|]. revert K. cbn [N.to_uint]. apply DecimalPos.Unsigned.to_uint_nonnil.
  - intros s E. pose proof (Unsigned.to_of (N.to_uint n)) as T. rewrite Unsigned.of_to in T.
    destruct (N.to_uint n) as [|d|d|d|d|d|d|d|d|d|d] eqn:Ed; try discriminate E. cbn in E. injection E as <-.
    unfold Decimal.unorm in T. cbn [Decimal.nzhead] in T. 
    destruct (Decimal.nzhead d) as [|d'|d'|d'|d'|d'|d'|d'|d'|d'|d'] eqn:En; try discriminate T.
    + injection T as ->. reflexivity.
    + exfalso. exact (nzhead_nonzero _ _ En).
Qed.
Lemma to_string_int_text z : integer_text (to_string_int z) z.
Proof.
  destruct z as [|p|p]; cbn [to_string_int].
  - left. split; [lia|]. exact (to_string_decimal 0).
  - left. split; [lia|]. exact (to_string_decimal (Npos p)).
  - right. split; [lia|]. exists (to_string (Npos p)). split; [reflexivity|]. exact (to_string_decimal (Npos p)).
Qed.
Lemma integer_text_unique s z z' : integer_text s z -> integer_text s z' -> z = z'.
Proof.
  intros [(_ & _ & H & _)|(_ & t & -> & _ & H & _)] [(_ & _ & H' & _)|(_ & t' & E & _ & H' & _)].
  - congruence.
  - subst s. discriminate H.
  - discriminate H'.
  - injection E as <-. assert (- z = - z')%Z by congruence. lia.
Qed.

Lemma format_time_text :
  (forall ms, (0 <= ms < inject_Z (60000 * 2 ^ 31))%Q -> exists z text unit len,
     format_time (Fin ms) = Ok (text ++ " " ++ unit) /\ integer_text text z /\ time_unit ms unit len
     /\ (inject_Z (z * len) <= ms < inject_Z ((z + 1) * len))%Q)
  /\ (forall ms, (inject_Z (- 2 ^ 31 - 1) < ms < 0)%Q -> exists z text,
       format_time (Fin ms) = Ok (text ++ " ms") /\ integer_text text z /\ (inject_Z (z - 1) < ms <= inject_Z z)%Q)
  /\ (forall ms, (inject_Z (60000 * 2 ^ 31) <= ms \/ ms <= inject_Z (- 2 ^ 31 - 1))%Q -> format_time (Fin ms) = UB)
  /\ format_time NonFin = UB.
Proof.
  destruct format_time_full as (H1 & H2 & H3 & H4). split; [|split; [|split]]; auto.
  - intros ms H. destruct (H1 ms H) as (z & unit & len & E & U & B). exists z, (to_string_int z), unit, len. auto using to_string_int_text.
  - intros ms H. destruct (H2 ms H) as (z & E & B). exists z, (to_string_int z). auto using to_string_int_text.
Qed.
