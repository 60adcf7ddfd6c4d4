(** How reading an and-inverter graph ends *)
From Coq Require Import List Bool NArith.
From Verif Require Import Cudd Parsing SpecParsing SpecMinimize.
Import ListNotations.
Open Scope list_scope.

(** the reader accepts the line after the lines [pre] of a file with header m, i, o *)
Definition accepts (m i o : N) (pre : list aig_event) (line : aig_event) : Prop :=
  match line with
  | Input index lit => (index < i /\ lit < 2 * m + 2)%N
  | Output index lit => (index < o /\ lit < 2 * m + 2)%N
  | And index l r => (index <= m /\ l < 2 * m + 2 /\ r < 2 * m + 2)%N
      /\ ~ defined pre (2 * index) /\ declared pre l /\ declared pre r
  | InputName index _ => (index < i)%N
  | OutputName index _ => (index < o)%N
  | Unsupported => False
  end.
Definition accepts_all (m i o : N) (evs : list aig_event) : Prop :=
  forall pre line post, evs = pre ++ line :: post -> accepts m i o pre line.

(** the reader stops at the line *)
Definition stops (e : failure) (m i o : N) (pre : list aig_event) (line : aig_event) : Prop :=
  match line with
  | Input index lit => e = FailedAssert /\ (i <= index \/ 2 * m + 2 <= lit)%N
  | Output index lit => e = FailedAssert /\ (o <= index \/ 2 * m + 2 <= lit)%N
  | And index l r =>
      (e = FailedAssert /\ (m + 1 < index \/ 2 * m + 2 <= l \/ 2 * m + 2 <= r)%N)
      \/ (e = Undefined /\ (index = m + 1 /\ l < 2 * m + 2 /\ r < 2 * m + 2)%N)
      \/ (e = FailedAssert /\ (index <= m /\ l < 2 * m + 2 /\ r < 2 * m + 2)%N /\ defined pre (2 * index))
      \/ (e = Exception /\ (index <= m /\ l < 2 * m + 2 /\ r < 2 * m + 2)%N
          /\ ~ defined pre (2 * index) /\ ~ (declared pre l /\ declared pre r))
  | InputName index _ => (e = Undefined /\ index = i) \/ (e = FailedAssert /\ (i < index)%N)
  | OutputName index _ => (e = Undefined /\ index = o) \/ (e = FailedAssert /\ (o < index)%N)
  | Unsupported => e = FailedAssert
  end.
(** the reading ends with [e] *)
Definition reading_fails (e : failure) (m i o : N) (evs : list aig_event) : Prop :=
  (exists pre line post, evs = pre ++ line :: post /\ accepts_all m i o pre /\ stops e m i o pre line)
  \/ (e = Exception /\ accepts_all m i o evs /\ exists j lit, (j < o)%N /\ output_literal evs j lit /\ ~ declared evs lit).
