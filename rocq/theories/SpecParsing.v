(** Specification vocabulary of the readers. It uses only the event types of Parsing.v. *)
From Coq Require Import Ascii String List Bool Arith NArith.
From Verif Require Import Cudd Parsing.
Import ListNotations.
Open Scope list_scope.
Open Scope nat_scope.

(** ** Words of a line *)
(** the white space of the "C" locale: space, \t, \n, \v, \f, \r *)
Definition blank (c : ascii) : Prop := In (nat_of_ascii c) [32; 9; 10; 11; 12; 13].
Definition word (w : list ascii) : Prop := w <> [] /\ Forall (fun c => ~ blank c) w.
Definition gap (s : list ascii) : Prop := Forall blank s.
(** [s] is made of the words [ws], separated by white space *)
Inductive words_of : list ascii -> list (list ascii) -> Prop :=
| no_word s : gap s -> words_of s []
| last_word s w : gap s -> word w -> words_of (s ++ w) [w]
| more_words s w g rest ws : gap s -> word w -> gap g -> g <> [] -> words_of rest ws -> words_of (s ++ w ++ g ++ rest) (w :: ws).

(** ** PLA files *)
Definition sum_of (f : pla_event -> nat) (evs : list pla_event) : nat := fold_right (fun e n => f e + n) 0 evs.
Definition declared_inputs := sum_of (fun e => match e with Inputs n => n | _ => 0 end).
Definition declared_outputs := sum_of (fun e => match e with Outputs n => n | _ => 0 end).
Definition input_declarations := sum_of (fun e => match e with Inputs _ => 1 | _ => 0 end).
(** values of the lines with this keyword *)
Definition values_of (keyword : string) (evs : list pla_event) : list (list ascii) := flat_map (fun e => match e with
  | Keyword k v => if list_eq_dec ascii_dec k (list_ascii_of_string keyword) then [v] else []
  | _ => [] end) evs.
(** the cube contains the input vector *)
Definition matches (a : asg) (term : list ascii) : Prop := forall i,
  (nth_error term i = Some "0"%char -> a i = false) /\ (nth_error term i = Some "1"%char -> a i = true).
(** all columns used by the term have been declared *)
Definition fits (inputs outputs : nat) (term out : list ascii) : Prop :=
  (forall i, nth_error term i = Some "0"%char \/ nth_error term i = Some "1"%char -> i < inputs)
  /\ (forall j, nth_error out j = Some "1"%char -> j < outputs).

(** ** And-inverter graphs *)
Section Graph.
Variable evs : list aig_event.
(** literal [lit] has the value [b] if input number i has the value [a i] *)
Inductive lit_value (a : asg) : N -> bool -> Prop :=
| lit_false : lit_value a 0 false
| lit_true : lit_value a 1 true
| lit_input index lit : In (Input index lit) evs -> lit_value a lit (a (N.to_nat index))
| lit_and index l r x y : In (And index l r) evs -> lit_value a l x -> lit_value a r y -> lit_value a (2 * index) (x && y)
| lit_not lit x : N.odd lit = true -> lit_value a (lit - 1) x -> lit_value a lit (negb x).
(** the literal is a constant, an input, or the result of a gate *)
Definition defined (lit : N) : Prop :=
  lit = 0%N \/ lit = 1%N \/ (exists index, In (Input index lit) evs) \/ (exists index l r, In (And index l r) evs /\ lit = 2 * index)%N.
(** or the inverse of one *)
Definition declared (lit : N) : Prop := defined lit \/ (N.odd lit = true /\ defined (lit - 1)%N).
(** output [index] is literal [lit]; the last declaration counts *)
Definition output_literal (index lit : N) : Prop :=
  (exists pre post, evs = pre ++ Output index lit :: post /\ forall l, ~ In (Output index l) post)
  \/ ((forall l, ~ In (Output index l) evs) /\ lit = 0%N).
End Graph.

(** a correct line of a file with header m, i, o after the lines [pre] *)
Definition ok_line (m i o : N) (pre : list aig_event) (e : aig_event) : Prop :=
  match e with
  | Input index lit => (index < i /\ 2 <= lit < 2 * m + 2)%N /\ N.odd lit = false /\ ~ defined pre lit
  | Output index lit => (index < o /\ lit < 2 * m + 2)%N
  | And index l r => (1 <= index <= m)%N /\ ~ defined pre (2 * index) /\ declared pre l /\ declared pre r
  | InputName index _ => (index < i)%N
  | OutputName index _ => (index < o)%N
  | Unsupported => False
  end.
(** the literals of a file are 32 bit numbers *)
Definition ok_file (m i o : N) (evs : list aig_event) : Prop :=
  (2 * m + 2 <= 2 ^ 32)%N
  /\ (forall pre e post, evs = pre ++ e :: post -> ok_line m i o pre e)
  /\ (forall index lit, In (Output index lit) evs -> declared evs lit).
