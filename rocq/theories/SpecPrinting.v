(** Reading printed numbers and tables *)
From Coq Require Import Ascii String List Bool Arith ZArith QArith Qabs.
From Verif Require Import SpecBenchmark.
Import ListNotations.
Open Scope string_scope.

(** the text before and after the first [sep] *)
Fixpoint cut (sep : ascii) (s : string) : string * option string :=
  match s with
  | EmptyString => ("", None)
  | String c s' => if Ascii.eqb c sep then ("", Some s') else let (a, b) := cut sep s' in (String c a, b)
  end.
(** digits; digits with a point between them; an exponent with its sign *)
Definition read_natural (s : string) : option Z := match s with EmptyString => None | _ => read_digits s 0 end.
Definition read_fixed (s : string) : option Q :=
  match cut "." s with
  | (a, None) => option_map inject_Z (read_natural a)
  | (a, Some b) =>
      match read_natural a, read_natural b with
      | Some x, Some y => Some (inject_Z x + inject_Z y / 10 ^ Z.of_nat (String.length b))%Q
      | _, _ => None
      end
  end.
Definition read_exponent (s : string) : option Z :=
  match s with
  | EmptyString => None
  | String c s' => if Ascii.eqb c "+" then read_natural s' else if Ascii.eqb c "-" then option_map Z.opp (read_natural s') else None
  end.
Definition read_unsigned (s : string) : option Q :=
  match cut "e" s with
  | (a, None) => read_fixed a
  | (a, Some b) => match read_fixed a, read_exponent b with Some x, Some e => Some (x * 10 ^ e)%Q | _, _ => None end
  end.
Definition read_number (s : string) : option Q :=
  match s with
  | EmptyString => None
  | String c s' => if Ascii.eqb c "-" then option_map Qopp (read_unsigned s') else read_unsigned s
  end.
(** [s] is a text of the number [q] *)
Definition reads_as (s : string) (q : Q) : Prop := exists r, read_number s = Some r /\ (r == q)%Q.

(** numbers with at most six significant digits; the nearest ones *)
Definition six_digit_number (x : Q) : Prop := exists m e : Z, (Z.abs m < 10 ^ 6)%Z /\ (x == inject_Z m * 10 ^ e)%Q.
Definition nearest_six_digits (q r : Q) : Prop :=
  six_digit_number r /\ forall x, six_digit_number x -> (Qabs (q - r) <= Qabs (q - x))%Q.

(** the nearest number with six digits; if there are two of them the one whose last digit is even *)
Definition even_six (r : Q) : Prop :=
  exists m e : Z, (10 ^ 5 <= Z.abs m < 10 ^ 6)%Z /\ Z.even m = true /\ (r == inject_Z m * 10 ^ e)%Q.
Definition rounded_to_six (q r : Q) : Prop :=
  nearest_six_digits q r /\ forall r', nearest_six_digits q r' -> (r == r')%Q \/ even_six r.

(** ** The one text of a number: no superfluous zeros, exponents for numbers below 0.0001 and from a million on *)
Definition fixed_form (s : string) (q : Q) : Prop :=
  exists a z, decimal a z
  /\ ((s = a /\ (q == inject_Z z)%Q)
      \/ exists b y, s = a ++ "." ++ b /\ b <> "" /\ read_digits b 0 = Some y /\ (forall t, b <> t ++ "0")
         /\ (q == inject_Z z + inject_Z y / 10 ^ Z.of_nat (String.length b))%Q).
Definition exponent_form (s : string) (e : Z) : Prop :=
  exists d, decimal d (Z.abs e) /\ s = (if (e <? 0)%Z then "-" else "+") ++ (if (Z.abs e <? 10)%Z then "0" else "") ++ d.
Definition positive_form (s : string) (q : Q) : Prop :=
  ((1 # 10000) <= q /\ q < 1000000 /\ fixed_form s q)%Q
  \/ ((q < 1 # 10000 \/ 1000000 <= q)%Q
      /\ exists a m b e, s = a ++ "e" ++ b /\ (1 <= m)%Q /\ (m < 10)%Q /\ (q == m * 10 ^ e)%Q /\ fixed_form a m /\ exponent_form b e).
Definition printed_form (s : string) (q : Q) : Prop :=
  (q == 0 /\ s = "0")%Q \/ (0 < q /\ positive_form s q)%Q \/ (q < 0 /\ exists t, s = "-" ++ t /\ positive_form t (- q))%Q.

(** [s] shows the number [q] with six digits *)
Definition shows (s : string) (q : Q) : Prop := exists r, reads_as s r /\ nearest_six_digits q r.

(** ** Tables *)
(** the parts between the occurrences of [sep] *)
Fixpoint split_at (sep : ascii) (s : string) : list string :=
  match s with
  | EmptyString => [""]
  | String c s' =>
      if Ascii.eqb c sep then "" :: split_at sep s'
      else match split_at sep s' with w :: ws => String c w :: ws | [] => [] end
  end.
Fixpoint skip_blanks (s : string) : string :=
  match s with String c s' => if Ascii.eqb c " " then skip_blanks s' else s | EmptyString => "" end.
Definition newline : ascii := "010".
(** the cells of a text all whose lines are complete *)
Definition table (sep : ascii) (text : string) : option (list (list string)) :=
  match rev (split_at newline text) with
  | "" :: lines => Some (map (fun l => map skip_blanks (split_at sep l)) (rev lines))
  | _ => None
  end.
