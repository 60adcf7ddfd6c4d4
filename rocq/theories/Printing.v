(** Numbers as the programs print them: [std::cout << x] for a finite [double] in the default format,
    that is printf's %g with six digits (C11 7.21.6.1; ISO C++ 2017 [facet.num.put.virtuals]), with
    rounding of the exact value to nearest, ties to even (glibc). Negative zero is printed as zero,
    infinities and NaN are not modelled. *)
From Coq Require Import Ascii String Bool Arith ZArith QArith.
From Verif Require Import Float Benchmark.
Open Scope string_scope.

Definition number_of_digits (n : N) : Z := Z.of_nat (String.length (to_string n)).
(** the [e] with 10^e <= q < 10^(e+1) for positive [q] *)
Definition decimal_exponent (q : Q) : Z :=
  let e := (number_of_digits (Z.to_N (Qnum q)) - number_of_digits (Npos (Qden q)))%Z in
  if Qle_bool (10 ^ e) q then e else (e - 1)%Z.
(** the digits, as a number below 10^6, and the exponent of the style of %e *)
Definition six_digits (q : Q) : Z * Z :=
  let x := decimal_exponent q in
  let m := round_half_even (q / 10 ^ (x - 5)) in
  if (m =? 10 ^ 6)%Z then ((10 ^ 5)%Z, (x + 1)%Z) else (m, x).
(** %g removes zeros at the end of the fraction, and the point if no fraction is left *)
Fixpoint without_zeros (s : string) : string :=
  match s with
  | EmptyString => EmptyString
  | String c s' => match without_zeros s' with
                   | EmptyString => if Ascii.eqb c "0" then EmptyString else String c EmptyString
                   | r => String c r
                   end
  end.
Definition with_fraction (whole fraction : string) : string :=
  match without_zeros fraction with EmptyString => whole | r => whole ++ "." ++ r end.
Fixpoint zeros (n : nat) : string := match n with O => "" | S n' => String "0" (zeros n') end.
(** the exponent has at least two digits *)
Definition put_exponent (x : Z) : string :=
  (if (x <? 0)%Z then "-" else "+") ++ (if (Z.abs x <? 10)%Z then "0" else "") ++ to_string (Z.to_N (Z.abs x)).
Definition put_positive (q : Q) : string :=
  let (m, x) := six_digits q in
  let digits := to_string (Z.to_N m) in
  if ((-4 <=? x) && (x <? 6))%Z then
    if (0 <=? x)%Z then
      let k := Z.to_nat (x + 1) in with_fraction (substring 0 k digits) (substring k (6 - k) digits)
    else with_fraction "0" (zeros (Z.to_nat (- x - 1)) ++ digits)
  else with_fraction (substring 0 1 digits) (substring 1 5 digits) ++ "e" ++ put_exponent x.
Definition put_double (x : Q) : string :=
  let q := Qred x in
  match Qnum q with
  | Z0 => "0"
  | Zpos _ => put_positive q
  | Zneg _ => "-" ++ put_positive (Qopp q)
  end.
