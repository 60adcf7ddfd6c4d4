(** Independent specification vocabulary: the number encoded by a vector of
    functions at an input, maxima and averages over all inputs. The only thing
    used from the model is the value [ev f a] of a BDD [f] at an input [a] and the two
    number representations. *)
From Coq Require Import List Bool ZArith QArith Qround Permutation Sorted.
From Verif Require Import Res Cudd Helpers.
Import ListNotations.

(** unsigned value, least significant bit first *)
Fixpoint uval (f : list bdd) (a : asg) : Z :=
  match f with
  | [] => 0
  | b :: f' => Z.b2z (ev b a) + 2 * uval f' a
  end%Z.

(** two's complement value: the last bit has negative weight *)
Fixpoint sval (f : list bdd) (a : asg) : Z :=
  match f with
  | [] => 0
  | [b] => - Z.b2z (ev b a)
  | b :: f' => Z.b2z (ev b a) + 2 * sval f' a
  end%Z.

(** [m] is the maximum of [F] over all inputs *)
Definition is_max (F : asg -> Z) (m : Z) : Prop :=
  (exists a, F a = m) /\ (forall a, F a <= m)%Z.
Definition is_maxQ (F : asg -> Q) (m : Q) : Prop :=
  (exists a, F a == m)%Q /\ (forall a, F a <= m)%Q.

(** all inputs of [n] variables; variable [i] is the [i]-th entry *)
Fixpoint all_inputs (n : nat) : list (list bool) :=
  match n with
  | O => [[]]
  | S n' => map (cons true) (all_inputs n') ++ map (cons false) (all_inputs n')
  end.
Definition asg_of (l : list bool) : asg := fun i => nth i l false.

Definition sumQ (l : list Q) : Q := fold_right Qplus 0%Q l.
Definition sum_inputs (n : nat) (F : asg -> Q) : Q :=
  sumQ (map (fun l => F (asg_of l)) (all_inputs n)).
Definition average (n : nat) (F : asg -> Q) : Q :=
  (sum_inputs n F / inject_Z (Z.of_nat (length (all_inputs n))))%Q.

(** [f] is a function of the variables [0 .. n-1] *)
Definition depends_below (n : nat) (f : bdd) : Prop :=
  forall a b, (forall i, (i < n)%nat -> a i = b i) -> ev f a = ev f b.

Definition b2q (b : bool) : Q := (if b then 1 else 0)%Q.
(** number of positions in which two vectors of functions differ at an input *)
Fixpoint hamming (f g : list bdd) (a : asg) : Z :=
  match f, g with
  | x :: f', y :: g' => Z.b2z (xorb (ev x a) (ev y a)) + hamming f' g' a
  | _, _ => 0
  end%Z.
(** do two vectors differ at an input? *)
Fixpoint differ (f g : list bdd) (a : asg) : bool :=
  match f, g with
  | x :: f', y :: g' => xorb (ev x a) (ev y a) || differ f' g' a
  | _, _ => false
  end.

(** |x-y| and relative error with denominator max(1,|x|) *)
Definition dist (x y : Z) : Z := Z.abs (x - y).
Definition rel (x y : Z) : Q :=
  (inject_Z (dist x y) / inject_Z (Z.max 1 (Z.abs x)))%Q.

(** the number encoded by a vector in a given representation *)
Definition value (r : NumberRepresentation) (f : list bdd) (a : asg) : Z :=
  match r with BaseTwo => uval f a | TwosComplement => sval f a end.

(** number of inputs of [n] variables that satisfy a test *)
Definition count_inputs (n : nat) (t : asg -> bool) : nat :=
  length (filter (fun l => t (asg_of l)) (all_inputs n)).

(** edges (BDDs) reachable from a BDD *)
Fixpoint edges (n : node) (c : bool) : list bdd :=
  (c, n) :: match n with
            | One => []
            | Nd _ t c' e => edges t c ++ edges e (xorb c c')
            end.
Definition reachable (f : bdd) : list bdd := edges (snd f) (fst f).

(** the variable order is the index order (no reordering took place) *)
Definition index_order (M : mgr) : Prop := forall i, lv M i = i.

(** [i] is a variable of the vector *)
Definition vars_in (f : list bdd) (i : nat) : Prop := exists b, In b f /\ In i (varsn (snd b)).

(** [T] is one more than the largest index with [used]; 1 if there is none *)
Definition first_unused (used : nat -> Prop) (T : nat) : Prop :=
  (1 <= T)%nat /\ (forall i, used i -> (i < T)%nat) /\ ((1 < T)%nat -> used (T - 1)%nat).
(** the number of levels of a vector; 0 if it is empty *)
Definition levels_of (f : list bdd) (T : nat) : Prop :=
  (f = [] -> T = 0%nat) /\ (f <> [] -> first_unused (vars_in f) T).
(** the level of the root of [f], [T] for a constant *)
Definition start_level (T : nat) (f : bdd) : nat := match snd f with One => T | Nd v _ _ _ => v end.

(** all outputs are functions of the variables [0 .. n-1] *)
Definition below (n : nat) (f : list bdd) : Prop := Forall (depends_below n) f.

(** [h] is the most significant position in which two vectors differ as functions *)
Definition top_difference (f g : list bdd) (h : nat) : Prop :=
  (h < length f)%nat /\ (exists a, ev (nth h f bzero) a <> ev (nth h g bzero) a)
  /\ forall i, (h < i < length f)%nat -> forall a, ev (nth i f bzero) a = ev (nth i g bzero) a.

(** two vectors compute the same functions, possibly for different variable orders *)
Definition same_functions (f g : list bdd) : Prop :=
  forall a, map (fun b => ev b a) f = map (fun b => ev b a) g.
(** the number with the given digits, least significant first *)
Definition digits (l : list Z) : Z := fold_right (fun x r => x + 2 * r)%Z 0%Z l.
(** the number of inputs of [s] variables on which both are true if the shares are as for [n] variables, rounded down *)
Definition both_count (n s : nat) (x y : bdd) : Z :=
  Qfloor (inject_Z (2 ^ Z.of_nat s) * average n (fun a => b2q (ev x a && ev y a))).
(** the mean of the square as a sum over pairs of outputs with rounded counts *)
Definition truncated_square (n s : nat) (f : list bdd) : Q :=
  (inject_Z (digits (map (fun x => digits (map (both_count n s x) f)) f)) / inject_Z (2 ^ Z.of_nat s))%Q.
(** [s] is the largest number of variables of an output *)
Definition largest_support (f : list bdd) (s : nat) : Prop :=
  (forall b, In b f -> support_size b <= s)%nat /\ (s = 0%nat \/ exists b, In b f /\ support_size b = s).
(** sample [k] of a sequence of random numbers: the [T] next lowest bits *)
Definition sample (draws : nat -> Z) (T k : nat) : asg := fun i => Z.odd (draws (k * T + i)%nat).

(** the distance of two numbers as seen by the BDD based metrics: in two's complement the
    subtraction wraps around at the word size *)
Definition wrapped (r : NumberRepresentation) (f g : list bdd) (a : asg) : Z :=
  match r with
  | BaseTwo => dist (uval f a) (uval g a)
  | TwosComplement =>
      Z.min (dist (sval f a) (sval g a))
            (2 ^ Z.of_nat (Nat.max (length f) (length g)) - dist (sval f a) (sval g a))
  end.

(** the relative error as seen by the BDD based metrics *)
Definition wrel (r : NumberRepresentation) (f g : list bdd) (a : asg) : Q :=
  (inject_Z (wrapped r f g a) / inject_Z (Z.max 1 (Z.abs (value r f a))))%Q.

(** is output [i] wrong at an input? and the share of inputs where it is *)
Definition wrong (f g : list bdd) (i : nat) (a : asg) : bool := xorb (ev (nth i f bzero) a) (ev (nth i g bzero) a).
Definition output_rate (n : nat) (f g : list bdd) (i : nat) : Q := average n (fun a => b2q (wrong f g i a)).

(** [std::sort] by decreasing second component: some sorted permutation *)
Definition sorts_down (sort : list (nat * Q) -> list (nat * Q)) : Prop :=
  forall l, Permutation l (sort l) /\ StronglySorted (fun p q => (snd q <= snd p)%Q) (sort l).

(** share of the inputs of [n] variables on which two Boolean functions disagree *)
Definition disagreement (n : nat) (f g : asg -> bool) : Q := average n (fun a => b2q (xorb (f a) (g a))).
(** [h] is a function of the variables [0 .. n-1] *)
Definition below_fun (n : nat) (h : asg -> bool) : Prop :=
  forall a b, (forall i, (i < n)%nat -> a i = b i) -> h a = h b.

(** [h] is obtained from the BDD by treating every node with variable in [ls .. le] by [N v t e ht he],
    where [t], [e] are the children and [ht], [he] what they were turned into; nodes are searched
    downwards from the root until a variable above [le] *)
Inductive at_range (ls le : nat) (N : nat -> bdd -> bdd -> (asg -> bool) -> (asg -> bool) -> (asg -> bool) -> Prop)
  : bdd -> (asg -> bool) -> Prop :=
| ar_const c (h : asg -> bool) : (forall a, h a = negb c) -> at_range ls le N (c, One) h
| ar_before c v t d e (ht he h : asg -> bool) : (v < ls)%nat ->
    at_range ls le N (c, t) ht -> at_range ls le N (xorb c d, e) he ->
    (forall a, h a = if a v then ht a else he a) -> at_range ls le N (c, Nd v t d e) h
| ar_in c v t d e (ht he h : asg -> bool) : (ls <= v <= le)%nat ->
    at_range ls le N (c, t) ht -> at_range ls le N (xorb c d, e) he ->
    N v (c, t) (xorb c d, e) ht he h -> at_range ls le N (c, Nd v t d e) h
| ar_after c v t d e (h : asg -> bool) : (le < v)%nat -> (ls <= v)%nat ->
    (forall a, h a = ev (c, Nd v t d e) a) -> at_range ls le N (c, Nd v t d e) h.

(** the then child / the else child becomes the constant [k] *)
Definition then_const (v : nat) (k : bool) (he h : asg -> bool) : Prop := forall a, h a = if a v then k else he a.
Definition else_const (v : nat) (k : bool) (ht h : asg -> bool) : Prop := forall a, h a = if a v then ht a else k.
(** the child of smaller / larger weight becomes [k] *)
Definition light_const (W : bdd -> Q) (k : bool) (v : nat) (t e : bdd) (ht he h : asg -> bool) : Prop :=
  (W t <= W e /\ then_const v k he h)%Q \/ (W e < W t /\ else_const v k ht h)%Q.
Definition heavy_const (W : bdd -> Q) (k : bool) (v : nat) (t e : bdd) (ht he h : asg -> bool) : Prop :=
  (W e < W t /\ then_const v k he h)%Q \/ (W t <= W e /\ else_const v k ht h)%Q.
(** the child of smaller / larger weight becomes [k], where weights whose ratio is below [y / x] may be confused *)
Definition nearly_light_const (x y : Q) (W : bdd -> Q) (k : bool) (v : nat) (t e : bdd) (ht he h : asg -> bool) : Prop :=
  (x * W t <= y * W e /\ then_const v k he h)%Q \/ (x * W e <= y * W t /\ else_const v k ht h)%Q.
Definition nearly_heavy_const (x y : Q) (W : bdd -> Q) (k : bool) (v : nat) (t e : bdd) (ht he h : asg -> bool) : Prop :=
  (x * W e <= y * W t /\ then_const v k he h)%Q \/ (x * W t <= y * W e /\ else_const v k ht h)%Q.
(** some child becomes some constant *)
Definition child_const (v : nat) (t e : bdd) (ht he h : asg -> bool) : Prop :=
  exists k, then_const v k he h \/ else_const v k ht h.

(** share of satisfying inputs *)
Definition density (n : nat) (f : bdd) : Q := average n (fun a => b2q (ev f a)).
(** number of satisfying inputs over the variables from the top variable of [f] to [T - 1] *)
Definition own_solutions (T : nat) (f : bdd) : Q :=
  (sum_inputs T (fun a => b2q (ev f a)) / inject_Z (2 ^ Z.of_nat (match snd f with One => T | Nd v _ _ _ => v end)))%Q.

(** ** Adders *)
(** the number with bits [x 0 .. x (n-1)] *)
Fixpoint number (n : nat) (x : nat -> bool) : Z :=
  match n with
  | O => 0
  | S n' => number n' x + 2 ^ Z.of_nat n' * Z.b2z (x n')
  end%Z.
(** the operands of the adders: even and odd variables *)
Definition op1 (a : asg) (i : nat) : bool := a (2 * i)%nat.
Definition op2 (a : asg) (i : nat) : bool := a (2 * i + 1)%nat.
(** does adding two numbers carry into position [i]? *)
Definition carry_into (x y : nat -> bool) (i : nat) : Prop :=
  (2 ^ Z.of_nat i <= number i x + number i y)%Z.
(** the carry into position [i] is generated at a position [>= l] and propagated from there *)
Definition generated_from (x y : nat -> bool) (l i : nat) : Prop :=
  exists g, (l <= g < i)%nat /\ x g = true /\ y g = true /\ forall j, (g < j < i)%nat -> xorb (x j) (y j) = true.
(** first input position looked at for the carry out of position [k], when the carry computation
    restarts at some positions with [p] positions of lookback (the position itself included) *)
Fixpoint lookback (restart : nat -> bool) (p k : nat) : nat :=
  if restart k then (k + 1 - p)%nat
  else match k with O => 0%nat | S k' => lookback restart p k' end.
(** the carry out of position [k] starts a new block of length [d] (never for the first and last position) *)
Definition block_end (N d k : nat) : bool := negb (k =? 0) && ((k + 1) mod d =? 0) && negb (k + 1 =? N).
(** GeAr: after the first sub adder of [R + P] bits every [R] bits, but not for the last position *)
Definition gear_end (N R P k : nat) : bool :=
  (R + P - 1 <=? k) && negb (k =? N - 1) && (if R =? 0 then k =? P - 1 else (k - (R + P - 1)) mod R =? 0).
(** the [N] bit adder [r] never exceeds the sum, and bit [i] is exact precisely if the carry into
    it, if there is one, is generated at or after position [start i] *)
Definition underestimates (N : nat) (r : list bdd) : Prop :=
  length r = N + 1 /\ forall a, (0 <= uval r a <= number N (op1 a) + number N (op2 a))%Z.
Definition exact_bit (N : nat) (r : list bdd) (a : asg) (i : nat) : Prop :=
  ev (nth i r bzero) a = Z.testbit (number N (op1 a) + number N (op2 a)) (Z.of_nat i).
Definition exact_when_inside (N : nat) (r : list bdd) (start : nat -> nat) : Prop :=
  forall a i, i <= N ->
    (exact_bit N r a i <-> (carry_into (op1 a) (op2 a) i -> generated_from (op1 a) (op2 a) (start i) i)).

(** ** Bucket minimisation *)
(** index vectors of a grid, its number of cells, and the componentwise order *)
Definition in_box (bounds index : list Z) : Prop := Forall2 (fun x b => 0 <= x < b)%Z index bounds.
Definition volume (bounds : list Z) : Z := fold_right Z.mul 1%Z bounds.
Definition below_all (x y : list Z) : Prop := Forall2 Z.le x y.
(** position of a cell when the last coordinate varies fastest *)
Fixpoint row_major (bounds index : list Z) : Z :=
  match bounds, index with
  | _ :: bounds', x :: index' => x * volume bounds' + row_major bounds' index'
  | _, _ => 0
  end%Z.
(** obtained from [f] by applying operators *)
Inductive derived (ops : list (list bdd -> res (list bdd))) (f : list bdd) : list bdd -> Prop :=
| derived_refl : derived ops f f
| derived_step g op g' : derived ops f g -> In op ops -> op g = Ok g' -> derived ops f g'.

(** the error between [f] and [g] over inputs of [n] variables is below [B] *)
Definition worst_below (F : asg -> Q) (B : Q) : Prop := forall a, (F a < B)%Q.
Definition average_below (n : nat) (F : asg -> Q) (B : Q) : Prop := (average n F < B)%Q.
