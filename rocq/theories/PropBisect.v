(** Property C174: the value of wcre_search (src/error_metrics/worst_case_relative_error.cpp:148-216). *)
From Coq Require Import List Bool Arith ZArith QArith Lia.
From Verif Require Import Res Cudd CuddFacts Spec SpecFacts SpecFloat SpecBisect Float Helpers HelpersFacts HelpersFacts2 Counting Metrics RelMetrics RelFacts3 RelFacts6 BisectFacts RoundedRel BisectFacts2.
Import ListNotations.
Open Scope nat_scope.

(** C174: the result depends only on the smallest and the largest relative error. A power of two is found exactly; otherwise
    the interval between the powers of two around the largest error is halved, and a middle above all errors is
    returned as soon as the smallest error is not above the lower end *)
Theorem C174_wcre_search_value :
  forall (M : mgr) (clog2 : Z -> nat) (n : nat) (f g : list bdd) (r : NumberRepresentation) (e : nat) (precision low top : Q),
  clog2_ok clog2 -> Forall (wf M) f -> Forall (wf M) g -> below n f -> below n g ->
  f <> [] -> (r = TwosComplement -> g <> []) -> Nat.max (length f) (length g) <= 126 -> 16 <= e ->
  (1 # 65536 <= precision < 1)%Q -> is_minQ (wrel r f g) low -> is_maxQ (wrel r f g) top ->
  forall fuel, 142 <= fuel ->
  (forall k, (top == inject_Z (pow2 k))%Q -> exists q, wcre_search M clog2 f g e precision r fuel = Some (Ok q) /\ (q == top)%Q)
  /\ (forall k, (inject_Z (pow2 k) < top < inject_Z (pow2 (S k)))%Q ->
       exists q, wcre_search M clog2 f g e precision r fuel = Some (Ok q)
         /\ bisection low top precision (inject_Z (pow2 k)) (inject_Z (pow2 (S k))) q).
Proof. exact wcre_search_value. Qed.
Print Assumptions C174_wcre_search_value.
(** in particular, if some input has a relative error of at most 2^k < top < 2^(k+1), for instance none at all: the result is
    the first of 2^(k+1) - 2^k/2, 2^(k+1) - 2^k/4, … that is not below the largest error or whose interval is small enough *)
Theorem C174_correct_input :
  forall (M : mgr) (clog2 : Z -> nat) (n : nat) (f g : list bdd) (r : NumberRepresentation) (e : nat) (precision top : Q),
  clog2_ok clog2 -> Forall (wf M) f -> Forall (wf M) g -> below n f -> below n g ->
  f <> [] -> (r = TwosComplement -> g <> []) -> Nat.max (length f) (length g) <= 126 -> 16 <= e ->
  (1 # 65536 <= precision < 1)%Q -> is_maxQ (wrel r f g) top ->
  forall k j, (inject_Z (pow2 k) < top < inject_Z (pow2 (S k)))%Q -> (exists a, (wrel r f g a <= inject_Z (pow2 k))%Q) ->
  (forall i, i < j -> (inject_Z (pow2 (S k)) - inject_Z (pow2 k) / inject_Z (pow2 (S i)) < top)%Q
                      /\ (precision < inject_Z (pow2 k) / inject_Z (pow2 i))%Q) ->
  (top <= inject_Z (pow2 (S k)) - inject_Z (pow2 k) / inject_Z (pow2 (S j)) \/ inject_Z (pow2 k) / inject_Z (pow2 j) <= precision)%Q ->
  forall fuel, 142 <= fuel ->
  exists q, wcre_search M clog2 f g e precision r fuel = Some (Ok q)
    /\ (q == inject_Z (pow2 (S k)) - inject_Z (pow2 k) / inject_Z (pow2 (S j)))%Q.
Proof. exact wcre_search_masked. Qed.
Print Assumptions C174_correct_input.
(** so the bound of 50% in C43 cannot be improved: with n + 3 outputs the largest error can be 1 + 1/2^(n+1) and the result 3/2,
    whatever the precision *)
Theorem C174_bound_is_sharp :
  forall (M : mgr) (clog2 : Z -> nat) (n e : nat) (precision : Q),
  clog2_ok clog2 -> n <= 123 -> 16 <= e -> (1 # 65536 <= precision < 1)%Q ->
  exists f g, Forall (wf M) f /\ Forall (wf M) g /\ below 1 f /\ below 1 g /\ length f = n + 3 /\ length g = n + 3
  /\ is_maxQ (wrel BaseTwo f g) (1 + 1 / inject_Z (pow2 (S n)))%Q
  /\ forall fuel, 142 <= fuel -> exists q, wcre_search M clog2 f g e precision BaseTwo fuel = Some (Ok q) /\ (q == 3 # 2)%Q.
Proof. exact wcre_search_sharp. Qed.
Print Assumptions C174_bound_is_sharp.
(** the same holds for the search with doubles, if the outputs and the precision fit in a double (C132) *)
Theorem C174_with_doubles :
  forall (rnd : Q -> Q) (M : mgr) (clog2 : Z -> nat) (n : nat) (f g : list bdd) (r : NumberRepresentation) (e : nat) (precision low top : Q) (s : Z),
  keeps_floats 53 rnd -> clog2_ok clog2 -> Forall (wf M) f -> Forall (wf M) g -> below n f -> below n g ->
  f <> [] -> (r = TwosComplement -> g <> []) -> 16 <= e ->
  (1 # 65536 <= precision < 1)%Q -> (0 <= s)%Z -> (2 ^ (- s) <= precision)%Q -> (Z.of_nat (Nat.max (length f) (length g)) + s + 1 <= 53)%Z ->
  is_minQ (wrel r f g) low -> is_maxQ (wrel r f g) top ->
  forall fuel, 142 <= fuel ->
  (forall k, (top == inject_Z (pow2 k))%Q -> exists q, wcre_search_fl rnd M clog2 f g e precision r fuel = Some (Ok q) /\ (q == top)%Q)
  /\ (forall k, (inject_Z (pow2 k) < top < inject_Z (pow2 (S k)))%Q ->
       exists q, wcre_search_fl rnd M clog2 f g e precision r fuel = Some (Ok q)
         /\ bisection low top precision (inject_Z (pow2 k)) (inject_Z (pow2 (S k))) q).
Proof. exact wcre_search_value_fl. Qed.
Print Assumptions C174_with_doubles.
Example C174_case : (* 4 against 4 or 11: 7/4 is the second middle and exact. 4 against 4 or 10: 3/2. 4 against 5 or 9: 1/4 is
  below 1. 4 against 9 or 10: 5/4 and 3/2, exact. 8 against 17 or 18, 9/8 and 5/4: 3/2 is above both and 9/8 above 1, the search
  goes on with 1 to 3/2 *)
  let search f g := match wcre_search (id_mgr 1) (fun z => Z.to_nat (Z.log2_up z)) f g 16 (1 # 10000) BaseTwo 142 with
                    | Some (Ok q) => Some (Qred q) | _ => None end in
  let x := bvar 0 in let y := bnot (bvar 0) in let four := [bzero; bzero; bone; bzero; bzero] in
  search four [x; x; y; x; bzero] = Some (7 # 4)%Q
  /\ search four [bzero; x; y; x; bzero] = Some (3 # 2)%Q
  /\ search four [bone; bzero; y; x; bzero] = Some (3 # 2)%Q
  /\ search four [x; y; bzero; bone; bzero] = Some (3 # 2)%Q
  /\ search [bzero; bzero; bzero; bone; bzero] [x; y; bzero; bzero; bone] = Some (5 # 4)%Q.
Proof. vm_compute. auto. Qed.
Example C174_doubles : (* 4 against 4 or 11, as above *)
  let x := bvar 0 in let y := bnot (bvar 0) in
  match wcre_search_fl (round_float 53) (id_mgr 1) (fun z => Z.to_nat (Z.log2_up z)) [bzero; bzero; bone; bzero; bzero] [x; x; y; x; bzero]
    16 (1 # 10000) BaseTwo 142 with
  | Some (Ok q) => Qred q = (7 # 4)%Q
  | _ => False
  end.
Proof. vm_compute. reflexivity. Qed.
