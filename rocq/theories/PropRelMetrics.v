(** Properties C39-C45: relative error metrics and sampling (src/error_metrics). [wrel r f g a] is
    the relative error at the input [a] with the wrap-around of C05 in the difference; for BaseTwo
    it is |f - g| / max(1, |f|). *)
From Coq Require Import List Bool Arith ZArith QArith Qround.
From Verif Require Import Res Cudd CuddFacts Spec SpecFacts Helpers HelpersFacts HelpersFacts2 Counting Metrics FromPapers RelMetrics RelFacts RelFacts2 RelFacts3 RelFacts4 RelFacts5 RelFacts6 RelFacts7.
Import ListNotations.
Open Scope nat_scope.

(** C39 *)
Theorem C39_wcre_add : forall (M : mgr) (n : nat) (f g : list bdd) (r : NumberRepresentation),
  index_order M -> Forall (wf M) f -> Forall (wf M) g -> below n f -> below n g -> n <= 63 ->
  (r = TwosComplement -> f <> [] /\ g <> []) ->
  exists q, wcre_add M f g r = Ok q /\ is_maxQ (fun a => rel (value r f a) (value r g a)) q.
Proof. exact wcre_add_spec. Qed.
Print Assumptions C39_wcre_add.
Theorem C39_acre_add : forall (M : mgr) (n : nat) (f g : list bdd) (r : NumberRepresentation),
  index_order M -> Forall (wf M) f -> Forall (wf M) g -> below n f -> below n g -> n <= 63 ->
  (r = TwosComplement -> f <> [] /\ g <> []) ->
  exists q, acre_add M f g r = Ok (Fin q) /\ (q == average n (fun a => rel (value r f a) (value r g a)))%Q.
Proof. exact acre_add_spec. Qed.
Print Assumptions C39_acre_add.
Example C39_case :
  match wcre_add (id_mgr 4) (example1a (id_mgr 4)) (example1b (id_mgr 4)) BaseTwo,
        acre_add (id_mgr 4) (example1a (id_mgr 4)) (example1b (id_mgr 4)) BaseTwo with
  | Ok p, Ok (Fin q) => Qred p = 1%Q /\ Qred q = (13 # 48)%Q
  | _, _ => False
  end.
Proof. vm_compute. auto. Qed.

(** C40 *)
Theorem C40_wcre_bounds : forall (M : mgr) (n : nat) (f g : list bdd) (r : NumberRepresentation),
  Forall (wf M) f -> Forall (wf M) g -> below n f -> below n g -> f <> [] ->
  (r = TwosComplement -> g <> []) -> length f <= 256 -> length g <= 256 ->
  exists lo hi, wcre_bounds M f g r = Ok (lo, hi)
    /\ (hi <= 2 * lo)%Q /\ (forall a, wrel r f g a <= hi)%Q
    /\ (forall B, (forall a, wrel r f g a <= B)%Q -> (lo <= B)%Q).
Proof. exact wcre_bounds_spec. Qed.
Print Assumptions C40_wcre_bounds.
Theorem C40_wrel_unsigned : forall f g a, (wrel BaseTwo f g a == rel (uval f a) (uval g a))%Q.
Proof. exact wrel_base. Qed.
Print Assumptions C40_wrel_unsigned.
Example C40_case :
  match wcre_bounds (id_mgr 4) (example1a (id_mgr 4)) (example1b (id_mgr 4)) BaseTwo with
  | Ok (p, q) => Qred p = (6 # 7)%Q /\ Qred q = (3 # 2)%Q
  | _ => False
  end.
Proof. vm_compute. auto. Qed.

(** C41 *)
Theorem C41_acre_bounds : forall (M : mgr) (n : nat) (f g : list bdd) (r : NumberRepresentation),
  Forall (wf M) f -> Forall (wf M) g -> below n f -> below n g -> f <> [] ->
  (r = TwosComplement -> g <> []) -> Nat.max (length f) (length g) + n < 256 ->
  exists lo hi, acre_bounds M f g r = Ok (Fin lo, Fin hi)
    /\ (hi <= 2 * lo)%Q /\ (lo <= average n (wrel r f g) <= hi)%Q.
Proof. exact acre_bounds_spec. Qed.
Print Assumptions C41_acre_bounds.
Example C41_case :
  match acre_bounds (id_mgr 4) (example1a (id_mgr 4)) (example1b (id_mgr 4)) BaseTwo with
  | Ok (Fin p, Fin q) => Qred p = (3 # 14)%Q /\ Qred q = (11 # 32)%Q
  | _ => False
  end.
Proof. vm_compute. auto. Qed.

(** C42 *)
Theorem C42_wcre_symbolic_division :
  forall (M : mgr) (n : nat) (f g : list bdd) (e : nat) (r : NumberRepresentation),
  Forall (wf M) f -> Forall (wf M) g -> below n f -> below n g -> f <> [] ->
  (r = TwosComplement -> g <> []) -> Nat.max (length f) (length g) + e <= 256 ->
  exists q, wcre_symbolic_division M f g e r = Ok q
    /\ (exists a, q <= wrel r f g a)%Q /\ (forall a, wrel r f g a < q + 1 / inject_Z (2 ^ Z.of_nat e))%Q.
Proof. exact wcre_division_spec. Qed.
Print Assumptions C42_wcre_symbolic_division.
Theorem C42_acre_symbolic_division :
  forall (M : mgr) (n : nat) (f g : list bdd) (e : nat) (r : NumberRepresentation),
  Forall (wf M) f -> Forall (wf M) g -> below n f -> below n g -> f <> [] ->
  (r = TwosComplement -> g <> []) -> Nat.max (length f) (length g) + e + n + 3 <= 256 ->
  exists q, acre_symbolic_division M f g e r = Ok (Fin q)
    /\ (q <= average n (wrel r f g) < q + 1 / inject_Z (2 ^ Z.of_nat e))%Q.
Proof. exact acre_division_spec. Qed.
Print Assumptions C42_acre_symbolic_division.
(** the exact value *)
Theorem C42_wcre_symbolic_division_value :
  forall (M : mgr) (n : nat) (f g : list bdd) (e : nat) (r : NumberRepresentation),
  Forall (wf M) f -> Forall (wf M) g -> below n f -> below n g -> f <> [] ->
  (r = TwosComplement -> g <> []) -> Nat.max (length f) (length g) + e <= 256 ->
  exists m, wcre_symbolic_division M f g e r = Ok (inject_Z m / inject_Z (2 ^ Z.of_nat e))%Q
    /\ is_max (fun a => Qfloor (wrel r f g a * inject_Z (2 ^ Z.of_nat e))) m.
Proof. exact wcre_division_exact. Qed.
Print Assumptions C42_wcre_symbolic_division_value.
Example C42_case :
  match wcre_symbolic_division (id_mgr 4) (example1a (id_mgr 4)) (example1b (id_mgr 4)) 8 BaseTwo,
        acre_symbolic_division (id_mgr 4) (example1a (id_mgr 4)) (example1b (id_mgr 4)) 8 BaseTwo with
  | Ok p, Ok (Fin q) => Qred p = 1%Q /\ Qred q = (277 # 1024)%Q
  | _, _ => False
  end.
Proof. vm_compute. auto. Qed.

(** C43: false as stated, in two ways. Inputs masked out by [last_greater] satisfy 0 >= 0, which
    the bisection takes for an exact hit: too large a result. A true value strictly between 0
    and 1 makes the first middle 1/2, whose rounded logarithm is negative: undefined. *)
Theorem C43_wcre_search_refuted : exists (M : mgr) (clog2 : Z -> nat) (f g : list bdd),
  clog2_ok clog2 /\ Forall (wf M) f /\ Forall (wf M) g /\ length f = length g /\
  (exists top q, is_maxQ (fun a => rel (uval f a) (uval g a)) top
     /\ wcre_search M clog2 f g 16 (1 # 10000) BaseTwo 142 = Some (Ok q) /\ (top + (1 # 5) < q)%Q)
  /\ (exists g' top', length f = length g' /\ Forall (wf M) g' /\ is_maxQ (fun a => rel (uval f a) (uval g' a)) top'
     /\ wcre_search M clog2 f g' 16 (1 # 10000) BaseTwo 142 = Some UB).
Proof. exact search_bad. Qed.
Print Assumptions C43_wcre_search_refuted.
(** what holds: it ends within 142 rounds, is never more than precision/2 too small, less than 50%
    too large, and accurate if the relative error is the same everywhere *)
Theorem C43_wcre_search_partial :
  forall (M : mgr) (clog2 : Z -> nat) (n : nat) (f g : list bdd) (r : NumberRepresentation) (e : nat) (precision : Q),
  clog2_ok clog2 -> Forall (wf M) f -> Forall (wf M) g -> below n f -> below n g ->
  f <> [] -> (r = TwosComplement -> g <> []) -> Nat.max (length f) (length g) <= 126 -> 16 <= e ->
  (1 # 65536 <= precision < 1)%Q ->
  exists top, is_maxQ (wrel r f g) top /\
  forall fuel, 142 <= fuel ->
  ((top == 0)%Q -> wcre_search M clog2 f g e precision r fuel = Some (Ok 0%Q))
  /\ ((0 < top < 1)%Q -> wcre_search M clog2 f g e precision r fuel = Some UB)
  /\ ((1 <= top)%Q -> exists q, wcre_search M clog2 f g e precision r fuel = Some (Ok q)
        /\ (top - precision / 2 <= q)%Q /\ (q < (3 # 2) * top)%Q
        /\ ((forall a, (wrel r f g a == top)%Q) -> (q <= top + precision / 2)%Q)).
Proof. exact wcre_search_full. Qed.
Print Assumptions C43_wcre_search_partial.
Example C43_case : (* constants 3 and 14: 11/3 *)
  match wcre_search (id_mgr 1) (fun z => Z.to_nat (Z.log2_up z)) [bone; bone; bzero; bzero] [bzero; bone; bone; bone]
          16 (1 # 10000) BaseTwo 142 with
  | Some (Ok q) => Qred q = (120149 # 32768)%Q
  | _ => False
  end.
Proof. vm_compute. reflexivity. Qed.

(** C44 *)
Theorem C44_randomized_search_exact :
  forall (M : mgr) (clog2 : Z -> nat) (rand_max : Z) (draws : nat -> Z) (f g : list bdd) (samples : nat)
    (r : NumberRepresentation) (fuel : nat) (x : res (Z * Z)),
  clog2_ok clog2 -> Forall (wf M) f -> Forall (wf M) g -> below (read_size M) f -> below (read_size M) g ->
  f <> [] -> (r = TwosComplement -> g <> []) -> Nat.max (length f) (length g) <= 62 ->
  wcre_randomized_search M clog2 rand_max draws f g samples r fuel = Some x ->
  exists c e, x = Ok (c, e) /\ (0 < e)%Z /\ is_maxQ (wrel r f g) (inject_Z c / inject_Z e).
Proof. exact randomized_search_exact. Qed.
Print Assumptions C44_randomized_search_exact.
Theorem C44_randomized_search_terminates :
  forall (M : mgr) (clog2 : Z -> nat) (rand_max : Z) (draws : nat -> Z) (f g : list bdd) (samples : nat)
    (r : NumberRepresentation),
  clog2_ok clog2 -> index_order M -> Forall (wf M) f -> Forall (wf M) g ->
  below (read_size M) f -> below (read_size M) g -> f <> [] -> (r = TwosComplement -> g <> []) ->
  Nat.max (length f) (length g) <= 62 -> 0 < samples -> (forall i, 0 < draws i <= rand_max)%Z ->
  forall fuel, (pow2 (read_size M) < Z.of_nat fuel)%Z ->
  exists x, wcre_randomized_search M clog2 rand_max draws f g samples r fuel = Some x.
Proof. exact randomized_search_terminates. Qed.
Print Assumptions C44_randomized_search_terminates.
(** with no samples it returns before the sampling loop or not at all *)
Theorem C44_randomized_search_no_samples :
  forall (M : mgr) (clog2 : Z -> nat) (rand_max : Z) (draws : nat -> Z) (f g : list bdd) (r : NumberRepresentation),
  clog2_ok clog2 -> Forall (wf M) f -> Forall (wf M) g ->
  below (read_size M) f -> below (read_size M) g -> f <> [] -> (r = TwosComplement -> g <> []) ->
  Nat.max (length f) (length g) <= 62 ->
  wcre_randomized_search M clog2 rand_max draws f g 0 r 0 = None ->
  forall fuel, wcre_randomized_search M clog2 rand_max draws f g 0 r fuel = None.
Proof. exact randomized_search_no_samples. Qed.
Print Assumptions C44_randomized_search_no_samples.
Example C44_case :
  wcre_randomized_search (id_mgr 1) (fun z => Z.to_nat (Z.log2_up z)) 10 (fun _ => 7%Z) four nine_or_four 3 BaseTwo 3
    = Some (Ok (5, 4)%Z)
  /\ wcre_randomized_search (id_mgr 1) (fun z => Z.to_nat (Z.log2_up z)) 10 (fun _ => 7%Z) four nine_or_four 0 BaseTwo 0 = None.
Proof. vm_compute. auto. Qed.

(** C45: efficient sampling is undefined when more than one output is compared and at most one
    of them is ever wrong: 0/0 is converted to an integer *)
Theorem C45_efficient_sampling_refuted : exists (M : mgr) (f g : list bdd),
  Forall (wf M) f /\ Forall (wf M) g /\ length f = length g
  /\ below (read_size M) f /\ below (read_size M) g
  /\ forall sort rand_max draws samples, sorts_down sort ->
       error_rate_efficient_sampling M sort rand_max draws f g samples = UB.
Proof. exact efficient_bad. Qed.
Print Assumptions C45_efficient_sampling_refuted.
(** exactly then: *)
Theorem C45_efficient_sampling_ub :
  forall (M : mgr) (sort : list (nat * Q) -> list (nat * Q)) (rand_max : Z) (draws : nat -> Z) (f g : list bdd) (samples : Z),
  sorts_down sort -> 1 <= read_size M -> Forall (wf M) f -> Forall (wf M) g ->
  below (read_size M) f -> below (read_size M) g -> length f = length g -> length f <> 1 ->
  ~ (exists i j, i < length f /\ j < length f /\ i <> j
       /\ (exists a, wrong f g i a = true) /\ (exists a, wrong f g j a = true)) ->
  error_rate_efficient_sampling M sort rand_max draws f g samples = UB.
Proof. exact efficient_ub_all. Qed.
Print Assumptions C45_efficient_sampling_ub.
Theorem C45_sampling_partial :
  forall (M : mgr) (sort : list (nat * Q) -> list (nat * Q)) (rand_max : Z) (draws : nat -> Z) (f g : list bdd) (samples : Z),
  sorts_down sort -> 1 <= read_size M -> Forall (wf M) f -> Forall (wf M) g ->
  below (read_size M) f -> below (read_size M) g -> (1 <= samples < 2 ^ 31)%Z ->
  let n := read_size M in
  (length f = length g ->
     (exists q, error_rate_sampling M draws f g samples = Ok (Fin q) /\ (0 <= q <= 1)%Q
        /\ ((forall a, differ f g a = false) -> (q == 0)%Q) /\ ((forall a, differ f g a = true) -> (q == 1)%Q))
     /\ (length f = 1 ->
         exists q, error_rate_efficient_sampling M sort rand_max draws f g samples = Ok q /\ (q == output_rate n f g 0)%Q)
     /\ ((exists i j, i < length f /\ j < length f /\ i <> j
            /\ (exists a, wrong f g i a = true) /\ (exists a, wrong f g j a = true)) ->
         exists q, error_rate_efficient_sampling M sort rand_max draws f g samples = Ok q
           /\ (forall i, i < length f -> (output_rate n f g i <= q)%Q) /\ (q <= 1)%Q
           /\ (q <= sumQ (map (output_rate n f g) (seq 0 (length f))))%Q))
  /\ (length f <> length g -> error_rate_sampling M draws f g samples = Abort
        /\ error_rate_efficient_sampling M sort rand_max draws f g samples = Abort).
Proof. exact sampling_ranges. Qed.
Print Assumptions C45_sampling_partial.
(** it is the error rate itself if one output is wrong whenever any is, or if no two are wrong
    together and every output gets a sample *)
Theorem C45_efficient_sampling_exact :
  forall (M : mgr) (sort : list (nat * Q) -> list (nat * Q)) (rand_max : Z) (draws : nat -> Z) (f g : list bdd) (samples : Z),
  sorts_down sort -> 1 <= read_size M -> index_order M -> Forall (wf M) f -> Forall (wf M) g ->
  below (read_size M) f -> below (read_size M) g -> (1 <= samples < 2 ^ 31)%Z ->
  (forall i, 0 < draws i <= rand_max)%Z ->
  let n := read_size M in
  length f = length g ->
  (exists i j, i < length f /\ j < length f /\ i <> j
     /\ (exists a, wrong f g i a = true) /\ (exists a, wrong f g j a = true)) ->
  ((exists j, j < length f /\ forall i a, i < length f -> wrong f g i a = true -> wrong f g j a = true)
   \/ ((forall i j a, i < length f -> j < length f -> i <> j -> wrong f g i a = true -> wrong f g j a = false)
       /\ forall i, i < length f -> (output_rate n f g i == 0)%Q
            \/ (sumQ (map (output_rate n f g) (seq 0 (length f))) <= inject_Z samples * output_rate n f g i)%Q)) ->
  exists q, error_rate_efficient_sampling M sort rand_max draws f g samples = Ok q
    /\ (q == average n (fun a => b2q (differ f g a)))%Q.
Proof. exact sampling_exact. Qed.
Print Assumptions C45_efficient_sampling_exact.
(** plain sampling returns the share of wrong samples *)
Theorem C45_error_rate_sampling_value :
  forall (M : mgr) (draws : nat -> Z) (f g : list bdd) (samples : Z),
  length f = length g -> Forall (wf M) f -> Forall (wf M) g ->
  below (read_size M) f -> below (read_size M) g -> (1 <= samples < 2 ^ 31)%Z -> (forall i, 0 <= draws i)%Z ->
  exists q, error_rate_sampling M draws f g samples = Ok (Fin q)
    /\ (q == inject_Z (Z.of_nat (length (filter (fun k => differ f g (sample draws (read_size M) k))
                                            (seq 0 (Z.to_nat samples))))) / inject_Z samples)%Q.
Proof. exact error_rate_sampling_exact. Qed.
Print Assumptions C45_error_rate_sampling_value.
Example C45_sort : sorts_down sort_down.
Proof. exact sort_down_ok. Qed.
Definition sampled (x : res Q) : option Q := match x with Ok q => Some (Qred q) | _ => None end.
Definition x0x1 : bdd := band (id_mgr 2) (bvar 0) (bvar 1).
Example C45_case : (* nested and disjoint differences; four draws 00, 01, 11, 00 *)
  sampled (error_rate_efficient_sampling (id_mgr 2) sort_down 10 (fun _ => 7%Z) [bvar 0; bzero] [bzero; x0x1] 10) = Some (1 # 2)%Q
  /\ sampled (error_rate_efficient_sampling (id_mgr 2) sort_down 10 (fun _ => 7%Z) [bvar 0; bvar 0] [bzero; bone] 10) = Some 1%Q
  /\ match error_rate_sampling (id_mgr 2) (fun i => Z.of_nat i / 3)%Z [bvar 0; bvar 1] [bzero; bzero] 4 with
     | Ok (Fin q) => Qred q = (1 # 2)%Q | _ => False end.
Proof. vm_compute. auto. Qed.
