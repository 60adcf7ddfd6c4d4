(** Properties C107-C110: sampling with a uniform rand() (src/error_metrics/error_rate.cpp,
    src/util/cudd_helpers.cpp, experiments/runtime/sampling_methods.cpp, experiments/misc/improved_sampling.cpp). All sequences of draws from 0..RAND_MAX are equally likely. *)
From Coq Require Import List Bool Arith ZArith QArith Qabs.
From Verif Require Import Res Cudd CuddFacts Spec SpecFacts Helpers HelpersFacts HelpersFacts2 Counting Metrics RelMetrics RelFacts3 RelFacts4 RelFacts6
  SpecSampling SamplingFacts SamplingFacts2 SamplingFacts3 SamplingFacts4 FromPapers Operators Experiments ExperimentsFacts2.
Import ListNotations.
Open Scope nat_scope.

(** C107: plain sampling is unbiased and its variance is p (1 - p) / samples *)
Theorem C107_error_rate_sampling : forall (M : mgr) (f g : list bdd),
  length f = length g -> Forall (wf M) f -> Forall (wf M) g -> below (read_size M) f -> below (read_size M) g ->
  forall (r : nat), Nat.Odd r -> forall samples, (1 <= samples < 2 ^ 31)%Z ->
  let rate := average (read_size M) (fun a => b2q (differ f g a)) in
  exists estimate : list Z -> Q,
    let k := Z.to_nat samples * read_size M in
    (forall l, draw_list r k l -> error_rate_sampling M (draws_from l) f g samples = Ok (Fin (estimate l)))
    /\ (expectation r k estimate == rate)%Q
    /\ (expectation r k (fun l => (estimate l - rate) * (estimate l - rate)) == rate * (1 - rate) / inject_Z samples)%Q
    /\ (forall eps, (0 < eps)%Q -> (probability r k (fun l => Qle_bool eps (Qabs (estimate l - rate)))
          <= rate * (1 - rate) / inject_Z samples / (eps * eps))%Q).
Proof. exact plain_sampling. Qed.
Print Assumptions C107_error_rate_sampling.
Definition plain_value (f g : list bdd) (l : list Z) : Q :=
  match error_rate_sampling (id_mgr 2) (draws_from l) f g 2 with Ok (Fin q) => q | _ => 7%Q end.
Example C107_case : (* two samples of x0, x1 against constants: the rate is 3/4 *)
  let X := plain_value [bvar 0; bvar 1] [bzero; bzero] in
  Qred (expectation 1 4 X) = (3 # 4)%Q /\ Qred (expectation 1 4 (fun l => (X l - (3 # 4)) * (X l - (3 # 4)))%Q) = (3 # 32)%Q.
Proof. vm_compute. auto. Qed.

(** C108: random_satisfying_input is nearly uniform on the satisfying inputs: no statistic of the
    input with values between 0 and 1 is off by more than inputs / (RAND_MAX + 1) *)
Theorem C108_nearly_uniform : forall (M : mgr) (r : nat) (f : bdd) (T : nat) (F : list Z -> Q),
  index_order M -> Nat.Odd r -> wf M f -> depends_below T f -> (exists a, ev f a = true) ->
  (forall x, 0 <= F x <= 1)%Q ->
  exists input : list Z -> list Z,
    (forall l, draw_list r T l -> random_satisfying_input (Z.of_nat r) f (count_minterms f) T l = Ok (input l))
    /\ (Qabs (expectation r T (fun l => F (input l)) - conditional T f F) <= inject_Z (Z.of_nat T) / inject_Z (Z.of_nat (S r)))%Q.
Proof. exact random_input_uniform. Qed.
Print Assumptions C108_nearly_uniform.
Theorem C108_wrong_inputs : forall (M : mgr) (r : nat) (f : bdd) (T : nat),
  index_order M -> Nat.Odd r -> wf M f -> depends_below T f -> (exists a, ev f a = true) ->
  (probability r T (fun l => match random_satisfying_input (Z.of_nat r) f (count_minterms f) T l with
                             | Ok x => negb (ev f (asg_ints x)) | _ => true end)
   <= inject_Z (Z.of_nat T) / inject_Z (Z.of_nat (S r)))%Q.
Proof. exact random_input_wrong. Qed.
Print Assumptions C108_wrong_inputs.
Definition first_bit (f : bdd) (l : list Z) : Q :=
  match random_satisfying_input 3 f (count_minterms f) 2 l with Ok (x :: _) => inject_Z x | _ => 7%Q end.
Example C108_case : (* the first bit of x0 | x1 is one with probability 2/3, sampled: 3/4 *)
  let f := bor (id_mgr 2) (bvar 0) (bvar 1) in
  Qred (expectation 3 2 (first_bit f)) = (3 # 4)%Q
  /\ Qred (conditional 2 f (fun x => inject_Z (hd 0%Z x))) = (2 # 3)%Q
  /\ (* the bound on wrong inputs is attained *)
     Qred (probability 3 1 (fun l => match random_satisfying_input 3 (bnot (bvar 0)) (count_minterms (bnot (bvar 0))) 1 l with
                                     | Ok x => negb (ev (bnot (bvar 0)) (asg_ints x)) | _ => true end)) = (1 # 4)%Q.
Proof. vm_compute. auto. Qed.

(** C109: the mean squared error of efficient sampling. [others] is the sum of the rates of all
    outputs except one with the largest rate. *)
Theorem C109_efficient_sampling :
  forall (M : mgr) (sort : list (nat * Q) -> list (nat * Q)) (r : nat) (f g : list bdd) (samples : Z) (worst : nat),
  sorts_down sort -> index_order M -> Nat.Odd r -> Forall (wf M) f -> Forall (wf M) g ->
  let n := read_size M in
  below n f -> below n g -> length f = length g -> (1 <= samples < 2 ^ 31)%Z ->
  (exists i j, i < length f /\ j < length f /\ i <> j
     /\ (exists a, wrong f g i a = true) /\ (exists a, wrong f g j a = true)) ->
  worst < length f -> (forall i, i < length f -> (output_rate n f g i <= output_rate n f g worst)%Q) ->
  let k := Z.to_nat samples * n in
  let rate := average n (fun a => b2q (differ f g a)) in
  let others := (sumQ (map (output_rate n f g) (seq 0 (length f))) - output_rate n f g worst)%Q in
  let bias := (inject_Z (Z.of_nat (length f - 1)) * others / inject_Z samples
               + others * (inject_Z (Z.of_nat n) / inject_Z (Z.of_nat (S r))))%Q in
  let bound := (others * others / (2 * inject_Z samples) + bias * bias)%Q in
  exists estimate : list Z -> Q,
    (forall l, draw_list r k l -> error_rate_efficient_sampling M sort (Z.of_nat r) (draws_from l) f g samples = Ok (estimate l))
    /\ (expectation r k (fun l => (estimate l - rate) * (estimate l - rate)) <= bound)%Q
    /\ (forall eps, (0 < eps)%Q -> (probability r k (fun l => Qle_bool eps (Qabs (estimate l - rate))) <= bound / (eps * eps))%Q).
Proof. exact efficient_sampling. Qed.
Print Assumptions C109_efficient_sampling.
Definition efficient_value (f g : list bdd) (l : list Z) : Q :=
  match error_rate_efficient_sampling (id_mgr 2) sort_down 3 (draws_from l) f g 2 with Ok q => q | _ => 7%Q end.
Example C109_case : (* the rate is 3/4 and the estimate is unbiased here *)
  let X := efficient_value [bvar 0; bvar 1] [bzero; bzero] in
  Qred (expectation 3 4 X) = (3 # 4)%Q /\ Qred (expectation 3 4 (fun l => (X l - (3 # 4)) * (X l - (3 # 4)))%Q) = (1 # 32)%Q.
Proof. vm_compute. auto. Qed.

(** C110: the sampling experiments *)
Theorem C110_sampling_methods :
  forall (M : mgr) (sort : list (nat * Q) -> list (nat * Q)) (r : nat) (f : list bdd) (samples : Z),
  sorts_down sort -> index_order M -> Nat.Odd r -> Forall (wf M) f ->
  let n := read_size M in
  below n f -> 1 <= n -> (1 <= samples < 2 ^ 31)%Z ->
  let two_sat := exists i j, i < length f /\ j < length f /\ i <> j
    /\ (exists a, ev (nth i f bzero) a = true) /\ (exists a, ev (nth j f bzero) a = true) in
  let k := Z.to_nat samples * n in
  let p := average n (fun a => b2q (existsb (fun b => ev b a) f)) in
  (exists X : list Z -> Q,
     (forall l, draw_list r k l -> sampling_method M sort (Z.of_nat r) (draws_from l) false samples f = Ok (Fin (X l)))
     /\ (expectation r k X == p)%Q /\ (expectation r k (fun l => (X l - p) * (X l - p)) == p * (1 - p) / inject_Z samples)%Q)
  /\ (two_sat -> forall worst, worst < length f -> (forall b, In b f -> (density n b <= density n (nth worst f bzero))%Q) ->
      let others := (sumQ (map (density n) f) - density n (nth worst f bzero))%Q in
      let bias := (inject_Z (Z.of_nat (length f - 1)) * others / inject_Z samples
                   + others * (inject_Z (Z.of_nat n) / inject_Z (Z.of_nat (S r))))%Q in
      exists X : list Z -> Q,
        (forall l, draw_list r k l -> sampling_method M sort (Z.of_nat r) (draws_from l) true samples f = Ok (Fin (X l)))
        /\ (expectation r k (fun l => (X l - p) * (X l - p)) <= others * others / (2 * inject_Z samples) + bias * bias)%Q)
  /\ (length f <> 1 -> ~ two_sat -> forall draws, sampling_method M sort (Z.of_nat r) draws true samples f = UB).
Proof. exact sampling_method_ok. Qed.
Print Assumptions C110_sampling_methods.
Theorem C110_improved_sampling :
  forall (M : mgr) (sort : list (nat * Q) -> list (nat * Q)) (rand_max : Z) (draws1 draws2 : nat -> Z) (level last : nat) (samples : Z) (f : list bdd),
  sorts_down sort -> Forall (wf M) f ->
  let n := read_size M in
  below n f -> 1 <= n -> (1 <= samples < 2 ^ 31)%Z ->
  exists g rate, mapM (fun b => subset_light_child M b level last) f = Ok g
  /\ Forall2 (fun x y => forall a, ev y a = true -> ev x a = true) f g
  /\ (rate == average n (fun a => b2q (uval g a <? uval f a)%Z))%Q
  /\ let two_wrong := exists i j, i < length f /\ j < length f /\ i <> j
       /\ (exists a, wrong f g i a = true) /\ (exists a, wrong f g j a = true) in
     (two_wrong -> exists x y, improved_sampling M sort rand_max draws1 draws2 level last samples f = Ok (rate, Fin x, y)
        /\ (0 <= x <= 1)%Q /\ (y <= 1)%Q
        /\ (forall i, i < length f -> (density n (nth i f bzero) - density n (nth i g bzero) <= y)%Q)
        /\ (y <= sumQ (map (density n) f) - sumQ (map (density n) g))%Q)
     /\ (length f <> 1 -> ~ two_wrong -> improved_sampling M sort rand_max draws1 draws2 level last samples f = UB).
Proof. exact improved_sampling_ok. Qed.
Print Assumptions C110_improved_sampling.
Definition method_value (improved : bool) (f : list bdd) (l : list Z) : Q :=
  match sampling_method (id_mgr 2) sort_down 3 (draws_from l) improved 2 f with Ok (Fin q) => q | _ => 7%Q end.
Example C110_case :
  let M := id_mgr 4 in
  Qred (expectation 3 4 (method_value false [bvar 0; bvar 1])) = (3 # 4)%Q
  /\ Qred (expectation 3 4 (method_value true [bvar 0; bvar 1])) = (3 # 4)%Q
  /\ sampling_method M sort_down 3 (fun _ => 1%Z) true 2 [bvar 0; bzero; bzero] = UB
  /\ match improved_sampling M sort_down 100 (fun i => Z.of_nat (i / 5)) (fun i => Z.of_nat (37 * i mod 101)) 1 5 8 (example1a M) with
     | Ok (p, Fin x, y) => (Qred p, Qred x, Qred y) = (7 # 16, 3 # 8, 7 # 16)%Q | _ => False end.
Proof. vm_compute. auto. Qed.
