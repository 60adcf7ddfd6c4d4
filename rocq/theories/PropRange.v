(** Properties C146-C148: the approximation operators
    (src/approximation_operators/approximation_operators.cpp:36-388) applied to a larger range of levels. *)
From Coq Require Import List Bool Arith ZArith QArith Lia.
From Verif Require Import Res Cudd CuddFacts Spec SpecFacts SpecOperators Helpers HelpersFacts Counting Metrics Operators OrderFacts RangeFacts.
Import ListNotations.
Open Scope nat_scope.

(** C146: a larger range removes more: the results of the subset operators shrink, those of the superset operators grow;
    operators 0, 1 and 4 are [subset_light_child], [subset_heavy_child] and [round_down], operators 2, 3 and 5
    [superset_light_child], [superset_heavy_child] and [round_up] *)
Theorem C146_range : forall (M : mgr) (ls le ls' le' k : nat) (op op' : bdd -> res bdd) (f : bdd),
  ls' <= ls -> ls <= le -> le <= le' ->
  nth_error (the_operators M ls le) k = Some op -> nth_error (the_operators M ls' le') k = Some op' ->
  exists r r', op f = Ok r /\ op' f = Ok r'
  /\ (In k [0; 1; 4] -> forall a, (ev r' a = true -> ev r a = true) /\ (ev r a = true -> ev f a = true))
  /\ (In k [2; 3; 5] -> forall a, (ev f a = true -> ev r a = true) /\ (ev r a = true -> ev r' a = true)).
Proof. exact range_chain. Qed.
Print Assumptions C146_range.
Example C146_case : (* the majority of three: densities for the ranges 1..1, 1..2 and 0..2 *)
  let M := id_mgr 3 in let f := bor M (band M (bvar 0) (bor M (bvar 1) (bvar 2))) (band M (bvar 1) (bvar 2)) in
  map (fun k => map (fun lr => match nth_error (the_operators M (fst lr) (snd lr)) k with
    | Some op => match op f with Ok r => Qred (density 3 r) | _ => 9%Q end | None => 9%Q end) [(1, 1); (1, 2); (0, 2)]) [0; 1; 4; 2; 3; 5]
  = [[3#8; 3#8; 1#4]; [1#8; 0; 0]; [1#4; 1#4; 1#8]; [7#8; 1; 1]; [5#8; 5#8; 3#4]; [3#4; 1; 1]]%Q.
Proof. vm_compute. reflexivity. Qed.

(** C147: no operator comes closer to the function when it gets a larger range, and the two rounding operators are never
    worse than a constant *)
Theorem C147_range_error : forall (M : mgr) (n ls le ls' le' k : nat) (op op' : bdd -> res bdd) (f : bdd),
  wf M f -> depends_below n f -> ls' <= ls -> ls <= le -> le <= le' ->
  nth_error (the_operators M ls le) k = Some op -> nth_error (the_operators M ls' le') k = Some op' ->
  exists r r', op f = Ok r /\ op' f = Ok r' /\ (disagreement n (ev f) (ev r) <= disagreement n (ev f) (ev r'))%Q.
Proof. exact range_error. Qed.
Print Assumptions C147_range_error.
Theorem C147_no_constant_is_better : forall (M : mgr) (n ls le k : nat) (op : bdd -> res bdd) (f : bdd),
  wf M f -> depends_below n f -> k = 6 \/ k = 7 -> nth_error (the_operators M ls le) k = Some op ->
  exists r, op f = Ok r /\ forall c : bool, (disagreement n (ev f) (ev r) <= disagreement n (ev f) (fun _ => c))%Q.
Proof. exact best_constant. Qed.
Print Assumptions C147_no_constant_is_better.
Example C147_case : (* the ranges 1..1, 1..2 and 0..2 in two variable orders; constants are wrong with probability 1/2 *)
  let go M ks := let f := bor M (band M (bvar 0) (bor M (bvar 1) (bvar 2))) (band M (bvar 1) (bvar 2)) in
    map (fun k => map (fun lr => match nth_error (the_operators M (fst lr) (snd lr)) k with
      | Some op => match op f with Ok r => Qred (disagreement 3 (ev f) (ev r)) | _ => 9%Q end | None => 9%Q end) [(1, 1); (1, 2); (0, 2)]) ks in
  go (id_mgr 3) [0; 1; 2; 3; 4; 5; 6; 7]
    = [[1#8; 1#8; 1#4]; [3#8; 1#2; 1#2]; [3#8; 1#2; 1#2]; [1#8; 1#8; 1#4]; [1#4; 1#4; 3#8]; [1#4; 1#2; 1#2]; [1#4; 1#4; 1#2]; [0; 0; 1#4]]%Q
  /\ go (reversed_mgr 3 3) [0; 1; 2; 3; 6; 7]
    = [[0; 1#4; 1#4]; [0; 1#2; 1#2]; [0; 1#2; 1#2]; [0; 1#4; 1#4]; [1#2; 1#2; 1#2]; [0; 1#4; 1#4]]%Q.
Proof. vm_compute. auto. Qed.

(** C148: the metrics of several outputs: all five for the one-sided operators, the bit flips for all eight *)
Theorem C148_range_metrics : forall (M : mgr) (n ls le ls' le' k : nat) (op op' : bdd -> res bdd) (f g h : list bdd),
  wfs M f -> below n f -> length f + n < 256 -> ls' <= ls -> ls <= le -> le <= le' ->
  nth_error (the_operators M ls le) k = Some op -> nth_error (the_operators M ls' le') k = Some op' ->
  Forall2 (fun x y => op x = Ok y) f g -> Forall2 (fun x y => op' x = Ok y) f h ->
  (k < 6 ->
     (exists q q', error_rate M f g = Ok q /\ error_rate M f h = Ok q' /\ (q <= q')%Q)
     /\ (exists q q', average_bit_flip_error M f g = Ok q /\ average_bit_flip_error M f h = Ok q' /\ (q <= q')%Q)
     /\ (exists m m', worst_case_bit_flip_error M f g = Ok m /\ worst_case_bit_flip_error M f h = Ok m' /\ (m <= m')%Z)
     /\ (exists q q', average_case_error M f g BaseTwo = Ok (Fin q) /\ average_case_error M f h BaseTwo = Ok (Fin q') /\ (q <= q')%Q)
     /\ (exists m m', worst_case_error M f g BaseTwo = Ok m /\ worst_case_error M f h BaseTwo = Ok m' /\ (m <= m')%Z))
  /\ exists q q', average_bit_flip_error M f g = Ok q /\ average_bit_flip_error M f h = Ok q' /\ (q <= q')%Q.
Proof. exact range_metrics. Qed.
Print Assumptions C148_range_metrics.
Example C148_case : (* [round_bdd] at level 1 has a smaller error rate than at level 2, but not fewer flipped bits *)
  let M := id_mgr 3 in
  let f := [band M (bnot (bvar 0)) (band M (bnot (bvar 1)) (bnot (bvar 2))); band M (bnot (bvar 0)) (bor M (bvar 1) (bvar 2))] in
  let go op := map (fun x => match op x with Ok r => r | _ => x end) f in
  let value r := match r with Ok q => Qred q | _ => 9%Q end in
  (value (error_rate M f (go (fun x => round_bdd M x 2))), value (error_rate M f (go (fun x => round_bdd M x 1)))) = (1#4, 1#8)%Q
  /\ (value (average_bit_flip_error M f (go (fun x => round_bdd M x 2))), value (average_bit_flip_error M f (go (fun x => round_bdd M x 1))))
     = (1#4, 1#4)%Q
  /\ (value (error_rate M f (go (fun x => round_down M x 2 2))), value (error_rate M f (go (fun x => round_down M x 1 2)))) = (0, 1#4)%Q.
Proof. vm_compute. auto. Qed.
