(** Properties C141-C142: the approximation operators if CUDD runs out of memory or reorders the variables *)
From Coq Require Import List Bool Arith ZArith QArith Permutation.
From Verif Require Import Res Cudd Spec Operators SpecOperators RefCount SpecRefs OutOfMemory OomFacts2 Reordering ReorderFacts2 OrderFacts.
Import ListNotations.
Open Scope nat_scope.

(** C141: if CUDD has no memory for a node, the operator throws an exception. False: it returns a BDD without a node or is undefined *)
Theorem C141_memory_exhaustion_reported_refuted :
  exists (M : mgr) (f : bdd) (fails fails' : nat -> bool),
  (exists k, fails k = true) /\ round_any_oom M fails f 1 1 false true = Ok None /\ round_any_oom M fails' f 1 1 false true = UB.
Proof.
  exists (id_mgr 2), (band (id_mgr 2) (bvar 0) (bvar 1)), (Nat.eqb 1), (Nat.eqb 0).
  split; [exists 1; reflexivity|]. split; vm_compute; reflexivity.
Qed.
Print Assumptions C141_memory_exhaustion_reported_refuted.
(** every operator needs one node per subfunction that is built anew. It returns its result if all of them can be made, a BDD without
    a node if only the last fails, and uses a null pointer if an earlier one fails *)
Theorem C141_memory_exhaustion_partial :
  forall (M : mgr) (ls le i : nat) (fails : nat -> bool) op op_oom bound (f : bdd),
  nth_error (the_operators M ls le) i = Some op -> nth_error (operators_oom M fails ls le) i = Some op_oom ->
  nth_error (operator_bounds ls le) i = Some bound ->
  exists r L, op f = Ok r /\ built_anew ls bound f L
  /\ ((forall j, j < length L -> fails j = false) -> op_oom f = Ok (Some r))
  /\ ((exists j, S j < length L /\ fails j = true) -> op_oom f = UB)
  /\ (forall j, S j = length L -> fails j = true -> (forall i, i < j -> fails i = false) -> op_oom f = Ok None).
Proof. exact operator_memory. Qed.
Print Assumptions C141_memory_exhaustion_partial.
(** the parity of three variables, rounded at level 2: three calls *)
Example C141_case : let M := id_mgr 3 in let f := bxor M (bvar 0) (bxor M (bvar 1) (bvar 2)) in
  map (fun k => round_bdd_oom M (Nat.eqb k) f 2) [0; 1; 2; 3] = [UB; UB; Ok None; Ok (Some bzero)].
Proof. vm_compute. auto. Qed.

(** C142: the operators work while CUDD reorders the variables dynamically. False: a node that was read before the first recursive call may be
    gone after it *)
Theorem C142_dynamic_reordering_refuted :
  exists (M : mgr) (reorder : nat -> mgr) (f : bdd) (h : heap) r, In (snd f) (refs h) /\ wf M f /\ refs h ++ fresh h = [snd f]
  /\ round_any M f 2 2 false true = Ok r /\ round_any_now M reorder (length (subnodes (snd f))) f 2 2 false true (St h M 0) = UB.
Proof.
  set (M := id_mgr 3). set (f := ite M (bvar 0) (band M (bvar 1) (bvar 2)) (bor M (bvar 1) (bvar 2))).
  exists M, (fun _ => reversed_mgr 3 3), f, (Heap [snd f] []). eexists. split; [left; reflexivity|].
  split; [vm_compute; repeat split; repeat constructor; intros [H1 H2]; discriminate|]. split; [reflexivity|]. split; vm_compute; reflexivity.
Qed.
Print Assumptions C142_dynamic_reordering_refuted.
(** reordering is harmless if the level range starts at 0, since all nodes are read before the first call of CUDD, or if it does
    not happen before the last call: the operator then returns the result it has without reordering, and no reference of the caller
    is lost *)
Theorem C142_dynamic_reordering_partial :
  forall (M : mgr) (reorder : nat -> mgr) (fuel ls le i : nat) op op_now bound (f : bdd) (h : heap),
  nth_error (the_operators M ls le) i = Some op ->
  nth_error (operators_now M reorder fuel ls le) i = Some op_now -> nth_error (operator_bounds ls le) i = Some bound ->
  In (snd f) (refs h) -> (forall n, In n (refs h ++ fresh h) -> wf M (false, n)) -> length (subnodes (snd f)) <= fuel ->
  exists r L, op f = Ok r /\ built_anew ls bound f L
  /\ (ls = 0 \/ (forall j, S j < length L -> reorder j = M) ->
      exists s new, op_now f (St h M 0) = Ok (r, s) /\ Permutation (refs (counts s)) (snd r :: new ++ refs h)).
Proof. exact operator_reorder. Qed.
Print Assumptions C142_dynamic_reordering_partial.
(** x0 xor (x1 or x2), reversed during the first call. Both edges of the root lead to the same node, whose children are different the
    second time: with the levels 1 to 2 they have no entry in the map (exception), with level 1 the result is another one. With the levels
    0 to 2, or reversed in the last call (number 2), the result is that without reordering *)
Example C142_case : let M := id_mgr 3 in let f := bxor M (bvar 0) (bor M (bvar 1) (bvar 2)) in
  let s := St (Heap [snd f] []) M 0 in let value r := match r with Ok (x, _) => Ok x | UB => UB | Throw => Throw | Abort => Abort end in
  let always := fun _ => reversed_mgr 3 3 in let last := fun k => if k <? 2 then M else reversed_mgr 3 3 in
  value (round_any_now M always 7 f 1 2 false true s) = Throw
  /\ value (round_any_now M always 7 f 1 1 false true s) <> round_any M f 1 1 false true
  /\ value (round_any_now M always 7 f 0 2 false true s) = round_any M f 0 2 false true
  /\ value (round_any_now M last 7 f 1 1 false true s) = round_any M f 1 1 false true
  /\ map (fun k => round_any_oom M (Nat.eqb k) f 1 1 false true) [1; 2] = [UB; Ok None].
Proof. vm_compute. split; [reflexivity|]. split; [discriminate|]. auto. Qed.
