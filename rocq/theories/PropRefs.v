(** Properties C139-C140: the reference counting of the approximation operators *)
From Coq Require Import List Bool Arith ZArith QArith Permutation.
From Verif Require Import Res Cudd Spec Operators SpecOperators RefCount SpecRefs RefFacts2.
Import ListNotations.
Open Scope nat_scope.

(** C139: if garbage collection may happen in every call of CUDD, no operator uses a node that may have been collected and none
    gives back a reference it does not hold, as long as the caller holds a reference to the function. The result is the one
    without garbage collection, it is referenced, and no reference of the caller is lost *)
Theorem C139_no_dangling_nodes :
  forall (M : mgr) (ls le i : nat) op op_rc (f : bdd) (h : heap),
  nth_error (the_operators M ls le) i = Some op -> nth_error (operators_rc M ls le) i = Some op_rc -> In (snd f) (refs h) ->
  exists r h', op f = Ok r /\ op_rc f h = Ok (r, h') /\ exists new, Permutation (refs h') (snd r :: new ++ refs h).
Proof. exact operators_safe. Qed.
Print Assumptions C139_no_dangling_nodes.
(** without a reference of the caller the function may be gone *)
Example C139_case : let M := id_mgr 3 in let f := band M (bvar 0) (bor M (bvar 1) (bvar 2)) in
  match round_any_rc M f 1 1 false true (Heap [snd f] []) with
  | Ok (r, h) => round_any M f 1 1 false true = Ok r /\ r = band M (bvar 0) (bvar 1) /\ length (refs h) = 4
  | _ => False
  end
  /\ round_any_rc M f 1 1 false true (Heap [] []) = UB.
Proof. vm_compute. auto. Qed.

(** C140: an operator leaves no reference behind but that of its result. False: after the result is destroyed, one reference is
    left for every subfunction that was built anew *)
Theorem C140_references_released_refuted :
  exists (M : mgr) (f r : bdd) (h h1 h2 : heap), In (snd f) (refs h) /\ round_any_rc M f 0 0 false true h = Ok (r, h1)
  /\ delete_BDD r h1 = Ok h2 /\ length (refs h) < length (refs h2).
Proof.
  exists (id_mgr 2), (band (id_mgr 2) (bvar 0) (bvar 1)).
  set (f := band (id_mgr 2) (bvar 0) (bvar 1)).
  exists f, (Heap [snd f] []). eexists _, _. split; [left; reflexivity|]. split; [vm_compute; reflexivity|]. split; [vm_compute; reflexivity|].
  vm_compute. repeat constructor.
Qed.
Print Assumptions C140_references_released_refuted.
(** what is left: one reference to the result of the operator on every subfunction that is built anew (for round_down and round_up,
    number 4 and 5, to the result with the counts of the whole function) *)
Theorem C140_references_left_partial :
  forall (M : mgr) (ls le i : nat) op op_rc bound (f : bdd) (h : heap),
  nth_error (the_operators M ls le) i = Some op -> nth_error (operators_rc M ls le) i = Some op_rc ->
  nth_error (operator_bounds ls le) i = Some bound -> In (snd f) (refs h) ->
  exists r h' L result, op f = Ok r /\ op_rc f h = Ok (r, h') /\ built_anew ls bound f L /\ result f = r
  /\ (i <> 4 -> i <> 5 -> forall x, In x L -> op x = Ok (result x))
  /\ Permutation (refs h') (snd r :: map (fun x => snd (result x)) L ++ refs h).
Proof. exact operator_refs. Qed.
Print Assumptions C140_references_left_partial.
(** the parity of three variables, rounded at level 2: the three edges above level 2 are built anew *)
Example C140_case : let M := id_mgr 3 in let f := bxor M (bvar 0) (bxor M (bvar 1) (bvar 2)) in
  match nth_error (operators_rc M 2 2) 6 with
  | Some op_rc => match op_rc f (Heap [snd f] []) with
                  | Ok (r, h) => r = bzero /\ refs h = [One; One; One; One; snd f]
                  | _ => False
                  end
  | None => False
  end.
Proof. vm_compute. auto. Qed.
