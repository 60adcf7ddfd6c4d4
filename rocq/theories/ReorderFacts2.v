(** The operators if the variables are reordered: results *)
From Coq Require Import List Bool Arith ZArith QArith Lia Lqa Permutation.
From Verif Require Import Res Cudd CuddFacts Spec SpecFacts Helpers HelpersFacts Counting AddFacts CountFacts MetricsFacts MetricsFacts4 Operators OperatorFacts SpecOperators RefCount SpecRefs RefFacts RefFacts2 OutOfMemory OomFacts OomFacts2 Reordering ReorderFacts.
Import ListNotations.
Open Scope nat_scope.

Definition agree (o : res (bdd * heap)) (o' : res (bdd * state)) (r : bdd) : Prop :=
  exists h' s', o = Ok (r, h') /\ o' = Ok (r, s') /\ counts s' = h'.

Lemma good_reorder M reorder p first bound (f : bdd) (h : heap) r o :
  In (snd f) (refs h) -> good p first bound (refs h) (snd f) (fst f) [] h r ->
  (forall n, In n (refs h ++ fresh h) -> wf M (false, n)) ->
  simr M reorder bound (hyp_of M reorder first) [] 0 h r o ->
  exists L, built_anew first bound f L /\ (first = 0 \/ (forall j, S j < length L -> reorder j = M) ->
    agree ('(node, _, h) <- r ;; new_BDD node h) ('(node, _, s) <- o ;; new_BDD_now node s) (p (snd f) (fst f))).
Proof.
  intros HR G WH SM.
  destruct G as (m & h1 & -> & (I1 & I2 & I3 & I4 & I5) & _ & S & SI & K & T).
  assert (EA : forall x, (exists v, top x = Some v /\ v < bound) <-> act bound x = true).
  { intros [c [|v t d e]]; unfold act, top; cbn [snd].
    - split; [intros (v & [=] & _)|discriminate].
    - rewrite Nat.ltb_lt. split; [intros (v' & [= <-] & H); auto|eauto]. }
  exists (filter (act bound) (map fst m)). split.
  - unfold built_anew. split; [now apply NoDup_filter|]. split; [|split].
    + intros x Hx. apply filter_In in Hx. destruct Hx as [H1 H2]. split; [|now apply EA].
      destruct (S x H1) as [[]|H]. exact H.
    + intro H. apply EA in H. apply filter_In. split; auto. destruct f. auto.
    + intros c v t d e H L. apply filter_In in H. destruct (I4 c v t d e (proj1 H) L) as [C1 C2].
      split; intro A; apply EA in A; apply filter_In; auto.
  - intro HY. assert (V0 : vals M []) by (intros k r []).
    destruct (SM V0 WH _ _ _ eq_refl) as (V & W & Wx & q & N & J & Run).
    unfold nact in N. cbn [map filter length plus] in N. unfold agree.
    cbn [bind]. unfold new_BDD. rewrite ref_ok by exact K. cbn [bind]. rewrite Run.
    2: { destruct HY as [HY|HY]; [now left|right]. intros j _ Hj. apply HY. rewrite N. exact Hj. }
    cbn [bind]. unfold new_BDD_now, c_Ref_now. cbn [counts now calls].
    assert (A : alive_now (after M reorder 0 q) h1 (snd (p (snd f) (fst f))) = true).
    { destruct q as [|q].
      - apply alive_now_same; [exact W|exact Wx|]. apply kept_alive, K.
      - apply alive_now_in. apply in_or_app. left. apply J. lia. }
    rewrite A. cbn [bind]. eexists _, _. split; [reflexivity|]. split; reflexivity.
Qed.

Lemma operator_reorder_agree (M : mgr) (reorder : nat -> mgr) (fuel ls le i : nat) op op_rc op_now bound (f : bdd) (h : heap) :
  nth_error (the_operators M ls le) i = Some op -> nth_error (operators_rc M ls le) i = Some op_rc ->
  nth_error (operators_now M reorder fuel ls le) i = Some op_now -> nth_error (operator_bounds ls le) i = Some bound ->
  In (snd f) (refs h) -> (forall n, In n (refs h ++ fresh h) -> wf M (false, n)) -> length (subnodes (snd f)) <= fuel ->
  exists r L, op f = Ok r /\ built_anew ls bound f L
  /\ (ls = 0 \/ (forall j, S j < length L -> reorder j = M) -> agree (op_rc f h) (op_now f (St h M 0)) r).
Proof.
  intros E1 E2 E3 E4 HR WH F.
  assert (Wf : okn M 0 (snd f)) by (apply (WH (snd f)); apply in_or_app; auto).
  assert (U : under (refs h) (snd f)) by (exists (snd f); split; [auto|apply sub_refl]).
  assert (ANY : forall rh sub, exists r L, round_any M f ls le rh sub = Ok r /\ built_anew ls (Nat.max ls (S le)) f L
    /\ (ls = 0 \/ (forall j, S j < length L -> reorder j = M) ->
        agree (round_any_rc M f ls le rh sub h) (round_any_now M reorder fuel f ls le rh sub (St h M 0)) r)).
  { intros rh sub. set (p := rc M (wt_of (count_minterms f)) ls le rh sub).
    destruct (good_reorder M reorder p ls (bound_of ls le) f h _ _ HR (remove_good M (count_minterms f) ls le rh sub (refs h) (snd f) (fst f) [] h
      (minterms_complete f) U (inv_start _ _ _ _ h eq_refl)) WH (remove_simr M reorder (count_minterms f) ls le rh sub (snd f) fuel (fst f) [] 0 h Wf F))
      as (L & B & R).
    exists (p (snd f) (fst f)), L. split; [apply round_any_pure|]. split; [exact B|exact R]. }
  assert (DU : forall sub, exists r L, (if sub : bool then round_down else round_up) M f ls le = Ok r /\ built_anew ls (Nat.max ls (S le)) f L
    /\ (ls = 0 \/ (forall j, S j < length L -> reorder j = M) ->
        agree (round_down_up_rc M f ls le sub h) (round_down_up_now M reorder fuel f ls le sub (St h M 0)) r)).
  { intro sub. set (p := rc M (wt_of (count_solutions f)) ls le false sub).
    destruct (good_reorder M reorder p ls (bound_of ls le) f h _ _ HR (remove_good M (count_solutions f) ls le false sub (refs h) (snd f) (fst f) [] h
      (solutions_complete f) U (inv_start _ _ _ _ h eq_refl)) WH (remove_simr M reorder (count_solutions f) ls le false sub (snd f) fuel (fst f) [] 0 h Wf F))
      as (L & B & R).
    exists (p (snd f) (fst f)), L. split; [destruct sub; [apply round_down_pure|apply round_up_pure]|]. split; [exact B|exact R]. }
  destruct i as [|[|[|[|[|[|[|[|i]]]]]]]]; cbn in E1, E2, E3, E4; try (injection E1 as <-; injection E2 as <-; injection E3 as <-; injection E4 as <-).
  - apply ANY.
  - apply ANY.
  - apply ANY.
  - apply ANY.
  - apply (DU true).
  - apply (DU false).
  - set (p := rr M (wt_of (count_minterms f)) ls).
    destruct (good_reorder M reorder p ls ls f h _ _ HR (round_good M (count_minterms f) ls (refs h) (snd f) (fst f) [] h
      (minterms_complete f) U (inv_start _ _ _ _ h eq_refl)) WH (round_simr M reorder (count_minterms f) ls (snd f) fuel (fst f) [] 0 h Wf F))
      as (L & B & R).
    exists (p (snd f) (fst f)), L. split; [apply round_bdd_pure|]. split; [exact B|exact R].
  - set (p := rb M (wt_of (count_minterms f)) ls le).
    destruct (good_reorder M reorder p ls (bound_of ls le) f h _ _ HR (best_good M (count_minterms f) ls le (refs h) (snd f) (fst f) [] h
      (minterms_complete f) U (inv_start _ _ _ _ h eq_refl)) WH (best_simr M reorder (count_minterms f) ls le (snd f) fuel (fst f) [] 0 h Wf F))
      as (L & B & R).
    exists (p (snd f) (fst f)), L. split; [apply round_best_pure|]. split; [exact B|exact R].
  - destruct i; discriminate.
Qed.

Lemma operator_reorder (M : mgr) (reorder : nat -> mgr) (fuel ls le i : nat) op op_now bound (f : bdd) (h : heap) :
  nth_error (the_operators M ls le) i = Some op ->
  nth_error (operators_now M reorder fuel ls le) i = Some op_now -> nth_error (operator_bounds ls le) i = Some bound ->
  In (snd f) (refs h) -> (forall n, In n (refs h ++ fresh h) -> wf M (false, n)) -> length (subnodes (snd f)) <= fuel ->
  exists r L, op f = Ok r /\ built_anew ls bound f L
  /\ (ls = 0 \/ (forall j, S j < length L -> reorder j = M) ->
      exists s new, op_now f (St h M 0) = Ok (r, s) /\ Permutation (refs (counts s)) (snd r :: new ++ refs h)).
Proof.
  intros E1 E3 E4 HR WH F.
  assert (B : exists op_rc, nth_error (operators_rc M ls le) i = Some op_rc).
  { assert (H : i < 8). { apply (nth_error_Some (the_operators M ls le) i). congruence. }
    destruct (nth_error (operators_rc M ls le) i) eqn:E; [eauto|]. apply nth_error_None in E. cbn in E. lia. }
  destruct B as [op_rc E2].
  destruct (operator_reorder_agree M reorder fuel ls le i op op_rc op_now bound f h E1 E2 E3 E4 HR WH F) as (r & L & H1 & H2 & H3).
  destruct (operators_safe M ls le i op op_rc f h E1 E2 HR) as (r' & h' & H4 & H5 & new & P).
  exists r, L. split; auto. split; auto. intro HY. destruct (H3 HY) as (h1 & s & A1 & A2 & A3).
  exists s, new. split; auto. rewrite A3. rewrite H5 in A1. injection A1 as -> ->. exact P.
Qed.
