(** The operators if CUDD runs out of memory: results *)
From Coq Require Import List Bool Arith ZArith QArith Lia Lqa Permutation.
From Verif Require Import Res Cudd CuddFacts Spec SpecFacts Helpers HelpersFacts Counting AddFacts CountFacts MetricsFacts MetricsFacts4 Operators OperatorFacts SpecOperators RefCount SpecRefs RefFacts RefFacts2 OutOfMemory OomFacts.
Import ListNotations.
Open Scope nat_scope.

Definition reaction (fails : nat -> bool) (calls : nat) (r : bdd) (o : res pointer) : Prop :=
  ((forall j, j < calls -> fails j = false) -> o = Ok (Some r))
  /\ ((exists j, S j < calls /\ fails j = true) -> o = UB)
  /\ (forall j, S j = calls -> fails j = true -> (forall i, i < j -> fails i = false) -> o = Ok None).

Lemma sim_reaction fails p first bound (f : bdd) r o :
  good p first bound [snd f] (snd f) (fst f) [] (Heap [snd f] []) r -> sim fails bound [] 0 r o ->
  exists L, built_anew first bound f L /\ reaction fails (length L) (p (snd f) (fst f)) (first_of o).
Proof.
  intros (m & h1 & -> & (I1 & I2 & I3 & I4 & I5) & _ & S & _ & K & T) SM.
  assert (EA : forall x, (exists v, top x = Some v /\ v < bound) <-> act bound x = true).
  { intros [c [|v t d e]]; unfold act, top; cbn [snd].
    - split; [intros (v & [=] & _)|discriminate].
    - rewrite Nat.ltb_lt. split; [intros (v' & [= <-] & H); auto|eauto]. }
  exists (filter (act bound) (map fst m)). split.
  - unfold built_anew. split; [now apply NoDup_filter|]. split; [|split].
    + intros x Hx. apply filter_In in Hx. destruct Hx as [H1 H2]. split; [|now apply EA].
      destruct (S x H1) as [[]|H]. exact H.
    + intro H. apply EA in H. apply filter_In. split; auto. destruct f. auto.
    + intros c v t d e H L. apply filter_In in H. destruct (I4 c v t d e (proj1 H) L) as [C1 C2].
      split; intro A; apply EA in A; apply filter_In; auto.
  - destruct (SM _ _ _ eq_refl) as (q & N & G & U & L). cbn [nact map filter length plus] in N. unfold nact in N. rewrite N. cbn [plus] in *.
    split; [|split].
    + intro F. rewrite G by (intros j _ J; now apply F). reflexivity.
    + intros (j & J1 & J2). rewrite U; [reflexivity|]. exists j. split; [lia|auto].
    + intros j <- F Fi. cbn [length filter plus] in *. replace (Datatypes.S j - 1) with j in L by lia.
      destruct L as (m2 & ->); [lia|intros i _ Hi; now apply Fi|exact F|]. reflexivity.
Qed.

Lemma operator_oom (M : mgr) (ls le i : nat) (fails : nat -> bool) op op_oom bound (f : bdd) :
  nth_error (the_operators M ls le) i = Some op -> nth_error (operators_oom M fails ls le) i = Some op_oom ->
  nth_error (operator_bounds ls le) i = Some bound ->
  exists r L, op f = Ok r /\ built_anew ls bound f L /\ reaction fails (length L) r (op_oom f).
Proof.
  intros E1 E2 E3.
  assert (U : under [snd f] (snd f)) by (exists (snd f); split; [now left|apply sub_refl]).
  set (h := Heap [snd f] []).
  assert (ANY : forall rh sub, exists r L, round_any M f ls le rh sub = Ok r
    /\ built_anew ls (Nat.max ls (S le)) f L /\ reaction fails (length L) r (round_any_oom M fails f ls le rh sub)).
  { intros rh sub. set (p := rc M (wt_of (count_minterms f)) ls le rh sub).
    destruct (sim_reaction fails p ls (bound_of ls le) f _ _ (remove_good M (count_minterms f) ls le rh sub [snd f] (snd f) (fst f) [] h
      (minterms_complete f) U (inv_start _ _ _ _ h eq_refl)) (remove_sim M fails (count_minterms f) ls le rh sub (snd f) (fst f) [] 0 h (minterms_complete f)))
      as (L & B & R).
    exists (p (snd f) (fst f)), L. split; [apply round_any_pure|]. split; [exact B|exact R]. }
  assert (DU : forall sub, exists r L, (if sub : bool then round_down else round_up) M f ls le = Ok r
    /\ built_anew ls (Nat.max ls (S le)) f L /\ reaction fails (length L) r (round_down_up_oom M fails f ls le sub)).
  { intro sub. set (p := rc M (wt_of (count_solutions f)) ls le false sub).
    destruct (sim_reaction fails p ls (bound_of ls le) f _ _ (remove_good M (count_solutions f) ls le false sub [snd f] (snd f) (fst f) [] h
      (solutions_complete f) U (inv_start _ _ _ _ h eq_refl)) (remove_sim M fails (count_solutions f) ls le false sub (snd f) (fst f) [] 0 h (solutions_complete f)))
      as (L & B & R).
    exists (p (snd f) (fst f)), L. split; [destruct sub; [apply round_down_pure|apply round_up_pure]|]. split; [exact B|exact R]. }
  destruct i as [|[|[|[|[|[|[|[|i]]]]]]]]; cbn in E1, E2, E3; try (injection E1 as <-; injection E2 as <-; injection E3 as <-).
  - apply ANY.
  - apply ANY.
  - apply ANY.
  - apply ANY.
  - apply (DU true).
  - apply (DU false).
  - set (p := rr M (wt_of (count_minterms f)) ls).
    destruct (sim_reaction fails p ls ls f _ _ (round_good M (count_minterms f) ls [snd f] (snd f) (fst f) [] h
      (minterms_complete f) U (inv_start _ _ _ _ h eq_refl)) (round_sim M fails (count_minterms f) ls (snd f) (fst f) [] 0 h (minterms_complete f)))
      as (L & B & R).
    exists (p (snd f) (fst f)), L. split; [apply round_bdd_pure|]. split; [exact B|exact R].
  - set (p := rb M (wt_of (count_minterms f)) ls le).
    destruct (sim_reaction fails p ls (bound_of ls le) f _ _ (best_good M (count_minterms f) ls le [snd f] (snd f) (fst f) [] h
      (minterms_complete f) U (inv_start _ _ _ _ h eq_refl)) (best_sim M fails (count_minterms f) ls le (snd f) (fst f) [] 0 h (minterms_complete f)))
      as (L & B & R).
    exists (p (snd f) (fst f)), L. split; [apply round_best_pure|]. split; [exact B|exact R].
  - destruct i; discriminate.
Qed.
Lemma operator_memory (M : mgr) (ls le i : nat) (fails : nat -> bool) op op_oom bound (f : bdd) :
  nth_error (the_operators M ls le) i = Some op -> nth_error (operators_oom M fails ls le) i = Some op_oom ->
  nth_error (operator_bounds ls le) i = Some bound ->
  exists r L, op f = Ok r /\ built_anew ls bound f L
  /\ ((forall j, j < length L -> fails j = false) -> op_oom f = Ok (Some r))
  /\ ((exists j, S j < length L /\ fails j = true) -> op_oom f = UB)
  /\ (forall j, S j = length L -> fails j = true -> (forall i, i < j -> fails i = false) -> op_oom f = Ok None).
Proof. apply operator_oom. Qed.
