(** The reference counts of the operators: results *)
From Coq Require Import List Bool Arith ZArith QArith Lia Lqa Permutation.
From Verif Require Import Res Cudd CuddFacts Spec SpecFacts Helpers HelpersFacts Counting AddFacts CountFacts MetricsFacts MetricsFacts4 Operators OperatorFacts SpecOperators RefCount SpecRefs RefFacts.
Import ListNotations.
Open Scope nat_scope.

Lemma qgtb_comp x y x' y' : (x == x')%Q -> (y == y')%Q -> qgtb x y = qgtb x' y'.
Proof.
  intros E F. destruct (qgtb x' y') eqn:G; [apply qgtb_true in G; apply qgtb_true; lra|apply qgtb_false in G; apply qgtb_false; lra].
Qed.

Section Ext.
Variable M : mgr.
Variables w w' : bdd -> Q.
Variables ls le : nat.
Definition same (n : node) (c : bool) : Prop := forall k, In k (edges n c) -> (w k == w' k)%Q.
Lemma same_then v t d e c : same (Nd v t d e) c -> same t c.
Proof. intros H k Hk. apply H. cbn [edges]. right. apply in_or_app. auto. Qed.
Lemma same_else v t d e c : same (Nd v t d e) c -> same e (xorb c d).
Proof. intros H k Hk. apply H. cbn [edges]. right. apply in_or_app. auto. Qed.
Lemma rc_same rh sub n : forall c, same n c -> rc M w ls le rh sub n c = rc M w' ls le rh sub n c.
Proof.
  induction n as [|v t IHt d e IHe]; intros c H; [reflexivity|]. cbn [rc].
  pose proof (same_then _ _ _ _ _ H) as Ht. pose proof (same_else _ _ _ _ _ H) as He.
  rewrite (IHt c Ht), (IHe _ He).
  rewrite (qgtb_comp _ _ _ _ (Ht _ (in_edges_refl t c)) (He _ (in_edges_refl e (xorb c d)))). reflexivity.
Qed.
Lemma rr_same n : forall c, same n c -> rr M w ls n c = rr M w' ls n c.
Proof.
  induction n as [|v t IHt d e IHe]; intros c H; [reflexivity|]. cbn [rr].
  pose proof (same_then _ _ _ _ _ H) as Ht. pose proof (same_else _ _ _ _ _ H) as He.
  rewrite (IHt c Ht), (IHe _ He).
  rewrite (qgtb_comp _ _ _ (1 # 2)%Q (H _ (in_edges_refl _ c)) (Qeq_refl (1 # 2))). reflexivity.
Qed.
Lemma rb_same n : forall c, same n c -> rb M w ls le n c = rb M w' ls le n c.
Proof.
  induction n as [|v t IHt d e IHe]; intros c H; [reflexivity|]. cbn [rb]. cbv zeta.
  pose proof (same_then _ _ _ _ _ H) as Ht. pose proof (same_else _ _ _ _ _ H) as He.
  rewrite (IHt c Ht), (IHe _ He).
  pose proof (Ht _ (in_edges_refl t c)) as E1. pose proof (He _ (in_edges_refl e (xorb c d))) as E2.
  assert (E3 : (1 - w (xorb c d, e) == 1 - w' (xorb c d, e))%Q) by lra.
  assert (E4 : (1 - w (c, t) == 1 - w' (c, t))%Q) by lra.
  unfold major.
  rewrite (qgtb_comp _ _ _ _ E2 E1), (qgtb_comp _ _ _ _ E3 E1), (qgtb_comp _ _ _ _ E1 E2), (qgtb_comp _ _ _ _ E4 E2),
    (qgtb_comp _ _ _ _ E1 E3), (qgtb_comp _ _ _ _ E2 E4), (qgtb_comp _ _ _ _ E1 (Qeq_refl (1 # 2))), (qgtb_comp _ _ _ _ E2 (Qeq_refl (1 # 2))).
  reflexivity.
Qed.
End Ext.

Lemma minterms_same f x : In x (reachable f) -> same (wt_of (count_minterms x)) (wt_of (count_minterms f)) (snd x) (fst x).
Proof.
  intros H k Hk. rewrite (minterms_wt x k Hk), (minterms_wt f k); [reflexivity|]. exact (edges_trans (snd f) (fst f) x k H Hk).
Qed.

(** from the invariant to the statement *)
Lemma good_result p first bound (f : bdd) (h : heap) r :
  In (snd f) (refs h) -> good p first bound (refs h) (snd f) (fst f) [] h r ->
  exists L h', ('(node, _, h) <- r ;; new_BDD node h) = Ok (p (snd f) (fst f), h') /\ built_anew first bound f L
  /\ Permutation (refs h') (snd (p (snd f) (fst f)) :: map (fun x => snd (p (snd x) (fst x))) L ++ refs h).
Proof.
  intros HR (m & h1 & -> & (I1 & I2 & I3 & I4 & I5) & _ & S & _ & K & T). cbn [bind].
  unfold new_BDD. rewrite ref_ok by auto. cbn [bind].
  assert (EL : map (fun x => snd (p (snd x) (fst x))) (filter (act bound) (map fst m)) = leaks bound m).
  { clear -I1. unfold leaks. induction m as [|[k r] m IH]; [reflexivity|]. cbn [map fst filter].
    assert (IH' := IH (fun k0 r0 H => I1 k0 r0 (or_intror H))).
    destruct (act bound k); cbn [map fst snd]; rewrite IH'; auto. f_equal. now rewrite (I1 k r (or_introl eq_refl)). }
  assert (EA : forall x, (exists v, top x = Some v /\ v < bound) <-> act bound x = true).
  { intros [c [|v t d e]]; unfold act, top; cbn [snd].
    - split; [intros (v & [=] & _)|discriminate].
    - rewrite Nat.ltb_lt. split; [intros (v' & [= <-] & H); auto|eauto]. }
  exists (filter (act bound) (map fst m)), (Heap (snd (p (snd f) (fst f)) :: refs h1) (fresh h1)). split; [reflexivity|]. split.
  - unfold built_anew. split; [now apply NoDup_filter|]. split; [|split].
    + intros x Hx. apply filter_In in Hx. destruct Hx as [H1 H2]. split; [|now apply EA].
      destruct (S x H1) as [[]|H]. exact H.
    + intro H. apply EA in H. apply filter_In. split; auto. destruct f. auto.
    + intros c v t d e H L. apply filter_In in H. destruct (I4 c v t d e (proj1 H) L) as [C1 C2].
      split; intro A; apply EA in A; apply filter_In; auto.
  - cbn [refs]. rewrite EL, I3. reflexivity.
Qed.

Lemma operator_refs (M : mgr) (ls le i : nat) op op_rc bound (f : bdd) (h : heap) :
  nth_error (the_operators M ls le) i = Some op -> nth_error (operators_rc M ls le) i = Some op_rc ->
  nth_error (operator_bounds ls le) i = Some bound -> In (snd f) (refs h) ->
  exists r h' L result, op f = Ok r /\ op_rc f h = Ok (r, h') /\ built_anew ls bound f L /\ result f = r
  /\ (i <> 4 -> i <> 5 -> forall x, In x L -> op x = Ok (result x))
  /\ Permutation (refs h') (snd r :: map (fun x => snd (result x)) L ++ refs h).
Proof.
  intros E1 E2 E3 HR.
  assert (U : under (refs h) (snd f)) by (exists (snd f); split; auto; apply sub_refl).
  assert (ANY : forall rh sub, exists r h' L result, round_any M f ls le rh sub = Ok r /\ round_any_rc M f ls le rh sub h = Ok (r, h')
    /\ built_anew ls (Nat.max ls (S le)) f L /\ result f = r
    /\ (i <> 4 -> i <> 5 -> forall x, In x L -> round_any M x ls le rh sub = Ok (result x))
    /\ Permutation (refs h') (snd r :: map (fun x => snd (result x)) L ++ refs h)).
  { intros rh sub. set (p := rc M (wt_of (count_minterms f)) ls le rh sub).
    destruct (good_result p ls (Nat.max ls (S le)) f h _ HR (remove_good M (count_minterms f) ls le rh sub (refs h) (snd f) (fst f) [] h
      (minterms_complete f) U (inv_start _ _ _ _ h eq_refl))) as (L & h' & EQ & B & P).
    exists (p (snd f) (fst f)), h', L, (fun x => p (snd x) (fst x)). split; [apply round_any_pure|]. split; [exact EQ|]. split; [exact B|]. split; [reflexivity|].
    split; [|exact P]. intros _ _ x Hx. rewrite round_any_pure. f_equal. apply rc_same. apply minterms_same. apply B, Hx. }
  assert (DU : forall sub, exists r h' L result, (if sub : bool then round_down else round_up) M f ls le = Ok r /\ round_down_up_rc M f ls le sub h = Ok (r, h')
    /\ built_anew ls (Nat.max ls (S le)) f L /\ result f = r
    /\ Permutation (refs h') (snd r :: map (fun x => snd (result x)) L ++ refs h)).
  { intro sub. set (p := rc M (wt_of (count_solutions f)) ls le false sub).
    destruct (good_result p ls (Nat.max ls (S le)) f h _ HR (remove_good M (count_solutions f) ls le false sub (refs h) (snd f) (fst f) [] h
      (solutions_complete f) U (inv_start _ _ _ _ h eq_refl))) as (L & h' & EQ & B & P).
    exists (p (snd f) (fst f)), h', L, (fun x => p (snd x) (fst x)). split; [destruct sub; [apply round_down_pure|apply round_up_pure]|].
    split; [exact EQ|]. split; [exact B|]. split; [reflexivity|exact P]. }
  destruct i as [|[|[|[|[|[|[|[|i]]]]]]]]; cbn in E1, E2, E3; try (injection E1 as <-; injection E2 as <-; injection E3 as <-).
  - apply ANY.
  - apply ANY.
  - apply ANY.
  - apply ANY.
  - destruct (DU true) as (r & h' & L & result & D1 & D2 & D3 & D4 & D5). exists r, h', L, result. repeat (split; [assumption|]). split; [congruence|assumption].
  - destruct (DU false) as (r & h' & L & result & D1 & D2 & D3 & D4 & D5). exists r, h', L, result. repeat (split; [assumption|]). split; [congruence|assumption].
  - set (p := rr M (wt_of (count_minterms f)) ls).
    destruct (good_result p ls ls f h _ HR (round_good M (count_minterms f) ls (refs h) (snd f) (fst f) [] h
      (minterms_complete f) U (inv_start _ _ _ _ h eq_refl))) as (L & h' & EQ & B & P).
    exists (p (snd f) (fst f)), h', L, (fun x => p (snd x) (fst x)). split; [apply round_bdd_pure|]. split; [exact EQ|]. split; [exact B|]. split; [reflexivity|].
    split; [|exact P]. intros _ _ x Hx. rewrite round_bdd_pure. f_equal. apply rr_same. apply minterms_same. apply B, Hx.
  - set (p := rb M (wt_of (count_minterms f)) ls le).
    destruct (good_result p ls (Nat.max ls (S le)) f h _ HR (best_good M (count_minterms f) ls le (refs h) (snd f) (fst f) [] h
      (minterms_complete f) U (inv_start _ _ _ _ h eq_refl))) as (L & h' & EQ & B & P).
    exists (p (snd f) (fst f)), h', L, (fun x => p (snd x) (fst x)). split; [apply round_best_pure|]. split; [exact EQ|]. split; [exact B|]. split; [reflexivity|].
    split; [|exact P]. intros _ _ x Hx. rewrite round_best_pure. f_equal. apply rb_same. apply minterms_same. apply B, Hx.
  - destruct i; discriminate.
Qed.

Lemma operators_safe (M : mgr) (ls le i : nat) op op_rc (f : bdd) (h : heap) :
  nth_error (the_operators M ls le) i = Some op -> nth_error (operators_rc M ls le) i = Some op_rc -> In (snd f) (refs h) ->
  exists r h', op f = Ok r /\ op_rc f h = Ok (r, h') /\ exists new, Permutation (refs h') (snd r :: new ++ refs h).
Proof.
  intros E1 E2 HR.
  assert (B : exists bound, nth_error (operator_bounds ls le) i = Some bound).
  { assert (H : i < 8). { apply (nth_error_Some (the_operators M ls le) i). congruence. }
    destruct (nth_error (operator_bounds ls le) i) eqn:E; [eauto|]. apply nth_error_None in E. cbn in E. lia. }
  destruct B as [bound E3]. destruct (operator_refs M ls le i op op_rc bound f h E1 E2 E3 HR) as (r & h' & L & result & H1 & H2 & _ & _ & _ & P).
  exists r, h'. eauto.
Qed.
