(** Proofs about the number of nodes: round and round_best can nearly double it *)
From Coq Require Import List Bool Arith ZArith QArith Lia Lqa.
From Verif Require Import Res Cudd CuddFacts Spec SpecFacts SpecOperators Helpers Counting CountFacts Operators Examples AdderFacts GateFacts
  OperatorFacts OperatorFacts2 OperatorFacts3 OperatorFacts4 LevelFacts SizeFacts.
Import ListNotations.
Open Scope nat_scope.

(** parity of [x_j .. x_{k-1}] on top of: [x_k] selects the parity of [x_{k+2}], [x_{k+3}] (a tie) or [x_{k+1}] *)
Definition tie_node (k : nat) : node := Nd k (parity_node (k + 2) 2) true (parity_node (k + 1) 1).
Fixpoint tail_node (k m : nat) : node :=
  match m with O => tie_node k | S m' => Nd (k - m) (tail_node k m') true (tail_node k m') end.
Definition tied (M : mgr) (k : nat) : bdd :=
  bxor M (xor_bdd M k) (ite M (bvar k) (bxor M (bvar (k + 2)) (bvar (k + 3))) (bvar (k + 1))).

Lemma tail_ok M k : index_order M -> forall m j, m <= k -> j <= k - m -> okn M j (tail_node k m).
Proof.
  intro I. induction m as [|m IH]; intros j Hm Hj.
  - cbn [tail_node tie_node okn]. rewrite I. split; [lia|]. split; [apply parity_ok; auto; lia|]. split; [apply parity_ok; auto; lia|].
    intros [_ E]. cbn [parity_node] in E. injection E as E _ _. lia.
  - cbn [tail_node okn]. rewrite I. split; [lia|]. split; [apply IH; lia|]. split; [apply IH; lia|]. intros [E _]. discriminate E.
Qed.
Lemma tail_vars k : forall m i, m <= k -> In i (varsn (tail_node k m)) -> i < k + 4.
Proof.
  induction m as [|m IH]; intros i Hm H; cbn [tail_node tie_node varsn] in H.
  - destruct H as [<-|H]; [lia|]. apply in_app_or in H. destruct H as [H|H]; apply parity_vars in H; lia.
  - destruct H as [<-|H]; [lia|]. apply in_app_or in H. destruct H as [H|H]; (apply IH in H; lia).
Qed.
Lemma tail_ev k a : forall m, m <= k ->
  evn (tail_node k m) a = xorb (Nat.odd m) (xorb (xors (k - m) m a)
    (negb (if a k then xorb (a (k + 2)) (a (k + 3)) else a (k + 1)))).
Proof.
  induction m as [|m IH]; intro Hm.
  - cbn [tail_node tie_node evn xors Nat.odd]. rewrite !parity_evn. cbn [xors Nat.odd Nat.even negb].
    replace (S (k + 2)) with (k + 3) by lia. destruct (a k), (a (k + 1)), (a (k + 2)), (a (k + 3)); reflexivity.
  - cbn [tail_node evn xors]. rewrite IH by lia. rewrite Nat.odd_succ, <- Nat.negb_odd. replace (S (k - S m)) with (k - m) by lia.
    destruct (a (k - S m)), (Nat.odd m), (xors (k - m) m a), (if a k then _ else _); reflexivity.
Qed.
Lemma tied_node M k : index_order M -> tied M k = (negb (Nat.odd k), tail_node k k).
Proof.
  intro I. apply (canonical M).
  - unfold tied. apply wf_xor; [apply gates_wf|]. auto 10 with wf.
  - unfold wf. cbn [snd]. apply tail_ok; auto; lia.
  - intro a. unfold tied. rewrite ev_xor, ev_itev, ev_xor, gate_xor, !ev_var. fold (parity_of k a). unfold ev. cbn [fst snd].
    rewrite tail_ev, Nat.sub_diag, xors_parity by lia. destruct (a k), (Nat.odd k), (parity_of k a), (a (k + 1)), (a (k + 2)), (a (k + 3)); reflexivity.
Qed.
Lemma tail_subnodes k : forall m, length (nodup node_eq_dec (subnodes (tail_node k m))) = m + 5.
Proof.
  induction m as [|m IH].
  - cbn [tail_node Nat.add]. set (Y := parity_node (k + 3) 1). set (N := parity_node (k + 2) 2). set (X := parity_node (k + 1) 1).
    assert (EN : N = Nd (k + 2) Y true Y) by (unfold N, Y; cbn [parity_node]; replace (S (k + 2)) with (k + 3) by lia; reflexivity).
    assert (EY : Y = Nd (k + 3) One true One) by reflexivity. assert (EX : X = Nd (k + 1) One true One) by reflexivity.
    transitivity (length [tie_node k; N; Y; X; One]); [|reflexivity].
    assert (P : forall x, In x (subnodes (tie_node k)) <-> In x [tie_node k; N; Y; X; One]).
    { intro x. unfold tie_node at 1. fold N X. rewrite EN, EY, EX. cbn [subnodes app In]. unfold tie_node. fold N X. rewrite EN, EY, EX. tauto. }
    assert (D : NoDup [tie_node k; N; Y; X; One]).
    { unfold tie_node. fold N X. rewrite EN, EX, EY. repeat constructor; cbn [In]; intuition;
        match goal with H : _ = _ :> node |- _ => discriminate H || (injection H; intros; try discriminate; lia) end. }
    apply Nat.le_antisymm; apply NoDup_incl_length; auto using NoDup_nodup; intros x Hx.
    + apply P. now apply nodup_In in Hx.
    + apply nodup_In. now apply P.
  - cbn [tail_node subnodes]. cbn [nodup]. destruct (in_dec node_eq_dec _ _) as [H|H].
    + exfalso. apply in_app_or in H. assert (G : In (Nd (k - S m) (tail_node k m) true (tail_node k m)) (subnodes (tail_node k m))) by tauto.
      apply subnodes_depth in G. cbn [depth] in G. lia.
    + cbn [length]. rewrite nodup_app, IH. lia.
Qed.
Lemma tied_size M k : index_order M -> nodeCount [tied M k] = k + 5.
Proof. intro I. rewrite nodeCount_single, (tied_node M k I). cbn [snd]. apply tail_subnodes. Qed.

(** the result: ties become zero, whatever the complement *)
Lemma tail_cut k w (R : node -> bool -> bdd) :
  (forall c v t d e a, v < k + 2 -> ev (R (Nd v t d e) c) a = if a v then ev (R t c) a else ev (R e (xorb c d)) a) ->
  (forall c, R One c = (c, One)) ->
  (forall c a, dense w (parity_node (k + 2) 2) c -> ev (R (parity_node (k + 2) 2) c) a = false) ->
  forall m c a, m <= k -> dense w (tail_node k m) c -> ev (R (tail_node k m) c) a = if a k then false else ev (c, tail_node k m) a.
Proof.
  intros RN RO RT. induction m as [|m IH]; intros c a Hm D.
  - cbn [tail_node] in *. unfold tie_node in *. rewrite RN by lia. rewrite RT by (apply dense_then in D; exact D).
    unfold ev at 2. cbn [fst snd evn]. destruct (a k); [reflexivity|].
    cbn [parity_node]. rewrite RN by lia. rewrite !RO. unfold ev. cbn [fst snd evn]. destruct c, (a (k + 1)); reflexivity.
  - cbn [tail_node] in *. pose proof (dense_then _ _ _ _ _ _ D) as Dt. pose proof (dense_else _ _ _ _ _ _ D) as De.
    rewrite RN by lia. rewrite !IH by (auto; lia). unfold ev. cbn [fst snd evn].
    destruct (a k), (a (k - S m)), c, (evn (tail_node k m) a); reflexivity.
Qed.
Lemma half_false (q : Q) : (q == 1 # 2)%Q -> qgtb q (1 # 2) = false.
Proof. intro H. unfold qgtb. apply Bool.negb_false_iff, Qle_bool_iff. lra. Qed.
Lemma round_tail M w k m c a : m <= k -> dense w (tail_node k m) c ->
  ev (rr M w (k + 2) (tail_node k m) c) a = if a k then false else ev (c, tail_node k m) a.
Proof.
  intros Hm D. apply (tail_cut k w (rr M w (k + 2))); auto.
  - clear. intros c v t d e a H. cbn [rr]. apply Nat.ltb_lt in H. rewrite H. apply ev_itev.
  - clear. intros c a D. cbn [parity_node rr]. rewrite Nat.ltb_irrefl.
    pose proof (D (c, parity_node (k + 2) 2) (in_edges_refl _ _)) as E.
    rewrite half_false; [reflexivity|]. cbn [parity_node] in E. etransitivity; [exact E|]. destruct c; reflexivity.
Qed.
Lemma best_tail M w k m c a : m <= k -> dense w (tail_node k m) c ->
  ev (rb M w (k + 2) (k + 2) (tail_node k m) c) a = if a k then false else ev (c, tail_node k m) a.
Proof.
  intros Hm D. apply (tail_cut k w (rb M w (k + 2) (k + 2))); auto.
  - clear. intros c v t d e a H. cbn [rb]. apply Nat.ltb_lt in H. rewrite H. apply ev_itev.
  - clear. intros c a D. cbn [parity_node] in *. cbn [rb]. rewrite Nat.ltb_irrefl, Nat.leb_refl. cbv zeta.
    set (Y := Nd (S (k + 2)) One true One) in *.
    assert (Ht : (w (c, Y) == 1 # 2)%Q) by (etransitivity; [exact (dense_then _ _ _ _ _ _ D (c, Y) (in_edges_refl _ _))|destruct c; reflexivity]).
    assert (He : (w (xorb c true, Y) == 1 # 2)%Q) by (etransitivity; [exact (dense_else _ _ _ _ _ _ D (xorb c true, Y) (in_edges_refl _ _))|destruct c; reflexivity]).
    assert (G : forall x y : Q, (x == 1 # 2)%Q -> (y == 1 # 2)%Q -> qgtb x y = false).
    { intros x y Hx Hy. unfold qgtb. apply Bool.negb_false_iff, Qle_bool_iff. lra. }
    rewrite !(G _ _ He Ht), !(G _ _ Ht He). cbn [andb]. rewrite ev_itev. unfold major. rewrite !half_false by assumption. now destruct (a (k + 2)).
Qed.
Lemma tail_size M k c r : index_order M -> wf M r -> (forall a, ev r a = if a k then false else ev (c, tail_node k k) a) -> 2 * k + 3 <= nodeCount [r].
Proof.
  intros I W V. replace (2 * k + 3) with (2 * (k + 2) - 1) by lia.
  apply (cut_size M (k + 2) k true false (xorb (xorb c (Nat.odd k)) true) r I W eq_refl). intro x. rewrite V.
  replace (k + 2) with (S (S k)) by lia. rewrite !parity_S. destruct (x k) eqn:E; [reflexivity|]. cbn [Bool.eqb].
  unfold ev. cbn [fst snd]. rewrite tail_ev, Nat.sub_diag, xors_parity, E by lia. rewrite Nat.add_1_r.
  destruct c, (Nat.odd k), (parity_of k x), (x (S k)); reflexivity.
Qed.
Lemma round_growth M k op : index_order M -> In op (skipn 6 (the_operators M (k + 2) (k + 2))) ->
  nodeCount [tied M k] = k + 5 /\ exists r, op (tied M k) = Ok r /\ 2 * k + 3 <= nodeCount [r].
Proof.
  intros I Hop. split; [now apply tied_size|]. rewrite (tied_node M k I). set (c := negb (Nat.odd k)). set (f := (c, tail_node k k)).
  assert (W : wf M f) by (unfold wf; cbn [snd f]; apply tail_ok; auto; lia).
  pose proof (minterms_dense f) as D. cbn [the_operators skipn] in Hop. destruct Hop as [<-|[<-|[]]].
  - rewrite round_bdd_pure. eexists. split; [reflexivity|]. apply (tail_size M k c); [exact I|apply rr_wf|]. intro a. apply round_tail; auto.
  - rewrite round_best_pure. eexists. split; [reflexivity|]. apply (tail_size M k c); [exact I|apply rb_wf; exact W|]. intro a. apply best_tail; auto.
Qed.
Lemma no_smaller_factor_any q i : (q < 2)%Q -> i < 8 -> exists (M : mgr) (f : bdd) (l : nat) (op : bdd -> res bdd) (r : bdd),
  nth_error (the_operators M l l) i = Some op /\ index_order M /\ wf M f /\ op f = Ok r
  /\ (q * inject_Z (Z.of_nat (nodeCount [f])) < inject_Z (Z.of_nat (nodeCount [r])))%Q.
Proof.
  intros Hq Hi. destruct (le_lt_dec 6 i) as [H6|H6]; [|now apply no_smaller_factor].
  destruct (Qarchimedean (7 / (2 - q))) as [p Hp]. set (k := Pos.to_nat p). set (M := id_mgr (k + 4)).
  assert (I : index_order M) by (intro; reflexivity).
  destruct (nth_error (the_operators M (k + 2) (k + 2)) i) as [op|] eqn:E; [|apply nth_error_None in E; cbn in E; lia].
  destruct (round_growth M k op I) as (Sz & r & Er & Hr).
  { apply (nth_error_In _ (i - 6)). rewrite <- E. clear -Hi H6. do 8 (destruct i as [|i]; [lia || reflexivity|]). lia. }
  exists M, (tied M k), (k + 2), op, r. repeat split; auto.
  { rewrite (tied_node M k I). unfold wf. cbn [snd]. apply tail_ok; auto; lia. }
  rewrite Sz. apply Qlt_le_trans with (inject_Z (2 * Z.of_nat k + 3)); [|rewrite <- Zle_Qle; lia].
  assert (P7 : (7 < inject_Z (Zpos p) * (2 - q))%Q).
  { assert (H2 : (0 < 2 - q)%Q) by lra. apply (Qmult_lt_compat_r _ _ _ H2) in Hp. unfold Qdiv in Hp. rewrite <- Qmult_assoc, (Qmult_comm (/ _)), Qmult_inv_r, Qmult_1_r in Hp by lra. exact Hp. }
  assert (En : Z.of_nat k = Zpos p) by (unfold k; apply positive_nat_Z).
  replace (2 * Z.of_nat k + 3)%Z with (Z.of_nat k + Z.of_nat k + 3)%Z by lia. rewrite Nat2Z.inj_add, !inject_Z_plus, En.
  change (inject_Z (Z.of_nat 5)) with 5%Q. change (inject_Z 3) with 3%Q. nra.
Qed.
