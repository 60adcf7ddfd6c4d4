(** Proofs about the number of nodes: in another variable order the factor three is reached *)
From Coq Require Import List Bool Arith ZArith QArith Lia Lqa.
From Verif Require Import Res Cudd CuddFacts Spec SpecFacts SpecOperators Helpers Counting CountFacts Operators Examples AdderFacts GateFacts
  OperatorFacts OperatorFacts2 OperatorFacts3 OperatorFacts4 OperatorFacts7 LevelFacts SizeFacts SizeFacts2.
Import ListNotations.
Open Scope nat_scope.

(** the order 0, b, 1, 2, ... with b = S p *)
Definition second_lv (b i : nat) : nat := if i =? 0 then 0 else if i =? b then 1 else if i <? b then i + 1 else i.
Lemma second_inj b : 0 < b -> forall i j, second_lv b i = second_lv b j -> i = j.
Proof.
  intros Hb i j. unfold second_lv.
  destruct (Nat.eqb_spec i 0), (Nat.eqb_spec j 0), (Nat.eqb_spec i b), (Nat.eqb_spec j b), (Nat.ltb_spec i b), (Nat.ltb_spec j b); lia.
Qed.
Definition second_mgr (p n : nat) : mgr := Mgr (second_lv (S p)) (second_inj (S p) (Nat.lt_0_succ p)) n.

(** parity of [x_j .. x_{j+m+1}] with the then child at [x_{j+m}] replaced, or the else child *)
Fixpoint cut_node (q : bool) (m j : nat) : node :=
  match m with
  | O => Nd j One q (parity_node (S j) 1)
  | S m' => Nd j (cut_node q m' (S j)) false (cut_node (negb q) m' (S j))
  end.
Fixpoint cut_node2 (q : bool) (m j : nat) : node :=
  match m with
  | O => Nd j (parity_node (S j) 1) q One
  | S m' => Nd j (cut_node2 q m' (S j)) true (cut_node2 (negb q) m' (S j))
  end.
(** both the function and a test of the first variable in front of it *)
Definition guard (b : nat) (F : node) : node := Nd b F true One.
Definition guarded (b : nat) (F : node) : node := Nd 0 (guard b F) false F.

Section Order.
Variables p n : nat.
Let M := second_mgr p n.
Lemma lv_mid i : 1 <= i <= p -> lv M i = i + 1.
Proof. intro H. cbn [M lv second_mgr]. unfold second_lv. destruct (Nat.eqb_spec i 0), (Nat.eqb_spec i (S p)), (Nat.ltb_spec i (S p)); lia. Qed.
Lemma lv_b : lv M (S p) = 1.
Proof. cbn [M lv second_mgr]. unfold second_lv. destruct (Nat.eqb_spec (S p) 0), (Nat.eqb_spec (S p) (S p)); lia. Qed.
Lemma parity_okm : forall m j k, 1 <= j -> j + m <= S p -> k <= j + 1 -> okn M k (parity_node j m).
Proof.
  induction m as [|m IH]; intros j k H1 H2 H3; cbn [parity_node okn]; auto. rewrite lv_mid by lia. split; [lia|].
  split; [apply IH; lia|]. split; [apply IH; lia|]. intros [E _]. discriminate E.
Qed.
Lemma tail_okm k : k + 3 <= p -> forall m j, m < k -> j <= k - m + 1 -> okn M j (tail_node k m).
Proof.
  intro Hk. induction m as [|m IH]; intros j Hm Hj.
  - cbn [tail_node tie_node okn]. rewrite lv_mid by lia. split; [lia|]. split; [apply parity_okm; lia|]. split; [apply parity_okm; lia|].
    intros [_ E]. cbn [parity_node] in E. injection E as E _ _. lia.
  - cbn [tail_node okn]. rewrite lv_mid by lia. split; [lia|]. split; [apply IH; lia|]. split; [apply IH; lia|]. intros [E _]. discriminate E.
Qed.
Lemma cut_okm : forall m q j k, 1 <= j -> j + m < p -> k <= j + 1 -> okn M k (cut_node q m j).
Proof.
  assert (D : forall m q j, cut_node q m j <> cut_node (negb q) m j).
  { induction m as [|m IH]; intros q j E; cbn [cut_node] in E; injection E as E; [destruct q; discriminate E|]. exact (IH q (S j) E). }
  induction m as [|m IH]; intros q j k H1 H2 H3; cbn [cut_node okn]; rewrite lv_mid by lia.
  - split; [lia|]. split; [exact I|]. split; [apply parity_okm; lia|]. intros [_ E]. discriminate E.
  - split; [lia|]. split; [apply IH; lia|]. split; [apply IH; lia|]. intros [_ E]. exact (D m q (S j) E).
Qed.
Lemma cut2_okm : forall m q j k, 1 <= j -> j + m < p -> k <= j + 1 -> okn M k (cut_node2 q m j).
Proof.
  induction m as [|m IH]; intros q j k H1 H2 H3; cbn [cut_node2 okn]; rewrite lv_mid by lia.
  - split; [lia|]. split; [apply parity_okm; lia|]. split; [exact I|]. intros [_ E]. discriminate E.
  - split; [lia|]. split; [apply IH; lia|]. split; [apply IH; lia|]. intros [E _]. discriminate E.
Qed.
Lemma guard_okm F : okn M 2 F -> F <> One -> okn M 1 (guard (S p) F).
Proof. intros H N. unfold guard. cbn [okn]. rewrite lv_b. split; [lia|]. split; [exact H|]. split; [exact I|]. intros [E _]. discriminate E. Qed.
Lemma top_okm F d e : okn M 2 F -> F <> One -> okn M 2 e -> okn M 0 (Nd 0 (guard (S p) F) d e).
Proof.
  intros H N He. cbn [okn]. assert (L : lv M 0 = 0) by reflexivity. rewrite L. split; [lia|]. split; [now apply guard_okm|].
  split; [destruct e; cbn [okn] in *; intuition lia|]. intros [_ E]. subst e. unfold guard in He. cbn [okn] in He. destruct He as [He _]. rewrite lv_b in He. lia.
Qed.

(** ** the result of the operators is determined below the test *)
Variables (R : node -> bool -> bdd) (F : node) (ls : nat) (s : bool) (G : node).
Hypotheses (HF : okn M 2 F) (NF : F <> One) (HG : okn M 2 G).
Hypothesis RW : wf M (R (guarded (S p) F) false).
Hypothesis R0 : forall a, ev (R (guarded (S p) F) false) a = if a 0 then ev (R (guard (S p) F) false) a else ev (R F false) a.
Hypothesis RB : R (guard (S p) F) false = (false, guard (S p) F).
Hypothesis RF : forall a, ev (R F false) a = ev (s, G) a.
Lemma guarded_result : R (guarded (S p) F) false = (false, Nd 0 (guard (S p) F) s G).
Proof.
  apply (canonical M).
  - exact RW.
  - unfold wf. cbn [snd]. now apply top_okm.
  - intro a. rewrite R0, RB, RF. unfold ev. cbn [fst snd evn]. rewrite !xorb_false_l. destruct (a 0); reflexivity.
Qed.
End Order.
Lemma guarded_ok p n F d : okn (second_mgr p n) 2 F -> F <> One -> wf (second_mgr p n) (d, guarded (S p) F).
Proof. intros H N. unfold wf, guarded. cbn [snd]. now apply top_okm. Qed.

(** ** removing children of parity *)
Section Cut.
Variables (M : mgr) (w : bdd -> Q) (L : nat) (sub : bool).
Let Y := parity_node (S L) 1.
Hypothesis tie : forall c, (w (c, Y) == w (negb c, Y))%Q.
Lemma no_gt (x y : Q) : (x == y)%Q -> qgtb x y = false.
Proof. intro H. unfold qgtb. apply Bool.negb_false_iff, Qle_bool_iff. lra. Qed.
Lemma rc_light : forall m j c a, j + m = L -> ev (rc M w L L false sub (parity_node j (m + 2)) c) a = ev (sub, cut_node (xorb c (negb sub)) m j) a.
Proof.
  induction m as [|m IH]; intros j c a E.
  - assert (j = L) as -> by lia. cbn [Nat.add parity_node]. fold Y. change (Nd (S L) One true One) with Y.
    cbn [rc]. rewrite Nat.ltb_irrefl, Nat.leb_refl, xorb_true_r, (no_gt _ _ (tie c)). cbn [Bool.eqb]. rewrite ev_itev.
    assert (L1 : S L <? L = false) by (apply Nat.ltb_ge; lia). assert (L2 : S L <=? L = false) by (apply Nat.leb_gt; lia).
    unfold Y. cbn [parity_node rc]. rewrite L1, L2. unfold repl, ev. cbn [cut_node parity_node]. cbn [fst snd evn].
    destruct (a L), (a (S L)), c, sub; reflexivity.
  - cbn [Nat.add parity_node]. cbn [rc]. assert (L1 : j <? L = true) by (apply Nat.ltb_lt; lia). rewrite L1, ev_itev. fold (parity_node (S j) (m + 2)).
    rewrite !IH by lia. unfold ev. cbn [cut_node]. cbn [fst snd evn]. rewrite xorb_true_r, Bool.negb_xorb_l, xorb_false_l. destruct (a j); reflexivity.
Qed.
Lemma rc_heavy : forall m j c a, j + m = L -> ev (rc M w L L true sub (parity_node j (m + 2)) c) a = ev (c, cut_node2 (xorb c sub) m j) a.
Proof.
  induction m as [|m IH]; intros j c a E.
  - assert (j = L) as -> by lia. cbn [Nat.add parity_node]. fold Y. change (Nd (S L) One true One) with Y.
    cbn [rc]. rewrite Nat.ltb_irrefl, Nat.leb_refl, xorb_true_r, (no_gt _ _ (tie c)). cbn [Bool.eqb]. rewrite ev_itev.
    assert (L1 : S L <? L = false) by (apply Nat.ltb_ge; lia). assert (L2 : S L <=? L = false) by (apply Nat.leb_gt; lia).
    unfold Y. cbn [parity_node rc]. rewrite L1, L2. unfold repl, ev. cbn [cut_node2 parity_node]. cbn [fst snd evn].
    destruct (a L), (a (S L)), c, sub; reflexivity.
  - cbn [Nat.add parity_node]. cbn [rc]. assert (L1 : j <? L = true) by (apply Nat.ltb_lt; lia). rewrite L1, ev_itev. fold (parity_node (S j) (m + 2)).
    rewrite !IH by lia. unfold ev. cbn [cut_node2]. cbn [fst snd evn]. destruct c, sub, (a j); cbn [xorb negb]; repeat match goal with |- context [evn ?x a] => destruct (evn x a) end; reflexivity.
Qed.
End Cut.
(** the function of the tie for round_best *)
Lemma tail_cut_node k : forall m c (a : asg), m <= k -> (if a k then false else ev (c, tail_node k m) a) = ev (true, cut_node c m (k - m)) a.
Proof.
  induction m as [|m IH]; intros c a H.
  - cbn [tail_node]. unfold tie_node. rewrite Nat.sub_0_r, Nat.add_1_r. cbn [cut_node parity_node]. unfold ev. cbn [fst snd evn]. destruct (a k), c, (a (S k)); reflexivity.
  - cbn [tail_node]. replace (ev (true, cut_node c (S m) (k - S m)) a) with (if a (k - S m) then ev (true, cut_node c m (k - m)) a else ev (true, cut_node (negb c) m (k - m)) a).
    + rewrite <- !IH by lia. unfold ev. cbn [fst snd evn]. destruct (a k), (a (k - S m)), c, (evn (tail_node k m) a); reflexivity.
    + unfold ev. cbn [cut_node]. cbn [fst snd evn]. replace (S (k - S m)) with (k - m) by lia. rewrite xorb_false_l. destruct (a (k - S m)); reflexivity.
Qed.

(** ** sizes *)
Definition top_of (x : node) : nat := match x with One => 0 | Nd v _ _ _ => v end.
Definition same (x : node) : Prop := exists v t, x = Nd v t true t.
Lemma subnodes_self (x : node) : In x (subnodes x). Proof. destruct x; now left. Qed.
Lemma subnodes_one (x : node) : In One (subnodes x).
Proof. induction x as [|v t IHt d e IHe]; [now left|]. cbn [subnodes]. right. apply in_or_app. auto. Qed.
(** a chain of nodes with equal children *)
Section Chain.
Variables (P : nat -> node) (N : nat).
Hypothesis PN : forall i, i < N -> exists v, P (S i) = Nd v (P i) true (P i).
Fixpoint chain_list (i : nat) : list node := match i with O => [] | S i' => P i :: chain_list i' end.
Lemma chain_in : forall i x, i <= N -> In x (chain_list i) -> depth x <= depth (P i) /\ same x /\ In x (subnodes (P i)).
Proof.
  induction i as [|i IH]; intros x Hi H; cbn [chain_list] in H; [destruct H|]. destruct (PN i Hi) as (v & E). destruct H as [<-|H].
  - split; [lia|]. split; [rewrite E; unfold same; eauto|apply subnodes_self].
  - destruct (IH x ltac:(lia) H) as (A & B & C). rewrite E. split; [cbn [depth]; lia|]. split; [exact B|]. cbn [subnodes]. right. apply in_or_app. now left.
Qed.
Lemma chain_nodup : forall i, i <= N -> NoDup (chain_list i).
Proof.
  induction i as [|i IH]; intro Hi; cbn [chain_list]; constructor; [|apply IH; lia]. intro H. apply chain_in in H; [|lia]. destruct (PN i Hi) as (v & E). rewrite E in H. cbn [depth] in H. lia.
Qed.
Lemma chain_length : forall i, length (chain_list i) = i.
Proof. induction i as [|i IH]; cbn [chain_list length]; auto. Qed.
End Chain.
(** two nodes on every level *)
Section Pairs.
Variable G : bool -> nat -> nat -> node.
Hypothesis GT : forall q m j, top_of (G q m j) = j.
Hypothesis GS : forall q m j, ~ same (G q m j).
Hypothesis GD : forall m j, G true m j <> G false m j.
Hypothesis GN : forall q m j x, In x (subnodes (G true m (S j))) \/ In x (subnodes (G false m (S j))) -> In x (subnodes (G q (S m) j)).
Fixpoint pair_list (m j : nat) : list node :=
  G true m j :: G false m j :: match m with O => [] | S m' => pair_list m' (S j) end.
Lemma pair_in : forall m j x, In x (pair_list m j) -> j <= top_of x /\ ~ same x /\ (In x (subnodes (G true m j)) \/ In x (subnodes (G false m j))).
Proof.
  induction m as [|m IH]; intros j x H; cbn [pair_list] in H.
  - destruct H as [<-|[<-|[]]]; rewrite GT; auto using subnodes_self.
  - destruct H as [<-|[<-|H]]; try (rewrite GT; auto using subnodes_self). destruct (IH _ _ H) as (A & B & C). split; [lia|]. auto.
Qed.
Lemma pair_nodup : forall m j, NoDup (pair_list m j).
Proof.
  induction m as [|m IH]; intro j; cbn [pair_list].
  - repeat constructor; cbn [In]; [|tauto]. intros [E|[]]. exact (GD 0 j (eq_sym E)).
  - constructor; [|constructor; [|apply IH]].
    + intros [E|H]; [exact (GD (S m) j (eq_sym E))|]. apply pair_in in H. rewrite GT in H. lia.
    + intro H. apply pair_in in H. rewrite GT in H. lia.
Qed.
Lemma pair_length : forall m j, length (pair_list m j) = 2 * m + 2.
Proof. induction m as [|m IH]; intro j; cbn [pair_list length]; [reflexivity|]. rewrite IH. lia. Qed.
Lemma grown (P : nat -> node) i b s q m : (forall i', i' < i -> exists v, P (S i') = Nd v (P i') true (P i')) ->
  i + 2 * m <= nodeCount [(false, Nd 0 (guard b (P i)) s (G q m 1))].
Proof.
  intro PN. rewrite nodeCount_single. cbn [snd].
  assert (C : forall x, In x (chain_list P i) -> In x (subnodes (Nd 0 (guard b (P i)) s (G q m 1)))).
  { intros x H. apply (chain_in P i PN i _ (le_n i)) in H. cbn [subnodes]. right. apply in_or_app. left. unfold guard. cbn [subnodes]. right. apply in_or_app. now left. }
  destruct m as [|m].
  - rewrite Nat.add_0_r, <- (chain_length P i) at 1. apply NoDup_incl_length; [apply (chain_nodup P i PN i (le_n i))|]. intros x H. apply nodup_In. auto.
  - replace (i + 2 * S m) with (length (chain_list P i ++ pair_list m 2)) by (rewrite app_length, chain_length, pair_length; lia).
    apply NoDup_incl_length.
    + assert (A : forall (l l' : list node), NoDup l -> NoDup l' -> (forall x, In x l -> ~ In x l') -> NoDup (l ++ l')).
      { clear. induction l as [|x l IH]; intros l' H H' D; [exact H'|]. inversion_clear H. cbn [app]. constructor.
        - rewrite in_app_iff. intros [K|K]; [contradiction|]. exact (D x (or_introl eq_refl) K).
        - apply IH; auto. intros y Hy. apply D. now right. }
      apply A; [apply (chain_nodup P i PN i (le_n i))|apply pair_nodup|]. intros x H H'. apply (chain_in P i PN i _ (le_n i)) in H. apply pair_in in H'. tauto.
    + intros x H. apply nodup_In. apply in_app_or in H. destruct H as [H|H]; [auto|].
      cbn [subnodes]. right. apply in_or_app. right. apply GN. now apply pair_in in H.
Qed.
End Pairs.
Lemma cut_same q m j : ~ same (cut_node q m j).
Proof.
  intros (v & t & E). destruct m as [|m]; cbn [cut_node parity_node] in E; [|discriminate E]. injection E as _ E1 _ E2. subst t. discriminate E2.
Qed.
Lemma cut_distinct : forall m j, cut_node true m j <> cut_node false m j.
Proof. induction m as [|m IH]; intros j E; cbn [cut_node] in E; injection E as E; [discriminate E|]. exact (IH (S j) E). Qed.
Lemma cut2_distinct : forall m j, cut_node2 true m j <> cut_node2 false m j.
Proof. induction m as [|m IH]; intros j E; cbn [cut_node2] in E; injection E as E; [discriminate E|]. exact (IH (S j) E). Qed.
Lemma cut2_same q m j : ~ same (cut_node2 q m j).
Proof.
  intros (v & t & E). destruct m as [|m]; cbn [cut_node2 parity_node] in E.
  - injection E as _ E1 _ E2. congruence.
  - injection E as _ E1 E2. rewrite <- E2 in E1. destruct q; cbn [negb] in E1; [exact (cut2_distinct m (S j) E1)|exact (cut2_distinct m (S j) (eq_sym E1))].
Qed.
Lemma cut_grown P i b s q m : (forall i', i' < i -> exists v, P (S i') = Nd v (P i') true (P i')) -> i + 2 * m <= nodeCount [(false, Nd 0 (guard b (P i)) s (cut_node q m 1))].
Proof.
  apply grown; auto using cut_same, cut_distinct.
  - intros ? [|?] ?; reflexivity.
  - intros q' m' j x H. cbn [cut_node subnodes]. right. apply in_or_app. destruct q'; cbn [negb]; tauto.
Qed.
Lemma cut2_grown P i b s q m : (forall i', i' < i -> exists v, P (S i') = Nd v (P i') true (P i')) -> i + 2 * m <= nodeCount [(false, Nd 0 (guard b (P i)) s (cut_node2 q m 1))].
Proof.
  apply grown; auto using cut2_same, cut2_distinct.
  - intros ? [|?] ?; reflexivity.
  - intros q' m' j x H. cbn [cut_node2 subnodes]. right. apply in_or_app. destruct q'; cbn [negb]; tauto.
Qed.
Lemma guarded_size b F d : nodeCount [(d, guarded b F)] <= length (nodup node_eq_dec (subnodes F)) + 2.
Proof.
  rewrite nodeCount_single. cbn [snd].
  transitivity (length (guarded b F :: guard b F :: nodup node_eq_dec (subnodes F))); [|cbn [length]; lia].
  apply NoDup_incl_length; [apply NoDup_nodup|]. intros x H. apply nodup_In in H. unfold guarded in H at 1. cbn [subnodes] in H.
  destruct H as [H|H]; [left; exact H|]. right. apply in_app_or in H. destruct H as [H|H].
  - unfold guard in H at 1. cbn [subnodes] in H. destruct H as [H|H]; [left; exact H|]. right. apply nodup_In. apply in_app_or in H.
    destruct H as [H|[<-|[]]]; [exact H|apply subnodes_one].
  - right. apply nodup_In. exact H.
Qed.

Lemma both_ends : forall m j c q, In (q, parity_node (j + m + 1) 1) (edges (parity_node j (m + 2)) c).
Proof.
  induction m as [|m IH]; intros j c q.
  - cbn [Nat.add parity_node]. rewrite Nat.add_0_r, Nat.add_1_r. change (Nd (S j) One true One) with (parity_node (S j) 1). cbn [edges]. right. apply in_or_app.
    destruct (bool_dec q c) as [->|N]; [left; apply in_edges_refl|right]. replace q with (xorb c true); [apply in_edges_refl|]. destruct q, c; try reflexivity; contradiction N; reflexivity.
  - replace (j + S m + 1) with (S j + m + 1) by lia. change (S m + 2) with (S (m + 2)).
    assert (E : parity_node j (S (m + 2)) = Nd j (parity_node (S j) (m + 2)) true (parity_node (S j) (m + 2))) by reflexivity. rewrite E.
    cbn [edges]. right. apply in_or_app. left. apply IH.
Qed.
(** ** seven operators *)
Definition guarded_parity (m : nat) : bdd := (false, guarded (S (m + 2)) (parity_node 1 (m + 2))).
Definition guarded_tie (m : nat) : bdd := (false, guarded (S (m + 4)) (tail_node (m + 1) m)).
Lemma second_of_guard M w ls le rh sub b F : le < b -> ls <= b -> rc M w ls le rh sub (guard b F) false = (false, guard b F).
Proof.
  intros H1 H2. unfold guard. cbn [rc]. assert (L1 : b <? ls = false) by (apply Nat.ltb_ge; lia). assert (L2 : b <=? le = false) by (apply Nat.leb_gt; lia). now rewrite L1, L2.
Qed.
Lemma parity_steps m : forall i, i < m + 2 -> exists v, parity_node (m + 3 - S i) (S i) = Nd v (parity_node (m + 3 - i) i) true (parity_node (m + 3 - i) i).
Proof. intros i H. exists (m + 3 - S i). cbn [parity_node]. replace (S (m + 3 - S i)) with (m + 3 - i) by lia. reflexivity. Qed.
Lemma cut_result m w rh sub : (forall c, (w (c, parity_node (m + 2) 1) == w (negb c, parity_node (m + 2) 1))%Q) ->
  3 * m + 2 <= nodeCount [rc (second_mgr (m + 2) (m + 4)) w (m + 1) (m + 1) rh sub (guarded (S (m + 2)) (parity_node 1 (m + 2))) false].
Proof.
  intro T. set (M := second_mgr (m + 2) (m + 4)). set (F := parity_node 1 (m + 2)).
  assert (OF : okn M 2 F) by (apply parity_okm; lia). assert (NF : F <> One) by (unfold F; rewrite Nat.add_succ_r; discriminate).
  assert (T' : forall c, (w (c, parity_node (S (m + 1)) 1) == w (negb c, parity_node (S (m + 1)) 1))%Q) by (intro c; replace (S (m + 1)) with (m + 2) by lia; apply T).
  assert (W : wf M (rc M w (m + 1) (m + 1) rh sub (guarded (S (m + 2)) F) false)) by (apply rc_wf; now apply (guarded_ok (m + 2) (m + 4) F false)).
  assert (R0 : forall a, ev (rc M w (m + 1) (m + 1) rh sub (guarded (S (m + 2)) F) false) a
    = if a 0 then ev (rc M w (m + 1) (m + 1) rh sub (guard (S (m + 2)) F) false) a else ev (rc M w (m + 1) (m + 1) rh sub F false) a).
  { intro a. unfold guarded. cbn [rc]. assert (L : 0 <? m + 1 = true) by (apply Nat.ltb_lt; lia). now rewrite L, ev_itev. }
  assert (RB : rc M w (m + 1) (m + 1) rh sub (guard (S (m + 2)) F) false = (false, guard (S (m + 2)) F)) by (apply second_of_guard; lia).
  assert (EF : F = (fun i => parity_node (m + 3 - i) i) (m + 2)) by (unfold F; cbv beta; f_equal; lia).
  destruct rh.
  - rewrite (guarded_result (m + 2) (m + 4) (rc M w (m + 1) (m + 1) true sub) F false (cut_node2 (xorb false sub) m 1) OF NF); auto.
    + rewrite EF. etransitivity; [|apply (cut2_grown (fun i => parity_node (m + 3 - i) i)), parity_steps]. lia.
    + apply cut2_okm; lia.
    + intro a. apply rc_heavy; auto. lia.
  - rewrite (guarded_result (m + 2) (m + 4) (rc M w (m + 1) (m + 1) false sub) F sub (cut_node (xorb false (negb sub)) m 1) OF NF); auto.
    + rewrite EF. etransitivity; [|apply (cut_grown (fun i => parity_node (m + 3 - i) i)), parity_steps]. lia.
    + apply cut_okm; lia.
    + intro a. apply rc_light; auto. lia.
Qed.
Lemma best_result m w : dense w (guarded (S (m + 4)) (tail_node (m + 1) m)) false ->
  3 * m <= nodeCount [rb (second_mgr (m + 4) (m + 6)) w (m + 3) (m + 3) (guarded (S (m + 4)) (tail_node (m + 1) m)) false].
Proof.
  intro D. set (M := second_mgr (m + 4) (m + 6)). set (F := tail_node (m + 1) m).
  assert (OF : okn M 2 F) by (apply tail_okm; lia). assert (NF : F <> One) by (unfold F; destruct m; discriminate).
  assert (W : wf M (rb M w (m + 3) (m + 3) (guarded (S (m + 4)) F) false)) by (apply rb_wf; now apply (guarded_ok (m + 4) (m + 6) F false)).
  rewrite (guarded_result (m + 4) (m + 6) (rb M w (m + 3) (m + 3)) F true (cut_node false m 1) OF NF); auto.
  - etransitivity; [|apply (cut_grown (tail_node (m + 1)))]; [lia|]. intros i H. cbn [tail_node]. eauto.
  - apply cut_okm; lia.
  - intro a. unfold guarded. cbn [rb]. assert (L : 0 <? m + 3 = true) by (apply Nat.ltb_lt; lia). now rewrite L, ev_itev.
  - unfold guard. cbn [rb]. assert (L1 : S (m + 4) <? m + 3 = false) by (apply Nat.ltb_ge; lia). assert (L2 : S (m + 4) <=? m + 3 = false) by (apply Nat.leb_gt; lia). now rewrite L1, L2.
  - intro a. unfold F. replace (m + 3) with (m + 1 + 2) by lia. rewrite best_tail; [|lia|].
    + rewrite tail_cut_node by lia. replace (m + 1 - m) with 1 by lia. reflexivity.
    + intros x Hx. apply D. unfold guarded. cbn [edges]. right. apply in_or_app. right. exact Hx.
Qed.
Lemma triple_growth m i op : i < 6 -> nth_error (the_operators (second_mgr (m + 2) (m + 4)) (m + 1) (m + 1)) i = Some op ->
  wf (second_mgr (m + 2) (m + 4)) (guarded_parity m) /\ nodeCount [guarded_parity m] <= m + 5
  /\ exists r, op (guarded_parity m) = Ok r /\ 3 * m + 2 <= nodeCount [r].
Proof.
  intros Hi E. split; [apply guarded_ok; [apply parity_okm; lia|rewrite Nat.add_succ_r; discriminate]|].
  split; [etransitivity; [apply guarded_size|]; rewrite parity_subnodes; lia|].
  assert (En : forall c, In (c, parity_node (m + 2) 1) (reachable (guarded_parity m))).
  { intro c. unfold reachable, guarded_parity, guarded. cbn [fst snd edges]. right. apply in_or_app. right. replace (m + 2) with (1 + m + 1) at 1 by lia. apply both_ends. }
  assert (Dn : forall c, (wt_of (count_minterms (guarded_parity m)) (c, parity_node (m + 2) 1) == wt_of (count_minterms (guarded_parity m)) (negb c, parity_node (m + 2) 1))%Q).
  { intro c. rewrite !minterms_wt by apply En. destruct c; reflexivity. }
  assert (Ds : forall c, (wt_of (count_solutions (guarded_parity m)) (c, parity_node (m + 2) 1) == wt_of (count_solutions (guarded_parity m)) (negb c, parity_node (m + 2) 1))%Q).
  { intro c. rewrite !solutions_wt by apply En. unfold solw. cbn [parity_node sols fst snd]. destruct c; cbn [negb xorb]; ring. }
  destruct i as [|[|[|[|[|[|i]]]]]]; [..|lia]; cbn [the_operators nth_error] in E; injection E as <-;
    unfold subset_light_child, subset_heavy_child, superset_light_child, superset_heavy_child;
    rewrite ?round_any_pure, ?round_down_pure, ?round_up_pure; (eexists; split; [reflexivity|]); apply cut_result; assumption.
Qed.
Lemma triple_growth_best m : let M := second_mgr (m + 4) (m + 6) in
  wf M (guarded_tie m) /\ nodeCount [guarded_tie m] <= m + 7 /\ exists r, round_best M (guarded_tie m) (m + 3) (m + 3) = Ok r /\ 3 * m <= nodeCount [r].
Proof.
  intro M. split; [apply guarded_ok; [apply tail_okm; lia|destruct m; discriminate]|].
  split; [etransitivity; [apply guarded_size|]; rewrite tail_subnodes; lia|].
  rewrite round_best_pure. eexists. split; [reflexivity|]. apply best_result. exact (minterms_dense (guarded_tie m)).
Qed.
Lemma round_doubles M f ls : wf M f -> exists r, round_bdd M f ls = Ok r /\ nodeCount [r] <= 2 * nodeCount [f].
Proof.
  intro W. rewrite round_bdd_pure. eexists; split; [reflexivity|]. rewrite (nodeCount_one (rr _ _ _ _ _)).
  apply (roots_count (rr M (wt_of (count_minterms f)) ls)); [apply NoDup_nodup|]. intros x Hx. apply nodup_In in Hx. eapply rr_nodes; eauto.
Qed.
Lemma no_factor_below_three q i : (q < 3)%Q -> i < 8 -> i <> 6 -> exists (M : mgr) (f : bdd) (l : nat) (op : bdd -> res bdd) (r : bdd),
  nth_error (the_operators M l l) i = Some op /\ wf M f /\ op f = Ok r
  /\ (q * inject_Z (Z.of_nat (nodeCount [f])) < inject_Z (Z.of_nat (nodeCount [r])))%Q.
Proof.
  intros Hq Hi Ni. assert (X : exists p : positive, (30 < inject_Z (Zpos p) * (3 - q))%Q).
  { destruct (Qarchimedean (30 / (3 - q))) as [p Hp]. exists p. assert (H2 : (0 < 3 - q)%Q) by lra. apply (Qmult_lt_compat_r _ _ _ H2) in Hp.
    unfold Qdiv in Hp. rewrite <- Qmult_assoc, (Qmult_comm (/ _)), Qmult_inv_r, Qmult_1_r in Hp by lra. exact Hp. }
  destruct X as (p & P). set (m := Pos.to_nat p). assert (En : Z.of_nat m = Zpos p) by (unfold m; apply positive_nat_Z).
  assert (F : forall x y : nat, x <= m + 7 -> 3 * m <= y -> (q * inject_Z (Z.of_nat x) < inject_Z (Z.of_nat y))%Q).
  { intros x y Hx Hy. apply Qlt_le_trans with (inject_Z (3 * Z.of_nat m)); [|rewrite <- Zle_Qle; lia].
    assert (B : (0 <= inject_Z (Z.of_nat x) <= inject_Z (Zpos p) + 7)%Q).
    { rewrite <- En. change 7%Q with (inject_Z 7). rewrite <- inject_Z_plus. change 0%Q with (inject_Z 0). rewrite <- !Zle_Qle. lia. }
    rewrite En. replace (3 * Zpos p)%Z with (Zpos p + Zpos p + Zpos p)%Z by lia. rewrite !inject_Z_plus.
    assert (0 < inject_Z (Z.pos p))%Q by (change 0%Q with (inject_Z 0); rewrite <- Zlt_Qlt; lia).
    set (u := inject_Z (Z.of_nat x)) in *. set (z := inject_Z (Z.pos p)) in *. clearbody u z. destruct (Qlt_le_dec q 0) as [Hn|Hn]; [nra|].
    apply Qle_lt_trans with (q * (z + 7))%Q; nra. }
  destruct (le_lt_dec 6 i) as [H6|H6].
  - assert (i = 7) as -> by lia. destruct (triple_growth_best m) as (W & Sz & r & Er & Hr).
    exists (second_mgr (m + 4) (m + 6)), (guarded_tie m), (m + 3), (fun f => round_best (second_mgr (m + 4) (m + 6)) f (m + 3) (m + 3)), r. auto.
  - destruct (nth_error (the_operators (second_mgr (m + 2) (m + 4)) (m + 1) (m + 1)) i) as [op|] eqn:E.
    2:{ apply nth_error_None in E. cbn [the_operators length] in E. lia. }
    destruct (triple_growth m i op H6 E) as (W & Sz & r & Er & Hr). exists (second_mgr (m + 2) (m + 4)), (guarded_parity m), (m + 1), op, r.
    split; [exact E|]. split; [exact W|]. split; [exact Er|]. apply F; lia.
Qed.
