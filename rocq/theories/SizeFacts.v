(** Proofs about the number of nodes: the bound of C99 is sharp *)
From Coq Require Import List Bool Arith ZArith QArith Lia Lqa.
From Verif Require Import Res Cudd CuddFacts Spec SpecFacts SpecOperators Helpers Counting Operators Examples AdderFacts GateFacts OperatorFacts4 LevelFacts.
Import ListNotations.
Open Scope nat_scope.

(** ** parity as a chain of nodes *)
Fixpoint parity_node (j m : nat) : node := match m with O => One | S m' => Nd j (parity_node (S j) m') true (parity_node (S j) m') end.
Lemma parity_ok M : index_order M -> forall m j k, k <= j -> okn M k (parity_node j m).
Proof.
  intro I. induction m as [|m IH]; intros j k H; cbn [parity_node okn]; auto. rewrite I. repeat split; auto. intros [D _]. discriminate.
Qed.
Lemma parity_vars m : forall j i, In i (varsn (parity_node j m)) -> j <= i < j + m.
Proof.
  induction m as [|m IH]; intros j i H; cbn [parity_node varsn] in H; [contradiction|]. destruct H as [<-|H]; [lia|]. apply in_app_or in H.
  destruct H as [H|H]; apply IH in H; lia.
Qed.
Fixpoint xors (j m : nat) (a : asg) : bool := match m with O => false | S m' => xorb (a j) (xors (S j) m' a) end.
Lemma parity_evn m : forall j a, evn (parity_node j m) a = xorb (negb (Nat.odd m)) (xors j m a).
Proof.
  induction m as [|m IH]; intros j a; [reflexivity|]. cbn [parity_node evn xors]. rewrite IH. rewrite Nat.odd_succ, <- Nat.negb_odd.
  destruct (a j), (Nat.odd m), (xors (S j) m a); reflexivity.
Qed.
Lemma xors_end m : forall j a, xors j (S m) a = xorb (xors j m a) (a (j + m)).
Proof.
  induction m as [|m IH]; intros j a; [cbn; rewrite Nat.add_0_r; now destruct (a j)|].
  change (xors j (S (S m)) a) with (xorb (a j) (xors (S j) (S m) a)). rewrite IH. cbn [xors]. rewrite xorb_assoc. do 3 f_equal. lia.
Qed.
Lemma xors_parity n a : xors 0 n a = parity_of n a.
Proof. induction n as [|n IH]; [reflexivity|]. now rewrite xors_end, parity_S, IH. Qed.
Lemma xor_bdd_node M n : index_order M -> xor_bdd M n = (negb (Nat.odd n), parity_node 0 n).
Proof.
  intro I. apply (canonical M).
  - apply gates_wf.
  - now apply parity_ok.
  - intro a. rewrite gate_xor. fold (parity_of n a). unfold ev. cbn [fst snd]. rewrite parity_evn, xors_parity.
    destruct (Nat.odd n), (parity_of n a); reflexivity.
Qed.
Lemma nodup_app (l : list node) : length (nodup node_eq_dec (l ++ l)) = length (nodup node_eq_dec l).
Proof.
  apply Nat.le_antisymm; apply NoDup_incl_length; try apply NoDup_nodup; intros x Hx; apply nodup_In in Hx; apply nodup_In;
    [apply in_app_or in Hx; tauto|apply in_or_app; auto].
Qed.
Fixpoint depth (n : node) : nat := match n with One => 0 | Nd _ t _ e => S (Nat.max (depth t) (depth e)) end.
Lemma subnodes_depth n m : In m (subnodes n) -> depth m <= depth n.
Proof.
  revert m. induction n as [|v t IHt c e IHe]; intros m H; cbn [subnodes] in H.
  - destruct H as [<-|[]]. auto.
  - destruct H as [<-|H]; auto. cbn [depth]. apply in_app_or in H. destruct H as [H|H]; [apply IHt in H|apply IHe in H]; lia.
Qed.
Lemma parity_subnodes m : forall j, length (nodup node_eq_dec (subnodes (parity_node j m))) = S m.
Proof.
  induction m as [|m IH]; intro j; [reflexivity|]. cbn [parity_node subnodes]. cbn [nodup].
  destruct (in_dec node_eq_dec _ _) as [H|H].
  - exfalso. apply in_app_or in H. assert (G : In (Nd j (parity_node (S j) m) true (parity_node (S j) m)) (subnodes (parity_node (S j) m))) by tauto.
    apply subnodes_depth in G. cbn [depth] in G. lia.
  - cbn [length]. rewrite nodup_app, IH. reflexivity.
Qed.
Lemma nodeCount_single f : nodeCount [f] = length (nodup node_eq_dec (subnodes (snd f))).
Proof. unfold nodeCount. cbn [flat_map]. now rewrite app_nil_r. Qed.
Lemma xor_bdd_size M n : index_order M -> nodeCount [xor_bdd M n] = n + 1.
Proof. intro I. rewrite nodeCount_single, (xor_bdd_node M n I). cbn [snd]. rewrite parity_subnodes. lia. Qed.

(** ** a lower bound for the number of nodes: one for every subfunction up to complement *)
Fixpoint walk (n : node) (c : bool) (j : nat) (a : asg) : bdd :=
  match n with
  | One => (c, One)
  | Nd v t d e => if v <? j then (if a v then walk t c j a else walk e (xorb c d) j a) else (c, n)
  end.
Definition glue (j : nat) (a b : asg) : asg := fun i => if i <? j then a i else b i.
Lemma walk_in j a : forall n c, In (snd (walk n c j a)) (subnodes n).
Proof.
  induction n as [|v t IHt d e IHe]; intro c; cbn [walk]; [now left|]. destruct (v <? j); [|now left].
  cbn [subnodes]. right. apply in_or_app. destruct (a v); auto.
Qed.
Lemma walk_ev M j a b : index_order M -> forall n c k, okn M k n -> ev (walk n c j a) b = ev (c, n) (glue j a b).
Proof.
  intro I. induction n as [|v t IHt d e IHe]; intros c k H; [reflexivity|]. cbn [walk]. destruct (v <? j) eqn:E.
  - destruct H as (_ & Ht & He & _). unfold ev. cbn [fst snd evn]. unfold glue at 1. rewrite E. destruct (a v).
    + rewrite <- (IHt c _ Ht) at 1. reflexivity.
    + specialize (IHe (xorb c d) _ He). unfold ev in IHe. cbn [fst snd] in IHe. rewrite IHe. now rewrite xorb_assoc.
  - apply Nat.ltb_ge in E. apply ev_ext_vars. cbn [snd]. intros i Hi. unfold glue.
    assert (H' : okn M v (Nd v t d e)) by (cbn [okn] in *; rewrite I in *; intuition).
    pose proof (okn_vars M v _ i H' Hi) as L. rewrite I in L. assert (i <? j = false) as -> by (apply Nat.ltb_ge; lia). reflexivity.
Qed.
Lemma walk_same M j a j' a' r : index_order M -> wf M r -> snd (walk (snd r) (fst r) j a) = snd (walk (snd r) (fst r) j' a') ->
  exists d, forall b, ev r (glue j a b) = xorb d (ev r (glue j' a' b)).
Proof.
  intros I W E. exists (xorb (fst (walk (snd r) (fst r) j a)) (fst (walk (snd r) (fst r) j' a'))). intro b.
  pose proof (walk_ev M j a b I (snd r) (fst r) 0 W) as V. pose proof (walk_ev M j' a' b I (snd r) (fst r) 0 W) as V'.
  replace (fst r, snd r) with r in V, V' by now destruct r. rewrite <- V, <- V'. unfold ev. rewrite E.
  destruct (fst (walk (snd r) (fst r) j a)), (fst (walk (snd r) (fst r) j' a')), (evn _ b); reflexivity.
Qed.

Lemma NoDup_map_inj {A B} (f : A -> B) (l : list A) : (forall x y, In x l -> In y l -> f x = f y -> x = y) -> NoDup l -> NoDup (map f l).
Proof.
  intros H N. induction N as [|x l Hx N IH]; cbn [map]; constructor.
  - intro G. apply in_map_iff in G. destruct G as (y & E & Hy). apply Hx. rewrite (H x y); [exact Hy|now left|now right|now symmetry].
  - apply IH. intros y z Hy Hz. apply H; now right.
Qed.

(** ** parity with one child of every node at level [n - 2] made constant *)
Section Cut.
Variables (M : mgr) (n k : nat) (s b0 c0 : bool) (r : bdd).
Hypothesis I : index_order M.
Hypothesis W : wf M r.
Hypothesis Hn : n = k + 2.
Hypothesis V : forall x, ev r x = if Bool.eqb (x k) s then b0 else xorb c0 (parity_of n x).
Definition prefix (c : bool) : asg := fun i => if i =? k then negb s else c && (i =? 0).
Definition index : list (nat * bool) := (0, false) :: list_prod (seq 1 k) [false; true] ++ [(S k, false)].
Definition node_at (p : nat * bool) : node := snd (walk (snd r) (fst r) (fst p) (prefix (snd p))).
Lemma index_in j c : In (j, c) index -> (j = 0 /\ c = false) \/ (1 <= j <= k) \/ (j = S k /\ c = false).
Proof.
  intros [[= <- <-]|H]; [auto|]. apply in_app_or in H. destruct H as [H|[[= <- <-]|[]]]; [|auto].
  apply in_prod_iff in H. rewrite in_seq in H. right. left. lia.
Qed.
Lemma parity_flip x v : v < n -> parity_of n (upd x v (negb (x v))) = negb (parity_of n x).
Proof.
  intro H. rewrite parity_upd by auto. rewrite <- (parity_ext n (upd x v (x v)) x).
  - rewrite (parity_upd n x v (x v)) by auto. destruct (x v), (parity_of n (upd x v false)); reflexivity.
  - intros i _. unfold upd. destruct (i =? v) eqn:E; auto. apply Nat.eqb_eq in E. now subst.
Qed.
Lemma glue_upd j a b v w i : j <= v -> glue j a (upd b v w) i = upd (glue j a b) v w i.
Proof.
  intro H. unfold glue, upd. destruct (Nat.ltb_spec i j), (Nat.eqb_spec i v); auto. lia.
Qed.
Lemma glue_low j a b v w i : v < j -> glue j a (upd b v w) i = glue j a b i.
Proof. intro H. unfold glue, upd. destruct (Nat.ltb_spec i j), (Nat.eqb_spec i v); auto. lia. Qed.
Lemma V_ext x y : (forall i, x i = y i) -> ev r x = ev r y.
Proof. intro H. rewrite !V, H. now rewrite (parity_ext n x y) by auto. Qed.
(** a function of a higher level depends on a variable that one of a lower level does not *)
Lemma level_differs j c j' c' : In (j, c) index -> In (j', c') index -> j < j' -> node_at (j, c) = node_at (j', c') -> False.
Proof.
  intros H H' L E. apply index_in in H, H'. destruct (walk_same M j (prefix c) j' (prefix c') r I W E) as [d D].
  assert (K : forall b v, ev r (upd (glue j (prefix c) b) j v) = ev r (glue j (prefix c) b)).
  { intros b v. rewrite <- (V_ext (glue j (prefix c) (upd b j v))) by (intro i; now apply glue_upd).
    rewrite !D. f_equal. apply V_ext. intro i. now apply glue_low. }
  destruct (Nat.eq_dec j k) as [->|Dk].
  - (* level k: one child is constant, the other one is not *)
    set (g := glue k (prefix c) (upd (upd (fun _ => false) k (negb s)) (S k) false)).
    assert (Gk : g k = negb s) by (unfold g, glue, upd; rewrite Nat.ltb_irrefl, Nat.eqb_refl; assert (k =? S k = false) as -> by (apply Nat.eqb_neq; lia); reflexivity).
    set (g' := glue k (prefix c) (upd (upd (fun _ => false) k (negb s)) (S k) true)).
    assert (Gk' : g' k = negb s) by (unfold g', glue, upd; rewrite Nat.ltb_irrefl, Nat.eqb_refl; assert (k =? S k = false) as -> by (apply Nat.eqb_neq; lia); reflexivity).
    assert (P : parity_of n g' = negb (parity_of n g)).
    { rewrite <- (parity_flip g (S k)) by lia. apply parity_ext. intros i _. unfold g, g', glue, upd.
      destruct (Nat.ltb_spec i k), (Nat.eqb_spec i (S k)); try lia; auto.
      assert (S k <? k = false) as -> by (apply Nat.ltb_ge; lia). rewrite Nat.eqb_refl. reflexivity. }
    pose proof (K (upd (upd (fun _ => false) k (negb s)) (S k) false) s) as K1. pose proof (K (upd (upd (fun _ => false) k (negb s)) (S k) true) s) as K2.
    fold g in K1. fold g' in K2. rewrite !V in K1, K2. rewrite Gk in K1. rewrite Gk', P in K2.
    unfold upd in K1 at 1. unfold upd in K2 at 1. rewrite Nat.eqb_refl in K1, K2.
    destruct s, b0, c0, (parity_of n g); cbn in K1, K2; congruence.
  - set (g := glue j (prefix c) (upd (fun _ => false) k (negb s))).
    assert (Gk : g k = negb s) by (unfold g, glue, upd; assert (k <? j = false) as -> by (apply Nat.ltb_ge; lia); now rewrite Nat.eqb_refl).
    pose proof (K (upd (fun _ => false) k (negb s)) (negb (g j))) as K1. fold g in K1. rewrite !V in K1. rewrite Gk in K1.
    rewrite parity_flip in K1 by lia. unfold upd in K1 at 1. assert (k =? j = false) as Ekj by (apply Nat.eqb_neq; lia). rewrite Ekj, Gk in K1.
    destruct s, c0, (parity_of n g); cbn in K1; congruence.
Qed.
Lemma node_at_inj p q : In p index -> In q index -> node_at p = node_at q -> p = q.
Proof.
  destruct p as [j c], q as [j' c']. intros H H' E. destruct (Nat.lt_trichotomy j j') as [L|[L|L]].
  - exfalso. apply (level_differs j c j' c'); auto.
  - subst j'. pose proof (index_in _ _ H) as G. pose proof (index_in _ _ H') as G'.
    destruct (Bool.bool_dec c c') as [->|D]; auto. exfalso. assert (Hj : 1 <= j <= k) by (destruct G as [[G1 G2]|[G|[G1 G2]]], G' as [[G3 G4]|[G'|[G3 G4]]]; try lia; exfalso; apply D; congruence).
    destruct (walk_same M j (prefix c) j (prefix c') r I W E) as [d Dd].
    pose proof (Dd (upd (fun _ => false) k s)) as D1. pose proof (Dd (upd (fun _ => false) k (negb s))) as D2. rewrite !V in D1, D2.
    assert (GK : forall c v, glue j (prefix c) (upd (fun _ => false) k v) k = v) by (intros; unfold glue, upd; assert (k <? j = false) as -> by (apply Nat.ltb_ge; lia); now rewrite Nat.eqb_refl).
    rewrite !GK in D1, D2. assert (Ec : c' = negb c) by (destruct c, c'; auto; exfalso; auto). subst c'.
    assert (P : parity_of n (glue j (prefix (negb c)) (upd (fun _ => false) k (negb s))) = negb (parity_of n (glue j (prefix c) (upd (fun _ => false) k (negb s))))).
    { rewrite <- (parity_flip (glue j (prefix c) (upd (fun _ => false) k (negb s))) 0) by lia. apply parity_ext. intros i _. unfold glue, upd, prefix.
      assert (0 <? j = true) as -> by (apply Nat.ltb_lt; lia). assert (0 =? k = false) as -> by (apply Nat.eqb_neq; lia).
      destruct (Nat.eqb_spec i 0) as [->|].
      - assert (0 <? j = true) as -> by (apply Nat.ltb_lt; lia). assert (0 =? k = false) as -> by (apply Nat.eqb_neq; lia). now destruct c.
      - destruct (i <? j); auto. destruct (i =? k); auto. now rewrite !andb_false_r. }
    rewrite P in D2. destruct s, b0, c0, d, (parity_of n (glue j (prefix c) _)); cbn in D1, D2; congruence.
  - exfalso. apply (level_differs j' c' j c); auto.
Qed.
Lemma index_nodup : NoDup index.
Proof.
  unfold index. constructor.
  - intro H. apply in_app_or in H. destruct H as [H|[[=]|[]]]. apply in_prod_iff in H. rewrite in_seq in H. lia.
  - assert (P : NoDup (list_prod (seq 1 k) [false; true])).
    { generalize (seq_NoDup k 1). generalize (seq 1 k). induction l as [|x l IH]; intro Hl; cbn [list_prod map]; [constructor|]. inversion_clear Hl as [|? ? Hx Hl'].
      cbn [app]. constructor; [|constructor; auto].
      - intros [[=]|H]. apply in_prod_iff in H. tauto.
      - intro H. apply in_prod_iff in H. tauto. }
    apply (Permutation.Permutation_NoDup (Permutation.Permutation_cons_append _ _)). constructor; auto.
    intro H. apply in_prod_iff in H. rewrite in_seq in H. lia.
Qed.
Lemma cut_size : 2 * n - 1 <= nodeCount [r].
Proof.
  rewrite nodeCount_single. set (l := One :: map node_at index).
  assert (Ll : length l = 2 * n - 1).
  { unfold l, index. cbn [length map]. rewrite map_length, app_length, prod_length, seq_length. cbn [length]. lia. }
  rewrite <- Ll. apply NoDup_incl_length.
  - constructor.
    + intro H. apply in_map_iff in H. destruct H as ([j c] & E & H). apply index_in in H.
      (* no subfunction is constant *)
      set (f := walk (snd r) (fst r) j (prefix c)). assert (F : forall b, ev r (glue j (prefix c) b) = xorb (fst f) true).
      { intro b. pose proof (walk_ev M j (prefix c) b I (snd r) (fst r) 0 W) as X. replace (fst r, snd r) with r in X by now destruct r. rewrite <- X.
        unfold ev. fold f. unfold node_at in E. cbn [fst snd] in E. fold f in E. rewrite E. reflexivity. }
      set (b := upd (fun _ : nat => false) k (negb s)).
      assert (P : glue j (prefix c) b k = negb s) by (unfold glue, b, upd, prefix; rewrite !Nat.eqb_refl; destruct (k <? j); reflexivity).
      assert (L : j <= S k) by lia.
      pose proof (F b) as F1. pose proof (F (upd b (S k) true)) as F2. rewrite (V_ext _ (upd (glue j (prefix c) b) (S k) true)) in F2 by (intro i; now apply glue_upd).
      rewrite V, P in F1. rewrite V in F2. unfold upd in F2 at 1. assert (k =? S k = false) as Ek by (apply Nat.eqb_neq; lia). rewrite Ek, P in F2.
      assert (X : glue j (prefix c) b (S k) = false) by (unfold glue, b, upd; assert (S k <? j = false) as -> by (apply Nat.ltb_ge; lia); assert (S k =? k = false) as -> by (apply Nat.eqb_neq; lia); reflexivity).
      pose proof (parity_flip (glue j (prefix c) b) (S k) ltac:(lia)) as Q. rewrite X in Q. cbn [negb] in Q. rewrite Q in F2.
      destruct s, c0, (fst f), (parity_of n (glue j (prefix c) b)); cbn in F1, F2; congruence.
    + apply NoDup_map_inj; [exact node_at_inj|exact index_nodup].
  - intros m H. apply nodup_In. destruct H as [<-|H].
    + clear. induction (snd r) as [|v t IHt d e IHe]; [now left|]. cbn [subnodes]. right. apply in_or_app. auto.
    + apply in_map_iff in H. destruct H as ([j c] & <- & _). apply walk_in.
Qed.
End Cut.

(** ** the operators on parity *)
Definition cuts (k : nat) (s b0 : bool) (N : nat -> bdd -> bdd -> (asg -> bool) -> (asg -> bool) -> (asg -> bool) -> Prop) : Prop :=
  forall c ht he h, N k (c, parity_node (S k) 1) (negb c, parity_node (S k) 1) ht he h ->
    forall a, h a = if Bool.eqb (a k) s then b0 else if a k then ht a else he a.
Lemma range_parity k s b0 N : cuts k s b0 N -> forall i j c h, j + i = k -> at_range k k N (c, parity_node j (i + 2)) h ->
  forall a, h a = if Bool.eqb (a k) s then b0 else ev (c, parity_node j (i + 2)) a.
Proof.
  intro C. induction i as [|i IH]; intros j c h E H a.
  - assert (j = k) as -> by lia. cbn [Nat.add] in *. cbn [parity_node] in H. inversion H as [|? ? ? ? ? ? ? ? L|? ? ? ? ? ht he ? L Ht He HN|? ? ? ? ? ? L L']; subst; try lia.
    rewrite xorb_true_r in *. rewrite (C c ht he h HN a). destruct (Bool.eqb (a k) s); auto.
    inversion Ht as [| | |? ? ? ? ? ? ? ? Ht']; subst; try lia. inversion He as [| | |? ? ? ? ? ? ? ? He']; subst; try lia.
    rewrite Ht', He'. unfold ev. cbn [fst snd parity_node evn]. destruct (a k); auto. now destruct c, (a (S k)).
  - cbn [Nat.add parity_node] in H |- *. inversion H as [|? ? ? ? ? ht he ? L Ht He Hh|? ? ? ? ? ht he ? L Ht He HN|? ? ? ? ? ? L L']; subst; try lia.
    rewrite xorb_true_r in *. rewrite Hh. rewrite (IH (S j) c ht ltac:(lia) Ht a), (IH (S j) (negb c) he ltac:(lia) He a).
    unfold ev. cbn [fst snd evn]. destruct (Bool.eqb _ _), (a j); auto. rewrite <- xorb_assoc. now rewrite xorb_true_r.
Qed.
Lemma leaf_density M T k c : index_order M -> S k < T -> (density T (c, parity_node (S k) 1) == 1 # 2)%Q.
Proof.
  intros I H. unfold density. rewrite <- (frac_average M).
  - destruct c; reflexivity.
  - unfold wf. cbn [snd]. apply parity_ok; auto. lia.
  - apply vars_depends_below. cbn [snd]. intros i Hi. apply parity_vars in Hi. lia.
Qed.
Lemma light_cuts M T k b0 : index_order M -> S k < T -> cuts k true b0 (light_const (density T) b0).
Proof.
  intros I H c ht he h [[_ E]|[L _]] a.
  - rewrite E. now destruct (a k).
  - rewrite !(leaf_density M T k) in L by auto. lra.
Qed.
Lemma heavy_cuts M T k b0 : index_order M -> S k < T -> cuts k false b0 (heavy_const (density T) b0).
Proof.
  intros I H c ht he h [[L _]|[_ E]] a.
  - rewrite !(leaf_density M T k) in L by auto. lra.
  - rewrite E. now destruct (a k).
Qed.
Lemma cut_of_range M k s b0 N c r : index_order M -> wf M r -> cuts k s b0 N -> at_range k k N (c, parity_node 0 (k + 2)) (ev r) ->
  2 * (k + 2) - 1 <= nodeCount [r].
Proof.
  intros I W C H. apply (cut_size M (k + 2) k s b0 (xorb c (negb (Nat.odd (k + 2)))) r I W eq_refl).
  intro x. rewrite (range_parity k s b0 N C k 0 c (ev r) eq_refl H x). unfold ev. cbn [fst snd]. rewrite parity_evn, xors_parity.
  now rewrite xorb_assoc.
Qed.
Lemma parity_last m : forall j, In (j + m) (varsn (parity_node j (S m))).
Proof.
  induction m as [|m IH]; intro j; [rewrite Nat.add_0_r; now left|]. change (parity_node j (S (S m))) with (Nd j (parity_node (S j) (S m)) true (parity_node (S j) (S m))).
  cbn [varsn]. right. apply in_or_app. left. replace (j + S m) with (S j + m) by lia. apply IH.
Qed.
Lemma parity_levels n c : 1 <= n -> levels_of [(c, parity_node 0 n)] n.
Proof.
  intro H. split; [discriminate|]. intros _. split; [exact H|]. split.
  - intros i (b & [<-|[]] & Hi). cbn [snd] in Hi. apply parity_vars in Hi. lia.
  - intros _. eexists. split; [now left|]. cbn [snd]. destruct n as [|m]; [lia|]. replace (S m - 1) with (0 + m) by lia. apply parity_last.
Qed.
Lemma parity_edges m : forall j c c' v t d e, In (c', Nd v t d e) (edges (parity_node j m) c) -> t = e.
Proof.
  induction m as [|m IH]; intros j c c' v t d e H; cbn [parity_node edges] in H.
  - destruct H as [[=]|[]].
  - destruct H as [H|H]; [now injection H as <- <- <- <- <-|]. apply in_app_or in H. destruct H as [H|H]; now apply IH in H.
Qed.
Lemma parity_growth M n op : index_order M -> 2 <= n -> In op (firstn 6 (the_operators M (n - 2) (n - 2))) ->
  exists r, op (xor_bdd M n) = Ok r /\ 2 * n - 1 <= nodeCount [r].
Proof.
  intros I Hn Hop. set (k := n - 2) in *. assert (En : n = k + 2) by lia. rewrite (xor_bdd_node M n I). set (c := negb (Nat.odd n)).
  set (f := (c, parity_node 0 n)). assert (W : wf M f) by now apply parity_ok.
  assert (B : depends_below n f) by (apply vars_depends_below; cbn [snd]; intros i Hi; apply parity_vars in Hi; lia).
  pose proof (parity_levels n c ltac:(lia)) as HL.
  destruct (child_choice M n f k k W B) as ((r1 & E1 & R1) & (r2 & E2 & R2) & (r3 & E3 & R3) & (r4 & E4 & R4)).
  destruct (down_up_same_levels M f k k n I W HL) as ((r5 & E5 & R5) & (r6 & E6 & R6)).
  { intros c' v t d e H _. unfold start_level. cbn [snd]. unfold reachable, f in H. cbn [fst snd] in H. now rewrite (parity_edges _ _ _ _ _ _ _ _ H). }
  destruct (subset_ops M f k k W) as ((q1 & F1 & W1 & _) & (q2 & F2 & W2 & _) & (q5 & F5 & W5 & _)).
  destruct (superset_ops M f k k W) as ((q3 & F3 & W3 & _) & (q4 & F4 & W4 & _) & (q6 & F6 & W6 & _)).
  rewrite E1 in F1. rewrite E2 in F2. rewrite E3 in F3. rewrite E4 in F4. rewrite E5 in F5. rewrite E6 in F6.
  injection F1 as <-. injection F2 as <-. injection F3 as <-. injection F4 as <-. injection F5 as <-. injection F6 as <-.
  unfold f in R1, R2, R3, R4, R5, R6.
  assert (EN : parity_node 0 n = parity_node 0 (k + 2)) by now rewrite <- En. rewrite EN in R1, R2, R3, R4, R5, R6.
  assert (Hk : S k < n) by lia. rewrite En.
  cbn [the_operators firstn] in Hop. destruct Hop as [<-|[<-|[<-|[<-|[<-|[<-|[]]]]]]].
  - exists r1. split; auto. exact (cut_of_range M k _ _ _ c r1 I W1 (light_cuts M n k false I Hk) R1).
  - exists r2. split; auto. exact (cut_of_range M k _ _ _ c r2 I W2 (heavy_cuts M n k false I Hk) R2).
  - exists r3. split; auto. exact (cut_of_range M k _ _ _ c r3 I W3 (light_cuts M n k true I Hk) R3).
  - exists r4. split; auto. exact (cut_of_range M k _ _ _ c r4 I W4 (heavy_cuts M n k true I Hk) R4).
  - exists r5. split; auto. exact (cut_of_range M k _ _ _ c r5 I W5 (light_cuts M n k false I Hk) R5).
  - exists r6. split; auto. exact (cut_of_range M k _ _ _ c r6 I W6 (light_cuts M n k true I Hk) R6).
Qed.
Lemma no_smaller_factor q i : (q < 2)%Q -> i < 6 -> exists (M : mgr) (f : bdd) (l : nat) (op : bdd -> res bdd) (r : bdd),
  nth_error (the_operators M l l) i = Some op /\ index_order M /\ wf M f /\ op f = Ok r
  /\ (q * inject_Z (Z.of_nat (nodeCount [f])) < inject_Z (Z.of_nat (nodeCount [r])))%Q.
Proof.
  intros Hq Hi. destruct (Qarchimedean (3 / (2 - q))) as [p Hp]. set (n := Pos.to_nat p + 2). set (M := id_mgr n).
  assert (I : index_order M) by (intro; reflexivity).
  destruct (nth_error (the_operators M (n - 2) (n - 2)) i) as [op|] eqn:E; [|apply nth_error_None in E; cbn in E; lia].
  destruct (parity_growth M n op I ltac:(lia)) as (r & Er & Hr).
  { apply (nth_error_In _ i). rewrite <- E. clear -Hi. do 6 (destruct i as [|i]; [reflexivity|]). lia. }
  exists M, (xor_bdd M n), (n - 2), op, r. repeat split; auto; [apply gates_wf|].
  rewrite (xor_bdd_size M n I). apply Qlt_le_trans with (inject_Z (2 * Z.of_nat n - 1)); [|rewrite <- Zle_Qle; lia].
  assert (P3 : (3 < inject_Z (Zpos p) * (2 - q))%Q).
  { assert (H2 : (0 < 2 - q)%Q) by lra. apply (Qmult_lt_compat_r _ _ _ H2) in Hp. unfold Qdiv in Hp. rewrite <- Qmult_assoc, (Qmult_comm (/ _)), Qmult_inv_r, Qmult_1_r in Hp by lra. exact Hp. }
  assert (En : (inject_Z (Z.of_nat n) == inject_Z (Zpos p) + 2)%Q).
  { unfold n. rewrite Nat2Z.inj_add, positive_nat_Z. rewrite inject_Z_plus. reflexivity. }
  replace (2 * Z.of_nat n - 1)%Z with (Z.of_nat n + Z.of_nat n + -1)%Z by lia. rewrite Nat2Z.inj_add, !inject_Z_plus, En. change (inject_Z (Z.of_nat 1)) with 1%Q. change (inject_Z (-1)) with (-1)%Q.
  nra.
Qed.

(** ** and, or *)
Fixpoint and_node (j m : nat) : node := match m with O => One | S m' => Nd j (and_node (S j) m') true One end.
Lemma and_ok M : index_order M -> forall m j k, k <= j -> okn M k (and_node j m).
Proof. intro I. induction m as [|m IH]; intros j k H; cbn [and_node okn]; auto. rewrite I. repeat split; auto. intros [D _]. discriminate. Qed.
Lemma and_evn m : forall j a, evn (and_node j m) a = forallb a (seq j m).
Proof. induction m as [|m IH]; intros j a; [reflexivity|]. cbn [and_node evn seq forallb]. rewrite IH. now destruct (a j). Qed.
Lemma and_subnodes m : forall j, length (nodup node_eq_dec (subnodes (and_node j m))) = S m.
Proof.
  induction m as [|m IH]; intro j; [reflexivity|]. cbn [and_node subnodes]. cbn [nodup].
  assert (O : In One (subnodes (and_node (S j) m))) by (clear; generalize (S j); induction m as [|m IH]; intro i; [now left|]; cbn [and_node subnodes]; right; apply in_or_app; left; apply IH).
  destruct (in_dec node_eq_dec _ _) as [H|H].
  - exfalso. apply in_app_or in H. destruct H as [H|[[=]|[]]]. apply subnodes_depth in H. cbn [depth] in H. lia.
  - cbn [length]. f_equal. rewrite <- (IH (S j)). apply Nat.le_antisymm; apply NoDup_incl_length; try apply NoDup_nodup; intros x Hx; apply nodup_In in Hx; apply nodup_In.
    + apply in_app_or in Hx. destruct Hx as [Hx|[<-|[]]]; auto.
    + apply in_or_app. auto.
Qed.
Lemma and_bdd_size M n : index_order M -> nodeCount [and_bdd M n] = n + 1.
Proof.
  intro I. assert (E : and_bdd M n = (false, and_node 0 n)).
  { apply (canonical M); [apply gates_wf|now apply and_ok|]. intro a. unfold ev at 2. cbn [fst snd]. rewrite and_evn, xorb_false_l.
    apply eq_true_iff_eq. rewrite gate_and, forallb_forall. split; intros H i Hi; apply H; [apply in_seq in Hi|apply in_seq]; lia. }
  rewrite nodeCount_single, E. cbn [snd]. rewrite and_subnodes. lia.
Qed.
Fixpoint or_edge (j m : nat) : bdd := match m with O => (true, One) | S m' => (false, Nd j One (fst (or_edge (S j) m')) (snd (or_edge (S j) m'))) end.
Lemma or_ok M : index_order M -> forall m j k, k <= j -> okn M k (snd (or_edge j m)).
Proof.
  intro I. induction m as [|m IH]; intros j k H; cbn [or_edge okn snd]; auto. rewrite I. repeat split; auto.
  intros [D E]. destruct m as [|m]; cbn [or_edge fst snd] in D, E; discriminate.
Qed.
Lemma or_ev m : forall j a, ev (or_edge j m) a = existsb a (seq j m).
Proof.
  induction m as [|m IH]; intros j a; [reflexivity|]. specialize (IH (S j) a). unfold ev in *. cbn [or_edge evn seq existsb fst snd]. rewrite <- IH. destruct (a j); cbn [orb]; now rewrite ?xorb_false_l.
Qed.
Lemma or_subnodes m : forall j, length (nodup node_eq_dec (subnodes (snd (or_edge j m)))) = S m.
Proof.
  induction m as [|m IH]; intro j; [reflexivity|]. cbn [or_edge subnodes snd]. cbn [nodup].
  assert (O : In One (subnodes (snd (or_edge (S j) m)))) by (clear; generalize (S j); induction m as [|m IH]; intro i; [now left|]; cbn [or_edge subnodes snd]; right; apply in_or_app; right; apply IH).
  destruct (in_dec node_eq_dec _ _) as [H|H].
  - exfalso. apply in_app_or in H. destruct H as [[[=]|[]]|H]. apply subnodes_depth in H. cbn [depth] in H. lia.
  - cbn [length]. f_equal. rewrite <- (IH (S j)). apply Nat.le_antisymm; apply NoDup_incl_length; try apply NoDup_nodup; intros x Hx; apply nodup_In in Hx; apply nodup_In.
    + apply in_app_or in Hx. destruct Hx as [[<-|[]]|Hx]; auto.
    + apply in_or_app. auto.
Qed.
Lemma or_bdd_size M n : index_order M -> nodeCount [or_bdd M n] = n + 1.
Proof.
  intro I. assert (E : or_bdd M n = or_edge 0 n).
  { apply (canonical M); [apply gates_wf|now apply or_ok|]. intro a. rewrite or_ev.
    apply eq_true_iff_eq. rewrite gate_or, existsb_exists. split; intros (i & Hi & H); exists i; split; auto; [apply in_seq|apply in_seq in Hi]; lia. }
  rewrite nodeCount_single, E. rewrite or_subnodes. lia.
Qed.
Lemma gate_sizes M n : index_order M -> nodeCount [and_bdd M n] = n + 1 /\ nodeCount [or_bdd M n] = n + 1 /\ nodeCount [xor_bdd M n] = n + 1.
Proof. intro I. auto using and_bdd_size, or_bdd_size, xor_bdd_size. Qed.
