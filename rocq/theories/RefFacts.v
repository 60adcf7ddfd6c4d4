(** The reference counts of the operators *)
From Coq Require Import List Bool Arith ZArith QArith Lia Lqa Permutation.
From Verif Require Import Res Cudd CuddFacts Spec SpecFacts Helpers HelpersFacts Counting AddFacts CountFacts MetricsFacts MetricsFacts4 Operators OperatorFacts RefCount SpecRefs.
Import ListNotations.
Open Scope nat_scope.

Definition perm (n : node) : Prop := n = One \/ exists v, n = snd (bvar v).
Definition under (R : list node) (n : node) : Prop := exists r, In r R /\ In n (subnodes r).
Definition kept (h : heap) (n : node) : Prop := perm n \/ under (refs h) n.

Lemma sub_refl n : In n (subnodes n). Proof. destruct n; left; reflexivity. Qed.
Lemma sub_then v t d e : In t (subnodes (Nd v t d e)). Proof. cbn. right. apply in_or_app. left. apply sub_refl. Qed.
Lemma sub_else v t d e : In e (subnodes (Nd v t d e)). Proof. cbn. right. apply in_or_app. right. apply sub_refl. Qed.
Lemma sub_trans n : forall m k, In m (subnodes n) -> In k (subnodes m) -> In k (subnodes n).
Proof.
  induction n as [|v t IHt d e IHe]; intros m k; cbn [subnodes].
  - intros [<-|[]]. auto.
  - intros [<-|H] Hk; auto. right. apply in_or_app. apply in_app_or in H. destruct H; eauto.
Qed.
Lemma existsb_node n l : existsb (node_eqb n) l = true <-> In n l.
Proof.
  rewrite existsb_exists. split.
  - intros (x & Hx & E). apply node_eqb_spec in E. now subst.
  - intro H. exists n. split; auto. now apply node_eqb_spec.
Qed.
Lemma alive_intro h n : perm n \/ under (refs h ++ fresh h) n -> alive h n = true.
Proof.
  intros [[->|(v & ->)]|(r & Hr & Hs)]; [reflexivity|reflexivity|].
  assert (E : existsb (fun m => existsb (node_eqb n) (subnodes m)) (refs h ++ fresh h) = true).
  { apply existsb_exists. exists r. split; auto. now apply existsb_node. }
  unfold alive. destruct n as [|v [|] [|] [|]]; auto.
Qed.
Lemma kept_alive h n : kept h n -> alive h n = true.
Proof. intros [H|(r & Hr & Hs)]; apply alive_intro; [auto|]. right. exists r. split; auto. apply in_or_app. auto. Qed.
Lemma under_incl R R' n : incl R R' -> under R n -> under R' n.
Proof. intros H (r & Hr & Hs). exists r. auto. Qed.
Lemma kept_incl h h' n : incl (refs h) (refs h') -> kept h n -> kept h' n.
Proof. intros H [K|K]; [now left|right]. eapply under_incl; eauto. Qed.
Lemma kept_in h n : In n (refs h) -> kept h n.
Proof. intro H. right. exists n. split; auto. apply sub_refl. Qed.

Lemma remove_one_in n l : In n l -> exists l', remove_one n l = Some l' /\ Permutation l (n :: l').
Proof.
  induction l as [|m l IH]; [intros []|]. intro H. cbn [remove_one]. destruct (node_eqb n m) eqn:E.
  - apply node_eqb_spec in E. subst. eauto.
  - destruct H as [->|H]; [rewrite (proj2 (node_eqb_spec n n) eq_refl) in E; discriminate|].
    destruct (IH H) as (l' & -> & P). eexists; split; [reflexivity|].
    rewrite P. apply perm_swap.
Qed.
Lemma ref_ok f h : kept h (snd f) -> c_Ref f h = Ok (Heap (snd f :: refs h) (fresh h)).
Proof. intro H. unfold c_Ref. now rewrite kept_alive. Qed.
Lemma deref_ok f h : In (snd f) (refs h) ->
  exists l, c_RecursiveDeref f h = Ok (Heap l (fresh h)) /\ Permutation (refs h) (snd f :: l).
Proof. intro H. unfold c_RecursiveDeref. destruct (remove_one_in _ _ H) as (l & -> & P). eauto. Qed.

Lemma rebuild_ok M v t e h : kept h (snd t) -> kept h (snd e) ->
  exists h', rebuild M v t e h = Ok (ite M (bvar v) t e, h') /\ Permutation (refs h') (snd (ite M (bvar v) t e) :: refs h).
Proof.
  intros Kt Ke. unfold rebuild. rewrite ref_ok by auto. cbn [bind].
  assert (Ke1 : kept (Heap (snd t :: refs h) (fresh h)) (snd e)) by (eapply kept_incl; [|exact Ke]; intros x; cbn; auto).
  rewrite ref_ok by auto. cbn [bind]. cbv zeta. cbn [refs fresh].
  rewrite ref_ok by (left; right; eauto). cbn [bind refs fresh].
  unfold c_bddIte. cbn [refs fresh]. set (R := snd (bvar v) :: snd e :: snd t :: refs h).
  rewrite !kept_alive by (apply kept_in; unfold R; cbn; auto). cbn [andb bind]. set (w := ite M (bvar v) t e).
  assert (Ew : c_Ref w (Heap R [snd w]) = Ok (Heap (snd w :: R) [snd w])).
  { unfold c_Ref. rewrite alive_intro; [reflexivity|]. right. exists (snd w). split; [|apply sub_refl]. cbn [refs fresh]. apply in_or_app. right. now left. }
  rewrite Ew. cbn [bind].
  destruct (deref_ok (bvar v) (Heap (snd w :: R) [snd w])) as (l1 & -> & P1); [right; now left|]. cbn [bind refs fresh] in *.
  assert (Q1 : Permutation l1 (snd w :: snd e :: snd t :: refs h)).
  { apply (Permutation_cons_inv (a := snd (bvar v))). rewrite <- P1. unfold R. apply perm_swap. }
  destruct (deref_ok t (Heap l1 [snd w])) as (l2 & -> & P2).
  { cbn [refs]. eapply Permutation_in; [symmetry; exact Q1|]. cbn. auto. }
  cbn [bind refs fresh] in *.
  assert (Q2 : Permutation l2 (snd w :: snd e :: refs h)).
  { apply (Permutation_cons_inv (a := snd t)). rewrite <- P2, Q1.
    rewrite (perm_swap (snd t) (snd e)). rewrite (perm_swap (snd t) (snd w)). reflexivity. }
  destruct (deref_ok e (Heap l2 [snd w])) as (l3 & -> & P3).
  { cbn [refs]. eapply Permutation_in; [symmetry; exact Q2|]. cbn. auto. }
  cbn [bind refs fresh] in *. eexists. split; [reflexivity|]. cbn [refs].
  apply (Permutation_cons_inv (a := snd e)). rewrite <- P3, Q2. apply perm_swap.
Qed.

Section Inv.
Variable p : node -> bool -> bdd.
Variables first bound : nat.
Variable R0 : list node.

Definition act (k : bdd) : bool := match snd k with One => false | Nd v _ _ _ => v <? bound end.
Definition leaks (m : bmap bdd) : list node := map (fun kv => snd (snd kv)) (filter (fun kv => act (fst kv)) m).
Definition closed (l : list bdd) : Prop := forall c v t d e, In (c, Nd v t d e) l -> v < first ->
  (act (c, t) = true -> In (c, t) l) /\ (act (xorb c d, e) = true -> In (xorb c d, e) l).
Definition inv (m : bmap bdd) (h : heap) : Prop :=
  memo_ok p m /\ NoDup (map fst m) /\ Permutation (refs h) (leaks m ++ R0) /\ closed (map fst m)
  /\ (forall k r, In (k, r) m -> act k = true \/ snd r = One).
(** the outcome of a recursive call on the edge [(c, n)] *)
Definition good (n : node) (c : bool) (m : bmap bdd) (h : heap) (r : res (bdd * bmap bdd * heap)) : Prop :=
  exists m' h', r = Ok (p n c, m', h') /\ inv m' h' /\ incl (map fst m) (map fst m')
  /\ (forall k, In k (map fst m') -> In k (map fst m) \/ In k (edges n c))
  /\ incl (refs h) (refs h') /\ kept h' (snd (p n c)) /\ (act (c, n) = true -> In (c, n) (map fst m')).

Lemma leak_kept m h k r : inv m h -> In (k, r) m -> kept h (snd r).
Proof.
  intros (_ & _ & P & _ & A) H. destruct (A k r H) as [E|E]; [|rewrite E; left; now left].
  apply kept_in. apply Permutation_in with (leaks m ++ R0); [now symmetry|]. apply in_or_app. left.
  unfold leaks. apply in_map_iff. exists (k, r). split; auto. apply filter_In. auto.
Qed.
Lemma inv_start h : refs h = R0 -> inv [] h.
Proof. intro H. unfold inv. split; [apply memo_ok_nil|]. split; [constructor|]. split; [rewrite H; reflexivity|]. split; [intros c v t d e []|intros k r []]. Qed.
Lemma inv_under m h n : inv m h -> under R0 n -> alive h n = true.
Proof.
  intros (_ & _ & P & _ & _) H. apply kept_alive. right. eapply under_incl; [|exact H].
  intros x Hx. apply Permutation_in with (leaks m ++ R0); [now symmetry|]. apply in_or_app. auto.
Qed.
Lemma good_found n c m h r : inv m h -> blookup (c, n) m = Some r -> good n c m h (Ok (r, m, h)).
Proof.
  intros I E. apply blookup_some in E. pose proof (proj1 I _ _ E) as Er. cbn [fst snd] in Er.
  exists m, h. rewrite <- Er. split; [reflexivity|]. split; auto. split; [apply incl_refl|]. split; [auto|]. split; [apply incl_refl|].
  split; [now apply leak_kept with m (c, n)|]. intros _. apply in_map_iff. exists ((c, n), r). auto.
Qed.
Lemma good_same n c m h : inv m h -> under R0 n -> p n c = (c, n) -> act (c, n) = false -> good n c m h (Ok ((c, n), m, h)).
Proof.
  intros I U E A. exists m, h. rewrite E. split; [reflexivity|]. split; auto. split; [apply incl_refl|]. split; [auto|]. split; [apply incl_refl|].
  split; [|congruence]. right. destruct I as (_ & _ & P & _ & _). eapply under_incl; [|exact U].
  intros x Hx. apply Permutation_in with (leaks m ++ R0); [now symmetry|]. apply in_or_app. auto.
Qed.

Lemma inv_add M m h v t d e c t' e' : inv m h -> ~ In (c, Nd v t d e) (map fst m) -> v < bound ->
  p (Nd v t d e) c = ite M (bvar v) t' e' -> kept h (snd t') -> kept h (snd e') ->
  (v < first -> (act (c, t) = true -> In (c, t) (map fst m)) /\ (act (xorb c d, e) = true -> In (xorb c d, e) (map fst m))) ->
  exists h', rebuild M v t' e' h = Ok (p (Nd v t d e) c, h') /\ inv (((c, Nd v t d e), p (Nd v t d e) c) :: m) h'
  /\ incl (refs h) (refs h') /\ kept h' (snd (p (Nd v t d e) c)).
Proof.
  intros (I1 & I2 & I3 & I4 & I5) N B E Kt Ke C. destruct (rebuild_ok M v t' e' h Kt Ke) as (h' & R & P).
  exists h'. rewrite R, <- E. rewrite <- E in P.
  assert (A : act (c, Nd v t d e) = true) by (cbn; now apply Nat.ltb_lt).
  split; [reflexivity|]. split; [|split].
  - unfold inv. split; [now apply memo_ok_add|]. split; [constructor; auto|]. split; [|split].
    + unfold leaks. cbn [filter map fst]. rewrite A. cbn [map snd app]. rewrite P. now constructor.
    + intros c0 v0 t0 d0 e0 [[= -> -> -> -> ->]|H] L.
      * destruct (C L) as [C1 C2]. cbn [map fst]. split; intro H; right; auto.
      * destruct (I4 _ _ _ _ _ H L) as [C1 C2]. cbn [map fst]. split; intro H'; right; auto.
    + intros k r [[= <- <-]|H]; eauto.
  - intros x Hx. eapply Permutation_in; [symmetry; exact P|]. now right.
  - apply kept_in. eapply Permutation_in; [symmetry; exact P|]. now left.
Qed.

Lemma good_children M v t d e c m h : inv m h -> ~ In (c, Nd v t d e) (map fst m) -> v < bound -> 
  p (Nd v t d e) c = ite M (bvar v) (p t c) (p e (xorb c d)) -> forall r1 (r2 : bmap bdd -> heap -> res (bdd * bmap bdd * heap)),
  good t c m h r1 -> (forall m h, inv m h -> good e (xorb c d) m h (r2 m h)) ->
  good (Nd v t d e) c m h ('(then_branch, m1, h) <- r1 ;; '(else_branch, m2, h) <- r2 m1 h ;;
     '(neW, h) <- rebuild M v then_branch else_branch h ;; Ok (neW, ((c, Nd v t d e), neW) :: m2, h)).
Proof.
  intros I N B E r1 r2 (m1 & h1 & -> & I1 & L1 & S1 & R1 & K1 & T1) G2. cbn [bind].
  destruct (G2 m1 h1 I1) as (m2 & h2 & E2 & I2 & L2 & S2 & R2 & K2 & T2). rewrite E2. cbn [bind].
  assert (N2 : ~ In (c, Nd v t d e) (map fst m2)).
  { intro H. destruct (S2 _ H) as [H'|H']; [destruct (S1 _ H') as [H''|H'']; [auto|]|]; eapply (not_in_children c v t d e); eauto. }
  destruct (inv_add M m2 h2 v t d e c (p t c) (p e (xorb c d)) I2 N2 B E) as (h3 & E3 & I3 & R3 & K3); auto.
  { eapply kept_incl; eauto. }
  rewrite E3. cbn [bind]. eexists _, h3. split; [reflexivity|]. split; [exact I3|]. split; [|split; [|split; [|split]]].
  - intros x Hx. right. apply L2, L1, Hx.
  - cbn [map fst]. intros k [<-|Hk]; [right; apply in_edges_refl|].
    destruct (S2 _ Hk) as [H|H]; [destruct (S1 _ H) as [H'|H']; [auto|]|]; right; cbn [edges]; right; apply in_or_app; auto.
  - intros x Hx. apply R3, R2, R1, Hx.
  - exact K3.
  - intros _. now left.
Qed.
Lemma good_child M v t d e c m h n1 c1 t' e' : inv m h -> ~ In (c, Nd v t d e) (map fst m) -> v < bound -> first <= v ->
  (n1 = t /\ c1 = c \/ n1 = e /\ c1 = xorb c d) ->
  p (Nd v t d e) c = ite M (bvar v) (t' (p n1 c1)) (e' (p n1 c1)) ->
  (forall h x, kept h (snd x) -> kept h (snd (t' x)) /\ kept h (snd (e' x))) -> forall r1,
  good n1 c1 m h r1 ->
  good (Nd v t d e) c m h ('(b, m1, h) <- r1 ;; '(neW, h) <- rebuild M v (t' b) (e' b) h ;; Ok (neW, ((c, Nd v t d e), neW) :: m1, h)).
Proof.
  intros I N B F W E K r1 (m1 & h1 & -> & I1 & L1 & S1 & R1 & K1 & T1). cbn [bind].
  assert (S : forall k, In k (edges n1 c1) -> In k (edges t c) \/ In k (edges e (xorb c d))) by (destruct W as [(-> & ->)|(-> & ->)]; auto).
  assert (N2 : ~ In (c, Nd v t d e) (map fst m1)).
  { intro H. destruct (S1 _ H) as [H'|H']; [auto|]. apply (not_in_children c v t d e (map fst m) N). right. now apply S. }
  destruct (K h1 (p n1 c1) K1) as [Kt Ke].
  destruct (inv_add M m1 h1 v t d e c (t' (p n1 c1)) (e' (p n1 c1)) I1 N2 B E Kt Ke) as (h3 & E3 & I3 & R3 & K3); [lia|].
  rewrite E3. cbn [bind]. eexists _, h3. split; [reflexivity|]. split; [exact I3|]. split; [|split; [|split; [|split]]].
  - intros x Hx. right. apply L1, Hx.
  - cbn [map fst]. intros k [<-|Hk]; [right; apply in_edges_refl|].
    destruct (S1 _ Hk) as [H|H]; [auto|]. right; cbn [edges]; right; apply in_or_app; auto.
  - intros x Hx. apply R3, R1, Hx.
  - exact K3.
  - intros _. now left.
Qed.
End Inv.

Definition bound_of (ls le : nat) : nat := Nat.max ls (S le).

Lemma under_then R v t d e : under R (Nd v t d e) -> under R t.
Proof. intros (r & Hr & Hs). exists r. split; auto. eapply sub_trans; [exact Hs|apply sub_then]. Qed.
Lemma under_else R v t d e : under R (Nd v t d e) -> under R e.
Proof. intros (r & Hr & Hs). exists r. split; auto. eapply sub_trans; [exact Hs|apply sub_else]. Qed.
Lemma kept_const h b : kept h (snd (if b : bool then bone else bnot bone)). Proof. left. left. now destruct b. Qed.
Lemma kept_repl h sub : kept h (snd (repl sub)). Proof. left. left. now destruct sub. Qed.

Lemma remove_good M mc ls le rh sub R0 n : forall c m h, complete mc n c -> under R0 n ->
  let p := rc M (wt_of mc) ls le rh sub in inv p ls (bound_of ls le) R0 m h ->
  good p ls (bound_of ls le) R0 n c m h (remove_children_rc M n c ls le mc m rh sub h).
Proof.
  induction n as [|v t IHt d e IHe]; intros c m h HC HU p I; cbn [remove_children_rc]; rewrite (inv_under p ls (bound_of ls le) R0 m h) by auto; cbn [require_ bind].
  { now apply good_same. }
  destruct (blookup (c, Nd v t d e) m) as [r|] eqn:E; [now apply good_found|]. apply blookup_none in E.
  pose proof (complete_then _ _ _ _ _ _ HC) as Ct. pose proof (complete_else _ _ _ _ _ _ HC) as Ce.
  pose proof (under_then _ _ _ _ _ HU) as Ut. pose proof (under_else _ _ _ _ _ HU) as Ue.
  assert (P : p (Nd v t d e) c = (if v <? ls then ite M (bvar v) (p t c) (p e (xorb c d))
      else if v <=? le then
        if Bool.eqb rh (qgtb (wt_of mc (c, t)) (wt_of mc (xorb c d, e)))
        then ite M (bvar v) (repl sub) (p e (xorb c d))
        else ite M (bvar v) (p t c) (repl sub)
      else (c, Nd v t d e))) by reflexivity.
  cbv zeta. fold (repl sub). destruct (v <? ls) eqn:Lv.
  - apply Nat.ltb_lt in Lv. apply (good_children p ls (bound_of ls le) R0 M v t d e c m h I E); [unfold bound_of; lia|exact P| |].
    + now apply IHt.
    + intros m1 h1 I1. now apply IHe.
  - apply Nat.ltb_ge in Lv. destruct (v <=? le) eqn:Le.
    + apply Nat.leb_le in Le. rewrite !at_wt; [|apply Ce, in_edges_refl|apply Ct, in_edges_refl]. cbn [bind]. cbv zeta.
      destruct (Bool.eqb rh _).
      * apply (good_child p ls (bound_of ls le) R0 M v t d e c m h e (xorb c d) (fun _ => repl sub) (fun b => b) I E); [unfold bound_of; lia|exact Lv|now right|exact P| |now apply IHe].
        intros h1 x Hx. split; [apply kept_repl|auto].
      * apply (good_child p ls (bound_of ls le) R0 M v t d e c m h t c (fun b => b) (fun _ => repl sub) I E); [unfold bound_of; lia|exact Lv|now left|exact P| |now apply IHt].
        intros h1 x Hx. split; [auto|apply kept_repl].
    + apply good_same; auto. cbn. apply Nat.ltb_ge. apply Nat.leb_gt in Le. unfold bound_of. lia.
Qed.

Lemma round_good M mc ls R0 n : forall c m h, complete mc n c -> under R0 n ->
  let p := rr M (wt_of mc) ls in inv p ls ls R0 m h ->
  good p ls ls R0 n c m h (round_rc M n c ls mc m h).
Proof.
  induction n as [|v t IHt d e IHe]; intros c m h HC HU p I; cbn [round_rc]; rewrite (inv_under p ls ls R0 m h) by auto; cbn [require_ bind].
  { now apply good_same. }
  destruct (blookup (c, Nd v t d e) m) as [r|] eqn:E; [now apply good_found|]. apply blookup_none in E.
  pose proof (complete_then _ _ _ _ _ _ HC) as Ct. pose proof (complete_else _ _ _ _ _ _ HC) as Ce.
  pose proof (under_then _ _ _ _ _ HU) as Ut. pose proof (under_else _ _ _ _ _ HU) as Ue.
  assert (P : p (Nd v t d e) c = (if v <? ls then ite M (bvar v) (p t c) (p e (xorb c d))
      else if qgtb (wt_of mc (c, Nd v t d e)) (1#2) then bone else bnot bone)) by reflexivity.
  destruct (v <? ls) eqn:Lv.
  - apply Nat.ltb_lt in Lv. apply (good_children p ls ls R0 M v t d e c m h I E); [lia|exact P| |].
    + now apply IHt.
    + intros m1 h1 I1. now apply IHe.
  - destruct (blookup_key (c, Nd v t d e) mc) as [q Eq]; [apply HC, in_edges_refl|]. rewrite Eq. cbv zeta.
    assert (W : wt_of mc (c, Nd v t d e) = q) by (unfold wt_of; now rewrite Eq). rewrite W in P. rewrite <- P.
    destruct I as (I1 & I2 & I3 & I4 & I5).
    assert (A : act ls (c, Nd v t d e) = false) by (cbn; auto).
    assert (O : snd (p (Nd v t d e) c) = One) by (rewrite P; now destruct (qgtb q (1 # 2))).
    eexists _, h. split; [reflexivity|]. split; [|split; [|split; [|split; [|split]]]].
    + unfold inv. split; [now apply memo_ok_add|]. split; [constructor; auto|]. split; [|split].
      * unfold leaks. cbn [filter map fst]. rewrite A. exact I3.
      * apply Nat.ltb_ge in Lv. intros c0 v0 t0 d0 e0 [[= -> -> -> -> ->]|H] L; [lia|].
        destruct (I4 _ _ _ _ _ H L) as [C1 C2]. cbn [map fst]. split; intro H'; right; auto.
      * intros k r [[= <- <-]|H]; eauto.
    + intros x Hx. now right.
    + cbn [map fst]. intros k [<-|Hk]; [right; apply in_edges_refl|auto].
    + apply incl_refl.
    + rewrite O. left. now left.
    + congruence.
Qed.

Lemma best_good M mc ls le R0 n : forall c m h, complete mc n c -> under R0 n ->
  let p := rb M (wt_of mc) ls le in inv p ls (bound_of ls le) R0 m h ->
  good p ls (bound_of ls le) R0 n c m h (round_best_rc M n c ls le mc m h).
Proof.
  induction n as [|v t IHt d e IHe]; intros c m h HC HU p I; cbn [round_best_rc]; rewrite (inv_under p ls (bound_of ls le) R0 m h) by auto; cbn [require_ bind].
  { now apply good_same. }
  destruct (blookup (c, Nd v t d e) m) as [r|] eqn:E; [now apply good_found|]. apply blookup_none in E.
  pose proof (complete_then _ _ _ _ _ _ HC) as Ct. pose proof (complete_else _ _ _ _ _ _ HC) as Ce.
  pose proof (under_then _ _ _ _ _ HU) as Ut. pose proof (under_else _ _ _ _ _ HU) as Ue.
  assert (P : p (Nd v t d e) c = (
      if v <? ls then ite M (bvar v) (p t c) (p e (xorb c d))
      else if v <=? le then
        let tc := wt_of mc (c, t) in let ec := wt_of mc (xorb c d, e) in
        if qgtb ec tc && qgtb (1 - ec) tc then ite M (bvar v) (bnot bone) (p e (xorb c d))
        else if qgtb tc ec && qgtb (1 - tc) ec then ite M (bvar v) (p t c) (bnot bone)
        else if qgtb tc ec && qgtb tc (1 - ec) then ite M (bvar v) bone (p e (xorb c d))
        else if qgtb ec tc && qgtb ec (1 - tc) then ite M (bvar v) (p t c) bone
        else ite M (bvar v) (major tc) (major ec)
      else (c, Nd v t d e))) by reflexivity.
  cbv zeta. cbv zeta in P. destruct (v <? ls) eqn:Lv.
  - apply Nat.ltb_lt in Lv. apply (good_children p ls (bound_of ls le) R0 M v t d e c m h I E); [unfold bound_of; lia|exact P| |].
    + now apply IHt.
    + intros m1 h1 I1. now apply IHe.
  - apply Nat.ltb_ge in Lv. destruct (v <=? le) eqn:Le.
    + apply Nat.leb_le in Le. rewrite !at_wt; [|apply Ce, in_edges_refl|apply Ct, in_edges_refl]. cbn [bind].
      assert (B : v < bound_of ls le) by (unfold bound_of; lia).
      assert (K0 : forall h, kept h (snd (bnot bone))) by (intro; left; now left).
      assert (K1 : forall h, kept h (snd bone)) by (intro; left; now left).
      destruct (qgtb (wt_of mc (xorb c d, e)) (wt_of mc (c, t)) && _).
      { apply (good_child p ls (bound_of ls le) R0 M v t d e c m h e (xorb c d) (fun _ => bnot bone) (fun b => b) I E B Lv); [now right|exact P|auto|now apply IHe]. }
      destruct (qgtb (wt_of mc (c, t)) (wt_of mc (xorb c d, e)) && qgtb (1 - _) _).
      { apply (good_child p ls (bound_of ls le) R0 M v t d e c m h t c (fun b => b) (fun _ => bnot bone) I E B Lv); [now left|exact P|auto|now apply IHt]. }
      destruct (qgtb (wt_of mc (c, t)) (wt_of mc (xorb c d, e)) && _).
      { apply (good_child p ls (bound_of ls le) R0 M v t d e c m h e (xorb c d) (fun _ => bone) (fun b => b) I E B Lv); [now right|exact P|auto|now apply IHe]. }
      destruct (qgtb (wt_of mc (xorb c d, e)) (wt_of mc (c, t)) && _).
      { apply (good_child p ls (bound_of ls le) R0 M v t d e c m h t c (fun b => b) (fun _ => bone) I E B Lv); [now left|exact P|auto|now apply IHt]. }
      destruct (inv_add p ls (bound_of ls le) R0 M m h v t d e c (major (wt_of mc (c, t))) (major (wt_of mc (xorb c d, e))) I E B P
        (kept_const h _) (kept_const h _)) as (h3 & E3 & I3 & R3 & K3); [lia|].
      unfold major in E3. rewrite E3. cbn [bind]. eexists _, h3. split; [reflexivity|]. split; [exact I3|].
      split; [intros x Hx; now right|]. split; [cbn [map fst]; intros k [<-|Hk]; [right; apply in_edges_refl|auto]|].
      split; [exact R3|]. split; [exact K3|]. intros _. now left.
    + apply good_same; auto. cbn. apply Nat.ltb_ge. apply Nat.leb_gt in Le. unfold bound_of. lia.
Qed.
