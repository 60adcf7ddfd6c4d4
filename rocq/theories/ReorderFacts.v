(** The operators if the variables are reordered *)
From Coq Require Import List Bool Arith ZArith QArith Lia Lqa Permutation.
From Verif Require Import Res Cudd CuddFacts Spec SpecFacts Helpers HelpersFacts Counting AddFacts CountFacts MetricsFacts MetricsFacts4 Operators OperatorFacts SpecOperators RefCount SpecRefs RefFacts RefFacts2 OutOfMemory OomFacts OomFacts2 Reordering.
Import ListNotations.
Open Scope nat_scope.

Lemma okn_le M n : forall j k, okn M k n -> j <= k -> okn M j n.
Proof. destruct n; cbn; auto. intros j k (A & B) L. split; [lia|auto]. Qed.
Lemma wf_in_order N n : wf N (in_order N n).
Proof. induction n as [|v t IHt c e IHe]; cbn [in_order]; [apply wf_one|]. apply wf_ite; auto with wf. destruct c; auto with wf. Qed.
Lemma ev_in_order N n a : ev (in_order N n) a = evn n a.
Proof.
  induction n as [|v t IHt c e IHe]; cbn [in_order]; [reflexivity|]. rewrite ev_ite, IHt. cbn [evn].
  assert (V : ev (bvar v) a = a v) by (unfold ev, bvar; cbn; now destruct (a v)). rewrite V.
  destruct (a v); [reflexivity|]. destruct c; [rewrite ev_not, IHe|rewrite IHe]; now destruct (evn e a).
Qed.
Lemma in_order_same M n : okn M 0 n -> in_order M n = (false, n).
Proof.
  intro W. apply (canonical M); [apply wf_in_order|exact W|]. intro a. rewrite ev_in_order. unfold ev. cbn [fst snd]. now destruct (evn n a).
Qed.
Lemma node_in_same M n : okn M 0 n -> node_in M n = n.
Proof. intro W. unfold node_in. now rewrite in_order_same. Qed.

Lemma alive_now_in N h n : In n (refs h ++ fresh h) -> alive_now N h n = true.
Proof.
  intro H.
  assert (E : existsb (fun m => existsb (node_eqb (node_in N n)) (subnodes (node_in N m))) (refs h ++ fresh h) = true).
  { apply existsb_exists. exists n. split; auto. apply existsb_node. apply sub_refl. }
  unfold alive_now. destruct n as [|v [|] [|] [|]]; auto.
Qed.
Lemma alive_now_incl N h h' n : incl (refs h ++ fresh h) (refs h' ++ fresh h') -> alive_now N h n = true -> alive_now N h' n = true.
Proof.
  intros I. unfold alive_now. destruct n as [|v [|] [|] [|]]; auto; intro H; apply existsb_exists in H; destruct H as (x & Hx & E);
    apply existsb_exists; exists x; auto.
Qed.
Section S.
Variable M : mgr.
Definition winv (h : heap) : Prop := forall n, In n (refs h ++ fresh h) -> okn M 0 n.
Lemma alive_now_same h n : winv h -> okn M 0 n -> alive h n = true -> alive_now M h n = true.
Proof.
  intros W O. unfold alive, alive_now. destruct n as [|v [|] [|] [|]]; auto; intro H; apply existsb_exists in H; destruct H as (x & Hx & E);
    apply existsb_exists; exists x; (split; [auto|]); rewrite (node_in_same M x) by auto; rewrite node_in_same by auto; exact E.
Qed.
Lemma ref_inv f h h' : c_Ref f h = Ok h' -> alive h (snd f) = true /\ h' = Heap (snd f :: refs h) (fresh h).
Proof. unfold c_Ref. destruct (alive h (snd f)); [|discriminate]. now intros [= <-]. Qed.
Lemma deref_inv f h h' : c_RecursiveDeref f h = Ok h' -> exists l, h' = Heap l (fresh h) /\ incl l (refs h) /\ Permutation (refs h) (snd f :: l).
Proof.
  unfold c_RecursiveDeref. destruct (remove_one (snd f) (refs h)) as [l|] eqn:E; [|discriminate]. intros [= <-]. exists l. split; auto.
  assert (P : Permutation (refs h) (snd f :: l)).
  { revert l E. induction (refs h) as [|m r IH]; intros l; cbn [remove_one]; [discriminate|]. destruct (node_eqb (snd f) m) eqn:D.
    - intros [= <-]. apply node_eqb_spec in D. now subst.
    - destruct (remove_one (snd f) r) as [l'|]; [|discriminate]. intros [= <-]. rewrite (IH l' eq_refl). apply perm_swap. }
  split; [|exact P]. intros x Hx. eapply Permutation_in; [symmetry; exact P|]. now right.
Qed.

Variable reorder : nat -> mgr.
Lemma rebuild_run v t e h x h' : rebuild M v t e h = Ok (x, h') ->
  alive h (snd t) = true /\ alive (Heap (snd t :: refs h) (fresh h)) (snd e) = true /\ x = ite M (bvar v) t e
  /\ incl (refs h' ++ fresh h') (snd (bvar v) :: snd x :: snd t :: snd e :: refs h) /\ In (snd x) (refs h')
  /\ (forall N k, alive_now N h (snd t) = true -> alive_now N (Heap (snd t :: refs h) (fresh h)) (snd e) = true ->
        rebuild_now M reorder v t e (St h N k) = Ok (x, St h' (reorder k) (S k))).
Proof.
  unfold rebuild. destruct (c_Ref t h) as [h1| | |] eqn:R1; try discriminate. cbn [bind]. apply ref_inv in R1. destruct R1 as [A1 ->].
  destruct (c_Ref e _) as [h2| | |] eqn:R2; try discriminate. cbn [bind]. apply ref_inv in R2. destruct R2 as [A2 ->]. cbn [refs fresh].
  cbv zeta. destruct (c_Ref (bvar v) _) as [h3| | |] eqn:R3; try discriminate. cbn [bind]. apply ref_inv in R3. destruct R3 as [A3 ->]. cbn [refs fresh].
  unfold c_bddIte at 1. cbn [refs fresh]. set (w := ite M (bvar v) t e).
  destruct (_ && _) eqn:A4; try discriminate. cbn [bind]. set (R := snd (bvar v) :: snd e :: snd t :: refs h) in *.
  destruct (c_Ref w _) as [h4| | |] eqn:R4; try discriminate. cbn [bind]. apply ref_inv in R4. destruct R4 as [A5 ->]. cbn [refs fresh].
  destruct (c_RecursiveDeref (bvar v) _) as [h5| | |] eqn:D1; try discriminate. cbn [bind].
  destruct (c_RecursiveDeref t _) as [h6| | |] eqn:D2; try discriminate. cbn [bind].
  destruct (c_RecursiveDeref e _) as [h7| | |] eqn:D3; try discriminate. cbn [bind]. intros [= <- <-].
  pose proof (deref_inv _ _ _ D1) as (l1 & E1 & I1 & P1). pose proof (deref_inv _ _ _ D2) as (l2 & E2 & I2 & P2). pose proof (deref_inv _ _ _ D3) as (l3 & E3 & I3 & P3).
  split; [exact A1|]. split; [exact A2|]. split; [reflexivity|]. split; [|split].
  - rewrite E1 in *. cbn [refs fresh] in *. rewrite E2 in *. cbn [refs fresh] in *. rewrite E3. cbn [refs fresh].
    intros y Hy. apply in_app_or in Hy. destruct Hy as [Hy|[<-|[]]]; [|cbn; auto].
    apply I3, I2, I1 in Hy. unfold R in Hy. cbn in Hy |- *. tauto.
  - rewrite E1 in *. cbn [refs fresh] in *. rewrite E2 in *. cbn [refs fresh] in *. rewrite E3. cbn [refs fresh].
    assert (Q1 : Permutation l1 (snd w :: snd e :: snd t :: refs h)).
    { apply (Permutation_cons_inv (a := snd (bvar v))). rewrite <- P1. unfold R. apply perm_swap. }
    assert (Q2 : Permutation l2 (snd w :: snd e :: refs h)).
    { apply (Permutation_cons_inv (a := snd t)). rewrite <- P2, Q1. rewrite (perm_swap (snd t) (snd e)). rewrite (perm_swap (snd t) (snd w)). reflexivity. }
    assert (Q3 : Permutation l3 (snd w :: refs h)).
    { apply (Permutation_cons_inv (a := snd e)). rewrite <- P3, Q2. apply perm_swap. }
    eapply Permutation_in; [symmetry; exact Q3|]. now left.
  - intros N k B1 B2. unfold rebuild_now. unfold c_Ref_now at 1. cbn [counts now calls]. rewrite B1. cbn [bind].
    unfold c_Ref_now at 1. cbn [counts now calls refs fresh]. rewrite B2. cbn [bind]. cbv zeta.
    unfold c_Ref_now at 1. cbn [counts now calls refs fresh]. change (alive_now N _ (snd (bvar v))) with true. cbn [bind].
    unfold c_bddIte_now. cbn [counts now calls refs fresh]. fold R.
    rewrite !alive_now_in by (unfold R; cbn [refs fresh app]; rewrite ?app_nil_r; cbn [In]; auto). cbn [andb bind]. fold w.
    unfold c_Ref_now at 1. cbn [counts now calls refs fresh]. rewrite alive_now_in by (cbn [refs fresh]; apply in_or_app; right; now left). cbn [bind].
    unfold c_RecursiveDeref_now at 1. cbn [counts now calls]. rewrite D1. cbn [bind].
    unfold c_RecursiveDeref_now at 1. cbn [counts now calls]. rewrite D2. cbn [bind].
    unfold c_RecursiveDeref_now at 1. cbn [counts now calls]. rewrite D3. reflexivity.
Qed.

Variable bound : nat.
Variable hyp : nat -> nat -> Prop.
Hypothesis hyp_mono : forall k q, hyp k (q + 1) -> hyp k q.
Definition after (k q : nat) : mgr := if q =? 0 then M else reorder (k + q - 1).
Definition vals (m : bmap bdd) : Prop := forall k r, In (k, r) m -> wf M r.
Definition outcome_now := res (bdd * bmap bdd * state).
Definition simr (m : bmap bdd) (k : nat) (h : heap) (r : res (bdd * bmap bdd * heap)) (o : outcome_now) : Prop :=
  vals m -> winv h -> forall x m' h', r = Ok (x, m', h') -> vals m' /\ winv h' /\ wf M x /\ exists q, nact bound m' = nact bound m + q
  /\ (0 < q -> In (snd x) (refs h')) /\ (hyp k q -> o = Ok (x, m', St h' (after k q) (k + q))).

Lemma simr_same m k h x : wf M x -> simr m k h (Ok (x, m, h)) (Ok (x, m, St h M k)).
Proof.
  intros W V H x' m' h' [= <- <- <-]. split; [auto|]. split; [auto|]. split; [auto|]. exists 0. split; [lia|]. split; [lia|].
  intros _. unfold after. cbn [Nat.eqb]. do 3 f_equal. lia.
Qed.
Lemma simr_found m k h n c r : blookup (c, n) m = Some r -> simr m k h (Ok (r, m, h)) (Ok (r, m, St h M k)).
Proof. intros E V. apply simr_same; auto. apply blookup_some in E. eauto. Qed.
Lemma winv_after v x t e h h' : wf M x -> wf M t -> wf M e -> winv h -> incl (refs h' ++ fresh h') (snd (bvar v) :: snd x :: snd t :: snd e :: refs h) -> winv h'.
Proof.
  intros Wx Wt We W I n Hn. apply I in Hn. destruct Hn as [<-|[<-|[<-|[<-|Hn]]]]; auto; [apply (wf_var M v)|]. apply W. apply in_or_app. auto.
Qed.
Lemma after_S k q : after k (q + 1) = reorder (k + q).
Proof. unfold after. replace (q + 1 =? 0) with false by (symmetry; apply Nat.eqb_neq; lia). f_equal. lia. Qed.

(** the last step, in any order *)
Lemma simr_last key v t e m h N k (P : Prop) : act bound key = true -> vals m -> winv h -> wf M t -> wf M e ->
  (P -> alive h (snd t) = true -> alive_now N h (snd t) = true) ->
  (P -> alive (Heap (snd t :: refs h) (fresh h)) (snd e) = true -> alive_now N (Heap (snd t :: refs h) (fresh h)) (snd e) = true) ->
  forall x m' h', ('(neW, h) <- rebuild M v t e h ;; Ok (neW, (key, neW) :: m, h)) = Ok (x, m', h') ->
  vals m' /\ winv h' /\ wf M x /\ nact bound m' = nact bound m + 1 /\ In (snd x) (refs h')
  /\ (P -> ('(neW, s) <- rebuild_now M reorder v t e (St h N k) ;; Ok (neW, (key, neW) :: m, s)) = Ok (x, m', St h' (reorder k) (k + 1))).
Proof.
  intros A V W Wt We Bt Be x m' h' E. destruct (rebuild M v t e h) as [[w h1]| | |] eqn:R; try discriminate. cbn [bind] in E. injection E as <- <- <-.
  destruct (rebuild_run _ _ _ _ _ _ R) as (A1 & A2 & -> & I & J & Run).
  assert (Wx : wf M (ite M (bvar v) t e)) by auto with wf.
  split; [intros k0 r0 [[= <- <-]|H]; eauto|]. split; [exact (winv_after v _ t e h h1 Wx Wt We W I)|]. split; [exact Wx|]. split; [rewrite nact_add by auto; lia|].
  split; [exact J|]. intro HP. rewrite (Run N k); auto. cbn [bind]. do 3 f_equal. lia.
Qed.

Lemma simr_child key v (t' e' : bdd -> bdd) m k h r1 (o1 : outcome_now) :
  act bound key = true -> simr m k h r1 o1 -> ((forall b, t' b = b \/ snd (t' b) = One) /\ (forall b, e' b = b \/ snd (e' b) = One)) ->
  simr m k h ('(b, m1, h) <- r1 ;; '(neW, h) <- rebuild M v (t' b) (e' b) h ;; Ok (neW, (key, neW) :: m1, h))
    ('(b, m1, s) <- o1 ;; '(neW, s) <- rebuild_now M reorder v (t' b) (e' b) s ;; Ok (neW, (key, neW) :: m1, s)).
Proof.
  intros A S1 [Ht He] V W x m' h' E. destruct r1 as [[[b m1] h1]| | |]; try discriminate. cbn [bind] in E.
  destruct (S1 V W b m1 h1 eq_refl) as (V1 & W1 & Wb & q & N1 & R1 & G1).
  assert (Wc : forall f : bdd -> bdd, (forall b, f b = b \/ snd (f b) = One) -> wf M (f b)).
  { intros f Hf. destruct (Hf b) as [->|H]; [auto|]. unfold wf. rewrite H. exact I. }
  assert (AL : forall h2 (f : bdd -> bdd), (forall b, f b = b \/ snd (f b) = One) -> incl (refs h1) (refs h2) -> winv h2 ->
    alive h2 (snd (f b)) = true -> alive_now (after k q) h2 (snd (f b)) = true).
  { intros h2 f Hf I2 W2 Al. destruct (Hf b) as [E2|E2]; [|rewrite E2; reflexivity]. rewrite E2 in *.
    unfold after. destruct (q =? 0) eqn:Q.
    - now apply alive_now_same.
    - apply Nat.eqb_neq in Q. apply alive_now_in. apply in_or_app. left. apply I2, R1. lia. }
  assert (W2 : winv (Heap (snd (t' b) :: refs h1) (fresh h1))).
  { intros n [<-|Hn]; [apply Wc, Ht|]. now apply W1. }
  destruct (simr_last key v (t' b) (e' b) m1 h1 (after k q) (k + q) True A V1 W1 (Wc t' Ht) (Wc e' He)) with (x := x) (m' := m') (h' := h')
    as (V3 & W3 & Wx & N3 & J & Run); [intros _; apply AL; auto; apply incl_refl|intros _; apply AL; auto; apply incl_tl, incl_refl|exact E|].
  split; [auto|]. split; [auto|]. split; [auto|]. exists (q + 1). split; [lia|]. split; [auto|].
  intro Hy. rewrite G1 by now apply hyp_mono. cbn [bind]. rewrite (Run I), after_S. do 3 f_equal. lia.
Qed.
Lemma simr_children key v m k h r1 (r2 : bmap bdd -> heap -> res (bdd * bmap bdd * heap)) (o1 : outcome_now) (o2 : bmap bdd -> state -> outcome_now) :
  (forall k q, hyp k (q + 1) -> after k q = M) -> (forall k q1 q2, hyp k (q1 + q2 + 1) -> hyp k (q1 + 1) /\ hyp (k + q1) (q2 + 1)) ->
  act bound key = true -> simr m k h r1 o1 -> (forall m1 h1 k1, simr m1 k1 h1 (r2 m1 h1) (o2 m1 (St h1 M k1))) ->
  simr m k h ('(t, m1, h) <- r1 ;; '(e, m2, h) <- r2 m1 h ;; '(neW, h) <- rebuild M v t e h ;; Ok (neW, (key, neW) :: m2, h))
    ('(t, m1, s) <- o1 ;; '(e, m2, s) <- o2 m1 s ;; '(neW, s) <- rebuild_now M reorder v t e s ;; Ok (neW, (key, neW) :: m2, s)).
Proof.
  intros HM HS A S1 S2 V W x m' h' E.
  destruct r1 as [[[t m1] h1]| | |]; try discriminate. cbn [bind] in E.
  destruct (r2 m1 h1) as [[[e m2] h2]| | |] eqn:E2; try discriminate. cbn [bind] in E.
  destruct (S1 V W t m1 h1 eq_refl) as (V1 & W1 & Wt & q1 & N1 & R1 & G1).
  destruct (S2 m1 h1 (k + q1) V1 W1 e m2 h2 E2) as (V2 & W2 & We & q2 & N2 & R2 & G2).
  assert (W4 : winv (Heap (snd t :: refs h2) (fresh h2))).
  { intros n [<-|Hn]; [exact Wt|]. now apply W2. }
  destruct (simr_last key v t e m2 h2 M (k + q1 + q2) True A V2 W2 Wt We) with (x := x) (m' := m') (h' := h')
    as (V3 & W3 & Wx & N3 & J & Run); [intros _; now apply alive_now_same|intros _; now apply alive_now_same|exact E|].
  split; [auto|]. split; [auto|]. split; [auto|]. exists (q1 + q2 + 1). split; [lia|]. split; [auto|].
  intro Hy. destruct (HS k q1 q2 Hy) as [Hy1 Hy2]. rewrite G1 by now apply hyp_mono. cbn [bind].
  rewrite (HM k q1 Hy1). rewrite G2 by now apply hyp_mono. cbn [bind]. rewrite (HM (k + q1) q2 Hy2). rewrite (Run I).
  replace (q1 + q2 + 1) with ((q1 + q2) + 1) by lia. rewrite after_S. do 3 f_equal; try lia. f_equal. lia.
Qed.
End S.

(** the order changes in the last call at most *)
Definition still (M : mgr) (reorder : nat -> mgr) (k q : nat) : Prop := forall j, k <= j -> S j < k + q -> reorder j = M.
Lemma still_mono M reorder k q : still M reorder k (q + 1) -> still M reorder k q.
Proof. intros H j A B. apply H; lia. Qed.
Lemma still_after M reorder k q : still M reorder k (q + 1) -> after M reorder k q = M.
Proof. intro H. unfold after. destruct (q =? 0) eqn:Q; [auto|]. apply Nat.eqb_neq in Q. apply H; lia. Qed.
Lemma still_split M reorder k q1 q2 : still M reorder k (q1 + q2 + 1) -> still M reorder k (q1 + 1) /\ still M reorder (k + q1) (q2 + 1).
Proof. intro H. split; intros j A B; apply H; lia. Qed.
Definition hyp_of (M : mgr) (reorder : nat -> mgr) (ls k q : nat) : Prop := ls = 0 \/ still M reorder k q.
Lemma hyp_of_mono M reorder ls k q : hyp_of M reorder ls k (q + 1) -> hyp_of M reorder ls k q.
Proof. intros [H|H]; [now left|right; now apply still_mono]. Qed.

Lemma kids_ok M v t d e : okn M 0 (Nd v t d e) -> okn M 0 t /\ okn M 0 e.
Proof. intros (_ & Ht & He & _). split; eapply okn_le; eauto; lia. Qed.
Lemma sub_len n : 0 < length (subnodes n). Proof. destruct n; cbn; lia. Qed.

Section Rec.
Variable M : mgr.
Variable reorder : nat -> mgr.
Variable mc : bmap Q.
Variables ls le : nat.
Let hyp := hyp_of M reorder ls.

Lemma simr_branch key v bound m k h r1 (r2 : bmap bdd -> heap -> res (bdd * bmap bdd * heap)) (o1 : outcome_now) (o2 : bmap bdd -> state -> outcome_now) :
  v < ls -> act bound key = true -> simr M reorder bound hyp m k h r1 o1 -> (forall m1 h1 k1, simr M reorder bound hyp m1 k1 h1 (r2 m1 h1) (o2 m1 (St h1 M k1))) ->
  simr M reorder bound hyp m k h ('(t, m1, h) <- r1 ;; '(e, m2, h) <- r2 m1 h ;; '(neW, h) <- rebuild M v t e h ;; Ok (neW, (key, neW) :: m2, h))
    ('(t, m1, s) <- o1 ;; '(e, m2, s) <- o2 m1 s ;; '(neW, s) <- rebuild_now M reorder v t e s ;; Ok (neW, (key, neW) :: m2, s)).
Proof.
  intros L. apply simr_children.
  - apply hyp_of_mono.
  - intros k0 q [H|H]; [lia|now apply still_after].
  - intros k0 q1 q2 [H|H]; [lia|]. destruct (still_split _ _ _ _ _ H). split; now right.
Qed.

Lemma remove_simr rh sub n : forall fuel c m k h, okn M 0 n -> length (subnodes n) <= fuel ->
  simr M reorder (bound_of ls le) hyp m k h (remove_children_rc M n c ls le mc m rh sub h)
    (remove_children_now M reorder fuel n c ls le mc m rh sub (St h M k)).
Proof.
  induction n as [|v t IHt d e IHe]; intros fuel c m k h O F; (destruct fuel as [|fuel]; [cbn in F; lia|]);
    cbn [remove_children_rc remove_children_now counts now calls]; (intros V W; revert V W);
    match goal with |- context [alive h ?n] => destruct (alive h n) eqn:AL end; try solve [intros V W x m' h' [=]];
    (intros V W; rewrite (alive_now_same M h _ W O AL); revert V W); cbn [require_ bind]; rewrite (node_in_same M _ O).
  { now apply simr_same. }
  destruct (kids_ok _ _ _ _ _ O) as [Ot Oe]. rewrite !node_in_same by auto.
  cbn [subnodes length] in F. rewrite app_length in F. pose proof (sub_len t). pose proof (sub_len e). cbv zeta.
  destruct (blookup (c, Nd v t d e) m) as [r|] eqn:E; [now apply (simr_found M reorder _ hyp m k h (Nd v t d e) c)|].
  destruct (v <? ls) eqn:Lv.
  - apply Nat.ltb_lt in Lv. apply simr_branch; [exact Lv|cbn; apply Nat.ltb_lt; unfold bound_of; lia|apply IHt; auto; lia|]. intros m1 h1 k1. apply IHe; auto; lia.
  - destruct (v <=? le) eqn:Le; [|now apply simr_same]. apply Nat.leb_le in Le.
    assert (A : act (bound_of ls le) (c, Nd v t d e) = true) by (cbn; apply Nat.ltb_lt; unfold bound_of; lia).
    destruct (bmap_at mc (c, t)) as [tc| | |]; try solve [intros V W x m' h' [=]]. cbn [bind].
    destruct (bmap_at mc (xorb c d, e)) as [ec| | |]; try solve [intros V W x m' h' [=]]. cbn [bind].
    assert (RO : snd (if sub then bnot bone else bone) = One) by now destruct sub.
    destruct (Bool.eqb _ _).
    + apply (simr_child M reorder _ hyp (hyp_of_mono M reorder ls) _ v (fun _ => if sub then bnot bone else bone) (fun b => b)); [exact A|apply IHe; auto; lia|].
      split; intro b; [now right|now left].
    + apply (simr_child M reorder _ hyp (hyp_of_mono M reorder ls) _ v (fun b => b) (fun _ => if sub then bnot bone else bone)); [exact A|apply IHt; auto; lia|].
      split; intro b; [now left|now right].
Qed.
Lemma round_simr n : forall fuel c m k h, okn M 0 n -> length (subnodes n) <= fuel ->
  simr M reorder ls hyp m k h (round_rc M n c ls mc m h) (round_now M reorder fuel n c ls mc m (St h M k)).
Proof.
  induction n as [|v t IHt d e IHe]; intros fuel c m k h O F; (destruct fuel as [|fuel]; [cbn in F; lia|]);
    cbn [round_rc round_now counts now calls]; (intros V W; revert V W);
    match goal with |- context [alive h ?n] => destruct (alive h n) eqn:AL end; try solve [intros V W x m' h' [=]];
    (intros V W; rewrite (alive_now_same M h _ W O AL); revert V W); cbn [require_ bind]; rewrite (node_in_same M _ O).
  { now apply simr_same. }
  destruct (kids_ok _ _ _ _ _ O) as [Ot Oe]. rewrite !node_in_same by auto.
  cbn [subnodes length] in F. rewrite app_length in F. pose proof (sub_len t). pose proof (sub_len e). cbv zeta.
  destruct (blookup (c, Nd v t d e) m) as [r|] eqn:E; [now apply (simr_found M reorder _ hyp m k h (Nd v t d e) c)|].
  destruct (v <? ls) eqn:Lv.
  - apply simr_branch; [now apply Nat.ltb_lt|exact Lv|apply IHt; auto; lia|]. intros m1 h1 k1. apply IHe; auto; lia.
  - destruct (blookup _ mc) as [q|]; [|intros V W x m' h' [=]].
    assert (WC : wf M (if qgtb q (1 # 2) then bone else bnot bone)) by (destruct (qgtb q (1 # 2)); exact I).
    intros V W x m' h' [= <- <- <-]. split; [intros k0 r0 [[= <- <-]|H1]; eauto|]. split; [auto|]. split; [auto|].
    exists 0. rewrite nact_skip by exact Lv. split; [lia|]. split; [lia|]. intros _. unfold after. cbn [Nat.eqb]. do 3 f_equal. lia.
Qed.
Lemma best_simr n : forall fuel c m k h, okn M 0 n -> length (subnodes n) <= fuel ->
  simr M reorder (bound_of ls le) hyp m k h (round_best_rc M n c ls le mc m h) (round_best_now M reorder fuel n c ls le mc m (St h M k)).
Proof.
  induction n as [|v t IHt d e IHe]; intros fuel c m k h O F; (destruct fuel as [|fuel]; [cbn in F; lia|]);
    cbn [round_best_rc round_best_now counts now calls]; (intros V W; revert V W);
    match goal with |- context [alive h ?n] => destruct (alive h n) eqn:AL end; try solve [intros V W x m' h' [=]];
    (intros V W; rewrite (alive_now_same M h _ W O AL); revert V W); cbn [require_ bind]; rewrite (node_in_same M _ O).
  { now apply simr_same. }
  destruct (kids_ok _ _ _ _ _ O) as [Ot Oe]. rewrite !node_in_same by auto.
  cbn [subnodes length] in F. rewrite app_length in F. pose proof (sub_len t). pose proof (sub_len e). cbv zeta.
  destruct (blookup (c, Nd v t d e) m) as [r|] eqn:E; [now apply (simr_found M reorder _ hyp m k h (Nd v t d e) c)|].
  destruct (v <? ls) eqn:Lv.
  - apply Nat.ltb_lt in Lv. apply simr_branch; [exact Lv|cbn; apply Nat.ltb_lt; unfold bound_of; lia|apply IHt; auto; lia|]. intros m1 h1 k1. apply IHe; auto; lia.
  - destruct (v <=? le) eqn:Le; [|now apply simr_same]. apply Nat.leb_le in Le.
    assert (A : act (bound_of ls le) (c, Nd v t d e) = true) by (cbn; apply Nat.ltb_lt; unfold bound_of; lia).
    destruct (bmap_at mc (c, t)) as [tc| | |]; try solve [intros V W x m' h' [=]]. cbn [bind].
    destruct (bmap_at mc (xorb c d, e)) as [ec| | |]; try solve [intros V W x m' h' [=]]. cbn [bind].
    assert (CH : forall (t' e' : bdd -> bdd) n1 c1, (n1 = t \/ n1 = e) -> ((forall b, t' b = b \/ snd (t' b) = One) /\ (forall b, e' b = b \/ snd (e' b) = One)) ->
      simr M reorder (bound_of ls le) hyp m k h
        ('(b, m1, h) <- round_best_rc M n1 c1 ls le mc m h ;; '(neW, h) <- rebuild M v (t' b) (e' b) h ;; Ok (neW, ((c, Nd v t d e), neW) :: m1, h))
        ('(b, m1, s) <- round_best_now M reorder fuel n1 c1 ls le mc m (St h M k) ;; '(neW, s) <- rebuild_now M reorder v (t' b) (e' b) s ;; Ok (neW, ((c, Nd v t d e), neW) :: m1, s))).
    { intros t' e' n1 c1 D TE. apply simr_child; [apply hyp_of_mono|exact A| |exact TE]. destruct D as [->| ->]; [apply IHt|apply IHe]; auto; lia. }
    assert (C1 : forall b : bdd, b = b \/ snd b = One) by (now left).
    assert (C2 : forall x b : bdd, snd x = One -> x = b \/ snd x = One) by (now right).
    destruct (_ && _). { apply (CH (fun _ => bnot bone) (fun b => b)); auto. }
    destruct (_ && _). { apply (CH (fun b => b) (fun _ => bnot bone)); auto. }
    destruct (_ && _). { apply (CH (fun _ => bone) (fun b => b)); auto. }
    destruct (_ && _). { apply (CH (fun b => b) (fun _ => bone)); auto. }
    assert (WC : forall q, snd (if qgtb q (1 # 2) then bone else bnot bone) = One) by (intro q; now destruct (qgtb q (1 # 2))).
    assert (WW : forall q, wf M (if qgtb q (1 # 2) then bone else bnot bone)) by (intro q; unfold wf; rewrite WC; exact I).
    intros V W x m' h' EQ.
    destruct (simr_last M reorder (bound_of ls le) (c, Nd v t d e) v _ _ m h M k True A V W (WW tc) (WW ec)) with (x := x) (m' := m') (h' := h')
      as (V3 & W3 & Wx & N3 & J & Run); [intros _ _; rewrite WC; reflexivity|intros _ _; rewrite !WC; reflexivity|exact EQ|].
    split; [auto|]. split; [auto|]. split; [auto|]. exists 1. split; [lia|]. split; [auto|]. intros _. etransitivity; [exact (Run I)|]. unfold after. cbn [Nat.eqb]. do 4 f_equal. lia.
Qed.
End Rec.
