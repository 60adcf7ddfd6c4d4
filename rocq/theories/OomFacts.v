(** The operators if CUDD runs out of memory *)
From Coq Require Import List Bool Arith ZArith QArith Lia Lqa Permutation.
From Verif Require Import Res Cudd CuddFacts Spec SpecFacts Helpers HelpersFacts Counting AddFacts CountFacts MetricsFacts MetricsFacts4 Operators OperatorFacts SpecOperators RefCount SpecRefs RefFacts RefFacts2 OutOfMemory.
Import ListNotations.
Open Scope nat_scope.

Definition lift (m : bmap bdd) : bmap pointer := map (fun kv => (fst kv, Some (snd kv))) m.
Lemma lift_lookup k m : blookup k (lift m) = match blookup k m with Some r => Some (Some r) | None => None end.
Proof.
  unfold blookup. induction m as [|[k' r] m IH]; [reflexivity|]. cbn [lift map find fst snd].
  destruct (bdd_eqb k' k) eqn:E1, (bdd_eqb k k') eqn:E2; auto.
Qed.

Section Sim.
Variable M : mgr.
Variable fails : nat -> bool.
Variable bound : nat.
Definition nact (m : bmap bdd) : nat := length (filter (act bound) (map fst m)).
Definition fine (a b : nat) : Prop := forall j, a <= j -> j < b -> fails j = false.
Lemma fine_dec a b : {fine a b} + {exists j, a <= j /\ j < b /\ fails j = true}.
Proof.
  destruct (existsb fails (seq a (b - a))) eqn:E.
  - right. apply existsb_exists in E. destruct E as (j & Hj & F). apply in_seq in Hj. exists j. split; [lia|]. split; [lia|auto].
  - left. intros j Ha Hb. destruct (fails j) eqn:F; auto.
    assert (X : existsb fails (seq a (b - a)) = true) by (apply existsb_exists; exists j; split; auto; apply in_seq; lia). congruence.
Qed.
Lemma fine_sub a b a' b' : fine a b -> a <= a' -> b' <= b -> fine a' b'.
Proof. intros H A B j J1 J2. apply H; lia. Qed.

Definition outcome := res (pointer * bmap pointer * nat).
(** neither an exception nor a failed assertion *)
Definition soft (r : outcome) : Prop := r = UB \/ exists x, r = Ok x.
(** the run with failures beside the run without *)
Definition sim (m : bmap bdd) (k : nat) (r : res (bdd * bmap bdd * heap)) (o : outcome) : Prop := forall x m' h', r = Ok (x, m', h') ->
  exists q, nact m' = nact m + q
  /\ (fine k (k + q) -> o = Ok (Some x, lift m', k + q))
  /\ ((exists j, k <= j /\ S j < k + q /\ fails j = true) -> o = UB)
  /\ (0 < q -> fine k (k + q - 1) -> fails (k + q - 1) = true -> exists m2, o = Ok (None, m2, k + q)).

Lemma sim_same m k x h : sim m k (Ok (x, m, h)) (Ok (Some x, lift m, k)).
Proof.
  intros x' m' h' [= <- <- <-]. exists 0. split; [lia|]. split; [intros _; repeat f_equal; lia|]. split; [|lia]. intros (j & A & B & _). lia.
Qed.
Lemma rebuild_value v t e h x h' : rebuild M v t e h = Ok (x, h') -> x = ite M (bvar v) t e.
Proof.
  unfold rebuild. destruct (c_Ref t h) as [h1| | |]; try discriminate. cbn [bind]. destruct (c_Ref e h1) as [h2| | |]; try discriminate. cbn [bind].
  cbv zeta. destruct (c_Ref (bvar v) h2) as [h3| | |]; try discriminate. cbn [bind].
  unfold c_bddIte. destruct (_ && _); try discriminate. cbn [bind].
  destruct (c_Ref _ _) as [h4| | |]; try discriminate. cbn [bind]. destruct (c_RecursiveDeref (bvar v) _) as [h5| | |]; try discriminate. cbn [bind].
  destruct (c_RecursiveDeref t _) as [h6| | |]; try discriminate. cbn [bind]. destruct (c_RecursiveDeref e _) as [h7| | |]; try discriminate. cbn [bind].
  now intros [= <- _].
Qed.
Lemma rebuild_null_then v e k : rebuild_oom M fails v None e k = UB. Proof. reflexivity. Qed.
Lemma rebuild_null_else v t k : rebuild_oom M fails v t None k = UB. Proof. now destruct t. Qed.

Lemma nact_add key x m : act bound key = true -> nact ((key, x) :: m) = S (nact m).
Proof. intro A. unfold nact. cbn [map fst filter]. now rewrite A. Qed.
Lemma nact_skip key x m : act bound key = false -> nact ((key, x) :: m) = nact m.
Proof. intro A. unfold nact. cbn [map fst filter]. now rewrite A. Qed.

Lemma sim_last key v t e m k h : act bound key = true ->
  sim m k ('(neW, h) <- rebuild M v t e h ;; Ok (neW, (key, neW) :: m, h))
          ('(neW, k) <- rebuild_oom M fails v (Some t) (Some e) k ;; Ok (neW, (key, neW) :: lift m, k)).
Proof.
  intros A x m' h' E. destruct (rebuild M v t e h) as [[w h1]| | |] eqn:R; try discriminate. cbn [bind] in E. injection E as <- <- <-.
  apply rebuild_value in R. subst w. exists 1. split; [rewrite nact_add by auto; lia|]. cbn [rebuild_oom bind]. split; [|split].
  - intro F. rewrite (F k) by lia. cbn [lift map fst snd]. do 2 f_equal. lia.
  - intros (j & J1 & J2 & _). lia.
  - intros _ _ F. replace (k + 1 - 1) with k in F by lia. rewrite F. eexists. do 2 f_equal. lia.
Qed.
Lemma sim_children key v m k r1 (r2 : bmap bdd -> heap -> res (bdd * bmap bdd * heap)) (o1 : outcome) (o2 : bmap pointer -> nat -> outcome) :
  act bound key = true -> sim m k r1 o1 -> (forall m1 h1 k1, sim m1 k1 (r2 m1 h1) (o2 (lift m1) k1)) -> (forall m1 k1, soft (o2 m1 k1)) ->
  sim m k ('(t, m1, h) <- r1 ;; '(e, m2, h) <- r2 m1 h ;; '(neW, h) <- rebuild M v t e h ;; Ok (neW, (key, neW) :: m2, h))
    ('(t, m1, k) <- o1 ;; '(e, m2, k) <- o2 m1 k ;; '(neW, k) <- rebuild_oom M fails v t e k ;; Ok (neW, (key, neW) :: m2, k)).
Proof.
  intros A S1 S2 SF x m' h' E.
  destruct r1 as [[[t m1] h1]| | |]; try discriminate. cbn [bind] in E.
  destruct (r2 m1 h1) as [[[e m2] h2]| | |] eqn:E2; try discriminate. cbn [bind] in E.
  destruct (S1 t m1 h1 eq_refl) as (q1 & N1 & G1 & U1 & L1).
  destruct (S2 m1 h1 (k + q1) e m2 h2 E2) as (q2 & N2 & G2 & U2 & L2).
  destruct (sim_last key v t e m2 (k + q1 + q2) h2 A x m' h' E) as (q3 & N3 & G3 & U3 & L3).
  assert (Q3 : q3 = 1).
  { destruct (rebuild M v t e h2) as [[w h3]| | |]; try discriminate. cbn [bind] in E. injection E as <- <- <-. rewrite nact_add in N3 by auto. lia. }
  subst q3. exists (q1 + q2 + 1). split; [lia|].
  assert (B1 : (exists j, k <= j /\ j < k + q1 /\ fails j = true) ->
    ('(t, m1, k) <- o1 ;; '(e, m2, k) <- o2 m1 k ;; '(neW, k) <- rebuild_oom M fails v t e k ;; Ok (neW, (key, neW) :: m2, k)) = UB).
  { intros (j & J1 & J2 & F). destruct (fine_dec k (k + q1 - 1)) as [D|(i & I1 & I2 & I3)].
    - assert (j = k + q1 - 1) by (destruct (Nat.eq_dec j (k + q1 - 1)); auto; rewrite D in F by lia; discriminate). subst j.
      destruct L1 as (m3 & ->); [lia|auto|auto|]. cbn [bind].
      destruct (SF m3 (k + q1)) as [->|([[e' m4] k4] & ->)]; [reflexivity|]. reflexivity.
    - rewrite U1; [reflexivity|]. exists i. split; [lia|]. split; [lia|auto]. }
  assert (B2 : fine k (k + q1) -> (exists j, k + q1 <= j /\ j < k + q1 + q2 /\ fails j = true) ->
    ('(t, m1, k) <- o1 ;; '(e, m2, k) <- o2 m1 k ;; '(neW, k) <- rebuild_oom M fails v t e k ;; Ok (neW, (key, neW) :: m2, k)) = UB).
  { intros D1 (j & J1 & J2 & F). rewrite G1 by auto. cbn [bind]. destruct (fine_dec (k + q1) (k + q1 + q2 - 1)) as [D|(i & I1 & I2 & I3)].
    - assert (j = k + q1 + q2 - 1) by (destruct (Nat.eq_dec j (k + q1 + q2 - 1)); auto; rewrite D in F by lia; discriminate). subst j.
      destruct L2 as (m3 & ->); [lia|auto|auto|]. cbn [bind]. reflexivity.
    - rewrite U2; [reflexivity|]. exists i. split; [lia|]. split; [lia|auto]. }
  split; [|split].
  - intro F. rewrite G1 by (eapply fine_sub; eauto; lia). cbn [bind]. rewrite G2 by (eapply fine_sub; eauto; lia). cbn [bind].
    rewrite G3 by (eapply fine_sub; eauto; lia). do 2 f_equal. lia.
  - intros (j & J1 & J2 & F). destruct (fine_dec k (k + q1)) as [D|D]; [|auto]. apply B2; auto. exists j. split; [|split; [lia|auto]].
    destruct (Nat.lt_ge_cases j (k + q1)); [|lia]. rewrite D in F by lia. discriminate.
  - intros _ F L. rewrite G1 by (eapply fine_sub; eauto; lia). cbn [bind]. rewrite G2 by (eapply fine_sub; eauto; lia). cbn [bind].
    replace (k + (q1 + q2 + 1) - 1) with (k + q1 + q2 + 1 - 1) in L by lia.
    destruct L3 as (m3 & ->); [lia|intros j J1 J2; lia|exact L|]. eexists. do 2 f_equal. lia.
Qed.
Lemma sim_child key v (t' e' : bdd -> bdd) (tp ep : pointer -> pointer) m k r1 (o1 : outcome) :
  act bound key = true -> sim m k r1 o1 -> (forall b, tp (Some b) = Some (t' b) /\ ep (Some b) = Some (e' b)) -> (tp None = None \/ ep None = None) ->
  sim m k ('(b, m1, h) <- r1 ;; '(neW, h) <- rebuild M v (t' b) (e' b) h ;; Ok (neW, (key, neW) :: m1, h))
    ('(b, m1, k) <- o1 ;; '(neW, k) <- rebuild_oom M fails v (tp b) (ep b) k ;; Ok (neW, (key, neW) :: m1, k)).
Proof.
  intros A S1 TE NN x m' h' E.
  destruct r1 as [[[b m1] h1]| | |]; try discriminate. cbn [bind] in E.
  destruct (S1 b m1 h1 eq_refl) as (q1 & N1 & G1 & U1 & L1).
  destruct (sim_last key v (t' b) (e' b) m1 (k + q1) h1 A x m' h' E) as (q3 & N3 & G3 & U3 & L3).
  assert (Q3 : q3 = 1).
  { destruct (rebuild M v (t' b) (e' b) h1) as [[w h3]| | |]; try discriminate. cbn [bind] in E. injection E as <- <- <-. rewrite nact_add in N3 by auto. lia. }
  subst q3. exists (q1 + 1). split; [lia|]. destruct (TE b) as [T1 T2]. split; [|split].
  - intro F. rewrite G1 by (eapply fine_sub; eauto; lia). cbn [bind]. rewrite T1, T2, G3 by (eapply fine_sub; eauto; lia). do 2 f_equal. lia.
  - intros (j & J1 & J2 & F). destruct (fine_dec k (k + q1 - 1)) as [D|(i & I1 & I2 & I3)].
    + assert (j = k + q1 - 1) by (destruct (Nat.eq_dec j (k + q1 - 1)); auto; rewrite D in F by lia; discriminate). subst j.
      destruct L1 as (m3 & ->); [lia|auto|auto|]. cbn [bind]. destruct NN as [-> | ->]; [now rewrite rebuild_null_then|now rewrite rebuild_null_else].
    + rewrite U1; [reflexivity|]. exists i. split; [lia|]. split; [lia|auto].
  - intros _ F L. rewrite G1 by (eapply fine_sub; eauto; lia). cbn [bind]. rewrite T1, T2.
    replace (k + (q1 + 1) - 1) with (k + q1 + 1 - 1) in L by lia.
    destruct L3 as (m3 & ->); [lia|intros j J1 J2; lia|exact L|]. eexists. do 2 f_equal. lia.
Qed.
Lemma sim_found m k n c x h : blookup (c, n) m = Some x ->
  sim m k (Ok (x, m, h)) match blookup (c, n) (lift m) with Some r => Ok (r, lift m, k) | None => UB end.
Proof. intro E. rewrite lift_lookup, E. apply sim_same. Qed.

Lemma soft_last key v t e m k : soft ('(neW, k) <- rebuild_oom M fails v t e k ;; Ok (neW, (key, neW) :: m, k)).
Proof. destruct t as [t|]; [|now left]. destruct e as [e|]; [|now left]. right. eexists. reflexivity. Qed.
Lemma soft_bind (o : outcome) g : soft o -> (forall x m k, soft (g x m k)) -> soft ('(x, m, k) <- o ;; g x m k).
Proof. intros [->|([[x m] k] & ->)] G; [now left|]. cbn [bind]. apply G. Qed.
End Sim.

Lemma remove_soft M fails mc ls le rh sub n : forall c m k, complete mc n c -> soft (remove_children_oom M fails n c ls le mc m rh sub k).
Proof.
  induction n as [|v t IHt d e IHe]; intros c m k HC; cbn [remove_children_oom]; [right; eauto|].
  pose proof (complete_then _ _ _ _ _ _ HC) as Ct. pose proof (complete_else _ _ _ _ _ _ HC) as Ce.
  destruct (blookup _ m); [right; eauto|]. cbv zeta. destruct (v <? ls).
  - apply soft_bind; [now apply IHt|]. intros x m1 k1. apply soft_bind; [now apply IHe|]. intros y m2 k2. apply soft_last.
  - destruct (v <=? le); [|right; eauto]. rewrite !at_wt; [|apply Ce, in_edges_refl|apply Ct, in_edges_refl]. cbn [bind].
    destruct (Bool.eqb _ _); (apply soft_bind; [auto|]); intros x m1 k1; apply soft_last.
Qed.
Lemma round_soft M fails mc ls n : forall c m k, complete mc n c -> soft (round_oom M fails n c ls mc m k).
Proof.
  induction n as [|v t IHt d e IHe]; intros c m k HC; cbn [round_oom]; [right; eauto|].
  pose proof (complete_then _ _ _ _ _ _ HC) as Ct. pose proof (complete_else _ _ _ _ _ _ HC) as Ce.
  destruct (blookup _ m); [right; eauto|]. destruct (v <? ls).
  - apply soft_bind; [now apply IHt|]. intros x m1 k1. apply soft_bind; [now apply IHe|]. intros y m2 k2. apply soft_last.
  - destruct (blookup _ mc); [right; eauto|now left].
Qed.
Lemma best_soft M fails mc ls le n : forall c m k, complete mc n c -> soft (round_best_oom M fails n c ls le mc m k).
Proof.
  induction n as [|v t IHt d e IHe]; intros c m k HC; cbn [round_best_oom]; [right; eauto|].
  pose proof (complete_then _ _ _ _ _ _ HC) as Ct. pose proof (complete_else _ _ _ _ _ _ HC) as Ce.
  destruct (blookup _ m); [right; eauto|]. cbv zeta. destruct (v <? ls).
  - apply soft_bind; [now apply IHt|]. intros x m1 k1. apply soft_bind; [now apply IHe|]. intros y m2 k2. apply soft_last.
  - destruct (v <=? le); [|right; eauto]. rewrite !at_wt; [|apply Ce, in_edges_refl|apply Ct, in_edges_refl]. cbn [bind].
    destruct (_ && _); [|destruct (_ && _); [|destruct (_ && _); [|destruct (_ && _)]]];
      try (apply soft_bind; [auto|]; intros x m1 k1); apply soft_last.
Qed.

Lemma remove_sim M fails mc ls le rh sub n : forall c m k h, complete mc n c ->
  sim fails (bound_of ls le) m k (remove_children_rc M n c ls le mc m rh sub h) (remove_children_oom M fails n c ls le mc (lift m) rh sub k).
Proof.
  induction n as [|v t IHt d e IHe]; intros c m k h HC; cbn [remove_children_rc remove_children_oom];
    destruct (alive h _); try solve [intros x m' h' [=]]; cbn [require_ bind]; try apply sim_same.
  pose proof (complete_then _ _ _ _ _ _ HC) as Ct. pose proof (complete_else _ _ _ _ _ _ HC) as Ce.
  rewrite lift_lookup. destruct (blookup (c, Nd v t d e) m) as [r|]; [apply sim_same|]. cbv zeta.
  destruct (v <? ls) eqn:Lv.
  - apply Nat.ltb_lt in Lv. apply sim_children; [cbn; apply Nat.ltb_lt; unfold bound_of; lia|auto|auto|]. intros m1 k1. now apply remove_soft.
  - destruct (v <=? le) eqn:Le; [|apply sim_same]. apply Nat.leb_le in Le.
    assert (A : act (bound_of ls le) (c, Nd v t d e) = true) by (cbn; apply Nat.ltb_lt; unfold bound_of; lia).
    rewrite !at_wt; [|apply Ce, in_edges_refl|apply Ct, in_edges_refl]. cbn [bind]. destruct (Bool.eqb _ _).
    + apply (sim_child M fails _ _ v (fun _ => if sub then bnot bone else bone) (fun b => b) (fun _ => Some (if sub then bnot bone else bone)) (fun b => b)); auto.
    + apply (sim_child M fails _ _ v (fun b => b) (fun _ => if sub then bnot bone else bone) (fun b => b) (fun _ => Some (if sub then bnot bone else bone))); auto.
Qed.
Lemma round_sim M fails mc ls n : forall c m k h, complete mc n c ->
  sim fails ls m k (round_rc M n c ls mc m h) (round_oom M fails n c ls mc (lift m) k).
Proof.
  induction n as [|v t IHt d e IHe]; intros c m k h HC; cbn [round_rc round_oom];
    destruct (alive h _); try solve [intros x m' h' [=]]; cbn [require_ bind]; try apply sim_same.
  pose proof (complete_then _ _ _ _ _ _ HC) as Ct. pose proof (complete_else _ _ _ _ _ _ HC) as Ce.
  rewrite lift_lookup. destruct (blookup (c, Nd v t d e) m) as [r|]; [apply sim_same|].
  destruct (v <? ls) eqn:Lv.
  - apply sim_children; [exact Lv|auto|auto|]. intros m1 k1. now apply round_soft.
  - destruct (blookup _ mc) as [q|]; [|intros x m' h' [=]]. cbv zeta. intros x m' h' [= <- <- <-].
    exists 0. rewrite nact_skip by exact Lv. split; [lia|]. split; [intros _; repeat f_equal; lia|]. split; [|lia]. intros (j & A & B & _). lia.
Qed.
Lemma best_sim M fails mc ls le n : forall c m k h, complete mc n c ->
  sim fails (bound_of ls le) m k (round_best_rc M n c ls le mc m h) (round_best_oom M fails n c ls le mc (lift m) k).
Proof.
  induction n as [|v t IHt d e IHe]; intros c m k h HC; cbn [round_best_rc round_best_oom];
    destruct (alive h _); try solve [intros x m' h' [=]]; cbn [require_ bind]; try apply sim_same.
  pose proof (complete_then _ _ _ _ _ _ HC) as Ct. pose proof (complete_else _ _ _ _ _ _ HC) as Ce.
  rewrite lift_lookup. destruct (blookup (c, Nd v t d e) m) as [r|]; [apply sim_same|]. cbv zeta.
  destruct (v <? ls) eqn:Lv.
  - apply Nat.ltb_lt in Lv. apply sim_children; [cbn; apply Nat.ltb_lt; unfold bound_of; lia|auto|auto|]. intros m1 k1. now apply best_soft.
  - destruct (v <=? le) eqn:Le; [|apply sim_same]. apply Nat.leb_le in Le.
    assert (A : act (bound_of ls le) (c, Nd v t d e) = true) by (cbn; apply Nat.ltb_lt; unfold bound_of; lia).
    rewrite !at_wt; [|apply Ce, in_edges_refl|apply Ct, in_edges_refl]. cbn [bind].
    destruct (_ && _).
    { apply (sim_child M fails _ _ v (fun _ => bnot bone) (fun b => b) (fun _ => Some (bnot bone)) (fun b => b)); auto. }
    destruct (_ && _).
    { apply (sim_child M fails _ _ v (fun b => b) (fun _ => bnot bone) (fun b => b) (fun _ => Some (bnot bone))); auto. }
    destruct (_ && _).
    { apply (sim_child M fails _ _ v (fun _ => bone) (fun b => b) (fun _ => Some bone) (fun b => b)); auto. }
    destruct (_ && _).
    { apply (sim_child M fails _ _ v (fun b => b) (fun _ => bone) (fun b => b) (fun _ => Some bone)); auto. }
    now apply sim_last.
Qed.
