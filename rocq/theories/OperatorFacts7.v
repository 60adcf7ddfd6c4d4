(** Proofs about the approximation operators: complement and size. *)
From Coq Require Import List Bool Arith ZArith QArith Lia Lqa.
From Verif Require Import Res Cudd CuddFacts Spec SpecFacts Helpers HelpersFacts HelpersFacts2 Counting AddFacts CountFacts PathFacts MetricsFacts MetricsFacts4 Operators OperatorFacts OperatorFacts2 OperatorFacts3 OperatorFacts4 OrderFacts SpecOperators OperatorFacts5.
Import ListNotations.
Open Scope nat_scope.

(** ** complement *)
Lemma bnot_itev M v x y : wf M x -> wf M y -> bnot (ite M (bvar v) x y) = ite M (bvar v) (bnot x) (bnot y).
Proof.
  intros Wx Wy. apply (canonical M); [auto with wf..|]. intro a. rewrite ev_not, !ev_itev, !ev_not. now destruct (a v).
Qed.
Lemma bnot_inv f : bnot (bnot f) = f. Proof. destruct f as [[] n]; reflexivity. Qed.
Lemma repl_neg sub : bnot (repl (negb sub)) = repl sub. Proof. now destruct sub. Qed.
Lemma major_neg q r : (q + r == 1)%Q -> ~ (q == 1#2)%Q -> bnot (major q) = major r.
Proof.
  intros E N. unfold major. destruct (qgtb q (1#2)) eqn:E1, (qgtb r (1#2)) eqn:E2; auto; exfalso;
    rewrite ?qgtb_true, ?qgtb_false in *; try lra.
Qed.

Definition sound (w : bdd -> Q) (n : node) (c : bool) : Prop := forall k, In k (edges n c) -> (w k == frac k)%Q.
Lemma sound_then w v t d e c : sound w (Nd v t d e) c -> sound w t c.
Proof. intros H k Hk. apply H. cbn [edges]. right. apply in_or_app. auto. Qed.
Lemma sound_else w v t d e c : sound w (Nd v t d e) c -> sound w e (xorb c d).
Proof. intros H k Hk. apply H. cbn [edges]. right. apply in_or_app. auto. Qed.
Lemma minterms_sound f : sound (wt_of (count_minterms f)) (snd f) (fst f).
Proof. intros k Hk. now apply minterms_wt. Qed.

Section Dual.
Variable M : mgr.
Variables w w' : bdd -> Q.
Variables ls le : nat.

Definition no_tie (n : node) (c : bool) : Prop := forall c' v t d e, In (c', Nd v t d e) (edges n c) -> ls <= v <= le ->
  ~ (frac (c', t) == frac (xorb c' d, e))%Q.
Lemma no_tie_then v t d e c : no_tie (Nd v t d e) c -> no_tie t c.
Proof. intros H c' v' t' d' e' Hk. apply (H c' v'). cbn [edges]. right. apply in_or_app. auto. Qed.
Lemma no_tie_else v t d e c : no_tie (Nd v t d e) c -> no_tie e (xorb c d).
Proof. intros H c' v' t' d' e' Hk. apply (H c' v'). cbn [edges]. right. apply in_or_app. auto. Qed.

Lemma frac_flip c (n : node) : (frac (negb c, n) == 1 - frac (c, n))%Q.
Proof. apply (frac_not (c, n)). Qed.
Lemma child_weights v t d e c : sound w (Nd v t d e) c -> sound w' (Nd v t d e) (negb c) ->
  (w' (negb c, t) == 1 - w (c, t))%Q /\ (w' (xorb (negb c) d, e) == 1 - w (xorb c d, e))%Q.
Proof.
  intros H H'. rewrite (H _ (in_then v t d e c)), (H _ (in_else v t d e c)), (H' _ (in_then v t d e (negb c))), (H' _ (in_else v t d e (negb c))).
  rewrite <- Bool.negb_xorb_l. split; apply frac_flip.
Qed.

Lemma rc_dual rh sub n : forall k c, okn M k n -> sound w n c -> sound w' n (negb c) -> no_tie n c ->
  rc M w' ls le rh sub n (negb c) = bnot (rc M w ls le (negb rh) (negb sub) n c).
Proof.
  induction n as [|v t IHt d e IHe]; intros k c H S1 S2 NT; [reflexivity|]. pose proof H as (H1 & H2 & H3 & H4).
  specialize (IHt _ c H2 (sound_then _ _ _ _ _ _ S1) (sound_then _ _ _ _ _ _ S2) (no_tie_then _ _ _ _ _ NT)).
  assert (Se : sound w' e (negb (xorb c d))) by (rewrite Bool.negb_xorb_l; exact (sound_else _ _ _ _ _ _ S2)).
  specialize (IHe _ (xorb c d) H3 (sound_else _ _ _ _ _ _ S1) Se (no_tie_else _ _ _ _ _ NT)).
  rewrite Bool.negb_xorb_l in IHe.
  assert (Wt : wf M (rc M w ls le (negb rh) (negb sub) t c)) by (apply rc_wf; eapply okn_weaken; [apply Nat.le_0_l|exact H2]).
  assert (We : wf M (rc M w ls le (negb rh) (negb sub) e (xorb c d))) by (apply rc_wf; eapply okn_weaken; [apply Nat.le_0_l|exact H3]).
  pose proof (wf_repl M (negb sub)) as Wr. destruct (child_weights _ _ _ _ _ S1 S2) as [C1 C2].
  cbn [rc]. rewrite IHt, IHe. destruct (v <? ls) eqn:E1; [now rewrite bnot_itev|].
  destruct (v <=? le) eqn:E2; [|reflexivity].
  assert (R : ls <= v <= le) by (apply Nat.ltb_nlt in E1; apply Nat.leb_le in E2; lia).
  assert (N : ~ (w (c, t) == w (xorb c d, e))%Q).
  { rewrite (S1 _ (in_then v t d e c)), (S1 _ (in_else v t d e c)). apply (NT c v t d e); auto. apply in_edges_refl. }
  assert (G : qgtb (w' (negb c, t)) (w' (xorb (negb c) d, e)) = negb (qgtb (w (c, t)) (w (xorb c d, e)))).
  { destruct (qgtb (w (c, t)) (w (xorb c d, e))) eqn:E; cbn [negb].
    - apply qgtb_true in E. apply qgtb_false. lra.
    - apply qgtb_false in E. apply qgtb_true. apply Qle_lteq in E. destruct E as [E|E]; [lra|contradiction]. }
  rewrite G, <- (repl_neg sub). destruct rh, (qgtb (w (c, t)) (w (xorb c d, e))); cbn [Bool.eqb negb]; now rewrite bnot_itev.
Qed.

Definition no_half (n : node) (c : bool) : Prop := forall c' v t d e, In (c', Nd v t d e) (edges n c) -> ls <= v ->
  ~ (frac (c', Nd v t d e) == 1#2)%Q.
Lemma no_half_then v t d e c : no_half (Nd v t d e) c -> no_half t c.
Proof. intros H c' v' t' d' e' Hk. apply (H c' v'). cbn [edges]. right. apply in_or_app. auto. Qed.
Lemma no_half_else v t d e c : no_half (Nd v t d e) c -> no_half e (xorb c d).
Proof. intros H c' v' t' d' e' Hk. apply (H c' v'). cbn [edges]. right. apply in_or_app. auto. Qed.
Lemma rr_dual n : forall k c, okn M k n -> sound w n c -> sound w' n (negb c) -> no_half n c ->
  rr M w' ls n (negb c) = bnot (rr M w ls n c).
Proof.
  induction n as [|v t IHt d e IHe]; intros k c H S1 S2 NT; [reflexivity|]. pose proof H as (H1 & H2 & H3 & H4).
  specialize (IHt _ c H2 (sound_then _ _ _ _ _ _ S1) (sound_then _ _ _ _ _ _ S2) (no_half_then _ _ _ _ _ NT)).
  assert (Se : sound w' e (negb (xorb c d))) by (rewrite Bool.negb_xorb_l; exact (sound_else _ _ _ _ _ _ S2)).
  specialize (IHe _ (xorb c d) H3 (sound_else _ _ _ _ _ _ S1) Se (no_half_else _ _ _ _ _ NT)).
  rewrite Bool.negb_xorb_l in IHe. pose proof (rr_wf M w ls t c). pose proof (rr_wf M w ls e (xorb c d)).
  cbn [rr]. destruct (v <? ls) eqn:E1; [rewrite IHt, IHe; now rewrite bnot_itev|].
  fold (major (w (c, Nd v t d e))). fold (major (w' (negb c, Nd v t d e))). symmetry. apply major_neg.
  - rewrite (S1 _ (in_edges_refl _ _)), (S2 _ (in_edges_refl _ _)), frac_flip. lra.
  - rewrite (S1 _ (in_edges_refl _ _)). apply NT; [apply in_edges_refl|]. now apply Nat.ltb_ge.
Qed.

Definition no_halves (n : node) (c : bool) : Prop := forall c' v t d e, In (c', Nd v t d e) (edges n c) -> ls <= v <= le ->
  ~ (frac (c', t) == 1#2 /\ frac (xorb c' d, e) == 1#2)%Q.
Lemma no_halves_then v t d e c : no_halves (Nd v t d e) c -> no_halves t c.
Proof. intros H c' v' t' d' e' Hk. apply (H c' v'). cbn [edges]. right. apply in_or_app. auto. Qed.
Lemma no_halves_else v t d e c : no_halves (Nd v t d e) c -> no_halves e (xorb c d).
Proof. intros H c' v' t' d' e' Hk. apply (H c' v'). cbn [edges]. right. apply in_or_app. auto. Qed.
Lemma rb_dual n : forall k c, okn M k n -> sound w n c -> sound w' n (negb c) -> no_halves n c ->
  rb M w' ls le n (negb c) = bnot (rb M w ls le n c).
Proof.
  induction n as [|v t IHt d e IHe]; intros k c H S1 S2 NT; [reflexivity|]. pose proof H as (H1 & H2 & H3 & H4).
  specialize (IHt _ c H2 (sound_then _ _ _ _ _ _ S1) (sound_then _ _ _ _ _ _ S2) (no_halves_then _ _ _ _ _ NT)).
  assert (Se : sound w' e (negb (xorb c d))) by (rewrite Bool.negb_xorb_l; exact (sound_else _ _ _ _ _ _ S2)).
  specialize (IHe _ (xorb c d) H3 (sound_else _ _ _ _ _ _ S1) Se (no_halves_else _ _ _ _ _ NT)).
  rewrite Bool.negb_xorb_l in IHe.
  assert (Wt : wf M (rb M w ls le t c)) by (apply rb_wf; eapply okn_weaken; [apply Nat.le_0_l|exact H2]).
  assert (We : wf M (rb M w ls le e (xorb c d))) by (apply rb_wf; eapply okn_weaken; [apply Nat.le_0_l|exact H3]).
  assert (W1 : wf M bone) by exact I. assert (W0 : wf M (bnot bone)) by exact I.
  assert (Wm : forall q, wf M (major q)) by (intro q; unfold major; destruct (qgtb _ _); exact I).
  destruct (child_weights _ _ _ _ _ S1 S2) as [C1 C2].
  cbn [rb]. rewrite IHt, IHe. destruct (v <? ls) eqn:E1; [now rewrite bnot_itev|].
  destruct (v <=? le) eqn:E2; [|reflexivity]. cbv zeta.
  assert (R : ls <= v <= le) by (apply Nat.ltb_nlt in E1; apply Nat.leb_le in E2; lia).
  assert (N : ~ (w (c, t) == 1#2 /\ w (xorb c d, e) == 1#2)%Q).
  { rewrite (S1 _ (in_then v t d e c)), (S1 _ (in_else v t d e c)). apply (NT c v t d e); auto. apply in_edges_refl. }
  set (x := w (c, t)) in *. set (y := w (xorb c d, e)) in *. set (x' := w' (negb c, t)) in *. set (y' := w' (xorb (negb c) d, e)) in *.
  assert (Q1 : qgtb y' x' && qgtb (1 - y') x' = qgtb x y && qgtb x (1 - y)).
  { apply Bool.eq_iff_eq_true. rewrite !andb_true_iff, !qgtb_true. split; intros []; split; lra. }
  assert (Q2 : qgtb x' y' && qgtb (1 - x') y' = qgtb y x && qgtb y (1 - x)).
  { apply Bool.eq_iff_eq_true. rewrite !andb_true_iff, !qgtb_true. split; intros []; split; lra. }
  assert (Q3 : qgtb x' y' && qgtb x' (1 - y') = qgtb y x && qgtb (1 - y) x).
  { apply Bool.eq_iff_eq_true. rewrite !andb_true_iff, !qgtb_true. split; intros []; split; lra. }
  assert (Q4 : qgtb y' x' && qgtb y' (1 - x') = qgtb x y && qgtb (1 - x) y).
  { apply Bool.eq_iff_eq_true. rewrite !andb_true_iff, !qgtb_true. split; intros []; split; lra. }
  rewrite Q1, Q2, Q3, Q4.
  destruct (qgtb x y && qgtb x (1 - y)) eqn:A1.
  { apply andb_true_iff in A1. rewrite !qgtb_true in A1. destruct A1.
    assert (B1 : qgtb y x = false) by (apply qgtb_false; lra). assert (B2 : qgtb (1 - x) y = false) by (apply qgtb_false; lra).
    rewrite B1, B2. cbn [andb]. rewrite andb_false_r. now rewrite bnot_itev. }
  destruct (qgtb y x && qgtb y (1 - x)) eqn:A2.
  { apply andb_true_iff in A2. rewrite !qgtb_true in A2. destruct A2.
    assert (B1 : qgtb x y = false) by (apply qgtb_false; lra). assert (B2 : qgtb (1 - y) x = false) by (apply qgtb_false; lra).
    rewrite B1, B2. cbn [andb]. rewrite andb_false_r. now rewrite bnot_itev. }
  destruct (qgtb y x && qgtb (1 - y) x) eqn:A3; [now rewrite bnot_itev|].
  destruct (qgtb x y && qgtb (1 - x) y) eqn:A4; [now rewrite bnot_itev|].
  (* a tie *)
  assert (T : (x == y \/ x + y == 1)%Q).
  { apply andb_false_iff in A1, A2, A3, A4. rewrite !qgtb_false in A1, A2, A3, A4.
    destruct (Q_dec x y) as [[L|L]|E]; [| |now left]; right; lra. }
  rewrite bnot_itev, (major_neg x x'), (major_neg y y'); auto; try lra; intro HH; apply N; lra.
Qed.
End Dual.

(** ** size *)
Lemma subnodes_refl n : In n (subnodes n). Proof. destruct n; now left. Qed.
Lemma edges_subnodes n : forall c k, In k (edges n c) -> In (snd k) (subnodes n).
Proof.
  induction n as [|v t IHt d e IHe]; intros c k; cbn [edges subnodes]; intros [<-|H]; auto; [now left..|].
  right. apply in_app_or in H. apply in_or_app. destruct H as [H|H]; eauto.
Qed.
Lemma one_edge n : forall c, exists c', In (c', One) (edges n c).
Proof.
  induction n as [|v t IHt d e IHe]; intro c; [exists c; now left|]. destruct (IHt c) as [c' H]. exists c'. cbn [edges]. right. apply in_or_app. auto.
Qed.
Lemma subnodes_edge n : forall c m, In m (subnodes n) -> exists c', In (c', m) (edges n c).
Proof.
  induction n as [|v t IHt d e IHe]; intros c m; cbn [edges subnodes]; intros [<-|H].
  - exists c. now left.
  - destruct H.
  - exists c. now left.
  - apply in_app_or in H. destruct H as [H|H]; [destruct (IHt c m H) as [c' K]|destruct (IHe (xorb c d) m H) as [c' K]]; exists c'; right; apply in_or_app; auto.
Qed.
Lemma mk_subnodes v x y m : In m (subnodes (snd (mk v x y))) -> m = snd (mk v x y) \/ In m (subnodes (snd x)) \/ In m (subnodes (snd y)).
Proof.
  destruct (mk_cases v x y) as [(-> & ->)|(_ & c & t & d & e & -> & <- & <-)]; auto.
  cbn [snd subnodes In]. rewrite in_app_iff. intuition.
Qed.

Section Size.
Variable M : mgr.
Variable w : bdd -> Q.
Variables ls le : nat.
(** root of the image of an edge *)
Definition roots (F : node -> bool -> bdd) (n : node) (c : bool) (m : node) : Prop :=
  exists k, In k (edges n c) /\ m = snd (F (snd k) (fst k)).
Lemma roots_then F v t d e c m : roots F t c m -> roots F (Nd v t d e) c m.
Proof. intros (k & H & E). exists k. split; auto. cbn [edges]. right. apply in_or_app. auto. Qed.
Lemma roots_else F v t d e c m : roots F e (xorb c d) m -> roots F (Nd v t d e) c m.
Proof. intros (k & H & E). exists k. split; auto. cbn [edges]. right. apply in_or_app. auto. Qed.
Lemma roots_one (F : node -> bool -> bdd) n c : (forall b, F One b = (b, One)) -> roots F n c One.
Proof. intro HF. destruct (one_edge n c) as [c' H]. exists (c', One). split; auto. cbn [fst snd]. now rewrite HF. Qed.
Lemma roots_self F n c : roots F n c (snd (F n c)).
Proof. exists (c, n). split; auto. apply in_edges_refl. Qed.

(** [U]: how nodes below the range count *)
Definition unchanged (U : node -> Prop) n := forall m, In m (subnodes n) -> U m.
Lemma rc_nodes rh sub n : forall k c m, okn M k n -> In m (subnodes (snd (rc M w ls le rh sub n c))) ->
  roots (rc M w ls le rh sub) n c m \/ In m (subnodes n).
Proof.
  induction n as [|v t IHt d e IHe]; intros k c m H Hm; [right; exact Hm|]. pose proof H as (_ & H2 & H3 & _).
  assert (It : In m (subnodes (snd (rc M w ls le rh sub t c))) -> roots (rc M w ls le rh sub) (Nd v t d e) c m \/ In m (subnodes (Nd v t d e))).
  { intro I1. destruct (IHt _ c m H2 I1) as [R|R]; [left; now apply roots_then|right; cbn [subnodes]; right; apply in_or_app; auto]. }
  assert (Ie : In m (subnodes (snd (rc M w ls le rh sub e (xorb c d)))) -> roots (rc M w ls le rh sub) (Nd v t d e) c m \/ In m (subnodes (Nd v t d e))).
  { intro I1. destruct (IHe _ (xorb c d) m H3 I1) as [R|R]; [left; now apply roots_else|right; cbn [subnodes]; right; apply in_or_app; auto]. }
  assert (Ir : In m (subnodes (snd (repl sub))) -> roots (rc M w ls le rh sub) (Nd v t d e) c m \/ In m (subnodes (Nd v t d e))).
  { intro I1. left. destruct sub; destruct I1 as [<-|[]]; now apply roots_one. }
  pose proof (rc_okb M w ls le rh sub t _ c H2). pose proof (rc_okb M w ls le rh sub e _ (xorb c d) H3). pose proof (okb_repl M (S (lv M v)) sub).
  pose proof (roots_self (rc M w ls le rh sub) (Nd v t d e) c) as RS. cbn [rc] in Hm, RS.
  destruct (v <? ls); [rewrite itev_mk in Hm, RS by auto; apply mk_subnodes in Hm; destruct Hm as [->|[Hm|Hm]]; auto|].
  destruct (v <=? le); [|right; exact Hm].
  destruct (Bool.eqb rh _); rewrite itev_mk in Hm, RS by auto; apply mk_subnodes in Hm; destruct Hm as [->|[Hm|Hm]]; auto.
Qed.
Lemma rb_nodes n : forall k c m, okn M k n -> In m (subnodes (snd (rb M w ls le n c))) ->
  roots (rb M w ls le) n c m \/ In m (subnodes n).
Proof.
  induction n as [|v t IHt d e IHe]; intros k c m H Hm; [right; exact Hm|]. pose proof H as (_ & H2 & H3 & _).
  assert (It : In m (subnodes (snd (rb M w ls le t c))) -> roots (rb M w ls le) (Nd v t d e) c m \/ In m (subnodes (Nd v t d e))).
  { intro I1. destruct (IHt _ c m H2 I1) as [R|R]; [left; now apply roots_then|right; cbn [subnodes]; right; apply in_or_app; auto]. }
  assert (Ie : In m (subnodes (snd (rb M w ls le e (xorb c d)))) -> roots (rb M w ls le) (Nd v t d e) c m \/ In m (subnodes (Nd v t d e))).
  { intro I1. destruct (IHe _ (xorb c d) m H3 I1) as [R|R]; [left; now apply roots_else|right; cbn [subnodes]; right; apply in_or_app; auto]. }
  assert (Io : In m [One] -> roots (rb M w ls le) (Nd v t d e) c m \/ In m (subnodes (Nd v t d e))).
  { intros [<-|[]]. left. now apply roots_one. }
  assert (Im : forall q, In m (subnodes (snd (major q))) -> In m [One]) by (intro q; unfold major; destruct (qgtb _ _); auto).
  pose proof (rb_okb M w ls le t _ c H2). pose proof (rb_okb M w ls le e _ (xorb c d) H3).
  assert (okb M (S (lv M v)) bone) by exact I. assert (okb M (S (lv M v)) (bnot bone)) by exact I.
  pose proof (okb_major M (S (lv M v)) (w (c, t))). pose proof (okb_major M (S (lv M v)) (w (xorb c d, e))).
  pose proof (roots_self (rb M w ls le) (Nd v t d e) c) as RS. cbn [rb] in Hm, RS.
  destruct (v <? ls); [rewrite itev_mk in Hm, RS by auto; apply mk_subnodes in Hm; destruct Hm as [->|[Hm|Hm]]; auto|].
  destruct (v <=? le); [|right; exact Hm]. cbv zeta in *.
  repeat match type of Hm with context [if ?b then ite _ _ _ _ else _] => destruct b end; rewrite itev_mk in Hm, RS by auto;
    apply mk_subnodes in Hm; destruct Hm as [->|[Hm|Hm]]; eauto.
Qed.
Lemma rr_nodes n : forall k c m, okn M k n -> In m (subnodes (snd (rr M w ls n c))) -> roots (rr M w ls) n c m.
Proof.
  induction n as [|v t IHt d e IHe]; intros k c m H Hm; [destruct Hm as [<-|[]]; apply roots_one; reflexivity|]. pose proof H as (_ & H2 & H3 & _).
  pose proof (rr_okb M w ls t _ c H2). pose proof (rr_okb M w ls e _ (xorb c d) H3).
  pose proof (roots_self (rr M w ls) (Nd v t d e) c) as RS. cbn [rr] in Hm, RS. destruct (v <? ls).
  - rewrite itev_mk in Hm, RS by auto; apply mk_subnodes in Hm; destruct Hm as [->|[Hm|Hm]]; auto.
    + apply roots_then. eauto.
    + apply roots_else. eauto.
  - destruct (qgtb _ _); destruct Hm as [<-|[]]; now apply roots_one.
Qed.

(** with index order all nodes below an unchanged node are unchanged *)
Lemma rc_nodes_index (HI : index_order M) rh sub n : forall k c m, okn M k n ->
  In m (subnodes (snd (rc M w ls le rh sub n c))) -> roots (rc M w ls le rh sub) n c m.
Proof.
  induction n as [|v t IHt d e IHe]; intros k c m H Hm; [destruct Hm as [<-|[]]; apply roots_one; reflexivity|]. pose proof H as (_ & H2 & H3 & _).
  assert (It : In m (subnodes (snd (rc M w ls le rh sub t c))) -> roots (rc M w ls le rh sub) (Nd v t d e) c m) by (intro I1; apply roots_then; eauto).
  assert (Ie : In m (subnodes (snd (rc M w ls le rh sub e (xorb c d)))) -> roots (rc M w ls le rh sub) (Nd v t d e) c m) by (intro I1; apply roots_else; eauto).
  assert (Ir : In m (subnodes (snd (repl sub))) -> roots (rc M w ls le rh sub) (Nd v t d e) c m).
  { intro I1. destruct sub; destruct I1 as [<-|[]]; now apply roots_one. }
  pose proof (rc_okb M w ls le rh sub t _ c H2). pose proof (rc_okb M w ls le rh sub e _ (xorb c d) H3). pose proof (okb_repl M (S (lv M v)) sub).
  pose proof (roots_self (rc M w ls le rh sub) (Nd v t d e) c) as RS. cbn [rc] in Hm, RS.
  destruct (v <? ls) eqn:E1; [rewrite itev_mk in Hm, RS by auto; apply mk_subnodes in Hm; destruct Hm as [->|[Hm|Hm]]; auto|].
  destruct (v <=? le) eqn:E2; [destruct (Bool.eqb rh _); rewrite itev_mk in Hm, RS by auto; apply mk_subnodes in Hm; destruct Hm as [->|[Hm|Hm]]; auto|].
  cbn [snd] in Hm. destruct (subnodes_edge _ c m Hm) as [c' Hc]. exists (c', m). split; auto. cbn [fst snd].
  pose proof (edges_vars (Nd v t d e) c (c', m)) as EV. cbn [snd] in EV. destruct m as [|v' t' d' e']; [reflexivity|].
  assert (v <= v').
  { pose proof (edges_wf M _ c _ _ H Hc). assert (I1 : In v' (varsn (Nd v t d e))) by (apply EV; auto; now left).
    assert (HV : okn M v (Nd v t d e)) by (cbn [okn]; rewrite HI; destruct H as (_ & H'); rewrite HI in H'; repeat split; try tauto; lia).
    pose proof (okn_vars M v _ v' HV I1) as L. rewrite HI in L. exact L. }
  apply Nat.ltb_ge in E1. apply Nat.leb_gt in E2. cbn [rc]. destruct (v' <? ls) eqn:F1; [apply Nat.ltb_lt in F1; lia|].
  destruct (v' <=? le) eqn:F2; [apply Nat.leb_le in F2; lia|]. reflexivity.
Qed.
Lemma rb_nodes_index (HI : index_order M) n : forall k c m, okn M k n ->
  In m (subnodes (snd (rb M w ls le n c))) -> roots (rb M w ls le) n c m.
Proof.
  induction n as [|v t IHt d e IHe]; intros k c m H Hm; [destruct Hm as [<-|[]]; apply roots_one; reflexivity|]. pose proof H as (_ & H2 & H3 & _).
  assert (It : In m (subnodes (snd (rb M w ls le t c))) -> roots (rb M w ls le) (Nd v t d e) c m) by (intro I1; apply roots_then; eauto).
  assert (Ie : In m (subnodes (snd (rb M w ls le e (xorb c d)))) -> roots (rb M w ls le) (Nd v t d e) c m) by (intro I1; apply roots_else; eauto).
  assert (Io : In m [One] -> roots (rb M w ls le) (Nd v t d e) c m).
  { intros [<-|[]]. now apply roots_one. }
  assert (Im : forall q, In m (subnodes (snd (major q))) -> In m [One]) by (intro q; unfold major; destruct (qgtb _ _); auto).
  pose proof (rb_okb M w ls le t _ c H2). pose proof (rb_okb M w ls le e _ (xorb c d) H3).
  assert (okb M (S (lv M v)) bone) by exact I. assert (okb M (S (lv M v)) (bnot bone)) by exact I.
  pose proof (okb_major M (S (lv M v)) (w (c, t))). pose proof (okb_major M (S (lv M v)) (w (xorb c d, e))).
  pose proof (roots_self (rb M w ls le) (Nd v t d e) c) as RS. cbn [rb] in Hm, RS.
  destruct (v <? ls) eqn:E1; [rewrite itev_mk in Hm, RS by auto; apply mk_subnodes in Hm; destruct Hm as [->|[Hm|Hm]]; auto|].
  destruct (v <=? le) eqn:E2.
  { cbv zeta in *. repeat match type of Hm with context [if ?b then ite _ _ _ _ else _] => destruct b end; rewrite itev_mk in Hm, RS by auto;
    apply mk_subnodes in Hm; destruct Hm as [->|[Hm|Hm]]; eauto. }
  cbn [snd] in Hm. destruct (subnodes_edge _ c m Hm) as [c' Hc]. exists (c', m). split; auto. cbn [fst snd].
  pose proof (edges_vars (Nd v t d e) c (c', m)) as EV. cbn [snd] in EV. destruct m as [|v' t' d' e']; [reflexivity|].
  assert (v <= v').
  { assert (I1 : In v' (varsn (Nd v t d e))) by (apply EV; auto; now left).
    assert (HV : okn M v (Nd v t d e)) by (cbn [okn]; rewrite HI; destruct H as (_ & H'); rewrite HI in H'; repeat split; try tauto; lia).
    pose proof (okn_vars M v _ v' HV I1) as L. rewrite HI in L. exact L. }
  apply Nat.ltb_ge in E1. apply Nat.leb_gt in E2. cbn [rb]. destruct (v' <? ls) eqn:F1; [apply Nat.ltb_lt in F1; lia|].
  destruct (v' <=? le) eqn:F2; [apply Nat.leb_le in F2; lia|]. reflexivity.
Qed.
End Size.

Lemma nodeCount_one f : nodeCount [f] = length (nodup node_eq_dec (subnodes (snd f))).
Proof. unfold nodeCount. cbn [flat_map]. now rewrite app_nil_r. Qed.
Lemma roots_count F f L : NoDup L -> (forall m, In m L -> roots F (snd f) (fst f) m) -> length L <= 2 * nodeCount [f].
Proof.
  intros ND H. rewrite nodeCount_one. set (S := nodup node_eq_dec (subnodes (snd f))).
  transitivity (length (map (fun k : bdd => snd (F (snd k) (fst k))) (list_prod [false; true] S))).
  - apply NoDup_incl_length; auto. intros m Hm. destruct (H m Hm) as (k & Hk & E). apply in_map_iff. exists k. split; auto.
    destruct k as [c n]. apply in_prod; [destruct c; cbn; auto|]. apply nodup_In. now apply (edges_subnodes _ (fst f)) in Hk.
  - rewrite map_length. pose proof (prod_length [false; true] S) as PL. cbn [length] in PL. unfold bdd in *. lia.
Qed.
Lemma roots_or_nodes_count F f L : NoDup L -> (forall m, In m L -> roots F (snd f) (fst f) m \/ In m (subnodes (snd f))) -> length L <= 3 * nodeCount [f].
Proof.
  intros ND H. rewrite nodeCount_one. set (S := nodup node_eq_dec (subnodes (snd f))).
  transitivity (length (map (fun k : bdd => snd (F (snd k) (fst k))) (list_prod [false; true] S) ++ S)).
  - apply NoDup_incl_length; auto. intros m Hm. apply in_or_app. destruct (H m Hm) as [(k & Hk & E)|Hs].
    + left. apply in_map_iff. exists k. split; auto.
      destruct k as [c n]. apply in_prod; [destruct c; cbn; auto|]. apply nodup_In. now apply (edges_subnodes _ (fst f)) in Hk.
    + right. now apply nodup_In.
  - rewrite app_length, map_length. pose proof (prod_length [false; true] S) as PL. cbn [length] in PL. unfold bdd in *. lia.
Qed.
Lemma ops_size M ls le op f : In op (the_operators M ls le) -> wf M f ->
  exists r, op f = Ok r /\ nodeCount [r] <= 3 * nodeCount [f] /\ (index_order M -> nodeCount [r] <= 2 * nodeCount [f]).
Proof.
  intros Hop Hf. pose proof (NoDup_nodup node_eq_dec) as ND.
  assert (RC : forall w rh sub, nodeCount [rc M w ls le rh sub (snd f) (fst f)] <= 3 * nodeCount [f]
     /\ (index_order M -> nodeCount [rc M w ls le rh sub (snd f) (fst f)] <= 2 * nodeCount [f])).
  { intros w rh sub. split; [|intro HI]; rewrite (nodeCount_one (rc _ _ _ _ _ _ _ _)).
    - apply (roots_or_nodes_count (rc M w ls le rh sub)); auto. intros m Hm. apply nodup_In in Hm. eapply rc_nodes; eauto.
    - apply (roots_count (rc M w ls le rh sub)); auto. intros m Hm. apply nodup_In in Hm. eapply rc_nodes_index; eauto. }
  repeat (destruct Hop as [<-|Hop]); [..|destruct Hop].
  1-4: unfold subset_light_child, subset_heavy_child, superset_light_child, superset_heavy_child; rewrite round_any_pure;
    eexists; split; [reflexivity|]; apply RC.
  - rewrite round_down_pure. eexists; split; [reflexivity|]; apply RC.
  - rewrite round_up_pure. eexists; split; [reflexivity|]; apply RC.
  - rewrite round_bdd_pure. eexists; split; [reflexivity|]. rewrite (nodeCount_one (rr _ _ _ _ _)).
    assert (L : length (nodup node_eq_dec (subnodes (snd (rr M (wt_of (count_minterms f)) ls (snd f) (fst f))))) <= 2 * nodeCount [f]).
    { apply (roots_count (rr M (wt_of (count_minterms f)) ls)); auto. intros m Hm. apply nodup_In in Hm. eapply rr_nodes; eauto. }
    split; [lia|auto].
  - rewrite round_best_pure. eexists; split; [reflexivity|]. split; [|intro HI]; rewrite (nodeCount_one (rb _ _ _ _ _ _)).
    + apply (roots_or_nodes_count (rb M (wt_of (count_minterms f)) ls le)); auto. intros m Hm. apply nodup_In in Hm. eapply rb_nodes; eauto.
    + apply (roots_count (rb M (wt_of (count_minterms f)) ls le)); auto. intros m Hm. apply nodup_In in Hm. eapply rb_nodes_index; eauto.
Qed.
