(** Proofs about the approximation operators: support, size, repeated application, complement. *)
From Coq Require Import List Bool Arith ZArith QArith Lia Lqa.
From Verif Require Import Res Cudd CuddFacts Spec SpecFacts Helpers HelpersFacts HelpersFacts2 Counting AddFacts CountFacts PathFacts MetricsFacts MetricsFacts4 Operators OperatorFacts OperatorFacts2 OperatorFacts3 OperatorFacts4 OrderFacts SpecOperators.
Import ListNotations.
Open Scope nat_scope.

(** ** the result is built with [mk] *)
Lemma itev_mk M v g h : okb M (S (lv M v)) g -> okb M (S (lv M v)) h -> ite M (bvar v) g h = mk v g h.
Proof.
  intros Hg Hh. apply (canonical M).
  - apply wf_ite; auto with wf; apply (okn_weaken M (S (lv M v)) 0); auto; lia.
  - apply mk_ok; auto; lia.
  - intro a. now rewrite ev_itev, ev_mk.
Qed.
Lemma mk_edges M c v t d e k : okn M k (Nd v t d e) -> mk v (c, t) (xorb c d, e) = (c, Nd v t d e).
Proof.
  cbn [okn]. intros (_ & _ & _ & H). unfold mk. destruct (bdd_eqb (c, t) (xorb c d, e)) eqn:E.
  - exfalso. apply H. apply bdd_eqb_spec in E. injection E as E1 E2. split; auto. now destruct c, d.
  - cbn [fst snd]. now destruct c, d.
Qed.
Lemma mk_cases v (x y : bdd) : (x = y /\ mk v x y = x)
  \/ (x <> y /\ exists c t d e, mk v x y = (c, Nd v t d e) /\ (c, t) = x /\ (xorb c d, e) = y).
Proof.
  unfold mk. destruct (bdd_eqb x y) eqn:E.
  - left. apply bdd_eqb_spec in E. auto.
  - right. apply bdd_eqb_false in E. split; auto. destruct x as [[] t], y as [[] e]; cbn [fst snd negb]; do 4 eexists; (split; [reflexivity|]); auto.
Qed.

Section Images.
Variable M : mgr.
Variable w : bdd -> Q.
Variables ls le : nat.

Lemma okb_repl k sub : okb M k (repl sub). Proof. destruct sub; exact I. Qed.
Lemma okb_major k q : okb M k (major q). Proof. unfold major. destruct (qgtb _ _); exact I. Qed.
Lemma rc_okb rh sub n : forall k c, okn M k n -> okb M k (rc M w ls le rh sub n c).
Proof.
  induction n as [|v t IHt d e IHe]; intros k c H; [exact I|]. cbn [rc]. pose proof H as H'. destruct H as (H1 & H2 & H3 & H4).
  pose proof (IHt _ c H2). pose proof (IHe _ (xorb c d) H3). pose proof (okb_repl (S (lv M v)) sub).
  destruct (v <? ls); [rewrite itev_mk by auto; apply mk_ok; auto|]. destruct (v <=? le); [|exact H'].
  destruct (Bool.eqb rh _); rewrite itev_mk by auto; apply mk_ok; auto.
Qed.
Lemma rr_okb n : forall k c, okn M k n -> okb M k (rr M w ls n c).
Proof.
  induction n as [|v t IHt d e IHe]; intros k c H; [exact I|]. cbn [rr]. destruct H as (H1 & H2 & H3 & H4).
  pose proof (IHt _ c H2). pose proof (IHe _ (xorb c d) H3).
  destruct (v <? ls); [rewrite itev_mk by auto; apply mk_ok; auto|]. destruct (qgtb _ _); exact I.
Qed.
Lemma rb_okb n : forall k c, okn M k n -> okb M k (rb M w ls le n c).
Proof.
  induction n as [|v t IHt d e IHe]; intros k c H; [exact I|]. cbn [rb]. pose proof H as H'. destruct H as (H1 & H2 & H3 & H4).
  pose proof (IHt _ c H2). pose proof (IHe _ (xorb c d) H3).
  assert (okb M (S (lv M v)) bone) by exact I. assert (okb M (S (lv M v)) (bnot bone)) by exact I.
  pose proof (okb_major (S (lv M v)) (w (c, t))). pose proof (okb_major (S (lv M v)) (w (xorb c d, e))).
  destruct (v <? ls); [rewrite itev_mk by auto; apply mk_ok; auto|]. destruct (v <=? le); [|exact H']. cbv zeta.
  repeat match goal with |- context [if ?b then ite _ _ _ _ else _] => destruct b end; rewrite itev_mk by auto; apply mk_ok; auto.
Qed.
End Images.

(** ** support *)
Lemma support_shrinks M f r : wf M f -> wf M r ->
  (forall i b a, ~ In i (varsn (snd f)) -> ev r (upd a i b) = ev r a) ->
  forall i, In i (support r) -> In i (support f).
Proof.
  intros Wf Wr H i Hi. apply (support_essential M) in Hi; auto. destruct Hi as (a & Ha). rewrite support_spec.
  destruct (in_dec Nat.eq_dec i (varsn (snd f))) as [|N]; auto. exfalso. apply Ha. now rewrite !H.
Qed.

Lemma ops_support M ls le op f : In op (the_operators M ls le) -> wf M f ->
  exists r, op f = Ok r /\ forall i, In i (support r) -> In i (support f).
Proof.
  intros Hop Hf. pose proof (wf_edge M f Hf) as Hf'. destruct f as [c n]. cbn [fst snd] in *.
  repeat (destruct Hop as [<-|Hop]); [..|destruct Hop].
  1-4: unfold subset_light_child, subset_heavy_child, superset_light_child, superset_heavy_child; rewrite round_any_pure;
    eexists; split; [reflexivity|]; apply (support_shrinks M); auto; [apply rc_wf; auto|intros; apply rc_notin; auto].
  - rewrite round_down_pure. eexists; split; [reflexivity|]. apply (support_shrinks M); auto; [apply rc_wf; auto|intros; apply rc_notin; auto].
  - rewrite round_up_pure. eexists; split; [reflexivity|]. apply (support_shrinks M); auto; [apply rc_wf; auto|intros; apply rc_notin; auto].
  - rewrite round_bdd_pure. eexists; split; [reflexivity|]. apply (support_shrinks M); auto; [apply rr_wf; auto|intros; apply rr_notin; auto].
  - rewrite round_best_pure. eexists; split; [reflexivity|]. apply (support_shrinks M); auto; [apply rb_wf; auto|intros; apply rb_notin; auto].
Qed.

(** ** repeated application *)
Section Cut.
Variables ls le : nat.
(** every node in the range has a constant child from [K] *)
Fixpoint cut (K : bdd -> Prop) (n : node) (c : bool) : Prop :=
  match n with
  | One => True
  | Nd v t d e =>
      if v <? ls then cut K t c /\ cut K e (xorb c d)
      else if v <=? le then (K (c, t) /\ cut K e (xorb c d)) \/ (K (xorb c d, e) /\ cut K t c)
      else True
  end.
Definition cutb K (f : bdd) : Prop := cut K (snd f) (fst f).
Lemma cut_mk_before K v x y : v < ls -> cutb K x -> cutb K y -> cutb K (mk v x y).
Proof.
  intros L Hx Hy. destruct (mk_cases v x y) as [(-> & ->)|(_ & c & t & d & e & -> & <- & <-)]; auto.
  unfold cutb in *. cbn [fst snd cut] in *. apply Nat.ltb_lt in L. rewrite L. auto.
Qed.
Lemma cut_mk_in (K : bdd -> Prop) v x y : ~ v < ls -> v <= le ->
  (K x /\ cutb K y) \/ (K y /\ cutb K x) -> (forall z, K z -> cutb K z) -> cutb K (mk v x y).
Proof.
  intros L L' H HK. destruct (mk_cases v x y) as [(-> & ->)|(_ & c & t & d & e & -> & <- & <-)].
  - destruct H as [[H H0]|[H H0]]; auto.
  - unfold cutb in *. cbn [fst snd cut] in *. apply Nat.ltb_nlt in L. apply Nat.leb_le in L'. rewrite L, L'. tauto.
Qed.
End Cut.

Section Again.
Variable M : mgr.
Variables ls le : nat.

Lemma rc_cut w rh sub n : forall k c, okn M k n -> cutb ls le (fun z => z = repl sub) (rc M w ls le rh sub n c).
Proof.
  induction n as [|v t IHt d e IHe]; intros k c H; [exact I|]. pose proof H as (H1 & H2 & H3 & H4). cbn [rc].
  specialize (IHt _ c H2). specialize (IHe _ (xorb c d) H3).
  pose proof (rc_okb M w ls le rh sub t _ c H2). pose proof (rc_okb M w ls le rh sub e _ (xorb c d) H3). pose proof (okb_repl M (S (lv M v)) sub).
  assert (KC : forall z, z = repl sub -> cutb ls le (fun z => z = repl sub) z) by (intros z ->; destruct sub; exact I).
  destruct (v <? ls) eqn:E1; [apply Nat.ltb_lt in E1; rewrite itev_mk by auto; apply cut_mk_before; auto|].
  destruct (v <=? le) eqn:E2.
  - apply Nat.ltb_nlt in E1. apply Nat.leb_le in E2.
    destruct (Bool.eqb rh _); rewrite itev_mk by auto; apply cut_mk_in; auto.
  - unfold cutb. cbn [fst snd cut]. now rewrite E1, E2.
Qed.
Lemma okb_then k c v t d e : okn M k (Nd v t d e) -> okb M (S (lv M v)) (c, t). Proof. intros (_ & H & _ & _). exact H. Qed.
Lemma okb_else k c v t d e : okn M k (Nd v t d e) -> okb M (S (lv M v)) (c, e). Proof. intros (_ & _ & H & _). exact H. Qed.
Lemma children_differ k c v t d e : okn M k (Nd v t d e) -> (c, t) <> (xorb c d, e).
Proof. intros (_ & _ & _ & H) E. injection E as E1 E2. apply H. split; auto. now destruct c, d. Qed.

(** the light child is the constant 0 / the heavy child is the constant 1 *)
Definition weighs0 (w : bdd -> Q) (n : node) (c : bool) : Prop :=
  forall k, In k (edges n c) -> (0 <= w k)%Q /\ (k = bzero -> w k == 0)%Q /\ (k <> bzero -> 0 < w k)%Q.
Definition weighs1 (w : bdd -> Q) (n : node) (c : bool) : Prop :=
  forall k, In k (edges n c) -> (w k <= 1)%Q /\ (k = bone -> w k == 1)%Q /\ (k <> bone -> w k < 1)%Q.
Lemma in_then v t d e c : In (c, t) (edges (Nd v t d e) c).
Proof. cbn [edges]. right. apply in_or_app. left. apply in_edges_refl. Qed.
Lemma in_else v t d e c : In (xorb c d, e) (edges (Nd v t d e) c).
Proof. cbn [edges]. right. apply in_or_app. right. apply in_edges_refl. Qed.
Lemma weighs0_then w v t d e c : weighs0 w (Nd v t d e) c -> weighs0 w t c.
Proof. intros H k Hk. apply H. cbn [edges]. right. apply in_or_app. auto. Qed.
Lemma weighs0_else w v t d e c : weighs0 w (Nd v t d e) c -> weighs0 w e (xorb c d).
Proof. intros H k Hk. apply H. cbn [edges]. right. apply in_or_app. auto. Qed.
Lemma weighs1_then w v t d e c : weighs1 w (Nd v t d e) c -> weighs1 w t c.
Proof. intros H k Hk. apply H. cbn [edges]. right. apply in_or_app. auto. Qed.
Lemma weighs1_else w v t d e c : weighs1 w (Nd v t d e) c -> weighs1 w e (xorb c d).
Proof. intros H k Hk. apply H. cbn [edges]. right. apply in_or_app. auto. Qed.

Lemma rc_fix0 w n : forall k c, okn M k n -> weighs0 w n c -> cut ls le (fun z => z = bnot bone) n c ->
  rc M w ls le false true n c = (c, n).
Proof.
  induction n as [|v t IHt d e IHe]; intros k c H W C; [reflexivity|]. pose proof H as (H1 & H2 & H3 & H4).
  specialize (IHt _ c H2 (weighs0_then _ _ _ _ _ _ W)). specialize (IHe _ (xorb c d) H3 (weighs0_else _ _ _ _ _ _ W)).
  pose proof (okb_then _ c _ _ _ _ H) as Ot. pose proof (okb_else _ (xorb c d) _ _ _ _ H) as Oe.
  pose proof (W _ (in_then v t d e c)) as Wt. pose proof (W _ (in_else v t d e c)) as We. pose proof (children_differ _ c _ _ _ _ H) as N.
  cbn [cut] in C. cbn [rc repl]. destruct (v <? ls).
  { rewrite IHt, IHe, itev_mk by first [apply C|assumption]. eapply mk_edges; eauto. }
  destruct (v <=? le); [|reflexivity]. change (bnot bone) with bzero in *.
  destruct C as [[Z C]|[Z C]].
  - destruct (qgtb (w (c, t)) (w (xorb c d, e))) eqn:E.
    + apply qgtb_true in E. apply Wt in Z. lra.
    + cbn [Bool.eqb]. rewrite IHe, <- Z, itev_mk by auto. eapply mk_edges; eauto.
  - destruct (qgtb (w (c, t)) (w (xorb c d, e))) eqn:E.
    + cbn [Bool.eqb]. rewrite IHt, <- Z, itev_mk by auto. eapply mk_edges; eauto.
    + apply qgtb_false in E. assert ((c, t) <> bzero) by (intro; apply N; congruence). apply Wt in H0. apply We in Z. lra.
Qed.
Lemma rc_fix1 w n : forall k c, okn M k n -> weighs1 w n c -> cut ls le (fun z => z = bone) n c ->
  rc M w ls le true false n c = (c, n).
Proof.
  induction n as [|v t IHt d e IHe]; intros k c H W C; [reflexivity|]. pose proof H as (H1 & H2 & H3 & H4).
  specialize (IHt _ c H2 (weighs1_then _ _ _ _ _ _ W)). specialize (IHe _ (xorb c d) H3 (weighs1_else _ _ _ _ _ _ W)).
  pose proof (okb_then _ c _ _ _ _ H) as Ot. pose proof (okb_else _ (xorb c d) _ _ _ _ H) as Oe.
  pose proof (W _ (in_then v t d e c)) as Wt. pose proof (W _ (in_else v t d e c)) as We. pose proof (children_differ _ c _ _ _ _ H) as N.
  cbn [cut] in C. cbn [rc repl]. destruct (v <? ls).
  { rewrite IHt, IHe, itev_mk by first [apply C|assumption]. eapply mk_edges; eauto. }
  destruct (v <=? le); [|reflexivity].
  destruct C as [[Z C]|[Z C]].
  - destruct (qgtb (w (c, t)) (w (xorb c d, e))) eqn:E.
    + cbn [Bool.eqb]. rewrite IHe, <- Z, itev_mk by auto. eapply mk_edges; eauto.
    + apply qgtb_false in E. assert ((xorb c d, e) <> bone) by (intro; apply N; congruence). apply We in H0. apply Wt in Z. lra.
  - destruct (qgtb (w (c, t)) (w (xorb c d, e))) eqn:E.
    + apply qgtb_true in E. apply We in Z. lra.
    + cbn [Bool.eqb]. rewrite IHt, <- Z, itev_mk by auto. eapply mk_edges; eauto.
Qed.
End Again.
