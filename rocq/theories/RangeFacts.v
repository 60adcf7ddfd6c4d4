(** A larger range of levels: more is removed, and the error is larger *)
From Coq Require Import List Bool Arith ZArith QArith Lia Lqa.
From Verif Require Import Res Cudd CuddFacts Spec SpecFacts SpecOperators Helpers HelpersFacts HelpersFacts2 Counting AddFacts CountFacts Metrics MetricsFacts MetricsFacts2
  MetricsFacts4 Operators OperatorFacts OperatorFacts2 OperatorFacts3 OperatorFacts4 OperatorFacts5 ExperimentsFacts AdderErrorFacts3.
Import ListNotations.
Open Scope nat_scope.

Section Range.
Variable M : mgr.
Variable w : bdd -> Q.
Variable N : nat.

(** ** removed children *)
Lemma rc_range_sub ls le ls' le' rh a n : ls' <= ls -> ls <= le -> le <= le' ->
  forall c, ev (rc M w ls' le' rh true n c) a = true -> ev (rc M w ls le rh true n c) a = true.
Proof.
  intros L1 L2 L3. induction n as [|v t IHt d e IHe]; intro c; [auto|]. pose proof (rc_subset M w ls' le' rh (Nd v t d e) a c) as S.
  cbn [rc] in *. specialize (IHt c). specialize (IHe (xorb c d)).
  destruct (Nat.ltb_spec v ls') as [V1|V1].
  { assert (v <? ls = true) as -> by (apply Nat.ltb_lt; lia). rewrite !ev_itev. destruct (a v); auto. }
  destruct (Nat.ltb_spec v ls) as [V2|V2].
  { assert (v <=? le' = true) as -> by (apply Nat.leb_le; lia).
    destruct (Bool.eqb rh _); rewrite !ev_itev, ev_repl; destruct (a v); auto; discriminate. }
  destruct (Nat.leb_spec v le) as [V3|V3]; [|exact S].
  assert (v <=? le' = true) as -> by (apply Nat.leb_le; lia).
  destruct (Bool.eqb rh _); rewrite !ev_itev, ev_repl; destruct (a v); auto.
Qed.
Lemma rc_range_sup ls le ls' le' rh a n : ls' <= ls -> ls <= le -> le <= le' ->
  forall c, ev (rc M w ls le rh false n c) a = true -> ev (rc M w ls' le' rh false n c) a = true.
Proof.
  intros L1 L2 L3. induction n as [|v t IHt d e IHe]; intro c; [auto|]. pose proof (rc_superset M w ls' le' rh (Nd v t d e) a c) as S.
  cbn [rc] in *. specialize (IHt c). specialize (IHe (xorb c d)).
  destruct (Nat.ltb_spec v ls') as [V1|V1].
  { assert (v <? ls = true) as -> by (apply Nat.ltb_lt; lia). rewrite !ev_itev. destruct (a v); auto. }
  destruct (Nat.ltb_spec v ls) as [V2|V2].
  { assert (v <=? le' = true) as -> by (apply Nat.leb_le; lia).
    destruct (Bool.eqb rh _); rewrite !ev_itev, ev_repl; destruct (a v); auto; discriminate. }
  destruct (Nat.leb_spec v le) as [V3|V3]; [|exact S].
  assert (v <=? le' = true) as -> by (apply Nat.leb_le; lia).
  destruct (Bool.eqb rh _); rewrite !ev_itev, ev_repl; destruct (a v); auto.
Qed.

(** ** errors *)
Definition er (f r : bdd) : Q := avb N (fun a => xorb (ev f a) (ev r a)).
Lemma er_nonneg f r : (0 <= er f r)%Q. Proof. apply avb_nonneg. Qed.
Lemma er_self f : (er f f == 0)%Q.
Proof. unfold er. rewrite (avb_ext N _ (fun _ => false)) by (intro a; apply xorb_nilpotent). apply (avb_const N false). Qed.
Lemma er_one f : (er f bone == 1 - avb N (ev f))%Q. Proof. exact (avb_const_xor N (ev f) true). Qed.
Lemma er_zero f : (er f (bnot bone) == avb N (ev f))%Q. Proof. exact (avb_const_xor N (ev f) false). Qed.
Lemma er_node v c t d e k R1 R2 : okn M k (Nd v t d e) -> v < N ->
  (forall a b, ev R1 (upd a v b) = ev R1 a) -> (forall a b, ev R2 (upd a v b) = ev R2 a) ->
  (er (c, Nd v t d e) (ite M (bvar v) R1 R2) == (1 # 2) * (er (c, t) R1 + er (xorb c d, e) R2))%Q.
Proof.
  intros H L I1 I2. unfold er. apply (err_if M N v _ _ (ev R1) (ev R2) c t d e k H L); auto using ev_extb.
  intro a. apply ev_itev.
Qed.
Lemma av_node v c t d e k : okn M k (Nd v t d e) -> v < N ->
  (avb N (ev (c, Nd v t d e)) == (1 # 2) * (avb N (ev (c, t)) + avb N (ev (xorb c d, e))))%Q.
Proof.
  intros H L. destruct (okn_top_notin _ _ _ _ _ _ H) as [Nt Ne]. rewrite <- (avb_if N v); auto using ev_extb.
  - apply avb_ext. intro a. apply ev_nd.
  - intros a b. now apply ev_upd_notin.
  - intros a b. now apply ev_upd_notin.
Qed.
Lemma er_major f q : (q == avb N (ev f))%Q ->
  (er f (major q) <= avb N (ev f))%Q /\ (er f (major q) <= 1 - avb N (ev f))%Q.
Proof.
  intro E. unfold major. destruct (qgtb q (1 # 2)) eqn:G; [apply qgtb_true in G; rewrite er_one|apply qgtb_false in G; rewrite er_zero]; lra.
Qed.
Lemma const_indep v r : r = bone \/ r = bnot bone -> forall a b, ev r (upd a v b) = ev r a.
Proof. intros [->| ->] a b; reflexivity. Qed.
Lemma major_const q : major q = bone \/ major q = bnot bone.
Proof. unfold major. destruct (qgtb _ _); auto. Qed.

(** never worse than the best constant *)
Lemma rb_min ls le n : forall k c, okn M k n -> (forall i, In i (varsn n) -> i < N) -> dense w n c ->
  (er (c, n) (rb M w ls le n c) <= avb N (ev (c, n)))%Q /\ (er (c, n) (rb M w ls le n c) <= 1 - avb N (ev (c, n)))%Q.
Proof.
  induction n as [|v t IHt d e IHe]; intros k c Hok HV HD.
  - cbn [rb]. rewrite er_self. pose proof (avb_nonneg N (ev (c, One))). pose proof (avb_le_1 N (ev (c, One))). lra.
  - pose proof (okn_top_notin _ _ _ _ _ _ Hok) as [Nt Ne]. assert (Hok' := Hok).
    cbn [okn] in Hok. destruct Hok as (_ & Ht & He & _).
    pose proof (below_then N _ _ _ _ HV) as Vt. pose proof (below_else N _ _ _ _ HV) as Ve.
    assert (Lv : v < N) by (apply HV; now left).
    destruct (IHt _ c Ht Vt (dense_then w _ _ _ _ _ HD)) as [T1 T2]. destruct (IHe _ (xorb c d) He Ve (dense_else w _ _ _ _ _ HD)) as [E1 E2].
    pose proof (HD (c, t) ltac:(cbn [edges]; right; apply in_or_app; left; apply in_edges_refl)) as Wt.
    pose proof (HD (xorb c d, e) ltac:(cbn [edges]; right; apply in_or_app; right; apply in_edges_refl)) as We.
    rewrite <- (avb_frac M N _ t c Ht Vt) in Wt. rewrite <- (avb_frac M N _ e (xorb c d) He Ve) in We.
    rewrite (av_node v c t d e k Hok' Lv).
    assert (It : forall a b, ev (rb M w ls le t c) (upd a v b) = ev (rb M w ls le t c) a) by (intros; now apply rb_notin).
    assert (Ie : forall a b, ev (rb M w ls le e (xorb c d)) (upd a v b) = ev (rb M w ls le e (xorb c d)) a) by (intros; now apply rb_notin).
    assert (I1 : forall a b, ev bone (upd a v b) = ev bone a) by reflexivity.
    assert (I0 : forall a b, ev (bnot bone) (upd a v b) = ev (bnot bone) a) by reflexivity.
    pose proof (er_major (c, t) _ Wt) as [A1 A2]. pose proof (er_major (xorb c d, e) _ We) as [B1 B2].
    pose proof (avb_nonneg N (ev (c, t))). pose proof (avb_le_1 N (ev (c, t))). pose proof (avb_nonneg N (ev (xorb c d, e))). pose proof (avb_le_1 N (ev (xorb c d, e))).
    cbn [rb]. destruct (v <? ls); [rewrite (er_node v c t d e k _ _ Hok' Lv It Ie); lra|].
    destruct (v <=? le); [|rewrite er_self; lra]. cbv zeta.
    destruct (qgtb (w (xorb c d, e)) (w (c, t)) && qgtb (1 - w (xorb c d, e)) (w (c, t))) eqn:C1.
    { apply andb_true_iff in C1 as [X Y]. apply qgtb_true in X, Y. rewrite (er_node v c t d e k _ _ Hok' Lv I0 Ie), er_zero. lra. }
    destruct (qgtb (w (c, t)) (w (xorb c d, e)) && qgtb (1 - w (c, t)) (w (xorb c d, e))) eqn:C2.
    { apply andb_true_iff in C2 as [X Y]. apply qgtb_true in X, Y. rewrite (er_node v c t d e k _ _ Hok' Lv It I0), er_zero. lra. }
    destruct (qgtb (w (c, t)) (w (xorb c d, e)) && qgtb (w (c, t)) (1 - w (xorb c d, e))) eqn:C3.
    { apply andb_true_iff in C3 as [X Y]. apply qgtb_true in X, Y. rewrite (er_node v c t d e k _ _ Hok' Lv I1 Ie), er_one. lra. }
    destruct (qgtb (w (xorb c d, e)) (w (c, t)) && qgtb (w (xorb c d, e)) (1 - w (c, t))) eqn:C4.
    { apply andb_true_iff in C4 as [X Y]. apply qgtb_true in X, Y. rewrite (er_node v c t d e k _ _ Hok' Lv It I1), er_one. lra. }
    rewrite (er_node v c t d e k _ _ Hok' Lv (const_indep v _ (major_const _)) (const_indep v _ (major_const _))). lra.
Qed.
Lemma rb_range ls le ls' le' n : ls' <= ls -> ls <= le -> le <= le' ->
  forall k c, okn M k n -> (forall i, In i (varsn n) -> i < N) -> dense w n c ->
  (er (c, n) (rb M w ls le n c) <= er (c, n) (rb M w ls' le' n c))%Q.
Proof.
  intros L1 L2 L3. induction n as [|v t IHt d e IHe]; intros k c Hok HV HD; [cbn [rb]; lra|].
  pose proof (okn_top_notin _ _ _ _ _ _ Hok) as [Nt Ne]. assert (Hok' := Hok).
  cbn [okn] in Hok. destruct Hok as (_ & Ht & He & _).
  pose proof (below_then N _ _ _ _ HV) as Vt. pose proof (below_else N _ _ _ _ HV) as Ve.
  assert (Lv : v < N) by (apply HV; now left).
  pose proof (IHt _ c Ht Vt (dense_then w _ _ _ _ _ HD)) as Lt. pose proof (IHe _ (xorb c d) He Ve (dense_else w _ _ _ _ _ HD)) as Le.
  destruct (rb_min ls le t _ c Ht Vt (dense_then w _ _ _ _ _ HD)) as [T1 T2].
  destruct (rb_min ls le e _ (xorb c d) He Ve (dense_else w _ _ _ _ _ HD)) as [E1 E2].
  assert (It : forall l l' a b, ev (rb M w l l' t c) (upd a v b) = ev (rb M w l l' t c) a) by (intros; now apply rb_notin).
  assert (Ie : forall l l' a b, ev (rb M w l l' e (xorb c d)) (upd a v b) = ev (rb M w l l' e (xorb c d)) a) by (intros; now apply rb_notin).
  assert (I1 : forall a b, ev bone (upd a v b) = ev bone a) by reflexivity.
  assert (I0 : forall a b, ev (bnot bone) (upd a v b) = ev (bnot bone) a) by reflexivity.
  assert (CM : forall f q, (er f (major q) == avb N (ev f) \/ er f (major q) == 1 - avb N (ev f))%Q).
  { intros f q. unfold major. destruct (qgtb q _); [right; apply er_one|left; apply er_zero]. }
  pose proof (CM (c, t) (w (c, t))) as Mt. pose proof (CM (xorb c d, e) (w (xorb c d, e))) as Me.
  cbn [rb]. destruct (Nat.ltb_spec v ls') as [V1|V1].
  { assert (v <? ls = true) as -> by (apply Nat.ltb_lt; lia).
    rewrite (er_node v c t d e k _ _ Hok' Lv (It ls le) (Ie ls le)), (er_node v c t d e k _ _ Hok' Lv (It ls' le') (Ie ls' le')). lra. }
  destruct (Nat.ltb_spec v ls) as [V2|V2].
  - assert (v <=? le' = true) as -> by (apply Nat.leb_le; lia). cbv zeta.
    rewrite (er_node v c t d e k _ _ Hok' Lv (It ls le) (Ie ls le)).
    destruct (qgtb (w (xorb c d, e)) (w (c, t)) && _); [rewrite (er_node v c t d e k _ _ Hok' Lv I0 (Ie ls' le')), er_zero; lra|].
    destruct (qgtb (w (c, t)) (w (xorb c d, e)) && qgtb (1 - _) _); [rewrite (er_node v c t d e k _ _ Hok' Lv (It ls' le') I0), er_zero; lra|].
    destruct (qgtb (w (c, t)) (w (xorb c d, e)) && _); [rewrite (er_node v c t d e k _ _ Hok' Lv I1 (Ie ls' le')), er_one; lra|].
    destruct (qgtb (w (xorb c d, e)) (w (c, t)) && _); [rewrite (er_node v c t d e k _ _ Hok' Lv (It ls' le') I1), er_one; lra|].
    rewrite (er_node v c t d e k _ _ Hok' Lv (const_indep v _ (major_const _)) (const_indep v _ (major_const _))). lra.
  - destruct (Nat.leb_spec v le) as [V3|V3]; [|rewrite er_self; apply er_nonneg].
    assert (v <=? le' = true) as -> by (apply Nat.leb_le; lia). cbv zeta.
    destruct (qgtb (w (xorb c d, e)) (w (c, t)) && _);
      [rewrite (er_node v c t d e k _ _ Hok' Lv I0 (Ie ls' le')), (er_node v c t d e k _ _ Hok' Lv I0 (Ie ls le)); lra|].
    destruct (qgtb (w (c, t)) (w (xorb c d, e)) && qgtb (1 - _) _);
      [rewrite (er_node v c t d e k _ _ Hok' Lv (It ls' le') I0), (er_node v c t d e k _ _ Hok' Lv (It ls le) I0); lra|].
    destruct (qgtb (w (c, t)) (w (xorb c d, e)) && _);
      [rewrite (er_node v c t d e k _ _ Hok' Lv I1 (Ie ls' le')), (er_node v c t d e k _ _ Hok' Lv I1 (Ie ls le)); lra|].
    destruct (qgtb (w (xorb c d, e)) (w (c, t)) && _);
      [rewrite (er_node v c t d e k _ _ Hok' Lv (It ls' le') I1), (er_node v c t d e k _ _ Hok' Lv (It ls le) I1); lra|].
    lra.
Qed.
Lemma rr_min l n : forall k c, okn M k n -> (forall i, In i (varsn n) -> i < N) -> dense w n c ->
  (er (c, n) (rr M w l n c) <= avb N (ev (c, n)))%Q /\ (er (c, n) (rr M w l n c) <= 1 - avb N (ev (c, n)))%Q.
Proof.
  induction n as [|v t IHt d e IHe]; intros k c Hok HV HD.
  - cbn [rr]. rewrite er_self. pose proof (avb_nonneg N (ev (c, One))). pose proof (avb_le_1 N (ev (c, One))). lra.
  - pose proof (okn_top_notin _ _ _ _ _ _ Hok) as [Nt Ne]. assert (Hok' := Hok).
    cbn [okn] in Hok. destruct Hok as (_ & Ht & He & _).
    pose proof (below_then N _ _ _ _ HV) as Vt. pose proof (below_else N _ _ _ _ HV) as Ve.
    assert (Lv : v < N) by (apply HV; now left).
    destruct (IHt _ c Ht Vt (dense_then w _ _ _ _ _ HD)) as [T1 T2]. destruct (IHe _ (xorb c d) He Ve (dense_else w _ _ _ _ _ HD)) as [E1 E2].
    cbn [rr]. destruct (v <? l).
    + rewrite (av_node v c t d e k Hok' Lv), (er_node v c t d e k _ _ Hok' Lv) by (intros; now apply rr_notin). lra.
    + apply er_major. rewrite (HD _ (in_edges_refl _ _)). symmetry. exact (avb_frac M N _ _ c Hok' HV).
Qed.
Lemma rr_range l l' n : l' <= l -> forall k c, okn M k n -> (forall i, In i (varsn n) -> i < N) -> dense w n c ->
  (er (c, n) (rr M w l n c) <= er (c, n) (rr M w l' n c))%Q.
Proof.
  intro L. induction n as [|v t IHt d e IHe]; intros k c Hok HV HD; [cbn [rr]; lra|].
  pose proof (okn_top_notin _ _ _ _ _ _ Hok) as [Nt Ne]. assert (Hok' := Hok).
  cbn [okn] in Hok. destruct Hok as (_ & Ht & He & _).
  pose proof (below_then N _ _ _ _ HV) as Vt. pose proof (below_else N _ _ _ _ HV) as Ve.
  assert (Lv : v < N) by (apply HV; now left).
  pose proof (IHt _ c Ht Vt (dense_then w _ _ _ _ _ HD)) as Lt. pose proof (IHe _ (xorb c d) He Ve (dense_else w _ _ _ _ _ HD)) as Le.
  destruct (rr_min l (Nd v t d e) k c Hok' HV HD) as [B1 B2].
  cbn [rr] in *. destruct (Nat.ltb_spec v l') as [V1|V1].
  - assert (v <? l = true) as -> by (apply Nat.ltb_lt; lia).
    rewrite !(er_node v c t d e k _ _ Hok' Lv) by (intros; now apply rr_notin). lra.
  - destruct (qgtb (w (c, Nd v t d e)) (1 # 2)); [rewrite er_one|rewrite er_zero]; auto.
Qed.
End Range.

(** ** the operators *)
Lemma er_eta N f r : er N (fst f, snd f) r = disagreement N (ev f) (ev r).
Proof. now destruct f. Qed.
Lemma er_le_sub N f r r' : (forall a, ev r' a = true -> ev r a = true) -> (forall a, ev r a = true -> ev f a = true) ->
  (disagreement N (ev f) (ev r) <= disagreement N (ev f) (ev r'))%Q.
Proof.
  intros H1 H2. apply average_le. intro a. specialize (H1 a). specialize (H2 a).
  destruct (ev f a), (ev r a), (ev r' a); cbn [xorb b2q]; try lra; (specialize (H1 eq_refl) || specialize (H2 eq_refl)); discriminate.
Qed.
Lemma er_le_sup N f r r' : (forall a, ev r a = true -> ev r' a = true) -> (forall a, ev f a = true -> ev r a = true) ->
  (disagreement N (ev f) (ev r) <= disagreement N (ev f) (ev r'))%Q.
Proof.
  intros H1 H2. apply average_le. intro a. specialize (H1 a). specialize (H2 a).
  destruct (ev f a), (ev r a), (ev r' a); cbn [xorb b2q]; try lra; (specialize (H1 eq_refl) || specialize (H2 eq_refl)); discriminate.
Qed.

Lemma range_chain M ls le ls' le' k op op' f : ls' <= ls -> ls <= le -> le <= le' ->
  nth_error (the_operators M ls le) k = Some op -> nth_error (the_operators M ls' le') k = Some op' ->
  exists r r', op f = Ok r /\ op' f = Ok r'
  /\ (In k [0; 1; 4] -> forall a, (ev r' a = true -> ev r a = true) /\ (ev r a = true -> ev f a = true))
  /\ (In k [2; 3; 5] -> forall a, (ev f a = true -> ev r a = true) /\ (ev r a = true -> ev r' a = true)).
Proof.
  intros L1 L2 L3 H H'.
  pose proof (fun w rh a => rc_range_sub M w ls le ls' le' rh a (snd f) L1 L2 L3 (fst f)) as S.
  pose proof (fun w rh a => rc_range_sup M w ls le ls' le' rh a (snd f) L1 L2 L3 (fst f)) as P.
  pose proof (fun w rh a => rc_subset M w ls le rh (snd f) a (fst f)) as S'. pose proof (fun w rh a => rc_superset M w ls le rh (snd f) a (fst f)) as P'.
  rewrite edge_eta in S', P'.
  unfold the_operators in H, H'.
  do 8 (destruct k as [|k]; [cbn [nth_error] in H, H'; injection H as <-; injection H' as <-;
    unfold subset_light_child, subset_heavy_child, superset_light_child, superset_heavy_child;
    rewrite ?round_any_pure, ?round_down_pure, ?round_up_pure, ?round_bdd_pure, ?round_best_pure; eexists; eexists;
    (split; [reflexivity|]; split; [reflexivity|]; split; intro Hk; [|];
     (try (exfalso; cbn [In] in Hk; lia)); intro a; split; eauto)|]).
  destruct k; discriminate.
Qed.
Lemma range_error M n ls le ls' le' k op op' f : wf M f -> depends_below n f -> ls' <= ls -> ls <= le -> le <= le' ->
  nth_error (the_operators M ls le) k = Some op -> nth_error (the_operators M ls' le') k = Some op' ->
  exists r r', op f = Ok r /\ op' f = Ok r' /\ (disagreement n (ev f) (ev r) <= disagreement n (ev f) (ev r'))%Q.
Proof.
  intros Hf Hd L1 L2 L3 H H'. destruct (range_chain M ls le ls' le' k op op' f L1 L2 L3 H H') as (r & r' & E & E' & A & B).
  pose proof (depends_below_vars M n f Hf Hd) as HV.
  exists r, r'. split; [exact E|]. split; [exact E'|].
  assert (K : In k [0; 1; 4] \/ In k [2; 3; 5] \/ k = 6 \/ k = 7).
  { assert (k < 8) by (change 8 with (length (the_operators M ls le)); apply nth_error_Some; congruence). cbn [In]. lia. }
  destruct K as [K|[K|[->| ->]]].
  - apply er_le_sub; intros a; apply (A K a).
  - apply er_le_sup; intros a; apply (B K a).
  - cbn in H, H'. injection H as <-. injection H' as <-. rewrite round_bdd_pure in E, E'. injection E as <-. injection E' as <-.
    rewrite <- !er_eta. exact (rr_range M _ n ls ls' (snd f) L1 0 (fst f) Hf HV (minterms_dense f)).
  - cbn in H, H'. injection H as <-. injection H' as <-. rewrite round_best_pure in E, E'. injection E as <-. injection E' as <-.
    rewrite <- !er_eta. exact (rb_range M _ n ls le ls' le' (snd f) L1 L2 L3 0 (fst f) Hf HV (minterms_dense f)).
Qed.
Lemma best_constant M n ls le k op f : wf M f -> depends_below n f -> k = 6 \/ k = 7 ->
  nth_error (the_operators M ls le) k = Some op ->
  exists r, op f = Ok r /\ forall c : bool, (disagreement n (ev f) (ev r) <= disagreement n (ev f) (fun _ => c))%Q.
Proof.
  intros Hf Hd K H. pose proof (depends_below_vars M n f Hf Hd) as HV.
  assert (X : forall c : bool, (disagreement n (ev f) (fun _ => c) == if c then 1 - avb n (ev f) else avb n (ev f))%Q).
  { intro c. exact (avb_const_xor n (ev f) c). }
  destruct K as [->| ->]; cbn in H; injection H as <-.
  - rewrite round_bdd_pure. eexists. split; [reflexivity|]. intro c. rewrite X, <- er_eta.
    pose proof (rr_min M _ n ls (snd f) 0 (fst f) Hf HV (minterms_dense f)) as [A B]. rewrite edge_eta in A at 2. rewrite edge_eta in B at 2. now destruct c.
  - rewrite round_best_pure. eexists. split; [reflexivity|]. intro c. rewrite X, <- er_eta.
    pose proof (rb_min M _ n ls le (snd f) 0 (fst f) Hf HV (minterms_dense f)) as [A B]. rewrite edge_eta in A at 2. rewrite edge_eta in B at 2. now destruct c.
Qed.

(** ** vectors of outputs *)
Inductive three (P : bdd -> bdd -> bdd -> Prop) : list bdd -> list bdd -> list bdd -> Prop :=
| three_nil : three P [] [] []
| three_cons x y z f g h : P x y z -> three P f g h -> three P (x :: f) (y :: g) (z :: h).
Lemma three_of (P : bdd -> bdd -> bdd -> Prop) (op op' : bdd -> res bdd) f g h (W : bdd -> Prop) :
  (forall x, W x -> exists y z, op x = Ok y /\ op' x = Ok z /\ P x y z) -> Forall W f ->
  Forall2 (fun x y => op x = Ok y) f g -> Forall2 (fun x y => op' x = Ok y) f h -> three P f g h.
Proof.
  intro HP. intros HW HG. revert h HW. induction HG as [|x y f g E HG IH]; intros h HW HH.
  - inversion HH. constructor.
  - inversion HH as [|? z ? h' E' HH']; subst. inversion HW as [|? ? W1 W2]; subst. constructor; auto.
    destruct (HP x W1) as (y' & z' & A & B & C). rewrite A in E. rewrite B in E'. injection E as ->. injection E' as ->. exact C.
Qed.
Lemma three_length P f g h : three P f g h -> length f = length g /\ length f = length h.
Proof. induction 1; cbn [length]; lia. Qed.
Definition nearer (x y z : bdd) : Prop := forall a, xorb (ev x a) (ev y a) = true -> xorb (ev x a) (ev z a) = true.
Lemma three_hamming f g h a : three nearer f g h -> (hamming f g a <= hamming f h a)%Z.
Proof.
  induction 1 as [|x y z f g h H T IH]; cbn [hamming]; [lia|]. specialize (H a).
  destruct (xorb (ev x a) (ev y a)); [rewrite (H eq_refl)|destruct (xorb (ev x a) (ev z a))]; cbn [Z.b2z]; lia.
Qed.
Lemma three_differ f g h a : three nearer f g h -> differ f g a = true -> differ f h a = true.
Proof.
  induction 1 as [|x y z f g h H T IH]; cbn [differ]; [auto|]. specialize (H a). rewrite !orb_true_iff. intuition.
Qed.
Lemma three_impl (P Q : bdd -> bdd -> bdd -> Prop) f g h : (forall x y z, P x y z -> Q x y z) -> three P f g h -> three Q f g h.
Proof. intro I. induction 1; constructor; auto. Qed.
Lemma three_first (R : bdd -> bdd -> Prop) f g h : three (fun x y z => R x y) f g h -> Forall2 R f g.
Proof. induction 1; auto. Qed.
Lemma three_second (R : bdd -> bdd -> Prop) f g h : three (fun x y z => R y z) f g h -> Forall2 R g h.
Proof. induction 1; auto. Qed.

Definition metrics_le (M : mgr) (n : nat) (f g h : list bdd) : Prop :=
  (exists q q', error_rate M f g = Ok q /\ error_rate M f h = Ok q' /\ (q <= q')%Q)
  /\ (exists q q', average_bit_flip_error M f g = Ok q /\ average_bit_flip_error M f h = Ok q' /\ (q <= q')%Q)
  /\ (exists m m', worst_case_bit_flip_error M f g = Ok m /\ worst_case_bit_flip_error M f h = Ok m' /\ (m <= m')%Z)
  /\ (exists q q', average_case_error M f g BaseTwo = Ok (Fin q) /\ average_case_error M f h BaseTwo = Ok (Fin q') /\ (q <= q')%Q)
  /\ (exists m m', worst_case_error M f g BaseTwo = Ok m /\ worst_case_error M f h BaseTwo = Ok m' /\ (m <= m')%Z).
Lemma metrics_mono M n f g h : wfs M f -> wfs M g -> wfs M h -> below n f -> below n g -> below n h -> length f + n < 256 ->
  three nearer f g h -> (forall a, dist (uval f a) (uval g a) <= dist (uval f a) (uval h a))%Z -> metrics_le M n f g h.
Proof.
  intros Wf Wg Wh Bf Bg Bh L T D. destruct (three_length _ _ _ _ T) as [L1 L2].
  assert (MX : forall (F G : asg -> Z) m m', (forall a, F a <= G a)%Z -> is_max F m -> is_max G m' -> (m <= m')%Z).
  { intros F G m m' H [(a & <-) _] [_ HU]. specialize (H a). specialize (HU a). lia. }
  unfold metrics_le. split; [|split; [|split; [|split]]].
  - destruct (error_rate_full M n f g Wf Wg Bf Bg) as [X _]. destruct (X L1) as (q & E & V & _).
    destruct (error_rate_full M n f h Wf Wh Bf Bh) as [X' _]. destruct (X' L2) as (q' & E' & V' & _).
    exists q, q'. split; [exact E|]. split; [exact E'|]. rewrite V, V'. apply average_le. intro a. pose proof (three_differ _ _ _ a T) as Y.
    destruct (differ f g a), (differ f h a); cbn [b2q]; try lra; discriminate (Y eq_refl).
  - destruct (average_bit_flip_full M n f g Wf Wg Bf Bg) as [X _]. destruct (X L1) as (q & E & V).
    destruct (average_bit_flip_full M n f h Wf Wh Bf Bh) as [X' _]. destruct (X' L2) as (q' & E' & V').
    exists q, q'. split; [exact E|]. split; [exact E'|]. rewrite V, V'. apply average_le. intro a. rewrite <- Zle_Qle. now apply three_hamming.
  - destruct (worst_case_bit_flip_full M n f g Wf Wg L1) as [X _]. destruct X as (q & E & V); [lia|].
    destruct (worst_case_bit_flip_full M n f h Wf Wh L2) as [X' _]. destruct X' as (q' & E' & V'); [lia|].
    exists q, q'. split; [exact E|]. split; [exact E'|]. apply (MX (hamming f g) (hamming f h)); auto. intro a. now apply three_hamming.
  - destruct (ace_spec M n f g BaseTwo Wf Wg Bf Bg) as (q & E & V); [discriminate|rewrite <- L1, Nat.max_id; lia|].
    destruct (ace_spec M n f h BaseTwo Wf Wh Bf Bh) as (q' & E' & V'); [discriminate|rewrite <- L2, Nat.max_id; lia|].
    exists q, q'. split; [exact E|]. split; [exact E'|]. rewrite V, V'. apply average_le. intro a. rewrite <- Zle_Qle. apply D.
  - destruct (wce_base_spec M f g Wf Wg) as (q & E & V); [lia|lia|].
    destruct (wce_base_spec M f h Wf Wh) as (q' & E' & V'); [lia|lia|].
    exists q, q'. split; [exact E|]. split; [exact E'|]. exact (MX _ _ _ _ D V V').
Qed.
Lemma op_good M n ls le k op x y : wf M x -> depends_below n x -> nth_error (the_operators M ls le) k = Some op -> op x = Ok y ->
  wf M y /\ depends_below n y.
Proof.
  intros Hx Hd Hop E. assert (HV := depends_below_vars M n x Hx Hd). pose proof (nth_error_In _ _ Hop) as Hin.
  assert (W : wf M y).
  { pose proof (subset_ops M x ls le Hx) as (S1 & S2 & S3). pose proof (superset_ops M x ls le Hx) as (P1 & P2 & P3).
    clear Hop. unfold the_operators in Hin. repeat (destruct Hin as [<-|Hin]); [..|destruct Hin].
    - destruct S1 as (r & A & B & _). congruence.
    - destruct S2 as (r & A & B & _). congruence.
    - destruct P1 as (r & A & B & _). congruence.
    - destruct P2 as (r & A & B & _). congruence.
    - destruct S3 as (r & A & B & _). congruence.
    - destruct P3 as (r & A & B & _). congruence.
    - rewrite round_bdd_pure in E. injection E as <-. apply rr_wf.
    - rewrite round_best_pure in E. injection E as <-. apply rb_wf. now apply wf_edge. }
  split; [exact W|]. destruct (ops_support M ls le op x Hin Hx) as (r & E' & S). rewrite E in E'. injection E' as <-.
  intros a b H. apply (vars_depends_below n y); auto.
  intros i Hi. apply HV. apply support_in. apply S. now apply support_in.
Qed.
Lemma ops_good M n ls le k op f g : wfs M f -> below n f -> nth_error (the_operators M ls le) k = Some op ->
  Forall2 (fun x y => op x = Ok y) f g -> wfs M g /\ below n g.
Proof.
  intros W B Hop H. revert W B. induction H as [|x y f g E H IH]; intros W B; [split; constructor|].
  inversion W; subst. inversion B; subst. destruct (op_good M n ls le k op x y) as [W1 B1]; auto.
  destruct IH as [W2 B2]; auto. split; constructor; auto.
Qed.
Lemma range_metrics M n ls le ls' le' k op op' f g h : wfs M f -> below n f -> length f + n < 256 ->
  ls' <= ls -> ls <= le -> le <= le' ->
  nth_error (the_operators M ls le) k = Some op -> nth_error (the_operators M ls' le') k = Some op' ->
  Forall2 (fun x y => op x = Ok y) f g -> Forall2 (fun x y => op' x = Ok y) f h ->
  (k < 6 -> metrics_le M n f g h)
  /\ exists q q', average_bit_flip_error M f g = Ok q /\ average_bit_flip_error M f h = Ok q' /\ (q <= q')%Q.
Proof.
  intros W B L L1 L2 L3 Hop Hop' HG HH.
  destruct (ops_good M n ls le k op f g W B Hop HG) as [Wg Bg]. destruct (ops_good M n ls' le' k op' f h W B Hop' HH) as [Wh Bh].
  pose proof (fun x => range_chain M ls le ls' le' k op op' x L1 L2 L3 Hop Hop') as C.
  split.
  - intro K. assert (K' : In k [0; 1; 4] \/ In k [2; 3; 5]) by (cbn [In]; lia). destruct K' as [K'|K'].
    + assert (T : three (fun x y z => forall a, (ev z a = true -> ev y a = true) /\ (ev y a = true -> ev x a = true)) f g h).
      { apply (three_of _ op op' f g h (fun _ => True)); auto; [|apply Forall_forall; auto]. intros x _.
        destruct (C x) as (r & r' & A1 & A2 & A3 & _). exists r, r'. auto. }
      apply metrics_mono; auto.
      * revert T. apply three_impl. intros x y z H a. specialize (H a). destruct (ev x a), (ev y a), (ev z a); cbn; intuition.
      * intro a. unfold dist. assert (Forall2 (fun x y => forall a, ev y a = true -> ev x a = true) f g).
        { apply (three_first _ f g h). revert T. apply three_impl. intros x y z H b. apply H. }
        assert (Forall2 (fun x y => forall a, ev y a = true -> ev x a = true) g h).
        { apply (three_second _ f g h). revert T. apply three_impl. intros x y z H' b. apply H'. }
        pose proof (uval_anti f g a ltac:(assumption)). pose proof (uval_anti g h a ltac:(assumption)). lia.
    + assert (T : three (fun x y z => forall a, (ev x a = true -> ev y a = true) /\ (ev y a = true -> ev z a = true)) f g h).
      { apply (three_of _ op op' f g h (fun _ => True)); auto; [|apply Forall_forall; auto]. intros x _.
        destruct (C x) as (r & r' & A1 & A2 & _ & A3). exists r, r'. auto. }
      apply metrics_mono; auto.
      * revert T. apply three_impl. intros x y z H a. specialize (H a). destruct (ev x a), (ev y a), (ev z a); cbn; intuition.
      * intro a. unfold dist. assert (Forall2 (fun x y => forall a, ev x a = true -> ev y a = true) f g).
        { apply (three_first _ f g h). revert T. apply three_impl. intros x y z H b. apply H. }
        assert (Forall2 (fun x y => forall a, ev x a = true -> ev y a = true) g h).
        { apply (three_second _ f g h). revert T. apply three_impl. intros x y z H' b. apply H'. }
        pose proof (uval_mono f g a ltac:(assumption)). pose proof (uval_mono g h a ltac:(assumption)). lia.
  - assert (T : three (fun x y z => (disagreement n (ev x) (ev y) <= disagreement n (ev x) (ev z))%Q) f g h).
    { apply (three_of _ op op' f g h (fun x => wf M x /\ depends_below n x)); auto.
      - intros x [Hx Hd]. exact (range_error M n ls le ls' le' k op op' x Hx Hd L1 L2 L3 Hop Hop').
      - unfold below in B. rewrite Forall_forall in W, B |- *. auto. }
    destruct (three_length _ _ _ _ T) as [E1 E2].
    destruct (average_bit_flip_full M n f g W Wg B Bg) as [X _]. destruct (X E1) as (q & E & V).
    destruct (average_bit_flip_full M n f h W Wh B Bh) as [X' _]. destruct (X' E2) as (q' & E' & V').
    exists q, q'. split; [exact E|]. split; [exact E'|]. rewrite V, V'. clear - T.
    induction T as [|x y z f g h H T IH]; cbn [hamming]; [apply Qle_refl|].
    assert (ST : forall u (w : list bdd) v, (average n (fun a => inject_Z (Z.b2z (xorb (ev x a) (ev u a)) + hamming v w a))
      == disagreement n (ev x) (ev u) + average n (fun a => inject_Z (hamming v w a)))%Q).
    { intros u w' v. unfold disagreement. rewrite <- average_plus. apply average_ext. intro a. rewrite inject_Z_plus. destruct (xorb _ _); reflexivity. }
    rewrite !ST. lra.
Qed.
