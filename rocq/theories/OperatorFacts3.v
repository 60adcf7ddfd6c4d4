(** Proofs about the approximation operators: which child is replaced, optimality of rounding. *)
From Coq Require Import List Bool Arith ZArith QArith Lia Lqa.
From Verif Require Import Res Cudd CuddFacts Spec SpecFacts Helpers HelpersFacts HelpersFacts2 Counting AddFacts CountFacts PathFacts MetricsFacts MetricsFacts4 Operators OperatorFacts OperatorFacts2.
Import ListNotations.
Open Scope nat_scope.

(** ** shape of the result *)
Definition respects (w W : bdd -> Q) (n : node) (c : bool) : Prop :=
  forall k k', In k (edges n c) -> In k' (edges n c) -> (w k <= w k')%Q <-> (W k <= W k')%Q.
Lemma respects_then w W v t d e c : respects w W (Nd v t d e) c -> respects w W t c.
Proof. intros H k k' Hk Hk'. apply H; cbn [edges]; right; apply in_or_app; auto. Qed.
Lemma respects_else w W v t d e c : respects w W (Nd v t d e) c -> respects w W e (xorb c d).
Proof. intros H k k' Hk Hk'. apply H; cbn [edges]; right; apply in_or_app; auto. Qed.

Definition choice (W : bdd -> Q) (rh k : bool) := if rh then heavy_const W k else light_const W k.

Lemma rc_shape M w W ls le rh sub n : forall c, respects w W n c ->
  at_range ls le (choice W rh (negb sub)) (c, n) (ev (rc M w ls le rh sub n c)).
Proof.
  induction n as [|v t IHt d e IHe]; intros c HR.
  - apply ar_const. intro a. cbn. now destruct c.
  - pose proof (IHt c (respects_then _ _ _ _ _ _ _ HR)) as It. pose proof (IHe (xorb c d) (respects_else _ _ _ _ _ _ _ HR)) as Ie.
    cbn [rc]. destruct (v <? ls) eqn:E1.
    + apply Nat.ltb_lt in E1. eapply ar_before; eauto. intro a. apply ev_itev.
    + apply Nat.ltb_ge in E1. destruct (v <=? le) eqn:E2; [apply Nat.leb_le in E2|apply Nat.leb_gt in E2].
      * eapply ar_in; eauto.
        assert (It' : In (c, t) (edges (Nd v t d e) c)) by (cbn [edges]; right; apply in_or_app; left; apply in_edges_refl).
        assert (Ie' : In (xorb c d, e) (edges (Nd v t d e) c)) by (cbn [edges]; right; apply in_or_app; right; apply in_edges_refl).
        pose proof (HR _ _ It' Ie') as HR1.
        assert (T1 : then_const v (negb sub) (ev (rc M w ls le rh sub e (xorb c d))) (ev (ite M (bvar v) (repl sub) (rc M w ls le rh sub e (xorb c d)))))
          by (intro a; rewrite ev_itev, ev_repl; auto).
        assert (T2 : else_const v (negb sub) (ev (rc M w ls le rh sub t c)) (ev (ite M (bvar v) (rc M w ls le rh sub t c) (repl sub))))
          by (intro a; rewrite ev_itev, ev_repl; auto).
        destruct (qgtb (w (c, t)) (w (xorb c d, e))) eqn:E3.
        -- apply qgtb_true in E3. assert (W (xorb c d, e) < W (c, t))%Q.
           { destruct (Qlt_le_dec (W (xorb c d, e)) (W (c, t))) as [L|L]; auto. apply HR1 in L. lra. }
           destruct rh; cbn [Bool.eqb choice]; [left|right]; auto.
        -- apply qgtb_false in E3. apply HR1 in E3. destruct rh; cbn [Bool.eqb choice]; [right|left]; auto.
      * apply ar_after; auto.
Qed.

Lemma respects_frac f M n : wf M f -> depends_below n f -> respects (wt_of (count_minterms f)) (density n) (snd f) (fst f).
Proof.
  intros Hf Hd. assert (D : forall k, In k (edges (snd f) (fst f)) -> (wt_of (count_minterms f) k == density n k)%Q).
  { intros k Hk. rewrite (minterms_wt f k Hk). unfold density. apply (frac_average M).
    - exact (edges_wf M (snd f) (fst f) 0 k Hf Hk).
    - eapply reachable_below; eauto. now apply (depends_below_vars M). }
  intros k k' Hk Hk'. now rewrite (D k Hk), (D k' Hk').
Qed.
Lemma respects_sols f M : index_order M -> wf M f ->
  respects (wt_of (count_solutions f)) (own_solutions (terminal_level [[f]])) (snd f) (fst f).
Proof.
  intros HI Hf. assert (D : forall k, In k (edges (snd f) (fst f)) -> (wt_of (count_solutions f) k == own_solutions (terminal_level [[f]]) k)%Q).
  { intros k Hk. destruct (count_solutions_full M f HI Hf) as (ND & _ & H).
    pose proof (solutions_complete f k Hk) as HC. destruct (blookup_key k _ HC) as [q E]. unfold wt_of. rewrite E.
    apply blookup_some in E. specialize (H k q E). unfold own_solutions. unfold node_level in H. fold (pow2 (match snd k with One => terminal_level [[f]] | Nd v _ _ _ => v end)).
    rewrite <- H. field. apply pow2Q_nz. }
  intros k k' Hk Hk'. now rewrite (D k Hk), (D k' Hk').
Qed.

(** ** optimality of rounding *)
Lemma xor_extb F G : extb F -> extb G -> extb (fun a => xorb (F a) (G a)).
Proof. intros HF HG a b E. now rewrite (HF a b E), (HG a b E). Qed.
Lemma below_fun_extb l h : below_fun l h -> extb h.
Proof. intros H a b E. apply H. auto. Qed.
Lemma upd_extb F v b : extb F -> extb (fun a => F (upd a v b)).
Proof. intros H x y E. apply H. intro i. unfold upd. destruct (i =? v); auto. Qed.

Lemma indep_bound N F m : extb F -> (m <= avb N F)%Q -> (m <= 1 - avb N F)%Q ->
  forall l h, (forall i, i < l -> forall a b, F (upd a i b) = F a) -> below_fun l h -> l <= N ->
  (m <= avb N (fun a => xorb (F a) (h a)))%Q.
Proof.
  intros HF H1 H2. induction l as [|l IH]; intros h HI Hb Hl.
  - set (k := h (fun _ => false)).
    rewrite (avb_ext N _ (fun a => xorb (F a) k)).
    2:{ intro a. f_equal. apply Hb. intros; lia. }
    destruct k.
    + rewrite (avb_ext N _ (fun a => negb (F a))) by (intro a; now destruct (F a)). rewrite avb_neg. auto.
    + rewrite (avb_ext N _ F) by (intro a; now destruct (F a)). auto.
  - rewrite (avb_split N l) by (try lia; apply xor_extb; auto; eapply below_fun_extb; eauto).
    assert (HB : forall b, below_fun l (fun a => h (upd a l b))).
    { intros b x y E. apply Hb. intros i Hi. unfold upd. destruct (i =? l) eqn:El; auto. apply E. apply Nat.eqb_neq in El. lia. }
    pose proof (IH _ (fun i Hi => HI i (Nat.lt_lt_succ_r _ _ Hi)) (HB true) ltac:(lia)) as I1.
    pose proof (IH _ (fun i Hi => HI i (Nat.lt_lt_succ_r _ _ Hi)) (HB false) ltac:(lia)) as I2.
    rewrite (avb_ext N (fun a => xorb (F (upd a l true)) (h (upd a l true))) (fun a => xorb (F a) (h (upd a l true))))
      by (intro a; now rewrite HI by lia).
    rewrite (avb_ext N (fun a => xorb (F (upd a l false)) (h (upd a l false))) (fun a => xorb (F a) (h (upd a l false))))
      by (intro a; now rewrite HI by lia).
    cbn beta in I1, I2. lra.
Qed.

Lemma at_range_const ls le R c h : at_range ls le R (c, One) h -> forall a, h a = negb c.
Proof. intro H. inversion H. auto. Qed.
Lemma at_range_inv ls le R c v t d e h : at_range ls le R (c, Nd v t d e) h ->
  (v < ls /\ exists ht he, at_range ls le R (c, t) ht /\ at_range ls le R (xorb c d, e) he /\ forall a, h a = if a v then ht a else he a)
  \/ (ls <= v <= le /\ exists ht he, at_range ls le R (c, t) ht /\ at_range ls le R (xorb c d, e) he /\ R v (c, t) (xorb c d, e) ht he h)
  \/ (le < v /\ ls <= v /\ forall a, h a = ev (c, Nd v t d e) a).
Proof. intro H. inversion H; subst; [left|right; left|right; right]; eauto 10. Qed.

Section Round.
Variable M : mgr.
Variable w : bdd -> Q.
Variable l : nat.
Variable N : nat.

Lemma rr_wf n : forall c, wf M (rr M w l n c).
Proof.
  induction n as [|v t IHt d e IHe]; intro c; [exact I|]. cbn [rr].
  destruct (v <? l); [apply wf_ite; auto with wf|]. destruct (qgtb _ _); exact I.
Qed.
Lemma rr_below n : forall c, below_fun l (ev (rr M w l n c)).
Proof.
  induction n as [|v t IHt d e IHe]; intros c a b E; [reflexivity|]. cbn [rr].
  destruct (v <? l) eqn:El.
  - apply Nat.ltb_lt in El. rewrite !ev_itev, (E v El), (IHt c a b E), (IHe (xorb c d) a b E). reflexivity.
  - destruct (qgtb _ _); reflexivity.
Qed.
Lemma rr_notin n v b a : forall c, ~ In v (varsn n) -> ev (rr M w l n c) (upd a v b) = ev (rr M w l n c) a.
Proof.
  induction n as [|x t IHt d e IHe]; intros c H; [reflexivity|].
  cbn [varsn In] in H. rewrite in_app_iff in H. cbn [rr].
  destruct (x <? l); [rewrite !ev_itev, upd_other, IHt, IHe by (try (intro; subst); tauto); auto|].
  destruct (qgtb _ _); reflexivity.
Qed.

Lemma avb_const_xor F k : (avb N (fun a => xorb (F a) k) == if k then 1 - avb N F else avb N F)%Q.
Proof.
  destruct k.
  - rewrite <- avb_neg. apply avb_ext. intro a. now destruct (F a).
  - apply avb_ext. intro a. now destruct (F a).
Qed.

Lemma rr_optimal (HI : index_order M) n : forall k c h, okn M k n -> (forall i, In i (varsn n) -> i < N) -> dense w n c ->
  below_fun l h ->
  (avb N (fun a => xorb (ev (c, n) a) (ev (rr M w l n c) a)) <= avb N (fun a => xorb (ev (c, n) a) (h a)))%Q.
Proof.
  induction n as [|v t IHt d e IHe]; intros k c h Hok HV HD Hh.
  - rewrite (avb_ext N _ (fun _ => false)) by (intro a; cbn; now destruct c). rewrite avb_const. apply avb_nonneg.
  - pose proof (okn_top_notin _ _ _ _ _ _ Hok) as [Nt Ne]. assert (Hok' := Hok).
    cbn [okn] in Hok. rewrite HI in Hok. destruct Hok as (Lk & Ht & He & _).
    pose proof (below_then N _ _ _ _ HV) as Vt. pose proof (below_else N _ _ _ _ HV) as Ve.
    assert (Lv : v < N) by (apply HV; now left).
    cbn [rr]. destruct (v <? l) eqn:E1.
    + apply Nat.ltb_lt in E1.
      assert (HB : forall b, below_fun l (fun a => h (upd a v b))).
      { intros b x y E. apply Hh. intros i Hi. unfold upd. destruct (i =? v); auto. }
      pose proof (IHt _ c _ Ht Vt (dense_then w _ _ _ _ _ HD) (HB true)) as It.
      pose proof (IHe _ (xorb c d) _ He Ve (dense_else w _ _ _ _ _ HD) (HB false)) as Ie.
      pose proof (avb_split N v (fun a => xorb (ev (c, Nd v t d e) a) (h a))
        (xor_extb _ _ (ev_extb _) (below_fun_extb _ _ Hh)) Lv) as S1.
      pose proof (avb_split N v (fun a => xorb (ev (c, Nd v t d e) a) (ev (ite M (bvar v) (rr M w l t c) (rr M w l e (xorb c d))) a))
        (xor_extb _ _ (ev_extb _) (ev_extb _)) Lv) as S2.
      rewrite S1, S2. clear S1 S2. cbn beta.
      rewrite (avb_ext N (fun a => xorb (ev (c, Nd v t d e) (upd a v true)) (h (upd a v true)))
        (fun a => xorb (ev (c, t) a) (h (upd a v true)))) by (intro a; now rewrite ev_nd, upd_same, ev_upd_notin).
      rewrite (avb_ext N (fun a => xorb (ev (c, Nd v t d e) (upd a v false)) (h (upd a v false)))
        (fun a => xorb (ev (xorb c d, e) a) (h (upd a v false)))) by (intro a; now rewrite ev_nd, upd_same, ev_upd_notin).
      rewrite (avb_ext N (fun a => xorb (ev (c, Nd v t d e) (upd a v true)) (ev (ite M (bvar v) (rr M w l t c) (rr M w l e (xorb c d))) (upd a v true)))
        (fun a => xorb (ev (c, t) a) (ev (rr M w l t c) a))) by (intro a; now rewrite ev_nd, ev_itev, upd_same, ev_upd_notin, rr_notin).
      rewrite (avb_ext N (fun a => xorb (ev (c, Nd v t d e) (upd a v false)) (ev (ite M (bvar v) (rr M w l t c) (rr M w l e (xorb c d))) (upd a v false)))
        (fun a => xorb (ev (xorb c d, e) a) (ev (rr M w l e (xorb c d)) a))) by (intro a; now rewrite ev_nd, ev_itev, upd_same, ev_upd_notin, rr_notin).
      cbn beta in It, Ie. lra.
    + apply Nat.ltb_ge in E1.
      pose proof (HD (c, Nd v t d e) (in_edges_refl _ _)) as Wn.
      pose proof (avb_frac M N _ _ c Hok' HV) as Fn.
      assert (B : (avb N (fun a => xorb (ev (c, Nd v t d e) a) (ev (if qgtb (w (c, Nd v t d e)) (1#2) then bone else bnot bone) a))
                <= avb N (ev (c, Nd v t d e)))%Q /\
                (avb N (fun a => xorb (ev (c, Nd v t d e) a) (ev (if qgtb (w (c, Nd v t d e)) (1#2) then bone else bnot bone) a))
                <= 1 - avb N (ev (c, Nd v t d e)))%Q).
      { destruct (qgtb (w (c, Nd v t d e)) (1#2)) eqn:Eq.
        - apply qgtb_true in Eq. pose proof (avb_const_xor (ev (c, Nd v t d e)) true) as X. cbn beta iota in X.
          change (ev bone) with (fun _ : asg => true). cbn beta. rewrite X. lra.
        - apply qgtb_false in Eq. pose proof (avb_const_xor (ev (c, Nd v t d e)) false) as X. cbn beta iota in X.
          change (ev (bnot bone)) with (fun _ : asg => false). cbn beta. rewrite X. lra. }
      apply (indep_bound N (ev (c, Nd v t d e)) _ (ev_extb _) (proj1 B) (proj2 B) l h); auto; [|lia].
      intros i Hi a b. apply ev_upd_notin. cbn [snd]. intro Hin.
      assert (Lv2 : v <= lv M i).
      { apply (okn_vars M v (Nd v t d e)); auto. cbn [okn]. rewrite HI. cbn [okn] in Hok'. rewrite HI in Hok'. intuition lia. }
      rewrite HI in Lv2. lia.
Qed.

(** ** round_best at a single level *)
Lemma rb_wf le n : forall c, wf M (c, n) -> wf M (rb M w l le n c).
Proof.
  induction n as [|v t IHt d e IHe]; intros c H; [exact I|]. cbn [rb].
  pose proof (IHt c (wf_then _ _ _ _ _ _ H)). pose proof (IHe (xorb c d) (wf_else _ _ _ _ _ _ _ H)).
  assert (wf M (bnot bone)) by exact I. assert (forall q, wf M (major q)) by (intro q; unfold major; destruct (qgtb q _); exact I).
  destruct (v <? l); [apply wf_ite; auto with wf|]. destruct (v <=? le); auto. cbv zeta.
  repeat match goal with |- context [if ?b then _ else _] => destruct b end; apply wf_ite; auto with wf.
Qed.
Lemma rb_outside le n a : (forall i, In i (varsn n) -> ~ l <= i <= le) ->
  forall c, ev (rb M w l le n c) a = ev (c, n) a.
Proof.
  induction n as [|v t IHt d e IHe]; intros H c; [reflexivity|]. cbn [rb]. cbn [varsn In] in H.
  destruct (v <? l) eqn:E1; [|apply Nat.ltb_ge in E1; destruct (v <=? le) eqn:E2; auto].
  - rewrite ev_itev, ev_nd, IHt, IHe; auto; intros i Hi; apply H; right; apply in_or_app; auto.
  - apply Nat.leb_le in E2. exfalso. apply (H v); auto.
Qed.
Lemma rb_notin le n v b a : forall c, ~ In v (varsn n) -> ev (rb M w l le n c) (upd a v b) = ev (rb M w l le n c) a.
Proof.
  induction n as [|x t IHt d e IHe]; intros c H; [reflexivity|].
  pose proof (ev_upd_notin (c, Nd x t d e) a v b H) as Hid.
  cbn [varsn In] in H. rewrite in_app_iff in H. cbn [rb].
  assert (Hx : upd a v b x = a x) by (apply upd_other; intro; subst; tauto).
  assert (Hm : forall q, ev (major q) (upd a v b) = ev (major q) a) by (intro q; unfold major; destruct (qgtb q _); reflexivity).
  destruct (x <? l); [rewrite !ev_itev, Hx, IHt, IHe by tauto; auto|]. destruct (x <=? le); auto. cbv zeta.
  assert (forall y, ev bone y = true) by reflexivity. assert (forall y, ev (bnot bone) y = false) by reflexivity.
  repeat match goal with |- context [if ?b then ite _ _ _ _ else _] => destruct b end;
    rewrite !ev_itev, Hx, ?IHt, ?IHe, ?Hm by tauto; reflexivity.
Qed.
Lemma at_range_outside ls le R n : forall c h, (forall i, In i (varsn n) -> ~ ls <= i <= le) ->
  at_range ls le R (c, n) h -> forall a, h a = ev (c, n) a.
Proof.
  induction n as [|v t IHt d e IHe]; intros c h H HA a.
  - rewrite (at_range_const _ _ _ _ _ HA). cbn. now destruct c.
  - cbn [varsn In] in H. destruct (at_range_inv _ _ _ _ _ _ _ _ _ HA) as [(L & ht & he & H6 & H7 & H8)|[(L & ht & he & H6 & H7 & H8)|(L & _ & H8)]]; auto.
    + rewrite ev_nd, H8, (IHt c ht), (IHe (xorb c d) he); auto; intros i Hi; apply H; right; apply in_or_app; auto.
    + exfalso. apply (H v); auto.
Qed.

Definition tie_free (n : node) (c : bool) : Prop :=
  forall c' t d e, In (c', Nd l t d e) (edges n c) ->
    ~ (frac (c', t) == frac (xorb c' d, e))%Q /\ ~ (frac (c', t) + frac (xorb c' d, e) == 1)%Q.
Lemma tie_free_then v t d e c : tie_free (Nd v t d e) c -> tie_free t c.
Proof. intros H c' t' d' e' Hi. apply H. cbn [edges]. right. apply in_or_app. auto. Qed.
Lemma tie_free_else v t d e c : tie_free (Nd v t d e) c -> tie_free e (xorb c d).
Proof. intros H c' t' d' e' Hi. apply H. cbn [edges]. right. apply in_or_app. auto. Qed.

Lemma err_if v (F G f g : asg -> bool) c t d e k : okn M k (Nd v t d e) -> v < N ->
  (forall a, F a = if a v then f a else g a) -> extb f -> extb g ->
  (forall a b, f (upd a v b) = f a) -> (forall a b, g (upd a v b) = g a) ->
  (forall a, G a = ev (c, Nd v t d e) a) ->
  (avb N (fun a => xorb (G a) (F a)) ==
   (1#2) * (avb N (fun a => xorb (ev (c, t) a) (f a)) + avb N (fun a => xorb (ev (xorb c d, e) a) (g a))))%Q.
Proof.
  intros Hok Lv HF Ef Eg If Ig HG. destruct (okn_top_notin _ _ _ _ _ _ Hok) as [Nt Ne].
  rewrite <- (avb_if N v); auto using xor_extb, ev_extb.
  - apply avb_ext. intro a. rewrite HF, HG, ev_nd. now destruct (a v).
  - intros a b. now rewrite ev_upd_notin, If.
  - intros a b. now rewrite ev_upd_notin, Ig.
Qed.

Lemma at_range_extb ls le n : forall c h, at_range ls le child_const (c, n) h -> extb h.
Proof.
  induction n as [|v t IHt d e IHe]; intros c h HA a b E.
  - now rewrite !(at_range_const _ _ _ _ _ HA).
  - destruct (at_range_inv _ _ _ _ _ _ _ _ _ HA) as [(L & ht & he & H6 & H7 & H8)|[(L & ht & he & H6 & H7 & H8)|(L & _ & H8)]].
    + rewrite !H8, (E v), (IHt c ht H6 a b E), (IHe _ he H7 a b E). reflexivity.
    + destruct H8 as (k & [Hk|Hk]); rewrite !Hk, (E v); [rewrite (IHe _ he H7 a b E)|rewrite (IHt c ht H6 a b E)]; reflexivity.
    + rewrite !H8. now apply ev_ext.
Qed.
Lemma at_range_notin ls le n v b : forall c h, at_range ls le child_const (c, n) h -> ~ In v (varsn n) ->
  forall a, h (upd a v b) = h a.
Proof.
  induction n as [|x t IHt d e IHe]; intros c h HA Hn a.
  - now rewrite !(at_range_const _ _ _ _ _ HA).
  - assert (Hn' := Hn). cbn [varsn In] in Hn. rewrite in_app_iff in Hn.
    assert (Hx : upd a v b x = a x) by (apply upd_other; intro; subst; tauto).
    destruct (at_range_inv _ _ _ _ _ _ _ _ _ HA) as [(L & ht & he & H6 & H7 & H8)|[(L & ht & he & H6 & H7 & H8)|(L & _ & H8)]].
    + rewrite !H8, Hx, (IHt c ht H6), (IHe _ he H7) by tauto. reflexivity.
    + destruct H8 as (k & [Hk|Hk]); rewrite !Hk, Hx; [rewrite (IHe _ he H7) by tauto|rewrite (IHt c ht H6) by tauto]; reflexivity.
    + rewrite !H8. now apply ev_upd_notin.
Qed.

Lemma rb_bound n : forall k c h, okn M k n -> (forall i, In i (varsn n) -> i < N) -> dense w n c ->
  at_range l l child_const (c, n) h ->
  (avb N (fun a => xorb (ev (c, n) a) (ev (rb M w l l n c) a)) <= 2 * avb N (fun a => xorb (ev (c, n) a) (h a)))%Q
  /\ (tie_free n c ->
     (avb N (fun a => xorb (ev (c, n) a) (ev (rb M w l l n c) a)) <= avb N (fun a => xorb (ev (c, n) a) (h a)))%Q).
Proof.
  induction n as [|v t IHt d e IHe]; intros k c h Hok HV HD HA.
  - cbn [rb]. rewrite (avb_ext N (fun a => xorb (ev (c, One) a) (ev (c, One) a)) (fun _ => false)) by (intro a; now rewrite xorb_nilpotent).
    rewrite avb_const. cbn [b2q]. pose proof (avb_nonneg N (fun a => xorb (ev (c, One) a) (h a))). split; intros; lra.
  - pose proof (okn_top_notin _ _ _ _ _ _ Hok) as [Nt Ne]. assert (Hok' := Hok).
    cbn [okn] in Hok. destruct Hok as (Lk & Ht & He & _).
    pose proof (below_then N _ _ _ _ HV) as Vt. pose proof (below_else N _ _ _ _ HV) as Ve.
    assert (Lv : v < N) by (apply HV; now left).
    destruct (at_range_inv _ _ _ _ _ _ _ _ _ HA) as [(L & ht & he & H5 & H6 & H7)|[(L & ht & he & H5 & H6 & H7)|(L & L' & H7)]].
    + cbn [rb]. assert (v <? l = true) as -> by now apply Nat.ltb_lt.
      destruct (IHt _ c ht Ht Vt (dense_then w _ _ _ _ _ HD) H5) as [It1 It2].
      destruct (IHe _ (xorb c d) he He Ve (dense_else w _ _ _ _ _ HD) H6) as [Ie1 Ie2].
      rewrite (err_if v _ _ (ev (rb M w l l t c)) (ev (rb M w l l e (xorb c d))) c t d e k Hok' Lv (fun a => ev_itev M v _ _ a))
        by (auto using ev_extb, rb_notin).
      rewrite (err_if v _ _ ht he c t d e k Hok' Lv H7) by (eauto using at_range_extb, at_range_notin).
      split; [lra|]. intro TF. specialize (It2 (tie_free_then _ _ _ _ _ TF)). specialize (Ie2 (tie_free_else _ _ _ _ _ TF)). lra.
    + assert (v = l) by lia. subst v. cbn [rb]. rewrite Nat.ltb_irrefl, Nat.leb_refl. cbv zeta.
      assert (Ot : forall i, In i (varsn t) -> ~ l <= i <= l) by (intros i Hi Hb; apply Nt; replace l with i by lia; auto).
      assert (Oe : forall i, In i (varsn e) -> ~ l <= i <= l) by (intros i Hi Hb; apply Ne; replace l with i by lia; auto).
      pose proof (at_range_outside _ _ _ _ _ _ Ot H5) as Xt. pose proof (at_range_outside _ _ _ _ _ _ Oe H6) as Xe.
      pose proof (fun a => rb_outside l t a Ot c) as Yt. pose proof (fun a => rb_outside l e a Oe (xorb c d)) as Ye.
      pose proof (HD (c, t) ltac:(cbn [edges]; right; apply in_or_app; left; apply in_edges_refl)) as Wt.
      pose proof (HD (xorb c d, e) ltac:(cbn [edges]; right; apply in_or_app; right; apply in_edges_refl)) as We.
      pose proof (avb_frac M N _ t c Ht Vt) as Ft. pose proof (avb_frac M N _ e (xorb c d) He Ve) as Fe.
      assert (Z : forall F, (avb N (fun a => xorb (F a) (F a)) == 0)%Q).
      { intro F. rewrite (avb_ext N _ (fun _ => false)) by (intro a; apply xorb_nilpotent). apply (avb_const N false). }
      assert (ET : forall (k0 : bool) (g : asg -> bool), (forall a, g a = if a l then k0 else ev (xorb c d, e) a) ->
        (avb N (fun a => xorb (ev (c, Nd l t d e) a) (g a)) == (1#2) * (if k0 then 1 - frac (c, t) else frac (c, t)))%Q).
      { intros k0 g Hg. rewrite (err_if l g _ (fun _ => k0) (ev (xorb c d, e)) c t d e k Hok' Lv Hg)
          by (auto using ev_extb; try (intros a b; now apply ev_upd_notin); intros ? ? ?; reflexivity).
        rewrite Z, avb_const_xor. destruct k0; rewrite Ft; lra. }
      assert (EE : forall (k0 : bool) (g : asg -> bool), (forall a, g a = if a l then ev (c, t) a else k0) ->
        (avb N (fun a => xorb (ev (c, Nd l t d e) a) (g a)) == (1#2) * (if k0 then 1 - frac (xorb c d, e) else frac (xorb c d, e)))%Q).
      { intros k0 g Hg. rewrite (err_if l g _ (ev (c, t)) (fun _ => k0) c t d e k Hok' Lv Hg)
          by (auto using ev_extb; try (intros a b; now apply ev_upd_notin); intros ? ? ?; reflexivity).
        rewrite Z, avb_const_xor. destruct k0; rewrite Fe; lra. }
      assert (EB : forall (k0 k1 : bool) (g : asg -> bool), (forall a, g a = if a l then k0 else k1) ->
        (avb N (fun a => xorb (ev (c, Nd l t d e) a) (g a)) == (1#2) * ((if k0 then 1 - frac (c, t) else frac (c, t)) + (if k1 then 1 - frac (xorb c d, e) else frac (xorb c d, e))))%Q).
      { intros k0 k1 g Hg. rewrite (err_if l g _ (fun _ => k0) (fun _ => k1) c t d e k Hok' Lv Hg)
          by (auto; intros ? ? ?; reflexivity).
        rewrite !avb_const_xor. destruct k0, k1; rewrite Ft, Fe; lra. }
      assert (EH : exists k0 : bool, (avb N (fun a => xorb (ev (c, Nd l t d e) a) (h a)) == (1#2) * (if k0 then 1 - frac (c, t) else frac (c, t)))%Q
        \/ (avb N (fun a => xorb (ev (c, Nd l t d e) a) (h a)) == (1#2) * (if k0 then 1 - frac (xorb c d, e) else frac (xorb c d, e)))%Q).
      { destruct H7 as (k0 & [Hk|Hk]); exists k0; [left; apply ET|right; apply EE]; intro a; rewrite Hk, ?Xt, ?Xe; reflexivity. }
      destruct EH as (k0 & EH).
      pose proof (frac_ge_0 (c, t)) as B1. pose proof (frac_le_1 (c, t)) as B2.
      pose proof (frac_ge_0 (xorb c d, e)) as B3. pose proof (frac_le_1 (xorb c d, e)) as B4.
      assert (TF' : tie_free (Nd l t d e) c -> ~ (frac (c, t) == frac (xorb c d, e))%Q /\ ~ (frac (c, t) + frac (xorb c d, e) == 1)%Q)
        by (intro TF; apply (TF c t d e); apply in_edges_refl).
      clear - EH ET EE EB B1 B2 B3 B4 TF' Wt We Yt Ye.
      set (p := frac (c, t)) in *. set (q := frac (xorb c d, e)) in *. clearbody p q.
      set (x := avb N (fun a => xorb (ev (c, Nd l t d e) a) (h a))) in *. clearbody x.
      destruct (qgtb (w (xorb c d, e)) (w (c, t)) && qgtb (1 - w (xorb c d, e)) (w (c, t))) eqn:K1.
      { rewrite (ET false (ev (ite M (bvar l) (bnot bone) (rb M w l l e (xorb c d))))) by (intro a; rewrite ev_itev, Ye; reflexivity).
        apply andb_true_iff in K1. rewrite !qgtb_true in K1. destruct k0, EH as [EH|EH]; split; intros; lra. }
      destruct (qgtb (w (c, t)) (w (xorb c d, e)) && qgtb (1 - w (c, t)) (w (xorb c d, e))) eqn:K2.
      { rewrite (EE false (ev (ite M (bvar l) (rb M w l l t c) (bnot bone)))) by (intro a; rewrite ev_itev, Yt; reflexivity).
        apply andb_true_iff in K2. rewrite !qgtb_true in K2. destruct k0, EH as [EH|EH]; split; intros; lra. }
      destruct (qgtb (w (c, t)) (w (xorb c d, e)) && qgtb (w (c, t)) (1 - w (xorb c d, e))) eqn:K3.
      { rewrite (ET true (ev (ite M (bvar l) bone (rb M w l l e (xorb c d))))) by (intro a; rewrite ev_itev, Ye; reflexivity).
        apply andb_true_iff in K3. rewrite !qgtb_true in K3. destruct k0, EH as [EH|EH]; split; intros; lra. }
      destruct (qgtb (w (xorb c d, e)) (w (c, t)) && qgtb (w (xorb c d, e)) (1 - w (c, t))) eqn:K4.
      { rewrite (EE true (ev (ite M (bvar l) (rb M w l l t c) bone))) by (intro a; rewrite ev_itev, Yt; reflexivity).
        apply andb_true_iff in K4. rewrite !qgtb_true in K4. destruct k0, EH as [EH|EH]; split; intros; lra. }
      assert (TIE : (p == q)%Q \/ (p + q == 1)%Q).
      { apply andb_false_iff in K1, K2, K3, K4. rewrite !qgtb_false in K1, K2, K3, K4.
        destruct (Q_dec p q) as [[L|L]|E]; [| |auto]; right; apply Qle_antisym; destruct K1, K2, K3, K4; lra. }
      rewrite (EB (qgtb (w (c, t)) (1#2)) (qgtb (w (xorb c d, e)) (1#2)) (ev (ite M (bvar l) (major (w (c, t))) (major (w (xorb c d, e))))))
        by (intro a; rewrite ev_itev; unfold major; destruct (qgtb (w (c, t)) (1#2)), (qgtb (w (xorb c d, e)) (1#2)); reflexivity).
      split; [|intro TF; destruct (TF' TF); tauto].
      destruct (qgtb (w (c, t)) (1#2)) eqn:G1; [apply qgtb_true in G1|apply qgtb_false in G1];
      (destruct (qgtb (w (xorb c d, e)) (1#2)) eqn:G2; [apply qgtb_true in G2|apply qgtb_false in G2]);
      destruct k0, EH as [EH|EH], TIE; lra.
    + cbn [rb]. assert (v <? l = false) as -> by (apply Nat.ltb_ge; lia). assert (v <=? l = false) as -> by (apply Nat.leb_gt; lia).
      rewrite (avb_ext N (fun a => xorb (ev (c, Nd v t d e) a) (ev (c, Nd v t d e) a)) (fun _ => false)) by (intro a; now rewrite xorb_nilpotent).
      rewrite avb_const. cbn [b2q]. pose proof (avb_nonneg N (fun a => xorb (ev (c, Nd v t d e) a) (h a))). split; intros; lra.
Qed.

Lemma rb_shape n : forall k c, okn M k n -> dense w n c -> tie_free n c ->
  at_range l l child_const (c, n) (ev (rb M w l l n c)).
Proof.
  induction n as [|v t IHt d e IHe]; intros k c Hok HD TF.
  - apply ar_const. intro a. cbn. now destruct c.
  - cbn [okn] in Hok. destruct Hok as (Lk & Ht & He & _).
    pose proof (IHt _ c Ht (dense_then w _ _ _ _ _ HD) (tie_free_then _ _ _ _ _ TF)) as It.
    pose proof (IHe _ (xorb c d) He (dense_else w _ _ _ _ _ HD) (tie_free_else _ _ _ _ _ TF)) as Ie.
    cbn [rb]. destruct (v <? l) eqn:E1.
    + apply Nat.ltb_lt in E1. eapply ar_before; eauto. intro a. apply ev_itev.
    + apply Nat.ltb_ge in E1. destruct (v <=? l) eqn:E2; [apply Nat.leb_le in E2|apply Nat.leb_gt in E2].
      * assert (v = l) by lia. subst v. eapply ar_in; eauto. cbv zeta.
        pose proof (HD (c, t) ltac:(cbn [edges]; right; apply in_or_app; left; apply in_edges_refl)) as Wt.
        pose proof (HD (xorb c d, e) ltac:(cbn [edges]; right; apply in_or_app; right; apply in_edges_refl)) as We.
        destruct (TF c t d e) as [T1 T2]; [apply in_edges_refl|].
        destruct (qgtb (w (xorb c d, e)) (w (c, t)) && qgtb (1 - w (xorb c d, e)) (w (c, t))) eqn:K1;
          [exists false; left; intro a; apply ev_itev|].
        destruct (qgtb (w (c, t)) (w (xorb c d, e)) && qgtb (1 - w (c, t)) (w (xorb c d, e))) eqn:K2;
          [exists false; right; intro a; apply ev_itev|].
        destruct (qgtb (w (c, t)) (w (xorb c d, e)) && qgtb (w (c, t)) (1 - w (xorb c d, e))) eqn:K3;
          [exists true; left; intro a; apply ev_itev|].
        destruct (qgtb (w (xorb c d, e)) (w (c, t)) && qgtb (w (xorb c d, e)) (1 - w (c, t))) eqn:K4;
          [exists true; right; intro a; apply ev_itev|].
        exfalso. apply andb_false_iff in K1, K2, K3, K4. rewrite !qgtb_false in K1, K2, K3, K4.
        destruct (Q_dec (frac (c, t)) (frac (xorb c d, e))) as [[L|L]|E]; [| |auto]; apply T2; apply Qle_antisym; destruct K1, K2, K3, K4; lra.
      * apply ar_after; auto.
Qed.
End Round.
