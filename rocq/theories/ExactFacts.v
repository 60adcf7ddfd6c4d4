(** Exact behaviour of random_satisfying_input and round_best: proofs *)
From Coq Require Import List Bool Arith ZArith QArith Lia Lqa.
From Verif Require Import Res Cudd CuddFacts Spec SpecFacts SpecExact Helpers HelpersFacts HelpersFacts2 Counting AddFacts CountFacts PathFacts MetricsFacts MetricsFacts4 Operators OperatorFacts OperatorFacts2 OperatorFacts3 OperatorFacts4 Examples AdderFacts SpecAdder AdderErrorFacts FromPapers Benchmark SpecExperiments ExperimentsFacts.
Import ListNotations.
Open Scope nat_scope.

(** ** random_satisfying_input *)
Definition agree (level : nat) (l : list Z) (i : nat) (a : asg) : Prop := forall j, j < i -> a (level + j) = (nth j l 0 =? 1)%Z.
Definition bad (F : asg -> bool) (level : nat) (l draws : list Z) : Prop :=
  exists i, i < length l /\ nth i draws 1%Z = 0%Z
    /\ (exists a, agree level l i a /\ F a = true)
    /\ forall a, agree level l i a -> a (level + i) = true -> F a = false.

Lemma agree_cons level x l i a : agree level (x :: l) (S i) a <-> a level = (x =? 1)%Z /\ agree (S level) l i a.
Proof.
  split.
  - intro H. split; [specialize (H 0 ltac:(lia)); now rewrite Nat.add_0_r in H|].
    intros j Hj. specialize (H (S j) ltac:(lia)). cbn [nth] in H. now replace (S level + j) with (level + S j) by lia.
  - intros (H0 & H) [|j] Hj; cbn [nth]; [now rewrite Nat.add_0_r|]. replace (level + S j) with (S level + j) by lia. apply H. lia.
Qed.
Lemma agree_upd level l i a b : agree (S level) l i a -> agree (S level) l i (upd a level b).
Proof. intros H j Hj. rewrite upd_other by lia. now apply H. Qed.

Lemma bad_cons F G level x l d draws :
  (forall a, a level = (x =? 1)%Z -> F a = G a) -> (forall a b, G (upd a level b) = G a) ->
  ~ (d = 0%Z /\ (exists a, F a = true) /\ forall a, a level = true -> F a = false) ->
  bad F level (x :: l) (d :: draws) <-> bad G (S level) l draws.
Proof.
  intros HFG HG Hno. split.
  - intros (i & Hi & Hd & (a & Ha & Ft) & Hf). destruct i as [|i].
    { exfalso. apply Hno. cbn [nth] in Hd. split; auto. split; [now exists a|].
      intros b Hb. apply Hf; [intros j Hj; lia|now rewrite Nat.add_0_r]. }
    cbn [nth length] in *. apply agree_cons in Ha. destruct Ha as (A0 & Ha).
    exists i. split; [lia|]. split; auto. split; [exists a; split; auto; now rewrite <- HFG|].
    intros b Hb Hbi. rewrite <- (HG b (x =? 1)%Z). rewrite <- HFG by apply upd_same. apply Hf.
    + apply agree_cons. split; [apply upd_same|now apply agree_upd].
    + rewrite upd_other by lia. now replace (level + S i) with (S level + i) by lia.
  - intros (i & Hi & Hd & (a & Ha & Gt) & Hf). exists (S i). cbn [nth length]. split; [lia|]. split; auto. split.
    + exists (upd a level (x =? 1)%Z). split; [apply agree_cons; split; [apply upd_same|now apply agree_upd]|].
      rewrite HFG by apply upd_same. now rewrite HG.
    + intros b Hb Hbi. apply agree_cons in Hb. destruct Hb as (B0 & Hb). rewrite HFG by auto. apply Hf; auto.
      now replace (S level + i) with (level + S i) by lia.
Qed.

Lemma rsi_loop_exact M rm mc root T : index_order M -> (0 < rm)%Z -> wf M root ->
  mc = count_minterms root -> (forall i, In i (varsn (snd root)) -> i < T) ->
  forall k level c nd draws,
  level + k = T -> length draws = k -> Forall (fun d => 0 <= d <= rm)%Z draws ->
  In (c, nd) (reachable root) -> okn M level nd -> (c, nd) <> bzero ->
  exists l, rsi_loop rm mc T k level c nd draws = Ok l /\ length l = k
    /\ Forall (fun x => x = 0 \/ x = 1)%Z l
    /\ forall a, agree level l k a -> (ev (c, nd) a = false <-> bad (ev (c, nd)) level l draws).
Proof.
  intros HI Hrm Hroot -> Hv. induction k as [|k IH]; intros level c nd draws HT Hl Hd Hr Hok Hnz.
  - exists []. destruct draws; [|discriminate]. split; [reflexivity|]. split; [reflexivity|]. split; [constructor|].
    intros a _. split; [|intros (i & Hi & _); cbn in Hi; lia]. intro Hev. exfalso. revert Hev.
    assert (Hno : forall i, ~ In i (varsn nd)).
    { intros i Hi. pose proof (okn_vars _ _ _ _ Hok Hi) as H. rewrite HI in H.
      assert (i < T) by (apply Hv; apply (edges_vars (snd root) (fst root) (c, nd)); auto). lia. }
    destruct nd as [|v t d e]; [|exfalso; apply (Hno v); now left].
    destruct c; [exfalso; now apply Hnz|discriminate].
  - destruct draws as [|d draws]; [discriminate|]. inversion Hd as [|? ? Hd1 Hd2]; subst.
    cbn [rsi_loop]. cbn [length] in Hl.
    assert (W : wf M (c, nd)) by (eapply edges_wf; [exact Hroot|exact Hr]).
    assert (Sat : exists a, ev (c, nd) a = true).
    { apply (is_zero_false M); auto. now apply bdd_eqb_false. }
    destruct (level <? node_level nd (level + S k)) eqn:El.
    + apply Nat.ltb_lt in El.
      assert (Ok' : okn M (S level) nd) by (destruct nd as [|v t d' e]; cbn in *; auto; rewrite HI in *; intuition lia).
      destruct (IH (S level) c nd draws) as (l & Hr' & Hlen & Hf & Hs); auto; try lia.
      rewrite Hr'. cbn [bind]. eexists; split; [reflexivity|]. split; [cbn; lia|].
      split; [constructor; auto; pose proof (Z.mod_pos_bound d 2); lia|].
      assert (Hno : forall a b, ev (c, nd) (upd a level b) = ev (c, nd) a).
      { intros a b. apply ev_upd_notin. cbn [snd]. intro Hi. pose proof (okn_vars _ _ _ _ Ok' Hi) as H. rewrite HI in H. lia. }
      intros a Ha. rewrite bad_cons with (G := ev (c, nd)); auto.
      * apply agree_cons in Ha. now apply Hs.
      * intros (_ & (b & Hb) & Hall). specialize (Hall (upd b level true) (upd_same _ _ _)). rewrite Hno in Hall. congruence.
    + apply Nat.ltb_ge in El. destruct nd as [|v t d' e]; [cbn in El; lia|]. cbn [node_level] in El.
      pose proof Hok as Hok'. cbn [okn] in Hok'. rewrite HI in Hok'. destruct Hok' as (H1 & H2 & H3 & H4).
      assert (v = level) by lia. subst v.
      assert (R1 : In (c, t) (reachable root)).
      { eapply edges_trans; [exact Hr|]. unfold reachable; cbn. right. apply in_or_app. left. apply in_edges_refl. }
      assert (R2 : In (xorb c d', e) (reachable root)).
      { eapply edges_trans; [exact Hr|]. unfold reachable; cbn. right. apply in_or_app. right. apply in_edges_refl. }
      destruct (count_minterms_at root _ R1) as (tw & -> & E1).
      destruct (count_minterms_at root _ R2) as (ew & -> & E2). cbn [bind].
      assert (Wt : wf M (c, t)) by (eapply edges_wf; [exact Hroot|exact R1]).
      assert (We : wf M (xorb c d', e)) by (eapply edges_wf; [exact Hroot|exact R2]).
      pose proof (frac_nonneg t c) as N1. pose proof (frac_nonneg e (xorb c d')) as N2.
      unfold frac in E1, E2. cbn [fst snd] in E1, E2.
      assert (Pos : (0 < tw + ew)%Q).
      { pose proof (frac_pos M _ W Hnz) as P. unfold frac in P. cbn [fst snd fracn] in P. lra. }
      assert (ET : forall a, a level = true -> ev (c, Nd level t d' e) a = ev (c, t) a)
        by (intros a A0; unfold ev; cbn [fst snd evn]; now rewrite A0).
      assert (EE : forall a, a level = false -> ev (c, Nd level t d' e) a = ev (xorb c d', e) a)
        by (intros a A0; unfold ev; cbn [fst snd evn]; rewrite A0; now destruct c, d', (evn e a)).
      assert (It : forall a b, ev (c, t) (upd a level b) = ev (c, t) a).
      { intros a b. apply ev_upd_notin. cbn [snd]. intro Hi. pose proof (okn_vars _ _ _ _ H2 Hi) as H. rewrite HI in H. lia. }
      assert (Ie : forall a b, ev (xorb c d', e) (upd a level b) = ev (xorb c d', e) a).
      { intros a b. apply ev_upd_notin. cbn [snd]. intro Hi. pose proof (okn_vars _ _ _ _ H3 Hi) as H. rewrite HI in H. lia. }
      unfold le_ratio.
      destruct (Qeq_bool (tw + ew) 0) eqn:Ez; [apply Qeq_bool_iff in Ez; lra|].
      assert (Prm : (0 < inject_Z rm)%Q) by (change 0%Q with (inject_Z 0); rewrite <- Zlt_Qlt; auto).
      assert (Dle : (inject_Z d / inject_Z rm <= 1)%Q).
      { apply Qle_shift_div_r; auto. rewrite Qmult_1_l, <- Zle_Qle. lia. }
      destruct (Qle_bool (inject_Z d / inject_Z rm) (tw / (tw + ew))) eqn:Eq.
      * apply Qle_bool_iff in Eq. destruct (bdd_eqb (c, t) bzero) eqn:Z.
        { apply bdd_eqb_spec in Z.
          assert (D0 : d = 0%Z).
          { pose proof (proj2 (frac_zero_iff M _ Wt) Z) as Hz. unfold frac in Hz. cbn [fst snd] in Hz. rewrite Hz in E1.
            assert (Hq : (tw / (tw + ew) == 0)%Q) by (rewrite E1; field; lra). rewrite Hq in Eq.
            assert (Hd0 : (inject_Z d <= 0)%Q).
            { apply (Qmult_le_compat_r _ _ (inject_Z rm)) in Eq; [|lra]. rewrite Qmult_0_l in Eq.
              unfold Qdiv in Eq. rewrite <- Qmult_assoc, (Qmult_comm (/ _)), Qmult_inv_r, Qmult_1_r in Eq by lra. exact Eq. }
            change 0%Q with (inject_Z 0) in Hd0. rewrite <- Zle_Qle in Hd0. lia. }
          assert (Hn : exists l, rsi_loop rm (count_minterms root) (level + S k) k (S level) c t draws = Ok l /\ length l = k
                       /\ Forall (fun x => x = 0 \/ x = 1)%Z l).
          { injection Z as -> ->. clear - Hl. injection Hl as Hl. assert (HT' : S level + k = level + S k) by lia. revert HT' Hl.
            generalize (level + S k) (S level). revert draws. clear level. induction k as [|k IH]; intros draws T level HT' Hl.
            - exists []. auto.
            - destruct draws as [|x draws]; [discriminate|]. cbn [rsi_loop node_level]. destruct (Nat.ltb_spec level T); [|lia].
              destruct (IH draws T (S level)) as (l & -> & L1 & L2); [lia|cbn in Hl; lia|]. cbn [bind]. eexists. split; [reflexivity|].
              split; [cbn; lia|]. constructor; auto. pose proof (Z.mod_pos_bound x 2). lia. }
          destruct Hn as (l & -> & Hlen & H01). cbn [bind]. eexists. split; [reflexivity|]. split; [cbn; lia|].
          split; [constructor; auto|]. intros a Ha. apply agree_cons in Ha. destruct Ha as (A0 & Ha). cbn in A0.
          split; [|intros _; rewrite ET, Z by auto; apply ev_zero].
          intros _. exists 0. split; [cbn; lia|]. split; [exact D0|]. split.
          - destruct Sat as [b Hb]. exists b. split; [intros j Hj; lia|exact Hb].
          - intros b _ Hb. rewrite Nat.add_0_r in Hb. rewrite ET, Z by auto. apply ev_zero. }
        apply bdd_eqb_false in Z.
        destruct (IH (S level) c t draws) as (l & Hr' & Hlen & Hf & Hs); auto; try lia.
        rewrite Hr'. cbn [bind]. eexists; split; [reflexivity|]. split; [cbn; lia|]. split; [constructor; auto|].
        intros a Ha. rewrite bad_cons with (G := ev (c, t)); auto.
        -- apply agree_cons in Ha. destruct Ha as (A0 & Ha). rewrite ET by auto. now apply Hs.
        -- intros (_ & _ & Hall). destruct (is_zero_false M (c, t) Wt) as [b Hb]; [now apply bdd_eqb_false|].
           specialize (Hall (upd b level true) (upd_same _ _ _)). rewrite ET, It in Hall by apply upd_same. congruence.
      * assert (Hne : (xorb c d', e) <> bzero).
        { intro Hz. apply (frac_zero_iff M) in Hz; auto. unfold frac in Hz. cbn [fst snd] in Hz.
          rewrite Hz in E2.
          assert (tw / (tw + ew) == 1)%Q by (rewrite E2; field; lra).
          assert (Qle_bool (inject_Z d / inject_Z rm) (tw / (tw + ew)) = true) by (apply Qle_bool_iff; lra). congruence. }
        destruct (IH (S level) (xorb c d') e draws) as (l & Hr' & Hlen & Hf & Hs); auto; try lia.
        rewrite Hr'. cbn [bind]. eexists; split; [reflexivity|]. split; [cbn; lia|]. split; [constructor; auto|].
        intros a Ha. rewrite bad_cons with (G := ev (xorb c d', e)); auto.
        -- apply agree_cons in Ha. destruct Ha as (A0 & Ha). rewrite EE by auto. now apply Hs.
        -- intros (-> & _). assert (Hq : (0 <= tw / (tw + ew))%Q).
           { apply Qle_shift_div_l; auto. lra. }
           assert (Qle_bool (inject_Z 0 / inject_Z rm) (tw / (tw + ew)) = true); [|congruence].
           apply Qle_bool_iff. unfold Qdiv at 1. change (inject_Z 0) with 0%Q. rewrite Qmult_0_l. exact Hq.
Qed.

Lemma random_satisfying_input_exact M rm f T draws : index_order M -> (0 < rm)%Z -> wf M f ->
  (exists a, ev f a = true) -> depends_below T f -> length draws = T ->
  Forall (fun d => 0 <= d <= rm)%Z draws ->
  exists l, random_satisfying_input rm f (count_minterms f) T draws = Ok l /\ length l = T
    /\ Forall (fun x => x = 0 \/ x = 1)%Z l
    /\ (ev f (fun i => nth i l 0 =? 1)%Z = false <-> exists i, i < T /\ nth i draws 1%Z = 0%Z /\ needs_false f l i).
Proof.
  intros HI Hrm Hf [a0 Ha0] Hd Hl HF. unfold random_satisfying_input.
  assert (Hz : (fst f, snd f) <> bzero).
  { intro E. destruct f as [c n]. cbn in E. rewrite E, ev_zero in Ha0. discriminate. }
  destruct (rsi_loop_exact M rm (count_minterms f) f T HI Hrm Hf eq_refl (depends_below_vars M T f Hf Hd)
              T 0 (fst f) (snd f) draws) as (l & Hr & Hlen & H01 & Hs); auto.
  - destruct f as [c n]. apply in_edges_refl.
  - exists l. split; auto. split; auto. split; auto. destruct f as [c n]. cbn [fst snd] in Hs.
    rewrite (Hs (fun i => nth i l 0 =? 1)%Z) by (intros j _; reflexivity).
    unfold bad, needs_false, starts_with, agree. cbn [Nat.add]. rewrite Hlen. reflexivity.
Qed.

(** ** round_best *)
Lemma rb_exact M w (W : bdd -> Q) ls le n : forall c, (forall k, In k (edges n c) -> (w k == W k)%Q) ->
  at_range ls le (best_const W) (c, n) (ev (rb M w ls le n c)).
Proof.
  induction n as [|v t IHt d e IHe]; intros c HW.
  - apply ar_const. intro a. cbn. now destruct c.
  - assert (Wt : forall k, In k (edges t c) -> (w k == W k)%Q) by (intros k Hk; apply HW; cbn [edges]; right; apply in_or_app; auto).
    assert (We : forall k, In k (edges e (xorb c d)) -> (w k == W k)%Q) by (intros k Hk; apply HW; cbn [edges]; right; apply in_or_app; auto).
    pose proof (IHt c Wt) as It. pose proof (IHe (xorb c d) We) as Ie.
    pose proof (Wt _ (in_edges_refl _ _)) as Et. pose proof (We _ (in_edges_refl _ _)) as Ee.
    cbn [rb]. destruct (v <? ls) eqn:E1.
    + apply Nat.ltb_lt in E1. eapply ar_before; eauto. intro a. apply ev_itev.
    + apply Nat.ltb_ge in E1. destruct (v <=? le) eqn:E2; [apply Nat.leb_le in E2|apply Nat.leb_gt in E2].
      * eapply ar_in; eauto. cbv zeta. unfold best_const.
        destruct (qgtb (w (xorb c d, e)) (w (c, t)) && qgtb (1 - w (xorb c d, e)) (w (c, t))) eqn:K1.
        { apply andb_prop in K1. rewrite !qgtb_true in K1. left. split; [lra|]. split; [lra|]. intro a. apply ev_itev. }
        destruct (qgtb (w (c, t)) (w (xorb c d, e)) && qgtb (1 - w (c, t)) (w (xorb c d, e))) eqn:K2.
        { apply andb_prop in K2. rewrite !qgtb_true in K2. right; left. split; [lra|]. split; [lra|]. intro a. apply ev_itev. }
        destruct (qgtb (w (c, t)) (w (xorb c d, e)) && qgtb (w (c, t)) (1 - w (xorb c d, e))) eqn:K3.
        { apply andb_prop in K3. rewrite !qgtb_true in K3. right; right; left. split; [lra|]. split; [lra|]. intro a. apply ev_itev. }
        destruct (qgtb (w (xorb c d, e)) (w (c, t)) && qgtb (w (xorb c d, e)) (1 - w (c, t))) eqn:K4.
        { apply andb_prop in K4. rewrite !qgtb_true in K4. right; right; right; left. split; [lra|]. split; [lra|]. intro a. apply ev_itev. }
        right; right; right; right. split.
        { apply andb_false_iff in K1, K2, K3, K4. rewrite !qgtb_false in K1, K2, K3, K4.
          destruct (Q_dec (W (c, t)) (W (xorb c d, e))) as [[L|L]|E]; [| |auto]; right; apply Qle_antisym; destruct K1, K2, K3, K4; lra. }
        intro a. rewrite ev_itev. unfold major.
        destruct (a v).
        -- destruct (qgtb (w (c, t)) (1#2)) eqn:G; [apply qgtb_true in G|apply qgtb_false in G]; split; intro; try reflexivity; try lra; discriminate.
        -- destruct (qgtb (w (xorb c d, e)) (1#2)) eqn:G; [apply qgtb_true in G|apply qgtb_false in G]; split; intro; try reflexivity; try lra; discriminate.
      * apply ar_after; auto.
Qed.

Lemma round_best_exact M n f ls le : wf M f -> depends_below n f ->
  exists r, round_best M f ls le = Ok r /\ wf M r /\ at_range ls le (best_const (density n)) f (ev r).
Proof.
  intros Hf Hd. rewrite round_best_pure. eexists. split; [reflexivity|]. split; [apply rb_wf; now apply wf_edge|].
  rewrite <- (edge_eta f) at 1. apply rb_exact. intros k Hk. rewrite (minterms_wt f k Hk). unfold density. apply (frac_average M).
  - exact (edges_wf M (snd f) (fst f) 0 k Hf Hk).
  - eapply reachable_below; eauto. now apply (depends_below_vars M).
Qed.

(** ** get_approximate_adder *)
Lemma get_adder_windows M a N p1 p2 r : get_approximate_adder M a N p1 p2 = Ok r ->
  exact_when_inside N r (fun i => lookback (restarts a N p1 p2) (looks_back a p1 p2) (i - 1)).
Proof.
  intro E. destruct (adder_cut M N _ _ r (adder_family M a N p1 p2 r E)) as [HN C].
  exact (cut_inside M N _ _ r C).
Qed.
