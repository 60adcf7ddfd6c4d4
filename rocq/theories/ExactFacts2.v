(** Exact behaviour of random_satisfying_input with doubles: proofs *)
From Coq Require Import List Bool Arith ZArith QArith Lia Lqa.
From Verif Require Import Res Cudd CuddFacts Spec SpecFacts SpecFloat SpecExact Float FloatFacts Helpers HelpersFacts HelpersFacts2 Counting AddFacts CountFacts PathFacts
  Metrics MetricsFacts MetricsFacts4 RelMetrics RelFacts3 Operators OperatorFacts Rounded LevelFacts RoundedFacts RoundedMinimizeFacts2 RoundedRel RoundedRelFacts ExactFacts.
Import ListNotations.
Open Scope nat_scope.

Lemma rsi_loop_exact_fl p rnd M rm root T : (1 <= p)%Z -> rounds_to_nearest p rnd -> index_order M -> (0 < rm)%Z -> wf M root ->
  (forall i, In i (varsn (snd root)) -> i < T) ->
  forall k level c nd draws,
  level + k = T -> length draws = k -> Forall (fun d => 0 <= d <= rm)%Z draws ->
  In (c, nd) (reachable root) -> okn M level nd -> (c, nd) <> bzero ->
  exists l, rsi_loop_fl rnd rm (count_minterms_fl rnd root) T k level c nd draws = Ok l /\ length l = k
    /\ Forall (fun x => x = 0 \/ x = 1)%Z l
    /\ forall a, agree level l k a -> (ev (c, nd) a = false <-> bad (ev (c, nd)) level l draws).
Proof.
  intros Hp HR HI Hrm Hroot Hv. induction k as [|k IH]; intros level c nd draws HT Hl Hd Hr Hok Hnz.
  - exists []. destruct draws; [|discriminate]. split; [reflexivity|]. split; [reflexivity|]. split; [constructor|].
    intros a _. split; [|intros (i & Hi & _); cbn in Hi; lia]. intro Hev. exfalso. revert Hev.
    assert (Hno : forall i, ~ In i (varsn nd)).
    { intros i Hi. pose proof (okn_vars _ _ _ _ Hok Hi) as H. rewrite HI in H.
      assert (i < T) by (apply Hv; apply (edges_vars (snd root) (fst root) (c, nd)); auto). lia. }
    destruct nd as [|v t d e]; [|exfalso; apply (Hno v); now left].
    destruct c; [exfalso; now apply Hnz|discriminate].
  - destruct draws as [|d draws]; [discriminate|]. inversion Hd as [|? ? Hd1 Hd2]; subst.
    cbn [rsi_loop_fl]. cbn [length] in Hl.
    assert (W : wf M (c, nd)) by (eapply edges_wf; [exact Hroot|exact Hr]).
    assert (Sat : exists a, ev (c, nd) a = true).
    { apply (is_zero_false M); auto. now apply bdd_eqb_false. }
    destruct (level <? node_level nd (level + S k)) eqn:El.
    + apply Nat.ltb_lt in El.
      assert (Ok' : okn M (S level) nd) by (destruct nd as [|v t d' e]; cbn in *; auto; rewrite HI in *; intuition lia).
      destruct (IH (S level) c nd draws) as (l & Hr' & Hlen & Hf & Hs); auto; try lia.
      rewrite Hr'. cbn [bind]. eexists; split; [reflexivity|]. split; [cbn; lia|].
      split; [constructor; auto; pose proof (Z.mod_pos_bound d 2); lia|].
      assert (Hno : forall a b, ev (c, nd) (upd a level b) = ev (c, nd) a).
      { intros a b. apply ev_upd_notin. cbn [snd]. intro Hi. pose proof (okn_vars _ _ _ _ Ok' Hi) as H. rewrite HI in H. lia. }
      intros a Ha. rewrite bad_cons with (G := ev (c, nd)); auto.
      * apply agree_cons in Ha. now apply Hs.
      * intros (_ & (b & Hb) & Hall). specialize (Hall (upd b level true) (upd_same _ _ _)). rewrite Hno in Hall. congruence.
    + apply Nat.ltb_ge in El. destruct nd as [|v t d' e]; [cbn in El; lia|]. cbn [node_level] in El.
      pose proof Hok as Hok'. cbn [okn] in Hok'. rewrite HI in Hok'. destruct Hok' as (H1 & H2 & H3 & H4).
      assert (v = level) by lia. subst v.
      assert (R1 : In (c, t) (reachable root)).
      { eapply edges_trans; [exact Hr|]. unfold reachable; cbn. right. apply in_or_app. left. apply in_edges_refl. }
      assert (R2 : In (xorb c d', e) (reachable root)).
      { eapply edges_trans; [exact Hr|]. unfold reachable; cbn. right. apply in_or_app. right. apply in_edges_refl. }
      rewrite (count_minterms_fl_at rnd root _ R1). cbn [bind]. rewrite (count_minterms_fl_at rnd root _ R2). cbn [bind].
      assert (Wt : wf M (c, t)) by (eapply edges_wf; [exact Hroot|exact R1]).
      assert (We : wf M (xorb c d', e)) by (eapply edges_wf; [exact Hroot|exact R2]).
      unfold frac_fl. cbn [fst snd].
      set (tw := fracn_fl rnd t c). set (ew := fracn_fl rnd e (xorb c d')).
      destruct (fracn_fl_range p rnd Hp HR t c) as [F1 N1]. destruct (fracn_fl_range p rnd Hp HR e (xorb c d')) as [F2 N2].
      fold tw in F1, N1. fold ew in F2, N2.
      pose proof (fracn_fl_pos p rnd Hp HR t c) as P1. pose proof (fracn_fl_pos p rnd Hp HR e (xorb c d')) as P2. fold tw in P1. fold ew in P2.
      assert (Pos : (0 < tw + ew)%Q).
      { pose proof (frac_pos M _ W Hnz) as P. unfold frac in P. cbn [fst snd fracn] in P.
        destruct (Qlt_le_dec 0 (fracn t c)) as [X|X]; [apply P1 in X; lra|]. assert (X2 : (0 < fracn e (xorb c d'))%Q) by lra. apply P2 in X2. lra. }
      pose proof (rn_pos p rnd Hp HR _ Pos) as PS.
      assert (ET : forall a, a level = true -> ev (c, Nd level t d' e) a = ev (c, t) a)
        by (intros a A0; unfold ev; cbn [fst snd evn]; now rewrite A0).
      assert (EE : forall a, a level = false -> ev (c, Nd level t d' e) a = ev (xorb c d', e) a)
        by (intros a A0; unfold ev; cbn [fst snd evn]; rewrite A0; now destruct c, d', (evn e a)).
      assert (It : forall a b, ev (c, t) (upd a level b) = ev (c, t) a).
      { intros a b. apply ev_upd_notin. cbn [snd]. intro Hi. pose proof (okn_vars _ _ _ _ H2 Hi) as H. rewrite HI in H. lia. }
      assert (Ie : forall a b, ev (xorb c d', e) (upd a level b) = ev (xorb c d', e) a).
      { intros a b. apply ev_upd_notin. cbn [snd]. intro Hi. pose proof (okn_vars _ _ _ _ H3 Hi) as H. rewrite HI in H. lia. }
      unfold le_ratio_fl. cbv zeta. set (s := rnd (tw + ew)%Q) in *.
      destruct (Qeq_bool s 0) eqn:Ez; [apply Qeq_bool_iff in Ez; lra|].
      assert (Prm : (0 < inject_Z rm)%Q) by (change 0%Q with (inject_Z 0); rewrite <- Zlt_Qlt; auto).
      assert (Dle : (inject_Z d / inject_Z rm <= 1)%Q).
      { apply Qle_shift_div_r; auto. rewrite Qmult_1_l, <- Zle_Qle. lia. }
      pose proof (rn_le1 p rnd Hp HR _ Dle) as RD1.
      destruct (Qle_bool (rnd (inject_Z d / inject_Z rm)%Q) (rnd (tw / s)%Q)) eqn:Eq.
      * apply Qle_bool_iff in Eq. destruct (bdd_eqb (c, t) bzero) eqn:Z.
        { apply bdd_eqb_spec in Z.
          assert (D0 : d = 0%Z).
          { pose proof (proj2 (frac_zero_iff M _ Wt) Z) as Hz. unfold frac in Hz. cbn [fst snd] in Hz.
            assert (Z0 : (tw == 0)%Q) by (destruct (Qlt_le_dec 0 tw) as [X|X]; [apply P1 in X; lra|lra]).
            assert (R0 : (rnd (tw / s) == 0)%Q) by (apply (rn_zero p rnd Hp HR); rewrite Z0; field; lra).
            assert (D : d = 0%Z \/ (0 < d)%Z) by lia. destruct D as [D|D]; auto. exfalso.
            assert (0 < inject_Z d)%Q by (change 0%Q with (inject_Z 0); rewrite <- Zlt_Qlt; lia).
            assert (Dp : (0 < inject_Z d / inject_Z rm)%Q) by (unfold Qdiv; apply Qmult_lt_0_compat; auto; now apply Qinv_lt_0_compat).
            apply (rn_pos p rnd Hp HR) in Dp. lra. }
          assert (Hn : exists l, rsi_loop_fl rnd rm (count_minterms_fl rnd root) (level + S k) k (S level) c t draws = Ok l /\ length l = k
                       /\ Forall (fun x => x = 0 \/ x = 1)%Z l).
          { injection Z as -> ->. clear - Hl. injection Hl as Hl. assert (HT' : S level + k = level + S k) by lia. revert HT' Hl.
            generalize (level + S k) (S level). revert draws. clear level. induction k as [|k IH]; intros draws T level HT' Hl.
            - exists []. auto.
            - destruct draws as [|x draws]; [discriminate|]. cbn [rsi_loop_fl node_level]. destruct (Nat.ltb_spec level T); [|lia].
              destruct (IH draws T (S level)) as (l & -> & L1 & L2); [lia|cbn in Hl; lia|]. cbn [bind]. eexists. split; [reflexivity|].
              split; [cbn; lia|]. constructor; auto. pose proof (Z.mod_pos_bound x 2). lia. }
          destruct Hn as (l & -> & Hlen & H01). cbn [bind]. eexists. split; [reflexivity|]. split; [cbn; lia|].
          split; [constructor; auto|]. intros a Ha. apply agree_cons in Ha. destruct Ha as (A0 & Ha). cbn in A0.
          split; [|intros _; rewrite ET, Z by auto; apply ev_zero].
          intros _. exists 0. split; [cbn; lia|]. split; [exact D0|]. split.
          - destruct Sat as [b Hb]. exists b. split; [intros j Hj; lia|exact Hb].
          - intros b _ Hb. rewrite Nat.add_0_r in Hb. rewrite ET, Z by auto. apply ev_zero. }
        apply bdd_eqb_false in Z.
        destruct (IH (S level) c t draws) as (l & Hr' & Hlen & Hf & Hs); auto; try lia.
        rewrite Hr'. cbn [bind]. eexists; split; [reflexivity|]. split; [cbn; lia|]. split; [constructor; auto|].
        intros a Ha. rewrite bad_cons with (G := ev (c, t)); auto.
        -- apply agree_cons in Ha. destruct Ha as (A0 & Ha). rewrite ET by auto. now apply Hs.
        -- intros (_ & _ & Hall). destruct (is_zero_false M (c, t) Wt) as [b Hb]; [now apply bdd_eqb_false|].
           specialize (Hall (upd b level true) (upd_same _ _ _)). rewrite ET, It in Hall by apply upd_same. congruence.
      * assert (Hne : (xorb c d', e) <> bzero).
        { intro Hz. apply (frac_zero_iff M) in Hz; auto. unfold frac in Hz. cbn [fst snd] in Hz.
          assert (Z0 : (ew == 0)%Q) by (destruct (Qlt_le_dec 0 ew) as [X|X]; [apply P2 in X; lra|lra]).
          assert (ES : (tw + ew == tw)%Q) by lra.
          assert (E1 : (s == tw)%Q).
          { rewrite <- ES. apply (rn_keeps p rnd HR). apply (float_eq _ _ _ ES F1). }
          assert (E2 : (tw / s == 1)%Q) by (rewrite E1; field; lra).
          assert (E3 : (rnd (tw / s) == 1)%Q).
          { transitivity (tw / s)%Q; [|exact E2]. apply (rn_keeps p rnd HR). apply (float_eq _ _ _ E2). apply float_one. lia. }
          assert (Qle_bool (rnd (inject_Z d / inject_Z rm)%Q) (rnd (tw / s)%Q) = true) by (apply Qle_bool_iff; lra). congruence. }
        destruct (IH (S level) (xorb c d') e draws) as (l & Hr' & Hlen & Hf & Hs); auto; try lia.
        rewrite Hr'. cbn [bind]. eexists; split; [reflexivity|]. split; [cbn; lia|]. split; [constructor; auto|].
        intros a Ha. rewrite bad_cons with (G := ev (xorb c d', e)); auto.
        -- apply agree_cons in Ha. destruct Ha as (A0 & Ha). rewrite EE by auto. now apply Hs.
        -- intros (-> & _). assert (R0 : (rnd (inject_Z 0 / inject_Z rm) == 0)%Q) by (apply (rn_zero p rnd Hp HR); unfold Qdiv; change (inject_Z 0) with 0%Q; apply Qmult_0_l).
           assert (Hq : (0 <= rnd (tw / s))%Q).
           { destruct (Qlt_le_dec 0 tw) as [X|X].
             - apply Qlt_le_weak, (rn_pos p rnd Hp HR). unfold Qdiv. apply Qmult_lt_0_compat; auto. now apply Qinv_lt_0_compat.
             - assert (Z0 : (tw == 0)%Q) by lra. rewrite (rn_zero p rnd Hp HR (tw / s)); [lra|]. rewrite Z0. field. lra. }
           assert (Qle_bool (rnd (inject_Z 0 / inject_Z rm)%Q) (rnd (tw / s)%Q) = true) by (apply Qle_bool_iff; lra). congruence.
Qed.

Lemma random_satisfying_input_exact_fl p rnd M rm f T draws : (1 <= p)%Z -> rounds_to_nearest p rnd -> index_order M -> (0 < rm)%Z -> wf M f ->
  (exists a, ev f a = true) -> depends_below T f -> length draws = T ->
  Forall (fun d => 0 <= d <= rm)%Z draws ->
  exists l, random_satisfying_input_fl rnd rm f (count_minterms_fl rnd f) T draws = Ok l /\ length l = T
    /\ Forall (fun x => x = 0 \/ x = 1)%Z l
    /\ (ev f (fun i => nth i l 0 =? 1)%Z = false <-> exists i, i < T /\ nth i draws 1%Z = 0%Z /\ needs_false f l i).
Proof.
  intros Hp HR HI Hrm Hf [a0 Ha0] Hd Hl HF. unfold random_satisfying_input_fl.
  assert (Hz : (fst f, snd f) <> bzero).
  { intro E. destruct f as [c n]. cbn in E. rewrite E, ev_zero in Ha0. discriminate. }
  destruct (rsi_loop_exact_fl p rnd M rm f T Hp HR HI Hrm Hf (depends_below_vars M T f Hf Hd)
              T 0 (fst f) (snd f) draws) as (l & Hr & Hlen & H01 & Hs); auto.
  - destruct f as [c n]. apply in_edges_refl.
  - exists l. split; auto. split; auto. split; auto. destruct f as [c n]. cbn [fst snd] in Hs.
    rewrite (Hs (fun i => nth i l 0 =? 1)%Z) by (intros j _; reflexivity).
    unfold bad, needs_false, starts_with, agree. cbn [Nat.add]. rewrite Hlen. reflexivity.
Qed.

