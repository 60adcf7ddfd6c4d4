(** Proofs about random_satisfying_input and the randomized search with rounding *)
From Coq Require Import List Bool Arith ZArith QArith Qabs Qround Lia Lqa.
From Verif Require Import Res Cudd CuddFacts Spec SpecFacts SpecFloat Float FloatFacts Helpers HelpersFacts HelpersFacts2 Counting AddFacts CountFacts PathFacts
  Metrics MetricsFacts MetricsFacts2 MetricsFacts3 MetricsFacts4 RelMetrics RelFacts RelFacts2 RelFacts3 Operators OperatorFacts Rounded LevelFacts RoundedFacts RoundedMinimizeFacts2 RoundedRel.
Import ListNotations.
Open Scope nat_scope.

Lemma float_zero p : (0 <= p)%Z -> float_number p 0.
Proof. intro H. exists 0%Z, 0%Z. split; [rewrite Z.abs_0; apply Z.pow_nonneg; lia|reflexivity]. Qed.
Lemma float_one p : (0 <= p)%Z -> float_number p 1.
Proof. intro H. exists 1%Z, 0%Z. split; [|reflexivity]. pose proof (Z.pow_pos_nonneg 2 p ltac:(lia) H). cbn [Z.abs]. lia. Qed.
Lemma float_half_of p x : float_number p x -> float_number p (x / 2)%Q.
Proof.
  intros (m & e & H & E). exists m, (e - 1)%Z. split; auto. rewrite E. replace e with (e - 1 + 1)%Z at 1 by lia. rewrite p2_succ. field.
Qed.
Lemma float_scale p x k : float_number p x -> float_number p (x * 2 ^ k)%Q.
Proof. intros (m & e & H & E). exists m, (e + k)%Z. split; auto. rewrite E, p2_add. ring. Qed.

Section Nearest.
Variables (p : Z) (rnd : Q -> Q).
Hypothesis Hp : (1 <= p)%Z.
Hypothesis HR : rounds_to_nearest p rnd.
Lemma rn_near x : nearest_float p x (rnd x). Proof. apply HR. Qed.
Lemma rn_float x : float_number p (rnd x). Proof. apply HR. Qed.
Lemma rn_keeps : keeps_floats p rnd.
Proof.
  intros x F. pose proof (near_ge p rnd rn_near x x F ltac:(lra)). pose proof (near_le p rnd rn_near x x F ltac:(lra)). lra.
Qed.
Lemma rn_nonneg x : (0 <= x)%Q -> (0 <= rnd x)%Q.
Proof. intro H. apply (near_ge p rnd rn_near); auto. apply float_zero. lia. Qed.
Lemma rn_pos x : (0 < x)%Q -> (0 < rnd x)%Q.
Proof.
  intro H. pose proof (near_below p rnd Hp rn_near x ltac:(lra)) as B. pose proof (rn_nonneg x ltac:(lra)) as N.
  destruct (Qlt_le_dec 0 (rnd x)) as [|L]; auto. assert (E : (rnd x == 0)%Q) by lra. rewrite E in B. lra.
Qed.
Lemma rn_zero x : (x == 0)%Q -> (rnd x == 0)%Q.
Proof. intro H. rewrite <- H. apply rn_keeps. apply (float_eq _ _ _ H). apply float_zero. lia. Qed.
Lemma rn_le1 x : (x <= 1)%Q -> (rnd x <= 1)%Q.
Proof. intro H. apply (near_le p rnd rn_near); auto. apply float_one. lia. Qed.

Lemma fracn_fl_range n : forall c, float_number p (fracn_fl rnd n c) /\ (0 <= fracn_fl rnd n c)%Q.
Proof.
  induction n as [|v t IHt d e IHe]; intro c; cbn [fracn_fl].
  - destruct c; split; try lra; [apply float_zero|apply float_one]; lia.
  - split; [apply rn_float|]. apply rn_nonneg.
    assert (0 <= rnd (fracn_fl rnd t c / 2))%Q by (apply rn_nonneg; destruct (IHt c); apply le_div_iff; lra).
    assert (0 <= rnd (fracn_fl rnd e (xorb c d) / 2))%Q by (apply rn_nonneg; destruct (IHe (xorb c d)); apply le_div_iff; lra). lra.
Qed.
Lemma fracn_fl_pos n : forall c, (0 < fracn n c)%Q <-> (0 < fracn_fl rnd n c)%Q.
Proof.
  induction n as [|v t IHt d e IHe]; intro c; cbn [fracn fracn_fl]; [reflexivity|].
  pose proof (frac_nonneg t c) as N1. pose proof (frac_nonneg e (xorb c d)) as N2.
  destruct (fracn_fl_range t c) as [_ F1]. destruct (fracn_fl_range e (xorb c d)) as [_ F2].
  specialize (IHt c). specialize (IHe (xorb c d)).
  assert (H : forall x, (0 <= x)%Q -> (0 <= rnd (x / 2))%Q /\ ((0 < x)%Q -> (0 < rnd (x / 2))%Q) /\ ((x == 0)%Q -> (rnd (x / 2) == 0)%Q)).
  { intros x Hx. assert (E : (x / 2 == (1#2) * x)%Q) by field. split; [apply rn_nonneg; lra|]. split; intro; [apply rn_pos; lra|apply rn_zero; lra]. }
  destruct (H _ F1) as (A1 & A2 & A3). destruct (H _ F2) as (B1 & B2 & B3). split; intro L.
  - apply rn_pos. destruct (Qlt_le_dec 0 (fracn t c)) as [P|P]; [apply IHt, A2 in P; lra|].
    assert (P2 : (0 < fracn e (xorb c d))%Q) by lra. apply IHe, B2 in P2. lra.
  - destruct (Qlt_le_dec 0 (fracn t c)) as [P|P]; [lra|]. destruct (Qlt_le_dec 0 (fracn e (xorb c d))) as [P2|P2]; [lra|]. exfalso.
    assert (Z1 : (fracn_fl rnd t c == 0)%Q).
    { destruct (Qlt_le_dec 0 (fracn_fl rnd t c)) as [X|X]; [apply IHt in X; lra|lra]. }
    assert (Z2 : (fracn_fl rnd e (xorb c d) == 0)%Q).
    { destruct (Qlt_le_dec 0 (fracn_fl rnd e (xorb c d))) as [X|X]; [apply IHe in X; lra|lra]. }
    specialize (A3 Z1). specialize (B3 Z2).
    assert (rnd (rnd (fracn_fl rnd t c / 2) + rnd (fracn_fl rnd e (xorb c d) / 2)) == 0)%Q by (apply rn_zero; lra). lra.
Qed.
End Nearest.

Lemma count_minterms_fl_at rnd root k : In k (reachable root) -> bmap_at (count_minterms_fl rnd root) k = Ok (frac_fl rnd k).
Proof.
  intro Hk. destruct (minterms_fl_map rnd root) as [(G1 & _) Kk]. pose proof (proj2 (Kk k) Hk) as Hm.
  destruct (blookup_key k _ Hm) as [v E]. unfold bmap_at. rewrite E. apply blookup_some in E. now rewrite (G1 _ _ E).
Qed.

Lemma rsi_total_fl rnd rm root T k : forall level c nd draws, level + k = T -> length draws = k -> In (c, nd) (reachable root) ->
  exists l, rsi_loop_fl rnd rm (count_minterms_fl rnd root) T k level c nd draws = Ok l /\ length l = k
    /\ Forall (fun x => x = 0 \/ x = 1)%Z l.
Proof.
  induction k as [|k IH]; intros level c nd draws HT Hl Hr; [destruct draws; [|discriminate]; exists []; repeat split; auto|].
  destruct draws as [|d draws]; [discriminate|]. cbn [length] in Hl. cbn [rsi_loop_fl].
  destruct (level <? node_level nd T) eqn:El.
  - destruct (IH (S level) c nd draws) as (l & -> & L & F); auto; try lia. cbn [bind]. eexists. split; [reflexivity|].
    split; [cbn; lia|]. constructor; auto. pose proof (Z.mod_pos_bound d 2). lia.
  - apply Nat.ltb_ge in El. destruct nd as [|v t d' e]; [cbn in El; lia|].
    assert (R1 : In (c, t) (reachable root)).
    { eapply edges_trans; [exact Hr|]. unfold reachable; cbn. right. apply in_or_app. left. apply in_edges_refl. }
    assert (R2 : In (xorb c d', e) (reachable root)).
    { eapply edges_trans; [exact Hr|]. unfold reachable; cbn. right. apply in_or_app. right. apply in_edges_refl. }
    rewrite (count_minterms_fl_at rnd root _ R1). cbn [bind]. rewrite (count_minterms_fl_at rnd root _ R2). cbn [bind].
    destruct (le_ratio_fl _ _ _ _ _).
    + destruct (IH (S level) c t draws) as (l & -> & L & F); auto; try lia. cbn [bind]. eexists. split; [reflexivity|].
      split; [cbn; lia|]. constructor; auto.
    + destruct (IH (S level) (xorb c d') e draws) as (l & -> & L & F); auto; try lia. cbn [bind]. eexists. split; [reflexivity|].
      split; [cbn; lia|]. constructor; auto.
Qed.

Lemma rsi_sound_fl p rnd M rm root T : (1 <= p)%Z -> rounds_to_nearest p rnd -> index_order M -> (0 < rm)%Z -> wf M root ->
  (forall i, In i (varsn (snd root)) -> i < T) ->
  forall k level c nd draws,
  level + k = T -> length draws = k -> Forall (fun d => 0 < d <= rm)%Z draws ->
  In (c, nd) (reachable root) -> okn M level nd -> (c, nd) <> bzero ->
  exists l, rsi_loop_fl rnd rm (count_minterms_fl rnd root) T k level c nd draws = Ok l /\ length l = k
    /\ Forall (fun x => x = 0 \/ x = 1)%Z l
    /\ forall a, (forall i, i < k -> a (level + i) = (nth i l 0 =? 1)%Z) -> ev (c, nd) a = true.
Proof.
  intros Hp HR HI Hrm Hroot Hv. induction k as [|k IH]; intros level c nd draws HT Hl Hd Hr Hok Hnz.
  - exists []. destruct draws; [|discriminate]. repeat split; auto. intros a _.
    assert (Hno : forall i, ~ In i (varsn nd)).
    { intros i Hi. pose proof (okn_vars _ _ _ _ Hok Hi) as H. rewrite HI in H.
      assert (i < T) by (apply Hv; apply (edges_vars (snd root) (fst root) (c, nd)); auto). lia. }
    destruct nd as [|v t d e]; [|exfalso; apply (Hno v); now left].
    destruct c; [exfalso; now apply Hnz|reflexivity].
  - destruct draws as [|d draws]; [discriminate|]. inversion Hd as [|? ? Hd1 Hd2]; subst.
    cbn [rsi_loop_fl]. cbn [length] in Hl.
    destruct (level <? node_level nd (level + S k)) eqn:El.
    + apply Nat.ltb_lt in El.
      destruct (IH (S level) c nd draws) as (l & Hr' & Hlen & Hf & Hs); auto; try lia.
      { destruct nd as [|v t d' e]; cbn in *; auto. rewrite HI in *. intuition lia. }
      rewrite Hr'. cbn [bind]. eexists; split; [reflexivity|]. repeat split.
      * cbn; lia.
      * constructor; auto. pose proof (Z.mod_pos_bound d 2). lia.
      * intros a Ha. apply Hs. intros i Hi. specialize (Ha (S i)). cbn [nth] in Ha.
        replace (S level + i) with (level + S i) by lia. apply Ha. lia.
    + apply Nat.ltb_ge in El. destruct nd as [|v t d' e]; [cbn in El; lia|]. cbn [node_level] in El.
      pose proof Hok as Hok'. cbn [okn] in Hok'. rewrite HI in Hok'. destruct Hok' as (H1 & H2 & H3 & H4).
      assert (v = level) by lia. subst v.
      assert (R1 : In (c, t) (reachable root)).
      { eapply edges_trans; [exact Hr|]. unfold reachable; cbn. right. apply in_or_app. left. apply in_edges_refl. }
      assert (R2 : In (xorb c d', e) (reachable root)).
      { eapply edges_trans; [exact Hr|]. unfold reachable; cbn. right. apply in_or_app. right. apply in_edges_refl. }
      rewrite (count_minterms_fl_at rnd root _ R1). cbn [bind]. rewrite (count_minterms_fl_at rnd root _ R2). cbn [bind].
      assert (Wt : wf M (c, t)) by (eapply edges_wf; [exact Hroot|exact R1]).
      assert (We : wf M (xorb c d', e)) by (eapply edges_wf; [exact Hroot|exact R2]).
      unfold frac_fl. cbn [fst snd].
      set (tw := fracn_fl rnd t c). set (ew := fracn_fl rnd e (xorb c d')).
      destruct (fracn_fl_range p rnd Hp HR t c) as [F1 N1]. destruct (fracn_fl_range p rnd Hp HR e (xorb c d')) as [F2 N2].
      fold tw in F1, N1. fold ew in F2, N2.
      pose proof (fracn_fl_pos p rnd Hp HR t c) as P1. pose proof (fracn_fl_pos p rnd Hp HR e (xorb c d')) as P2. fold tw in P1. fold ew in P2.
      assert (Pos : (0 < tw + ew)%Q).
      { assert (W : wf M (c, Nd level t d' e)) by (eapply edges_wf; [exact Hroot|exact Hr]).
        pose proof (frac_pos M _ W Hnz) as P. unfold frac in P. cbn [fst snd fracn] in P.
        destruct (Qlt_le_dec 0 (fracn t c)) as [X|X]; [apply P1 in X; lra|]. assert (X2 : (0 < fracn e (xorb c d'))%Q) by lra. apply P2 in X2. lra. }
      pose proof (rn_pos p rnd Hp HR _ Pos) as PS.
      unfold le_ratio_fl. cbv zeta. set (s := rnd (tw + ew)%Q) in *.
      destruct (Qeq_bool s 0) eqn:Ez; [apply Qeq_bool_iff in Ez; lra|].
      assert (Dpos : (0 < inject_Z d / inject_Z rm <= 1)%Q).
      { assert (0 < inject_Z rm)%Q by (change 0%Q with (inject_Z 0); rewrite <- Zlt_Qlt; auto).
        assert (0 < inject_Z d)%Q by (change 0%Q with (inject_Z 0); rewrite <- Zlt_Qlt; lia).
        split.
        - unfold Qdiv. apply Qmult_lt_0_compat; auto. now apply Qinv_lt_0_compat.
        - apply Qle_shift_div_r; auto. rewrite Qmult_1_l, <- Zle_Qle. lia. }
      pose proof (rn_pos p rnd Hp HR _ (proj1 Dpos)) as RD0. pose proof (rn_le1 p rnd Hp HR _ (proj2 Dpos)) as RD1.
      destruct (Qle_bool (rnd (inject_Z d / inject_Z rm)%Q) (rnd (tw / s)%Q)) eqn:Eq.
      * apply Qle_bool_iff in Eq.
        assert (Hnt : (c, t) <> bzero).
        { intro Hz. apply (frac_zero_iff M) in Hz; auto. unfold frac in Hz. cbn [fst snd] in Hz.
          assert (Z0 : (tw == 0)%Q) by (destruct (Qlt_le_dec 0 tw) as [X|X]; [apply P1 in X; lra|lra]).
          assert (rnd (tw / s) == 0)%Q by (apply (rn_zero p rnd Hp HR); rewrite Z0; field; lra). lra. }
        destruct (IH (S level) c t draws) as (l & Hr' & Hlen & Hf & Hs); auto; try lia.
        rewrite Hr'. cbn [bind]. eexists; split; [reflexivity|]. repeat split.
        -- cbn; lia.
        -- constructor; auto.
        -- intros a Ha. pose proof (Ha 0) as A0. rewrite Nat.add_0_r in A0. cbn [nth] in A0.
           assert (ev (c, t) a = true) as Hev.
           { apply Hs. intros i Hi. specialize (Ha (S i)). cbn [nth] in Ha.
             replace (S level + i) with (level + S i) by lia. apply Ha. lia. }
           unfold ev in *. cbn [fst snd evn] in *. rewrite A0 by lia. exact Hev.
      * assert (Hne : (xorb c d', e) <> bzero).
        { intro Hz. apply (frac_zero_iff M) in Hz; auto. unfold frac in Hz. cbn [fst snd] in Hz.
          assert (Z0 : (ew == 0)%Q) by (destruct (Qlt_le_dec 0 ew) as [X|X]; [apply P2 in X; lra|lra]).
          assert (ES : (tw + ew == tw)%Q) by lra.
          assert (E1 : (s == tw)%Q).
          { rewrite <- ES. apply (rn_keeps p rnd HR). apply (float_eq _ _ _ ES F1). }
          assert (E2 : (tw / s == 1)%Q) by (rewrite E1; field; lra).
          assert (E3 : (rnd (tw / s) == 1)%Q).
          { transitivity (tw / s)%Q; [|exact E2]. apply (rn_keeps p rnd HR). apply (float_eq _ _ _ E2). apply float_one. lia. }
          assert (Qle_bool (rnd (inject_Z d / inject_Z rm)%Q) (rnd (tw / s)%Q) = true) by (apply Qle_bool_iff; lra). congruence. }
        destruct (IH (S level) (xorb c d') e draws) as (l & Hr' & Hlen & Hf & Hs); auto; try lia.
        rewrite Hr'. cbn [bind]. eexists; split; [reflexivity|]. repeat split.
        -- cbn; lia.
        -- constructor; auto.
        -- intros a Ha. pose proof (Ha 0) as A0. rewrite Nat.add_0_r in A0. cbn [nth] in A0.
           assert (ev (xorb c d', e) a = true) as Hev.
           { apply Hs. intros i Hi. specialize (Ha (S i)). cbn [nth] in Ha.
             replace (S level + i) with (level + S i) by lia. apply Ha. lia. }
           unfold ev in *. cbn [fst snd evn] in *. rewrite A0 by lia. cbn. rewrite <- Hev. now destruct c, d', (evn e a).
Qed.

Lemma random_sampler_fl_total rnd rm T : total_sampler T (random_sampler_fl rnd rm T).
Proof. intros f draws H. apply rsi_total_fl; auto. unfold reachable. destruct f. apply in_edges_refl. Qed.
Lemma random_sampler_fl_sound p rnd M rm T : (1 <= p)%Z -> rounds_to_nearest p rnd -> index_order M -> (0 < rm)%Z ->
  sound_sampler M T rm (random_sampler_fl rnd rm T).
Proof.
  intros Hp HR HI Hrm f draws Hf Hd [a0 Ha0] Hl HF. unfold random_sampler_fl, random_satisfying_input_fl.
  assert (Hz : (fst f, snd f) <> bzero).
  { intro E. destruct f as [c n]. cbn in E. rewrite E, ev_zero in Ha0. discriminate. }
  destruct (rsi_sound_fl p rnd M rm f T Hp HR HI Hrm Hf (depends_below_vars M T f Hf Hd)
              T 0 (fst f) (snd f) draws) as (l & Hr & Hlen & H01 & Hs); auto.
  - destruct f as [c n]. apply in_edges_refl.
  - exists l. repeat split; auto. destruct f as [c n]. apply Hs. intros i Hi. reflexivity.
Qed.

Theorem randomized_search_fl_exact M clog2 rnd rm draws f g samples r fuel x : clog2_ok clog2 -> wfs M f -> wfs M g ->
  below (read_size M) f -> below (read_size M) g -> f <> [] -> (r = TwosComplement -> g <> []) ->
  Nat.max (length f) (length g) <= 62 ->
  wcre_randomized_search_fl rnd M clog2 rm draws f g samples r fuel = Some x ->
  exists c e, x = Ok (c, e) /\ (0 < e)%Z /\ is_maxQ (wrel r f g) (inject_Z c / inject_Z e).
Proof.
  intros HC Wf Wg Bf Bg Hf Hg HL. unfold wcre_randomized_search_fl.
  destruct (rs_start_spec M clog2 _ f g r HC eq_refl Wf Wg Bf Bg Hf Hg HL) as (d & f_ & Ld & Lf & Wd & Wf_ & Bd & Bf_ & V & [(c & e & -> & H)|(lg & c & e & -> & H & Wlg & Slg)]).
  - intros [= <-]. exists c, e. split; auto. apply and_comm, (exact_max d f_); auto.
  - intro E. destruct H as (H1 & H2 & H3).
    assert (HF : forall a, (1 <= uval f_ a)%Z) by (intro a; destruct (V a) as (_ & ->); lia).
    apply (rs_loop_exact M clog2 HC d f_ Wd Wf_ Bd Bf_ Ld Lf HF c e H1 H2 H3 lg Wlg Slg) in E; [|apply random_sampler_fl_total|].
    + destruct E as (c' & e' & -> & H). exists c', e'. split; auto. apply and_comm, (exact_max d f_); auto.
    + repeat split; try lia.
Qed.

Theorem randomized_search_fl_terminates M clog2 p rnd rm draws f g samples r : (1 <= p)%Z -> rounds_to_nearest p rnd -> clog2_ok clog2 -> index_order M ->
  wfs M f -> wfs M g ->
  below (read_size M) f -> below (read_size M) g -> f <> [] -> (r = TwosComplement -> g <> []) ->
  Nat.max (length f) (length g) <= 62 -> 0 < samples -> (forall i, 0 < draws i <= rm)%Z ->
  forall fuel, (pow2 (read_size M) < Z.of_nat fuel)%Z ->
  exists x, wcre_randomized_search_fl rnd M clog2 rm draws f g samples r fuel = Some x.
Proof.
  intros Hp HR HC HX Wf Wg Bf Bg Hf Hg HL Hs Hd fuel Hfuel. unfold wcre_randomized_search_fl.
  destruct (rs_start_spec M clog2 _ f g r HC eq_refl Wf Wg Bf Bg Hf Hg HL) as (d & f_ & Ld & Lf & Wd & Wf_ & Bd & Bf_ & V & [(c & e & -> & H)|(lg & c & e & -> & H & Wlg & Slg)]).
  - eauto.
  - destruct H as (H1 & H2 & H3).
    assert (HF : forall a, (1 <= uval f_ a)%Z) by (intro a; destruct (V a) as (_ & ->); lia).
    apply (rs_loop_terminates M clog2 HC d f_ Wd Wf_ Bd Bf_ Ld Lf HF c e H1 H2 lg Wlg Slg _ rm); auto.
    + apply random_sampler_fl_total.
    + apply (random_sampler_fl_sound p); auto. specialize (Hd 0). lia.
    + repeat split; try lia.
    + unfold count_inputs. pose proof (filter_len (fun l => betterb d f_ c e (asg_of l)) (all_inputs (read_size M))).
      pose proof (all_inputs_length (read_size M)). lia.
Qed.
