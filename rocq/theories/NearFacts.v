(** round_bdd on doubles: how far from the optimal approximation *)
From Coq Require Import List Bool Arith ZArith QArith Lia Lqa.
From Verif Require Import Res Cudd CuddFacts Spec SpecFacts SpecFloat SpecNan SpecLimited Helpers HelpersFacts HelpersFacts2 Counting CountFacts
  Metrics MetricsFacts4 Operators OperatorFacts OperatorFacts2 OperatorFacts3 OperatorFacts4 OperatorFacts5 Float FloatFacts Rounded RoundedFacts RoundedFacts2 Ieee IeeeFacts IeeeFacts3 NanFacts NanFacts2 LimitedFacts LimitedFacts2.
Import ListNotations.
Open Scope nat_scope.

Section Near.
Variable M : mgr.
Variable w : bdd -> Q.
Variable l : nat.
Variable N : nat.
Variable eps : Q.
Definition nearly (n : node) (c : bool) : Prop := forall k, In k (edges n c) -> (frac k - eps <= w k <= frac k + eps)%Q.
Lemma nearly_then v t d e c : nearly (Nd v t d e) c -> nearly t c.
Proof. intros H k Hk. apply H. cbn [edges]. right. apply in_or_app. auto. Qed.
Lemma nearly_else v t d e c : nearly (Nd v t d e) c -> nearly e (xorb c d).
Proof. intros H k Hk. apply H. cbn [edges]. right. apply in_or_app. auto. Qed.

Lemma rr_near (HI : index_order M) (E0 : (0 <= eps)%Q) n : forall k c h, okn M k n -> (forall i, In i (varsn n) -> i < N) -> nearly n c ->
  below_fun l h ->
  (avb N (fun a => xorb (ev (c, n) a) (ev (rr M w l n c) a)) <= avb N (fun a => xorb (ev (c, n) a) (h a)) + 2 * eps)%Q.
Proof.
  induction n as [|v t IHt d e IHe]; intros k c h Hok HV HD Hh.
  - rewrite (avb_ext N _ (fun _ => false)) by (intro a; cbn; now destruct c). rewrite avb_const. pose proof (avb_nonneg N (fun a => xorb (ev (c, One) a) (h a))) as P. set (A := avb N _) in *. clearbody A. cbn [b2q]. lra.
  - pose proof (okn_top_notin _ _ _ _ _ _ Hok) as [Nt Ne]. assert (Hok' := Hok).
    cbn [okn] in Hok. rewrite HI in Hok. destruct Hok as (Lk & Ht & He & _).
    pose proof (below_then N _ _ _ _ HV) as Vt. pose proof (below_else N _ _ _ _ HV) as Ve.
    assert (Lv : v < N) by (apply HV; now left).
    cbn [rr]. destruct (v <? l) eqn:E1.
    + apply Nat.ltb_lt in E1.
      assert (HB : forall b, below_fun l (fun a => h (upd a v b))).
      { intros b x y E. apply Hh. intros i Hi. unfold upd. destruct (i =? v); auto. }
      pose proof (IHt _ c _ Ht Vt (nearly_then _ _ _ _ _ HD) (HB true)) as It.
      pose proof (IHe _ (xorb c d) _ He Ve (nearly_else _ _ _ _ _ HD) (HB false)) as Ie.
      pose proof (avb_split N v (fun a => xorb (ev (c, Nd v t d e) a) (h a))
        (xor_extb _ _ (ev_extb _) (below_fun_extb _ _ Hh)) Lv) as S1.
      pose proof (avb_split N v (fun a => xorb (ev (c, Nd v t d e) a) (ev (ite M (bvar v) (rr M w l t c) (rr M w l e (xorb c d))) a))
        (xor_extb _ _ (ev_extb _) (ev_extb _)) Lv) as S2.
      rewrite S1, S2. clear S1 S2. cbn beta.
      rewrite (avb_ext N (fun a => xorb (ev (c, Nd v t d e) (upd a v true)) (h (upd a v true)))
        (fun a => xorb (ev (c, t) a) (h (upd a v true)))) by (intro a; now rewrite ev_nd, upd_same, ev_upd_notin).
      rewrite (avb_ext N (fun a => xorb (ev (c, Nd v t d e) (upd a v false)) (h (upd a v false)))
        (fun a => xorb (ev (xorb c d, e) a) (h (upd a v false)))) by (intro a; now rewrite ev_nd, upd_same, ev_upd_notin).
      rewrite (avb_ext N (fun a => xorb (ev (c, Nd v t d e) (upd a v true)) (ev (ite M (bvar v) (rr M w l t c) (rr M w l e (xorb c d))) (upd a v true)))
        (fun a => xorb (ev (c, t) a) (ev (rr M w l t c) a))) by (intro a; now rewrite ev_nd, ev_itev, upd_same, ev_upd_notin, rr_notin).
      rewrite (avb_ext N (fun a => xorb (ev (c, Nd v t d e) (upd a v false)) (ev (ite M (bvar v) (rr M w l t c) (rr M w l e (xorb c d))) (upd a v false)))
        (fun a => xorb (ev (xorb c d, e) a) (ev (rr M w l e (xorb c d)) a))) by (intro a; now rewrite ev_nd, ev_itev, upd_same, ev_upd_notin, rr_notin).
      cbn beta in It, Ie. lra.
    + apply Nat.ltb_ge in E1.
      pose proof (HD (c, Nd v t d e) (in_edges_refl _ _)) as Wn.
      pose proof (avb_frac M N _ _ c Hok' HV) as Fn.
      set (A := avb N (fun a => xorb (ev (c, Nd v t d e) a) (ev (if qgtb (w (c, Nd v t d e)) (1#2) then bone else bnot bone) a))).
      assert (B : (A - 2 * eps <= avb N (ev (c, Nd v t d e)))%Q /\ (A - 2 * eps <= 1 - avb N (ev (c, Nd v t d e)))%Q).
      { unfold A. destruct (qgtb (w (c, Nd v t d e)) (1#2)) eqn:Eq.
        - apply qgtb_true in Eq. pose proof (avb_const_xor N (ev (c, Nd v t d e)) true) as X. cbn beta iota in X.
          change (ev bone) with (fun _ : asg => true). cbn beta. rewrite X. lra.
        - apply qgtb_false in Eq. pose proof (avb_const_xor N (ev (c, Nd v t d e)) false) as X. cbn beta iota in X.
          change (ev (bnot bone)) with (fun _ : asg => false). cbn beta. rewrite X. lra. }
      assert (C : (A - 2 * eps <= avb N (fun a => xorb (ev (c, Nd v t d e) a) (h a)))%Q); [|lra].
      apply (indep_bound N (ev (c, Nd v t d e)) _ (ev_extb _) (proj1 B) (proj2 B) l h); auto; [|lia].
      intros i Hi a b. apply ev_upd_notin. cbn [snd]. intro Hin.
      assert (Lv2 : v <= lv M i).
      { apply (okn_vars M v (Nd v t d e)); auto. cbn [okn]. rewrite HI. cbn [okn] in Hok'. rewrite HI in Hok'. intuition lia. }
      rewrite HI in Lv2. lia.
Qed.
End Near.

(** the finite values of a map *)
Definition fin_map (m : bmap dbl) : bmap Q := map (fun p => (fst p, match snd p with DFin q => q | _ => 0%Q end)) m.
Lemma fin_dmap m : (forall k v, In (k, v) m -> exists q, v = DFin q) -> dmap (fin_map m) = m.
Proof.
  intro H. unfold dmap, fin_map. rewrite map_map. rewrite <- (map_id m) at 2. apply map_ext_in. intros [k v] Hk. cbn [fst snd].
  destruct (H k v Hk) as (q & ->). reflexivity.
Qed.
Lemma fin_keys m : map fst (fin_map m) = map fst m.
Proof. unfold fin_map. rewrite map_map. reflexivity. Qed.

Lemma densities_near M f n : wf M f -> depends_below n f ->
  let x := qpow (1 - 2 ^ (-53)) (2 * n) in let y := qpow (1 + 2 ^ (-53)) (2 * n) in let a := (inject_Z (Z.of_nat (3 * n)) * 2 ^ (-1075))%Q in
  exists mc, dmap mc = count_minterms_d f /\ complete mc (snd f) (fst f) /\ (forall k q, In (k, q) mc -> (0 <= q <= 1)%Q)
    /\ (0 <= y - x + y * a)%Q /\ nearly (wt_of mc) (y - x + y * a) (snd f) (fst f).
Proof.
  intros W B x y a. exists (fin_map (count_minterms_d f)).
  set (mc := fin_map (count_minterms_d f)).
  assert (FIN : forall k v, In (k, v) (count_minterms_d f) -> exists q, v = DFin q).
  { intros k v H. destruct (minterms_close M f W n B k v H) as (q & E & _). eauto. }
  assert (DM : dmap mc = count_minterms_d f) by exact (fin_dmap _ FIN).
  assert (CM : complete mc (snd f) (fst f)).
  { intros k Hk. unfold mc. rewrite fin_keys. exact (minterms_full f k Hk). }
  pose proof u53_range as PU.
  assert (X1 : (0 <= x <= 1)%Q) by exact (qpow_le1 u53 (2 * n) PU). assert (Y1 : (1 <= y)%Q) by (apply (qpow_ge1 u53 (2 * n)); lra).
  assert (A0 : (0 <= a)%Q) by exact (slack_nonneg n).
  split; [exact DM|]. split; [exact CM|]. split; [|split].
  - intros k q H. unfold mc, fin_map in H. apply in_map_iff in H as ([k' v] & Ek & Hv). cbn [fst snd] in Ek. injection Ek as -> Ev.
    destruct (minterms_close M f W n B k v Hv) as (q' & -> & Q & _). cbn in Ev. subst q'. exact Q.
  - clear - X1 Y1 A0. clearbody x y a. nra.
  - intros k Hk. unfold wt_of. destruct (blookup_key k mc (CM k Hk)) as (q & Eq). rewrite Eq.
    apply blookup_some in Eq. unfold mc, fin_map in Eq. apply in_map_iff in Eq as ([k' v] & Ek & Hv). cbn [fst snd] in Ek. injection Ek as -> Ev.
    destruct (minterms_close M f W n B k v Hv) as (q' & -> & _ & L & U). cbn in Ev. subst q'.
    assert (Df : (density n k == frac k)%Q).
    { symmetry. apply (frac_average M); [exact (reach_wf M f k W Hk)|]. eapply reachable_below; eauto. now apply (depends_below_vars M). }
    rewrite Df in L, U. fold x in L. fold y in U. change (slack n) with a in L, U.
    pose proof (frac_ge_0 k) as F0. pose proof (frac_le_1 k) as F1. set (F := frac k) in *. clearbody F x y a. clear - X1 Y1 A0 L U F0 F1. split; nra.
Qed.

Lemma round_near M f n level : index_order M -> wf M f -> depends_below n f ->
  let x := qpow (1 - 2 ^ (-53)) (2 * n) in let y := qpow (1 + 2 ^ (-53)) (2 * n) in let a := (inject_Z (Z.of_nat (3 * n)) * 2 ^ (-1075))%Q in
  exists r, round_bdd_d M f level = Ok r /\ wf M r /\ depends_below level r
    /\ forall h, below_fun level h -> (disagreement n (ev f) (ev r) <= disagreement n (ev f) h + 2 * (y - x + y * a))%Q.
Proof.
  intros HI W B x y a. destruct (densities_near M f n W B) as (mc & DM & CM & _ & EP & NE).
  destruct (round_memo M mc level (snd f) (fst f) [] CM (memo_ok_nil _)) as (m' & E & _).
  exists (rr M (wt_of mc) level (snd f) (fst f)). unfold round_bdd_d. rewrite <- DM, round_d_same, E. cbn [bind].
  split; [reflexivity|]. split; [apply rr_wf|]. split; [exact (rr_below M _ level (snd f) (fst f))|]. intros h Hh.
  pose proof (rr_near M (wt_of mc) level n _ HI EP (snd f) 0 (fst f) h W (depends_below_vars M n f W B) NE Hh) as H.
  rewrite edge_eta in H. exact H.
Qed.

Lemma qpow_up_bound u k : (0 <= u)%Q -> (2 * inject_Z (Z.of_nat k) * u <= 1)%Q -> (qpow (1 + u) k <= 1 + 2 * inject_Z (Z.of_nat k) * u)%Q.
Proof.
  intro U. induction k as [|k IH]; intro H; cbn [qpow]; [change (inject_Z (Z.of_nat 0)) with 0%Q; lra|].
  rewrite Nat2Z.inj_succ, <- Z.add_1_r, inject_Z_plus in *. change (inject_Z 1) with 1%Q in *.
  assert (K : (0 <= inject_Z (Z.of_nat k))%Q) by (change 0%Q with (inject_Z 0); rewrite <- Zle_Qle; lia).
  set (q := inject_Z (Z.of_nat k)) in *. clearbody q. assert (H' : (2 * q * u <= 1)%Q) by nra. specialize (IH H').
  set (P := qpow (1 + u) k) in *. clearbody P.
  assert (S1 : ((1 + u) * P <= (1 + u) * (1 + 2 * q * u))%Q) by (apply Qmult_le_l_nonneg; lra).
  assert (S2 : (u * (2 * q * u) <= u * 1)%Q) by (apply Qmult_le_l_nonneg; lra). lra.
Qed.
Lemma qpow_down_bound u k : (0 <= u <= 1)%Q -> (1 - inject_Z (Z.of_nat k) * u <= qpow (1 - u) k)%Q.
Proof.
  intro U. induction k as [|k IH]; cbn [qpow]; [change (inject_Z (Z.of_nat 0)) with 0%Q; lra|].
  rewrite Nat2Z.inj_succ, <- Z.add_1_r, inject_Z_plus in *. change (inject_Z 1) with 1%Q in *.
  assert (K : (0 <= inject_Z (Z.of_nat k))%Q) by (change 0%Q with (inject_Z 0); rewrite <- Zle_Qle; lia).
  set (q := inject_Z (Z.of_nat k)) in *. clearbody q. set (P := qpow (1 - u) k) in *. clearbody P.
  assert (S1 : ((1 - u) * (1 - q * u) <= (1 - u) * P)%Q) by (apply Qmult_le_l_nonneg; lra).
  assert (S2 : (0 <= q * u * u)%Q) by (repeat apply Qmult_le_0_compat; lra). lra.
Qed.

Lemma loss_simple n : (Z.of_nat n <= 2 ^ 50)%Z ->
  let x := qpow (1 - 2 ^ (-53)) (2 * n) in let y := qpow (1 + 2 ^ (-53)) (2 * n) in let a := (inject_Z (Z.of_nat (3 * n)) * 2 ^ (-1075))%Q in
  (2 * (y - x + y * a) <= inject_Z (Z.of_nat n) * 2 ^ (-49))%Q.
Proof.
  intro Hn. cbv zeta.
  assert (N0 : (0 <= inject_Z (Z.of_nat n))%Q) by (change 0%Q with (inject_Z 0); rewrite <- Zle_Qle; lia).
  assert (N1 : (inject_Z (Z.of_nat n) <= inject_Z (2 ^ 50))%Q) by (rewrite <- Zle_Qle; exact Hn).
  assert (T : (inject_Z (Z.of_nat (2 * n)) == 2 * inject_Z (Z.of_nat n))%Q) by (rewrite Nat2Z.inj_mul, inject_Z_mult; reflexivity).
  assert (T3 : (inject_Z (Z.of_nat (3 * n)) == 3 * inject_Z (Z.of_nat n))%Q) by (rewrite Nat2Z.inj_mul, inject_Z_mult; reflexivity).
  pose proof u53_range as PU.
  assert (U49 : (2 ^ (-49) == 16 * 2 ^ (-53))%Q) by reflexivity.
  assert (U50 : (inject_Z (2 ^ 50) * 2 ^ (-53) == 1 # 8)%Q) by reflexivity.
  assert (ET : (2 ^ (-1075) <= 2 ^ (-57))%Q) by (apply p2_mono; lia).
  assert (U57 : (16 * 2 ^ (-57) == 2 ^ (-53))%Q) by reflexivity.
  assert (E0 : (0 <= 2 ^ (-1075))%Q) by (apply Qlt_le_weak; exact eta_pos).
  pose proof (qpow_up_bound (2 ^ (-53)) (2 * n) (proj1 PU)) as UP. pose proof (qpow_down_bound (2 ^ (-53)) (2 * n) PU) as DN.
  rewrite T in UP, DN. rewrite T3, U49.
  set (nq := inject_Z (Z.of_nat n)) in *. set (u := (2 ^ (-53))%Q) in *. set (et := (2 ^ (-1075))%Q) in *. set (v := (2 ^ (-57))%Q) in *.
  set (K := inject_Z (2 ^ 50)) in *. set (x := qpow (1 - u) (2 * n)) in *. set (y := qpow (1 + u) (2 * n)) in *.
  change (0 <= u <= 1)%Q in PU. clearbody nq et v K x y. clear T T3 U49. destruct PU as [U0 U1]. clearbody u.
  assert (NU : (nq * u <= 1 # 8)%Q) by nra.
  assert (UP' : (y <= 1 + 4 * (nq * u))%Q) by (assert (2 * (2 * nq) * u <= 1)%Q by lra; specialize (UP H); lra).
  assert (DN' : (1 - 2 * (nq * u) <= x)%Q) by lra.
  assert (A : (16 * (nq * et) <= nq * u)%Q) by nra.
  assert (A0 : (0 <= nq * et)%Q) by nra.
  assert (YA : (y * (3 * nq * et) <= 6 * (nq * et))%Q) by nra.
  lra.
Qed.
Lemma round_near_simple M f n level : index_order M -> wf M f -> depends_below n f -> (Z.of_nat n <= 2 ^ 50)%Z ->
  exists r, round_bdd_d M f level = Ok r
    /\ forall h, below_fun level h -> (disagreement n (ev f) (ev r) <= disagreement n (ev f) h + inject_Z (Z.of_nat n) * 2 ^ (-49))%Q.
Proof.
  intros HI W B Hn. destruct (round_near M f n level HI W B) as (r & E & _ & _ & H). exists r. split; [exact E|]. intros h Hh.
  eapply Qle_trans; [exact (H h Hh)|]. apply Qplus_le_r. exact (loss_simple n Hn).
Qed.

(** x0 or all of x1 .. x59: the density 1/2 + 2^-60 is rounded to 1/2 *)
Definition near_half : bdd := bor (id_mgr 60) (bvar 0) (fold_left (fun b i => band (id_mgr 60) b (bvar i)) (seq 1 59) bone).
Lemma near_half_wf : wf (id_mgr 60) near_half.
Proof.
  assert (G : forall l b, wf (id_mgr 60) b -> wf (id_mgr 60) (fold_left (fun b i => band (id_mgr 60) b (bvar i)) l b)).
  { induction l as [|i l IH]; intros b Hb; cbn [fold_left]; auto. apply IH. auto with wf. }
  unfold near_half. apply wf_or; [auto with wf|apply G; exact I].
Qed.
Lemma near_half_below : depends_below 60 near_half.
Proof. apply vars_depends_below. intros i Hi. assert (F : forallb (fun i => i <? 60) (varsn (snd near_half)) = true) by (vm_compute; reflexivity).
  exact (proj1 (Nat.ltb_lt i 60) (proj1 (forallb_forall _ _) F i Hi)).
Qed.
Lemma one_is_better M n f : wf M f -> depends_below n f -> (1 # 2 < frac f)%Q ->
  (disagreement n (ev f) (fun _ => true) < disagreement n (ev f) (ev bzero))%Q.
Proof.
  intros W B H. pose proof (avb_const_xor n (ev f) true) as X. pose proof (avb_const_xor n (ev f) false) as Y. cbn beta iota in X, Y.
  rewrite (frac_average M n f W B) in H. change (average n (fun a => b2q (ev f a))) with (avb n (ev f)) in H.
  change (disagreement n (ev f) (fun _ => true)) with (avb n (fun a => xorb (ev f a) true)).
  change (disagreement n (ev f) (ev bzero)) with (avb n (fun a => xorb (ev f a) false)).
  rewrite X, Y. lra.
Qed.
Lemma round_not_optimal : exists (M : mgr) (f : bdd) (n level : nat) (r : bdd) (h : asg -> bool),
  index_order M /\ wf M f /\ depends_below n f /\ round_bdd_d M f level = Ok r /\ below_fun level h
  /\ (disagreement n (ev f) h < disagreement n (ev f) (ev r))%Q.
Proof.
  exists (id_mgr 60), near_half, 60, 0, bzero, (fun _ => true).
  split; [intro; reflexivity|]. split; [exact near_half_wf|]. split; [exact near_half_below|].
  split; [vm_compute; reflexivity|]. split; [intros ? ? _; reflexivity|].
  apply (one_is_better (id_mgr 60)); [exact near_half_wf|exact near_half_below|]. vm_compute. reflexivity.
Qed.
