(** The replacement of children on doubles: how much of a function is lost *)
From Coq Require Import List Bool Arith ZArith QArith Lia Lqa.
From Verif Require Import Res Cudd CuddFacts Spec SpecFacts SpecFloat SpecNan SpecLimited Helpers HelpersFacts HelpersFacts2 Counting CountFacts
  Metrics MetricsFacts4 Operators OperatorFacts OperatorFacts2 OperatorFacts3 OperatorFacts4 OperatorFacts5 Float FloatFacts Rounded RoundedFacts RoundedFacts2 Ieee IeeeFacts IeeeFacts3 NanFacts NanFacts2 LimitedFacts LimitedFacts2 NearFacts.
Import ListNotations.
Open Scope nat_scope.

Definition qn (k : nat) : Q := inject_Z (Z.of_nat k).
Lemma qn_S k : (qn (S k) == 1 + qn k)%Q.
Proof. unfold qn. rewrite Nat2Z.inj_succ, <- Z.add_1_l, inject_Z_plus. reflexivity. Qed.
Section Half.
Variable M : mgr.
Variable w : bdd -> Q.
Variables ls le : nat.
Variable N : nat.
Variable eps : Q.
Lemma scale_near (j k : nat) (x y : Q) : (0 <= eps)%Q -> j <= k -> (0 <= y)%Q -> (x <= Q2 j * y + qn j * eps)%Q -> (x <= Q2 k * y + qn k * eps)%Q.
Proof.
  intros E0 L Hy H. assert (Q2 j * y <= Q2 k * y)%Q by (apply Qmult_le_compat_r; auto using Q2_mono).
  assert (qn j * eps <= qn k * eps)%Q by (apply Qmult_le_compat_r; auto; unfold qn; rewrite <- Zle_Qle; lia). lra.
Qed.

Lemma rc_near (HI : index_order M) (E0 : (0 <= eps)%Q) sub n : forall k c, okn M k n -> (forall i, In i (varsn n) -> i < N) -> nearly w eps n c ->
  (keep sub (avb N (ev (c, n))) <= Q2 (left_levels ls le k) * keep sub (avb N (ev (rc M w ls le (negb sub) sub n c))) + qn (left_levels ls le k) * eps)%Q.
Proof.
  induction n as [|v t IHt d e IHe]; intros k c Hok HV HD.
  - cbn [rc]. apply (scale_near 0 (left_levels ls le k)); [exact E0|lia|apply (keep_nonneg N)|]. change (Q2 0) with 1%Q. change (qn 0) with 0%Q. lra.
  - pose proof (avb_nd M N k v t d e c Hok HV) as EN. pose proof (okn_top_notin _ _ _ _ _ _ Hok) as [Nt Ne].
    assert (Hok' := Hok). cbn [okn] in Hok. rewrite HI in Hok. destruct Hok as (Lk & Ht & He & _).
    pose proof (below_then N _ _ _ _ HV) as Vt. pose proof (below_else N _ _ _ _ HV) as Ve.
    pose proof (IHt _ c Ht Vt (nearly_then w eps _ _ _ _ _ HD)) as It.
    pose proof (IHe _ (xorb c d) He Ve (nearly_else w eps _ _ _ _ _ HD)) as Ie.
    assert (Lv : v < N) by (apply HV; now left).
    pose proof (fun a b => rc_notin M w ls le (negb sub) sub t v b a c Nt) as It'.
    pose proof (fun a b => rc_notin M w ls le (negb sub) sub e v b a (xorb c d) Ne) as Ie'.
    pose proof (keep_nonneg N sub (ev (rc M w ls le (negb sub) sub t c))) as Pt.
    pose proof (keep_nonneg N sub (ev (rc M w ls le (negb sub) sub e (xorb c d)))) as Pe.
    assert (KH : forall x y z, (z == (1#2) * (x + y))%Q -> (keep sub z == (1#2) * (keep sub x + keep sub y))%Q)
      by (intros x y z Hz; destruct sub; cbn [keep]; lra).
    apply KH in EN.
    cbn [rc]. destruct (v <? ls) eqn:E1.
    + pose proof (KH _ _ _ (rc_avb_ite M N v _ _ _ _ (fun a => eq_refl) (fun a => eq_refl) Lv It' Ie')) as ER.
      rewrite ER, EN. clear ER EN.
      assert (M1 : left_levels ls le (S v) <= left_levels ls le k) by (apply (left_levels_mono ls le); lia).
      apply (scale_near _ _ _ _ E0 M1) in It; auto. apply (scale_near _ _ _ _ E0 M1) in Ie; auto.
      set (q := Q2 (left_levels ls le k)) in *. set (j := qn (left_levels ls le k)) in *. clearbody q j. lra.
    + apply Nat.ltb_ge in E1. destruct (v <=? le) eqn:E2.
      * apply Nat.leb_le in E2.
        assert (M1 : S (left_levels ls le (S v)) <= left_levels ls le k) by (unfold left_levels; lia).
        pose proof (HD (c, t) ltac:(cbn [edges]; right; apply in_or_app; left; apply in_edges_refl)) as Wt.
        pose proof (HD (xorb c d, e) ltac:(cbn [edges]; right; apply in_or_app; right; apply in_edges_refl)) as We.
        pose proof (avb_frac M N _ t c Ht Vt) as Ft. pose proof (avb_frac M N _ e (xorb c d) He Ve) as Fe.
        apply (scale_near _ _ _ _ E0 M1); [apply (keep_nonneg N)|].
        rewrite Q2_S, qn_S, EN. set (q := Q2 (left_levels ls le (S v))) in *. set (j := qn (left_levels ls le (S v))) in *. clearbody q j.
        pose proof (KH _ _ _ (rc_avb_ite M N v _ _ _ _ (fun a => ev_repl sub a) (fun a => eq_refl) Lv (fun a b => eq_refl) Ie')) as ER1.
        pose proof (KH _ _ _ (rc_avb_ite M N v _ _ _ _ (fun a => eq_refl) (fun a => ev_repl sub a) Lv It' (fun a b => eq_refl))) as ER2.
        assert (K0 : (keep sub (avb N (fun _ => negb sub)) == 0)%Q)
          by (destruct sub; cbn [keep negb]; rewrite avb_const; reflexivity).
        rewrite K0 in ER1, ER2.
        destruct (qgtb (w (c, t)) (w (xorb c d, e))) eqn:E3; [apply qgtb_true in E3|apply qgtb_false in E3];
          destruct sub; cbn [negb Bool.eqb]; [rewrite ER2|rewrite ER1|rewrite ER1|rewrite ER2]; cbn [keep negb] in *; nra.
      * apply (scale_near 0 (left_levels ls le k)); [exact E0|lia|apply (keep_nonneg N)|]. change (Q2 0) with 1%Q. change (qn 0) with 0%Q. lra.
Qed.

Lemma rc_near1 (E0 : (0 <= eps)%Q) sub n (Hl : ls = le) : forall k c, okn M k n -> (forall i, In i (varsn n) -> i < N) -> nearly w eps n c ->
  (keep sub (avb N (ev (c, n))) <= 2 * keep sub (avb N (ev (rc M w ls le (negb sub) sub n c))) + eps)%Q.
Proof.
  induction n as [|v t IHt d e IHe]; intros k c Hok HV HD.
  - cbn [rc]. pose proof (keep_nonneg N sub (ev (c, One))). lra.
  - pose proof (avb_nd M N k v t d e c Hok HV) as EN. pose proof (okn_top_notin _ _ _ _ _ _ Hok) as [Nt Ne].
    assert (Hok' := Hok). cbn [okn] in Hok. destruct Hok as (Lk & Ht & He & _).
    pose proof (below_then N _ _ _ _ HV) as Vt. pose proof (below_else N _ _ _ _ HV) as Ve.
    pose proof (IHt _ c Ht Vt (nearly_then w eps _ _ _ _ _ HD)) as It.
    pose proof (IHe _ (xorb c d) He Ve (nearly_else w eps _ _ _ _ _ HD)) as Ie.
    assert (Lv : v < N) by (apply HV; now left).
    pose proof (fun a b => rc_notin M w ls le (negb sub) sub t v b a c Nt) as It'.
    pose proof (fun a b => rc_notin M w ls le (negb sub) sub e v b a (xorb c d) Ne) as Ie'.
    pose proof (keep_nonneg N sub (ev (rc M w ls le (negb sub) sub t c))) as Pt.
    pose proof (keep_nonneg N sub (ev (rc M w ls le (negb sub) sub e (xorb c d)))) as Pe.
    assert (KH : forall x y z, (z == (1#2) * (x + y))%Q -> (keep sub z == (1#2) * (keep sub x + keep sub y))%Q)
      by (intros x y z Hz; destruct sub; cbn [keep]; lra).
    apply KH in EN.
    cbn [rc]. destruct (v <? ls) eqn:E1.
    + pose proof (KH _ _ _ (rc_avb_ite M N v _ _ _ _ (fun a => eq_refl) (fun a => eq_refl) Lv It' Ie')) as ER.
      rewrite ER, EN. lra.
    + apply Nat.ltb_ge in E1. destruct (v <=? le) eqn:E2.
      * apply Nat.leb_le in E2. assert (Hv : v = ls) by lia.
        pose proof (HD (c, t) ltac:(cbn [edges]; right; apply in_or_app; left; apply in_edges_refl)) as Wt.
        pose proof (HD (xorb c d, e) ltac:(cbn [edges]; right; apply in_or_app; right; apply in_edges_refl)) as We.
        pose proof (avb_frac M N _ t c Ht Vt) as Ft. pose proof (avb_frac M N _ e (xorb c d) He Ve) as Fe.
        assert (Ot : forall a, ev (rc M w ls le (negb sub) sub t c) a = ev (c, t) a)
          by (intro a; apply rc_outside; intros i Hi Hb; apply Nt; replace v with i by lia; auto).
        assert (Oe : forall a, ev (rc M w ls le (negb sub) sub e (xorb c d)) a = ev (xorb c d, e) a)
          by (intro a; apply rc_outside; intros i Hi Hb; apply Ne; replace v with i by lia; auto).
        pose proof (KH _ _ _ (rc_avb_ite M N v _ _ _ _ (fun a => ev_repl sub a) Oe Lv (fun a b => eq_refl)
          (fun a b => ev_upd_notin (xorb c d, e) a v b Ne))) as ER1.
        pose proof (KH _ _ _ (rc_avb_ite M N v _ _ _ _ Ot (fun a => ev_repl sub a) Lv
          (fun a b => ev_upd_notin (c, t) a v b Nt) (fun a b => eq_refl))) as ER2.
        assert (K0 : (keep sub (avb N (fun _ => negb sub)) == 0)%Q)
          by (destruct sub; cbn [keep negb]; rewrite avb_const; reflexivity).
        rewrite K0 in ER1, ER2. rewrite EN.
        destruct (qgtb (w (c, t)) (w (xorb c d, e))) eqn:E3; [apply qgtb_true in E3|apply qgtb_false in E3];
          destruct sub; cbn [negb Bool.eqb]; [rewrite ER2|rewrite ER1|rewrite ER1|rewrite ER2]; cbn [keep negb] in *; lra.
      * pose proof (keep_nonneg N sub (ev (c, Nd v t d e))). lra.
Qed.
End Half.

Lemma any_d_pure M f n ls le rh sub : wf M f -> depends_below n f ->
  let x := qpow (1 - 2 ^ (-53)) (2 * n) in let y := qpow (1 + 2 ^ (-53)) (2 * n) in let a := (inject_Z (Z.of_nat (3 * n)) * 2 ^ (-1075))%Q in
  exists w, round_any_d M f ls le rh sub = Ok (rc M w ls le rh sub (snd f) (fst f)) /\ (0 <= y - x + y * a)%Q /\ nearly w (y - x + y * a) (snd f) (fst f).
Proof.
  intros W B x y a. destruct (densities_near M f n W B) as (mc & DM & CM & _ & EP & NE).
  exists (wt_of mc). destruct (remove_memo M mc ls le rh sub (snd f) (fst f) [] CM (memo_ok_nil _)) as (m' & E & _).
  unfold round_any_d. rewrite <- DM, remove_d_same, E. auto.
Qed.
Lemma half_simple n : (Z.of_nat n <= 2 ^ 50)%Z ->
  let x := qpow (1 - 2 ^ (-53)) (2 * n) in let y := qpow (1 + 2 ^ (-53)) (2 * n) in let a := (inject_Z (Z.of_nat (3 * n)) * 2 ^ (-1075))%Q in
  (y - x + y * a <= qn n * 2 ^ (-50))%Q.
Proof.
  intros Hn x y a. pose proof (loss_simple n Hn) as L. cbv zeta in L. fold x y a in L. fold (qn n) in L.
  assert (V : (2 ^ (-49) == 2 * 2 ^ (-50))%Q) by reflexivity. rewrite V in L. set (z := (y - x + y * a)%Q) in *. set (v := (2 ^ (-50))%Q) in *. clearbody z v. lra.
Qed.
Lemma half_near M f n l : wf M f -> depends_below n f -> (Z.of_nat n <= 2 ^ 50)%Z ->
  (exists r, subset_light_child_d M f l l = Ok r /\ (density n f <= 2 * density n r + inject_Z (Z.of_nat n) * 2 ^ (-50))%Q)
  /\ (exists r, superset_heavy_child_d M f l l = Ok r /\ (1 - density n f <= 2 * (1 - density n r) + inject_Z (Z.of_nat n) * 2 ^ (-50))%Q).
Proof.
  intros W B Hn. pose proof (half_simple n Hn) as L. cbv zeta in L. fold (qn n). pose proof (depends_below_vars M n f W B) as HV.
  unfold subset_light_child_d, superset_heavy_child_d. split.
  - destruct (any_d_pure M f n l l false true W B) as (w & -> & EP & NE). eexists. split; [reflexivity|].
    pose proof (rc_near1 M w l l n _ EP true (snd f) eq_refl 0 (fst f) W HV NE) as H. rewrite edge_eta in H. cbn [keep] in H.
    change (density n f <= 2 * density n (rc M w l l false true (snd f) (fst f)) + (qpow (1 + 2 ^ (-53)) (2 * n) - qpow (1 - 2 ^ (-53)) (2 * n) + qpow (1 + 2 ^ (-53)) (2 * n) * (inject_Z (Z.of_nat (3 * n)) * 2 ^ (-1075))))%Q in H.
    eapply Qle_trans; [exact H|]. apply Qplus_le_r. exact L.
  - destruct (any_d_pure M f n l l true false W B) as (w & -> & EP & NE). eexists. split; [reflexivity|].
    pose proof (rc_near1 M w l l n _ EP false (snd f) eq_refl 0 (fst f) W HV NE) as H. rewrite edge_eta in H. cbn [keep] in H.
    change (1 - density n f <= 2 * (1 - density n (rc M w l l true false (snd f) (fst f))) + (qpow (1 + 2 ^ (-53)) (2 * n) - qpow (1 - 2 ^ (-53)) (2 * n) + qpow (1 + 2 ^ (-53)) (2 * n) * (inject_Z (Z.of_nat (3 * n)) * 2 ^ (-1075))))%Q in H.
    eapply Qle_trans; [exact H|]. apply Qplus_le_r. exact L.
Qed.
Lemma range_near M f n ls le : index_order M -> wf M f -> depends_below n f -> ls <= le -> (Z.of_nat n <= 2 ^ 50)%Z ->
  let k := Z.of_nat (le - ls + 1) in
  (exists r, subset_light_child_d M f ls le = Ok r
     /\ (density n f <= inject_Z (2 ^ k) * density n r + inject_Z (k * Z.of_nat n) * 2 ^ (-50))%Q)
  /\ (exists r, superset_heavy_child_d M f ls le = Ok r
     /\ (1 - density n f <= inject_Z (2 ^ k) * (1 - density n r) + inject_Z (k * Z.of_nat n) * 2 ^ (-50))%Q).
Proof.
  intros HI W B Hl Hn k. pose proof (half_simple n Hn) as L. cbv zeta in L. pose proof (depends_below_vars M n f W B) as HV.
  assert (EL : left_levels ls le 0 = le - ls + 1) by (unfold left_levels; lia).
  assert (K0 : (0 <= qn (le - ls + 1))%Q) by (unfold qn; change 0%Q with (inject_Z 0); rewrite <- Zle_Qle; lia).
  assert (S1 : forall d, (d <= qn n * 2 ^ (-50))%Q -> (qn (le - ls + 1) * d <= inject_Z (k * Z.of_nat n) * 2 ^ (-50))%Q).
  { intros d Hd. rewrite inject_Z_mult. change (inject_Z k) with (qn (le - ls + 1)). change (inject_Z (Z.of_nat n)) with (qn n).
    rewrite <- Qmult_assoc. rewrite (Qmult_comm _ d), (Qmult_comm _ (qn n * 2 ^ (-50))%Q). now apply Qmult_le_compat_r. }
  specialize (S1 _ L). unfold subset_light_child_d, superset_heavy_child_d. split.
  - destruct (any_d_pure M f n ls le false true W B) as (w & -> & EP & NE). eexists. split; [reflexivity|].
    pose proof (rc_near M w ls le n _ HI EP true (snd f) 0 (fst f) W HV NE) as H. rewrite edge_eta, EL in H. cbn [keep negb] in H.
    eapply Qle_trans; [exact H|]. apply Qplus_le_r. exact S1.
  - destruct (any_d_pure M f n ls le true false W B) as (w & -> & EP & NE). eexists. split; [reflexivity|].
    pose proof (rc_near M w ls le n _ HI EP false (snd f) 0 (fst f) W HV NE) as H. rewrite edge_eta, EL in H. cbn [keep negb] in H.
    eapply Qle_trans; [exact H|]. apply Qplus_le_r. exact S1.
Qed.

(** x1 or all of x0, x2 .. x60: the children differ by 2^-59, and the heavier one is lost *)
Definition near_tie : bdd := bor (id_mgr 61) (bvar 1) (fold_left (fun b i => band (id_mgr 61) b (bvar i)) (seq 2 59) (bvar 0)).
Lemma near_tie_wf : wf (id_mgr 61) near_tie.
Proof.
  assert (G : forall l b, wf (id_mgr 61) b -> wf (id_mgr 61) (fold_left (fun b i => band (id_mgr 61) b (bvar i)) l b)).
  { induction l as [|i l IH]; intros b Hb; cbn [fold_left]; auto. apply IH. auto with wf. }
  unfold near_tie. apply wf_or; [auto with wf|apply G; auto with wf].
Qed.
Lemma near_tie_below : depends_below 61 near_tie.
Proof. apply vars_depends_below. intros i Hi. assert (F : forallb (fun i => i <? 61) (varsn (snd near_tie)) = true) by (vm_compute; reflexivity).
  exact (proj1 (Nat.ltb_lt i 61) (proj1 (forallb_forall _ _) F i Hi)).
Qed.
Definition tie_left : bdd := band (id_mgr 61) (bnot (bvar 0)) (bvar 1).
Lemma tie_left_below : depends_below 61 tie_left.
Proof. apply vars_depends_below. intros i Hi. assert (F : forallb (fun i => i <? 61) (varsn (snd tie_left)) = true) by (vm_compute; reflexivity).
  exact (proj1 (Nat.ltb_lt i 61) (proj1 (forallb_forall _ _) F i Hi)).
Qed.
Lemma tie_left_wf : wf (id_mgr 61) tie_left. Proof. unfold tie_left. auto with wf. Qed.
Lemma frac_half M n f r : wf M f -> wf M r -> depends_below n f -> depends_below n r -> (2 * frac r < frac f)%Q -> (2 * density n r < density n f)%Q.
Proof. intros Wf Wr Bf Br. rewrite (frac_average M n f Wf Bf), (frac_average M n r Wr Br). auto. Qed.
Lemma half_lost : exists (M : mgr) (f : bdd) (n level : nat) (r : bdd), wf M f /\ depends_below n f
  /\ subset_light_child_d M f level level = Ok r /\ (2 * density n r < density n f)%Q.
Proof.
  exists (id_mgr 61), near_tie, 61, 0, tie_left. split; [exact near_tie_wf|]. split; [exact near_tie_below|].
  split; [vm_compute; reflexivity|]. apply (frac_half (id_mgr 61) 61 near_tie tie_left near_tie_wf tie_left_wf near_tie_below tie_left_below). vm_compute. reflexivity.
Qed.
