(** NaN in the counts of solutions: consequences for round_down and round_up *)
From Coq Require Import List Bool Arith ZArith QArith Lia Lqa.
From Verif Require Import Res Cudd CuddFacts Spec SpecFacts SpecFloat SpecNan Float FloatFacts Helpers HelpersFacts HelpersFacts2 Counting CountFacts
  Metrics Operators OperatorFacts OperatorFacts2 OperatorFacts4 OperatorFacts5 LevelFacts OrderFacts Ieee IeeeFacts IeeeFacts2 IeeeFacts3 IeeeFacts4 IeeeFacts7 NanFacts.
Import ListNotations.
Open Scope nat_scope.

Lemma top_of M c v t d e w : wf M (c, Nd v t d e) -> top_variable M (c, Nd v t d e) w <-> w = v.
Proof.
  intro W. assert (K : forall i, In i (varsn (Nd v t d e)) -> lv M v <= lv M i).
  { intros i [<-|Hi]; [lia|]. destruct W as (_ & Kt & Ke & _). apply in_app_or in Hi as [Hi|Hi].
    - pose proof (okn_vars _ _ _ _ Kt Hi). lia.
    - pose proof (okn_vars _ _ _ _ Ke Hi). lia. }
  split.
  - intros (Hw & L). apply support_in in Hw. cbn [snd] in Hw. specialize (K w Hw). apply (lv_inj M).
    assert (lv M w <= lv M v); [|lia]. apply L, support_in. now left.
  - intros ->. split; [apply support_in; now left|]. intros i Hi. apply support_in in Hi. now apply K.
Qed.
Lemma always_zero M k : wf M k -> (forall a, ev k a = false) -> k = bzero.
Proof. intros W H. apply (canonical M); auto with wf. Qed.
Lemma far_zero_bad M T k : wf M k -> far_zero M T k <-> bad T k.
Proof.
  intro W. destruct k as [c [|v t d e]].
  { split; [intros (v & b & (H & _) & _)|intros (? & ? & ? & ? & ? & [=] & _)]. apply support_in in H. destruct H. }
  destruct (okn_top_notin _ _ _ _ _ _ W) as (Nt & Ne). split.
  - intros (v' & b & Ht & Z & L). apply (top_of M c v t d e v' W) in Ht. subst v'. exists c, v, t, d, e. split; [reflexivity|]. split; [|exact L].
    destruct b; [left|right]; apply (always_zero M); eauto using wf_then, wf_else; intro a.
    + rewrite <- (ev_upd_notin (c, t) a v true Nt). specialize (Z (upd a v true) (upd_same _ _ _)). now rewrite ev_nd, upd_same in Z.
    + rewrite <- (ev_upd_notin (xorb c d, e) a v false Ne). specialize (Z (upd a v false) (upd_same _ _ _)). now rewrite ev_nd, upd_same in Z.
  - intros (c' & v' & t' & d' & e' & [= <- <- <- <- <-] & Z & L). destruct Z as [Z|Z].
    + exists v, true. split; [now apply top_of|]. split; [|exact L]. intros a Ha. now rewrite ev_nd, Ha, Z.
    + exists v, false. split; [now apply top_of|]. split; [|exact L]. intros a Ha. now rewrite ev_nd, Ha, Z.
Qed.
Lemma reach_wf M f k : wf M f -> In k (reachable f) -> wf M k.
Proof. intros W H. exact (edges_wf M _ _ _ _ W H). Qed.
Lemma reach_trans f k k' : In k (reachable f) -> In k' (reachable k) -> In k' (reachable f).
Proof. intros H H'. exact (edges_trans _ _ _ _ H H'). Qed.
Lemma edges_vars n : forall c k i, In k (edges n c) -> In i (varsn (snd k)) -> In i (varsn n).
Proof.
  induction n as [|v t IHt d e IHe]; intros c k i Hk Hi; cbn [edges] in Hk.
  - destruct Hk as [<-|[]]. exact Hi.
  - destruct Hk as [<-|Hk]; [exact Hi|]. cbn [varsn]. right. apply in_or_app. apply in_app_or in Hk as [Hk|Hk]; eauto.
Qed.
Lemma nan_value M f T k : wf M f -> levels_of [f] T -> (Z.of_nat T < 2 ^ 64)%Z -> In k (reachable f) ->
  (has_far_zero M T k -> solsd T (snd k) (fst k) = DNaN)
  /\ (~ has_far_zero M T k -> k <> bzero -> positive_count (solsd T (snd k) (fst k))).
Proof.
  intros W L B Hk. pose proof (reach_wf M f k W Hk) as Wk. split.
  - intros (k' & Hk' & F). apply (bad_nan T B (snd k) (fst k) k'); [exact Hk'|]. apply (far_zero_bad M); auto. exact (reach_wf M k k' Wk Hk').
  - intros N Z. apply (good_count M T B (snd k) 0 (fst k) Wk); [| |now destruct k].
    + intros i Hi. rewrite (levels_of_terminal _ _ L). apply (terminal_level_gt [[f]] [f] f i); [now left|now left|].
      exact (edges_vars _ _ _ _ Hk Hi).
    + intros k' Hk' Hb. apply N. exists k'. split; [exact Hk'|]. apply (far_zero_bad M); auto. exact (reach_wf M k k' Wk Hk').
Qed.
Lemma nan_counts M f T : wf M f -> levels_of [f] T -> (Z.of_nat T < 2 ^ 64)%Z ->
  forall k x, In (k, x) (count_solutions_d f) ->
  (x = DNaN <-> has_far_zero M T k)
  /\ (x <> DNaN -> ((forall a, ev k a = false) -> x = DFin 0) /\ ((exists a, ev k a = true) -> x = DInf false \/ exists q, x = DFin q /\ (1 <= q)%Q)).
Proof.
  intros W L B k x H. assert (Hk : In k (reachable f)).
  { destruct (solutions_rec_d_keys (terminal_level [[f]]) (snd f) (fst f) [] closed_nil) as (_ & K).
    destruct (proj1 (K k)) as [[]|Hk]; [|exact Hk]. apply in_map_iff. now exists (k, x). }
  rewrite (solutions_d_in f k x H), <- (levels_of_terminal _ _ L). clear x H.
  destruct (nan_value M f T k W L B Hk) as (N & P). pose proof (reach_wf M f k W Hk) as Wk.
  assert (Zero : solsd T (snd bzero) (fst bzero) = DFin 0) by reflexivity.
  assert (D : k = bzero \/ k <> bzero) by (destruct (bdd_eqb k bzero) eqn:Q; [left; now apply bdd_eqb_spec|right; now apply bdd_eqb_false]).
  assert (F0 : ~ has_far_zero M T bzero).
  { intros (k' & [<-|[]] & v & b & (S & _) & _). apply support_in in S. destruct S. }
  destruct D as [->|D].
  - rewrite Zero. split; [split; [discriminate|tauto]|]. intros _. split; [auto|]. intros (a & E). discriminate.
  - assert (C : positive_count (solsd T (snd k) (fst k)) -> solsd T (snd k) (fst k) <> DNaN) by (intros [(q & -> & _)| ->]; discriminate).
    assert (Dec : has_far_zero M T k \/ ~ has_far_zero M T k).
    { assert (X : forall l, (forall y, In y l -> wf M y) -> (exists y, In y l /\ far_zero M T y) \/ ~ exists y, In y l /\ far_zero M T y).
      { induction l as [|y l IH]; intro Wl; [right; now intros (y & [] & _)|].
        assert (Dy : bad T y \/ ~ bad T y).
        { destruct y as [c [|v t d e]]; [right; now intros (? & ? & ? & ? & ? & [=] & _)|].
          destruct (Nat.le_gt_cases (v + 1025) T) as [G|G].
          - destruct (bdd_eqb (c, t) bzero) eqn:E1; [apply bdd_eqb_spec in E1; left; exists c, v, t, d, e; repeat split; auto; now left|].
            destruct (bdd_eqb (xorb c d, e) bzero) eqn:E2; [apply bdd_eqb_spec in E2; left; exists c, v, t, d, e; repeat split; auto; now right|].
            apply bdd_eqb_false in E1, E2. right. now intros (? & ? & ? & ? & ? & [= <- <- <- <- <-] & [Z|Z] & _).
          - right. intros (? & ? & ? & ? & ? & [= <- <- <- <- <-] & _ & G'). lia. }
        rewrite <- (far_zero_bad M T y) in Dy by (apply Wl; now left).
        destruct Dy as [Dy|Dy]; [left; exists y; split; [now left|exact Dy]|].
        destruct IH as [(z & Hz & Fz)|IH]; [intros z Hz; apply Wl; now right|left; exists z; split; [now right|exact Fz]|].
        right. intros (z & [<-|Hz] & Fz); [tauto|]. apply IH. eauto. }
      apply (X (reachable k)). intros y Hy. exact (reach_wf M k y Wk Hy). }
    split.
    + split; [|exact N]. intro E. destruct Dec as [Y|Y]; [exact Y|]. exfalso. exact (C (P Y D) E).
    + intro NN. destruct Dec as [Y|Y]; [elim NN; auto|]. split.
      * intro Z. elim D. now apply (always_zero M).
      * intros _. destruct (P Y D) as [Q|Q]; auto.
Qed.

(** ** the operators *)
Lemma nan_gtb x y : x = DNaN \/ y = DNaN -> dgtb x y = false.
Proof. intros [->| ->]; [reflexivity|]. destruct x; reflexivity. Qed.
Lemma nan_step M f T v (sub : bool) : wf M f -> levels_of [f] T -> (Z.of_nat T < 2 ^ 64)%Z -> top_variable M f v ->
  (exists k, In k (reachable f) /\ k <> f /\ has_far_zero M T k) ->
  exists r m, remove_children_rec_d M (snd f) (fst f) v v (count_solutions_d f) [] false sub = Ok (r, m)
  /\ wf M r /\ forall a, ev r a = if a v then negb sub else ev f a.
Proof.
  intros W L B Ht (k & Hk & Nk & Far). destruct f as [c [|v' t d e]].
  { destruct Ht as (H & _). apply support_in in H. destruct H. }
  apply (top_of M c v' t d e v W) in Ht. subst v'. cbn [fst snd].
  pose proof (solutions_full (c, Nd v t d e)) as F. cbn [fst snd] in F.
  pose proof (full_then _ _ _ _ _ _ F) as Ft. pose proof (full_else _ _ _ _ _ _ F) as Fe.
  assert (It : In (c, t) (reachable (c, Nd v t d e))) by (unfold reachable; cbn [fst snd edges]; right; apply in_or_app; left; apply in_edges_refl).
  assert (Ie : In (xorb c d, e) (reachable (c, Nd v t d e))) by (unfold reachable; cbn [fst snd edges]; right; apply in_or_app; right; apply in_edges_refl).
  pose proof (solutions_d_at _ _ It) as At. pose proof (solutions_d_at _ _ Ie) as Ae. rewrite <- (levels_of_terminal _ _ L) in At, Ae. cbn [fst snd] in At, Ae.
  destruct (nan_value M _ T _ W L B It) as (Nt & _). destruct (nan_value M _ T _ W L B Ie) as (Ne & _). cbn [fst snd] in Nt, Ne.
  assert (G : dgtb (solsd T t c) (solsd T e (xorb c d)) = false).
  { apply nan_gtb. destruct Far as (k' & Hk' & Fk'). unfold reachable in Hk. cbn [fst snd edges] in Hk. destruct Hk as [Hk|Hk]; [now elim Nk|].
    apply in_app_or in Hk as [Hk|Hk].
    - left. apply Nt. exists k'. split; [exact (edges_trans _ _ _ _ Hk Hk')|exact Fk'].
    - right. apply Ne. exists k'. split; [exact (edges_trans _ _ _ _ Hk Hk')|exact Fk']. }
  set (mc := count_solutions_d (c, Nd v t d e)) in *. clearbody mc.
  cbn [remove_children_rec_d blookup find]. rewrite Nat.ltb_irrefl, Nat.leb_refl. unfold bmap_at. rewrite At, Ae. cbn [bind]. rewrite G. cbn [Bool.eqb].
  assert (NIL : memo_rebuilt M [if sub then bnot bone else bone] (fun w => v <= w <= v) []) by (intros k0 r0 []).
  destruct (remove_d_rebuilt M v v mc false sub e (xorb c d) [] Fe NIL) as (y & m & -> & R & _). cbn [bind].
  assert (HK : forall k0, In k0 [if sub then bnot bone else bone] -> k0 = bone \/ k0 = bnot bone) by (destruct sub; intros k0 [<-|[]]; auto).
  assert (Wy : wf M y) by (apply (rebuilt_wf M _ _ HK _ _ R); exact (wf_else _ _ _ _ _ _ _ W)).
  do 2 eexists. split; [reflexivity|]. split; [destruct sub; auto with wf|]. intro a. rewrite ev_itev, ev_nd. destruct (a v); [now destruct sub|].
  apply (rebuilt_outside M _ _ _ _ _ R). cbn [snd]. intros i Hi Ai. assert (i = v) by lia. subst i.
  exact (proj2 (okn_top_notin _ _ _ _ _ _ W) Hi).
Qed.
Lemma nan_rounding M f T v : wf M f -> levels_of [f] T -> (Z.of_nat T < 2 ^ 64)%Z -> top_variable M f v ->
  (exists k, In k (reachable f) /\ k <> f /\ has_far_zero M T k) ->
  (exists r, round_down_d M f v v = Ok r /\ forall a, ev r a = negb (a v) && ev f a)
  /\ (exists r, round_up_d M f v v = Ok r /\ forall a, ev r a = a v || ev f a).
Proof.
  intros W L B Ht H. split.
  - destruct (nan_step M f T v true W L B Ht H) as (r & m & E & _ & V). exists r. unfold round_down_d. rewrite E. split; [reflexivity|].
    intro a. rewrite V. now destruct (a v).
  - destruct (nan_step M f T v false W L B Ht H) as (r & m & E & _ & V). exists r. unfold round_up_d. rewrite E. split; [reflexivity|].
    intro a. rewrite V. now destruct (a v).
Qed.

Lemma below_kept M ls N n : index_order M -> forall c h, okn M (S ls) n -> at_range ls ls N (c, n) h -> forall a, h a = ev (c, n) a.
Proof.
  intros HI c h K R a. inversion R as [c' h' E|c' v t d e ht he h' Lv|c' v t d e ht he h' Lv|c' v t d e h' L1 L2 E]; subst; [|destruct K as (K & _)..].
  - rewrite E. destruct c; reflexivity.
  - rewrite HI in K. lia.
  - rewrite HI in K. lia.
  - apply E.
Qed.
Lemma exact_kept M f v : index_order M -> wf M f -> top_variable M f v -> (forall a, a v = false -> ev f a = false) -> round_down M f v v = Ok f.
Proof.
  intros HI W Ht Z. destruct f as [c [|v' t d e]].
  { destruct Ht as (H & _). apply support_in in H. destruct H. }
  apply (top_of M c v' t d e v W) in Ht. subst v'. set (f := (c, Nd v t d e)) in *.
  destruct (okn_top_notin _ _ _ _ _ _ W) as (Nt & Ne).
  assert (E0 : (xorb c d, e) = bzero).
  { apply (always_zero M); [exact (wf_else _ _ _ _ _ _ _ W)|]. intro a. rewrite <- (ev_upd_notin (xorb c d, e) a v false Ne).
    specialize (Z (upd a v false) (upd_same _ _ _)). unfold f in Z. now rewrite ev_nd, upd_same in Z. }
  assert (T0 : (c, t) <> bzero).
  { intro E. rewrite <- E0 in E. injection E as E1 E2. apply (proj2 (proj2 (proj2 W))). split; auto. destruct c, d; auto; discriminate. }
  destruct (down_up_choice M f v v HI W) as ((r & Er & R) & _). destruct (proj2 (proj2 (subset_ops M f v v W))) as (r' & Er' & Wr & _).
  rewrite Er in Er'. injection Er' as <-. rewrite Er. f_equal. apply (canonical M); auto. intro a.
  set (T := terminal_level [[f]]) in *.
  assert (Wt : wf M (c, t)) by exact (wf_then _ _ _ _ _ _ W).
  assert (Vt : depends_below T (c, t)).
  { apply vars_depends_below. intros i Hi. apply (terminal_level_gt [[f]] [f] f i); [now left|now left|]. cbn [f snd varsn] in *. right. apply in_or_app. now left. }
  assert (P : (own_solutions T (xorb c d, e) < own_solutions T (c, t))%Q).
  { assert (N : (0 < inject_Z (2 ^ Z.of_nat (match t with One => T | Nd w _ _ _ => w end)))%Q).
    { change 0%Q with (inject_Z 0). rewrite <- Zlt_Qlt. apply Z.pow_pos_nonneg; lia. }
    unfold own_solutions. rewrite E0. cbn [snd bzero].
    assert (S0 : (sum_inputs T (fun a0 => b2q (ev (true, One) a0)) == 0)%Q).
    { rewrite (sum_inputs_ext T _ (fun _ => 0%Q)); [apply sum_inputs_zero|reflexivity]. }
    unfold bzero. rewrite S0. unfold Qdiv at 1. rewrite Qmult_0_l.
    destruct (is_zero_false M (c, t) Wt) as [b Hb]; [now apply bdd_eqb_false|].
    unfold Qdiv. apply Qmult_lt_0_compat; [|now apply Qinv_lt_0_compat]. apply (sum_inputs_pos T _ b).
    - intro x. destruct (ev (c, t) x); cbn; lra.
    - intros x y Hxy. now rewrite (Vt x y Hxy).
    - rewrite Hb. cbn. lra. }
  destruct W as (_ & Kt & Ke & _). cbn [lv] in Kt. rewrite HI in Kt, Ke. unfold f in R.
  inversion R as [|c' v' t' d' e' ht he h' Lv|c' v' t' d' e' ht he h' Lv Rt Re Nn|c' v' t' d' e' h' L1 L2 E]; subst; try lia.
  destruct Nn as [(Le & _)|(_ & C)]; [elim (Qlt_not_le _ _ P); exact Le|]. rewrite C. unfold f. rewrite ev_nd, E0. destruct (a v); [|reflexivity].
  exact (below_kept M v _ t HI c ht Kt Rt a).
Qed.
Lemma nan_lost M f T v : index_order M -> wf M f -> levels_of [f] T -> (Z.of_nat T < 2 ^ 64)%Z -> top_variable M f v ->
  (exists k, In k (reachable f) /\ k <> f /\ has_far_zero M T k) -> (forall a, a v = false -> ev f a = false) ->
  round_down_d M f v v = Ok bzero /\ round_down M f v v = Ok f.
Proof.
  intros HI W L B Ht H Z. split; [|now apply exact_kept].
  destruct (nan_step M f T v true W L B Ht H) as (r & m & E & Wr & V). unfold round_down_d. rewrite E. cbn [bind]. f_equal.
  apply (always_zero M); auto. intro a. rewrite V. destruct (a v) eqn:Av; [reflexivity|]. now apply Z.
Qed.

Lemma chain_vars k : forall i j, In j (varsn (chain i k)) <-> i <= j < i + k.
Proof.
  induction k as [|k IH]; intros i j; cbn [chain varsn In]; [lia|]. rewrite in_app_iff, IH. cbn [varsn In]. lia.
Qed.
Lemma chain_levels n : 0 < n -> levels_of [(false, chain 0 n)] n.
Proof.
  intro P. split; [discriminate|]. intros _. split; [lia|]. split.
  - intros i (b & [<-|[]] & H). apply chain_vars in H. lia.
  - intros _. exists (false, chain 0 n). split; [now left|]. apply chain_vars. lia.
Qed.
Lemma nan_conjunction M n f : index_order M -> wf M f -> (forall a, ev f a = forallb a (seq 0 n)) -> 1026 <= n -> (Z.of_nat n < 2 ^ 64)%Z ->
  round_down_d M f 0 0 = Ok bzero /\ round_down M f 0 0 = Ok f.
Proof.
  intros HI W E H B. pose proof (chain_of M n f HI W E) as Ef. destruct n as [|[|n]]; [lia|lia|].
  assert (Top : forall i k, wf M (false, chain i (S k)) -> top_variable M (false, chain i (S k)) i) by (intros i k Wk; cbn [chain] in *; now apply top_of).
  apply (nan_lost M f (S (S n)) 0); auto.
  - rewrite Ef. apply chain_levels. lia.
  - rewrite Ef. rewrite Ef in W. now apply Top.
  - exists (false, chain 1 (S n)). rewrite Ef. split; [|split].
    + unfold reachable. cbn [fst snd chain edges]. right. apply in_or_app. left. apply in_edges_refl.
    + cbn [chain]. discriminate.
    + exists (false, chain 1 (S n)). split; [apply in_edges_refl|]. exists 1, false. split; [|split; [|lia]].
      * apply Top. apply (okn_weaken M 1 0); [lia|]. now apply chain_ok.
      * intros a Ha. rewrite chain_ev. cbn [seq forallb]. now rewrite Ha.
  - intros a Ha. rewrite E. cbn [seq forallb]. now rewrite Ha.
Qed.
Lemma nan_exists : exists (M : mgr) (f : bdd), index_order M /\ wf M f /\ levels_of [f] 1025 /\ In (f, DNaN) (count_solutions_d f).
Proof.
  exists (id_mgr 1025), (band (id_mgr 1025) (bvar 0) (bvar 1024)). split; [intro i; reflexivity|]. split; [auto with wf|].
  split; [apply levels_of_check; vm_compute; reflexivity|]. vm_compute. now left.
Qed.
