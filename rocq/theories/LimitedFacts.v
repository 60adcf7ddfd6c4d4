(** Counts of solutions with doubles of limited range: distance from the exact counts, replaced child *)
From Coq Require Import List Bool Arith ZArith QArith Qabs Lia Lqa.
From Verif Require Import Res Cudd CuddFacts Spec SpecFacts SpecFloat SpecNan SpecLimited Float FloatFacts Helpers HelpersFacts HelpersFacts2 Counting CountFacts
  Metrics Operators OperatorFacts OperatorFacts2 OperatorFacts3 OperatorFacts4 OperatorFacts5 LevelFacts OrderFacts Rounded RoundedFacts RoundedFacts2
  Ieee IeeeFacts IeeeFacts2 IeeeFacts3 IeeeFacts4 IeeeFacts6 IeeeFacts7 NanFacts NanFacts2.
Import ListNotations.
Open Scope nat_scope.

Notation u53 := (2 ^ (-53))%Q.
Lemma u53_range : (0 <= u53 <= 1)%Q. Proof. split; vm_compute; discriminate. Qed.
Lemma limit_pos : (0 < 2 ^ 1024)%Q. Proof. exact (p2_pos 1024). Qed.

(** [x] is the number [s] up to [j] roundings, or infinite if [s] is too large *)
Definition near (j : nat) (x : dbl) (s : Q) : Prop :=
  (exists q, x = DFin q /\ ((q == 0)%Q \/ (1 <= q)%Q) /\ (q < 2 ^ 1024)%Q /\ within u53 j q s)
  \/ (x = DInf false /\ (2 ^ 1024 <= qpow (1 + u53) j * s)%Q).
Lemma near_mono i j x s : (0 <= s)%Q -> i <= j -> near i x s -> near j x s.
Proof.
  intros Hs L [(q & E & Z & B & W)|(E & B)]; [left|right].
  - exists q. repeat split; auto; apply (within_mono u53 u53_range i j q s Hs L W).
  - split; auto. induction L as [|j L IH]; auto. pose proof (qpow_up u53 u53_range j). nra.
Qed.
Lemma near_eq j x s s' : (s == s')%Q -> near j x s -> near j x s'.
Proof.
  intros E [(q & Eq & Z & B & W)|(Eq & B)].
  - left. exists q. split; [exact Eq|]. split; [exact Z|]. split; [exact B|]. apply (within_eq u53 j q s q s'); auto. reflexivity.
  - right. split; [exact Eq|]. now rewrite <- E.
Qed.
Lemma to_double_cases q : (1 <= q)%Q ->
  (to_double q = DFin (r53 q) /\ (1 <= r53 q < 2 ^ 1024)%Q) \/ (to_double q = DInf false /\ (2 ^ 1024 <= r53 q)%Q).
Proof.
  intro H. unfold to_double.
  assert (E : (binary_exponent (Qabs.Qabs q) <? -1022)%Z = false).
  { apply Z.ltb_ge. assert (0 <= binary_exponent (Qabs.Qabs q))%Z; [|lia]. apply exponent_low; rewrite Qabs.Qabs_pos by lra; [lra|].
    change (2 ^ 0)%Q with 1%Q. exact H. }
  rewrite E, andb_false_r. cbv zeta. assert (R : (1 <= r53 q)%Q).
  { apply r53_ge; [|exact H]. exists 1%Z, 0%Z. split; [cbn; lia|reflexivity]. }
  destruct (Qle_bool (2 ^ 1024) (r53 q)) eqn:G1; [right; split; auto; now apply Qle_bool_iff|left].
  assert (G2 : (r53 q < 2 ^ 1024)%Q) by (apply Qnot_le_lt; intro X; apply Qle_bool_iff in X; congruence).
  destruct (Qle_bool (r53 q) (- 2 ^ 1024)) eqn:G; [|auto]. exfalso. apply Qle_bool_iff in G.
  pose proof limit_pos. set (B := (2 ^ 1024)%Q) in *. clearbody B. lra.
Qed.
Lemma near_round j q s : (0 <= s)%Q -> (q == 0)%Q \/ (1 <= q)%Q -> within u53 j q s -> near (S j) (to_double q) s.
Proof.
  intros Hs Z W. destruct Z as [Z|Z].
  - destruct (to_double_zero q Z) as (r & -> & E). left. exists r. split; [reflexivity|]. split; [now left|]. split; [rewrite E; exact limit_pos|].
    apply (within_S u53 u53_range j r s Hs). apply (within_eq u53 j q s r s); auto; [lra|reflexivity].
  - pose proof (within_rnd u53 u53_range r53 relative53 j q s Hs W) as WR.
    destruct (to_double_cases q Z) as [(-> & R1 & R2)|(-> & R)]; [left|right].
    + exists (r53 q). auto.
    + split; [reflexivity|]. destruct WR as [_ WR]. eapply Qle_trans; [exact R|exact WR].
Qed.
Lemma near_plus j x y s s' : (0 <= s)%Q -> (0 <= s')%Q -> near j x s -> near j y s' -> near (S j) (dadd x y) (s + s').
Proof.
  intros Hs Hs' X Y. pose proof (qpow_nonneg (1 + u53) j ltac:(pose proof u53_range; lra)) as P. pose proof (qpow_up u53 u53_range j) as PU.
  assert (I : forall a b, (0 <= a)%Q -> (0 <= b)%Q -> (2 ^ 1024 <= qpow (1 + u53) j * a)%Q -> (2 ^ 1024 <= qpow (1 + u53) (S j) * (a + b))%Q).
  { intros a b Ha Hb H. eapply Qle_trans; [exact H|]. set (A := qpow (1 + u53) j) in *. set (A' := qpow (1 + u53) (S j)) in *. clearbody A A'. nra. }
  destruct X as [(q & -> & Z & B & W)|(-> & B)], Y as [(q' & -> & Z' & B' & W')|(-> & B')]; cbn [dadd Bool.eqb].
  - apply near_round; [lra| |now apply within_plus]. destruct Z, Z'; [left|right|right|right]; lra.
  - right. split; [reflexivity|]. setoid_replace (s + s')%Q with (s' + s)%Q by ring. auto.
  - right. split; [reflexivity|]. auto.
  - right. split; [reflexivity|]. auto.
Qed.
Lemma near_times j x s a b : (0 <= s)%Q -> b < a -> (Z.of_nat a < 2 ^ 64)%Z -> ((s == 0)%Q -> a <= b + 1024) -> near j x s ->
  near (S j) (dmul x (dpow_levels a b)) (s * inject_Z (pow2 (a - b - 1))).
Proof.
  intros Hs L B F X. unfold dpow_levels, dpow2. rewrite Z.mod_small by lia.
  set (p := inject_Z (pow2 (a - b - 1))). assert (P : (1 <= p)%Q).
  { unfold p, pow2. apply p2_ge1. lia. }
  assert (Ep : inject_Z (2 ^ (Z.of_nat a - Z.of_nat b - 1)) = p).
  { unfold p, pow2. f_equal. f_equal. lia. }
  rewrite Ep. pose proof (qpow_nonneg (1 + u53) j ltac:(pose proof u53_range; lra)) as Q0. pose proof (qpow_up u53 u53_range j) as PU.
  assert (Sp : (0 <= s * p)%Q) by nra.
  destruct (1024 <=? Z.of_nat a - Z.of_nat b - 1)%Z eqn:E.
  - apply Z.leb_le in E. assert (PL : (2 ^ 1024 <= p)%Q).
    { rewrite <- Ep, <- p2_inj by lia. now apply p2_mono. }
    right. destruct X as [(q & -> & Z & Bq & W)|(-> & Bq)]; cbn [dmul xorb].
    + destruct Z as [Z|Z].
      { exfalso. assert (s == 0)%Q; [|apply F in H; lia]. apply (within_zero u53 j q s); auto. split; vm_compute; [discriminate|reflexivity]. }
      replace (Qeq_bool q 0) with false. 2:{ symmetry. apply not_true_iff_false. intro G. apply Qeq_bool_iff in G. lra. }
      replace (negative q) with false. 2:{ symmetry. unfold negative. apply Z.ltb_ge. destruct q as [n d]. unfold Qle in Z. cbn in *. lia. }
      split; [reflexivity|]. destruct W as [_ W]. eapply Qle_trans; [exact PL|].
      set (A := qpow (1 + u53) j) in *. set (A' := qpow (1 + u53) (S j)) in *. clearbody A A'.
      assert (1 <= A * s)%Q by lra. assert (A * s <= A' * s)%Q by nra. setoid_replace (A' * (s * p))%Q with (A' * s * p)%Q by ring. nra.
    + split; [reflexivity|]. eapply Qle_trans; [exact Bq|].
      set (A := qpow (1 + u53) j) in *. set (A' := qpow (1 + u53) (S j)) in *. clearbody A A'.
      assert (A * s <= A' * s)%Q by nra. assert (s <= s * p)%Q by nra. nra.
  - apply Z.leb_gt in E. destruct X as [(q & -> & Z & Bq & W)|(-> & Bq)]; cbn [dmul].
    + apply near_round; auto; [|apply within_scale; auto; lra]. destruct Z as [Z|Z]; [left; rewrite Z; ring|right; nra].
    + right. replace (Qeq_bool p 0) with false. 2:{ symmetry. apply not_true_iff_false. intro G. apply Qeq_bool_iff in G. lra. }
      replace (negative p) with false. 2:{ symmetry. unfold negative. apply Z.ltb_ge. destruct p as [n d]. unfold Qle in P. cbn in *. lia. }
      split; [reflexivity|]. eapply Qle_trans; [exact Bq|].
      set (A := qpow (1 + u53) j) in *. set (A' := qpow (1 + u53) (S j)) in *. clearbody A A'.
      assert (A * s <= A' * s)%Q by nra. assert (s <= s * p)%Q by nra. nra.
Qed.

Lemma sols_nonneg T n : forall c, (0 <= sols T n c)%Q.
Proof.
  induction n as [|v t IHt d e IHe]; intro c; cbn [sols]; [destruct c; lra|].
  assert (P : forall a b, (0 <= pow_levels a b)%Q).
  { intros a b. unfold pow_levels. change 0%Q with (inject_Z 0). rewrite <- Zle_Qle. apply Z.pow_nonneg. lia. }
  pose proof (P (node_level t T) v). pose proof (P (node_level e T) v). specialize (IHt c). specialize (IHe (xorb c d)). nra.
Qed.
Lemma sols_zero M T n : index_order M -> forall lvl c, okn M lvl n -> lvl <= T -> (forall i, In i (varsn n) -> i < T) -> (sols T n c == 0)%Q -> (c, n) = bzero.
Proof.
  intros HI lvl c K L V Z. destruct (sols_frac M T n HI lvl c K L V) as [_ E]. rewrite Z in E.
  assert (F : (frac (c, n) == 0)%Q). { change (frac (c, n)) with (fracn n c). pose proof (pow2Q_pos T). nra. }
  apply (frac_zero_iff M (c, n)); auto. exact (okn_weaken M lvl 0 n ltac:(lia) K).
Qed.

Lemma solsd_near M T : index_order M -> (Z.of_nat T < 2 ^ 64)%Z -> forall n lvl c, okn M lvl n -> lvl <= T -> (forall i, In i (varsn n) -> i < T) ->
  (forall k, In k (edges n c) -> ~ bad T k) -> near (2 * (T - lvl)) (solsd T n c) (sols T n c).
Proof.
  intros HI B. induction n as [|v t IHt d e IHe]; intros lvl c K LT V Hb; cbn [solsd sols].
  - apply (near_mono 0); [destruct c; lra|lia|]. left. exists (if c then 0 else 1)%Q. split; [now destruct c|].
    split; [destruct c; [left|right]; lra|]. split; [destruct c; vm_compute; reflexivity|]. unfold within. cbn [qpow]. destruct c; lra.
  - assert (Lv : v < T) by (apply V; cbn; auto). pose proof K as K0. cbn [okn] in K. rewrite HI in K. destruct K as (Hl & Kt & Ke & NE).
    assert (Vt : forall i, In i (varsn t) -> i < T) by (intros i Hi; apply V; cbn; right; apply in_or_app; auto).
    assert (Ve : forall i, In i (varsn e) -> i < T) by (intros i Hi; apply V; cbn; right; apply in_or_app; auto).
    assert (Bt : forall k, In k (edges t c) -> ~ bad T k) by (intros k Hk; apply Hb; cbn [edges]; right; apply in_or_app; auto).
    assert (Be : forall k, In k (edges e (xorb c d)) -> ~ bad T k) by (intros k Hk; apply Hb; cbn [edges]; right; apply in_or_app; auto).
    assert (Far : zero_child c t d e -> T <= v + 1024).
    { intro Z. destruct (Nat.le_gt_cases T (v + 1024)) as [|G]; auto. exfalso. apply (Hb (c, Nd v t d e)); [now left|].
      exists c, v, t, d, e. repeat split; auto. lia. }
    pose proof (IHt (S v) c Kt ltac:(lia) Vt Bt) as It. pose proof (IHe (S v) (xorb c d) Ke ltac:(lia) Ve Be) as Ie.
    destruct (sols_frac M T t HI (S v) c Kt ltac:(lia) Vt) as [Nt _]. destruct (sols_frac M T e HI (S v) (xorb c d) Ke ltac:(lia) Ve) as [Ne _].
    assert (Mt : node_level t T <= T) by (destruct t; cbn [node_level]; [lia|apply Nat.lt_le_incl, Vt; now left]).
    assert (Me : node_level e T <= T) by (destruct e; cbn [node_level]; [lia|apply Nat.lt_le_incl, Ve; now left]).
    pose proof (sols_nonneg T t c) as St. pose proof (sols_nonneg T e (xorb c d)) as Se.
    apply (near_eq _ _ (sols T t c * inject_Z (pow2 (node_level t T - v - 1)) + sols T e (xorb c d) * inject_Z (pow2 (node_level e T - v - 1)))%Q).
    { now rewrite !pow_levels_pos by lia. }
    assert (P : forall k, (0 <= inject_Z (pow2 k))%Q) by (intro k; apply Qlt_le_weak, pow2Q_pos).
    apply (near_mono (S (S (2 * (T - S v))))); [pose proof (P (node_level t T - v - 1)); pose proof (P (node_level e T - v - 1)); nra|lia|].
    apply near_plus; [apply Qmult_le_0_compat; auto|apply Qmult_le_0_compat; auto| |]; apply near_times; auto; try lia; intro Z.
    + apply (sols_zero M T t HI (S v) c Kt ltac:(lia) Vt) in Z. specialize (Far (or_introl Z)). lia.
    + apply (sols_zero M T e HI (S v) (xorb c d) Ke ltac:(lia) Ve) in Z. specialize (Far (or_intror Z)). lia.
Qed.

(** ** the operators without their map, for any comparison of the children *)
Section Compare.
Variable M : mgr.
Variable gt : bdd -> bdd -> bool.
Variables ls le : nat.
Variables rh sub : bool.
Fixpoint rcg (n : node) (c : bool) : bdd :=
  match n with
  | One => (c, One)
  | Nd v t d e =>
      if v <? ls then ite M (bvar v) (rcg t c) (rcg e (xorb c d))
      else if v <=? le then
        if Bool.eqb rh (gt (c, t) (xorb c d, e)) then ite M (bvar v) (repl sub) (rcg e (xorb c d))
        else ite M (bvar v) (rcg t c) (repl sub)
      else (c, n)
  end.
Definition memo_rcg (m : bmap bdd) : Prop := forall k r, In (k, r) m -> r = rcg (snd k) (fst k).
Lemma remove_d_rcg mc n : (forall k k' x y, blookup k mc = Some x -> blookup k' mc = Some y -> dgtb x y = gt k k') ->
  forall c m, full mc n c -> memo_rcg m ->
  exists m', remove_children_rec_d M n c ls le mc m rh sub = Ok (rcg n c, m') /\ memo_rcg m'.
Proof.
  intro G. assert (ADD : forall m n c, memo_rcg m -> memo_rcg (((c, n), rcg n c) :: m)).
  { intros m n0 c H k r [[= <- <-]|Hi]; [reflexivity|auto]. }
  induction n as [|v t IHt d e IHe]; intros c m F Hm; cbn [remove_children_rec_d]; [exists m; auto|].
  destruct (blookup (c, Nd v t d e) m) as [r|] eqn:E.
  { exists m. apply blookup_some in E. rewrite (Hm _ _ E). auto. }
  pose proof (full_then _ _ _ _ _ _ F) as Ft. pose proof (full_else _ _ _ _ _ _ F) as Fe.
  specialize (ADD).
  pose proof (fun m' H => ADD m' (Nd v t d e) c H) as ADD'. cbn [rcg] in ADD' |- *.
  destruct (v <? ls).
  - destruct (IHt c m Ft Hm) as (m1 & -> & H1). cbn [bind]. destruct (IHe (xorb c d) m1 Fe H1) as (m2 & -> & H2). cbn [bind].
    eexists. split; [reflexivity|]. now apply ADD'.
  - destruct (v <=? le); [|exists m; auto].
    destruct (blookup_key (c, t) mc) as [tc Et]; [apply Ft, in_edges_refl|]. destruct (blookup_key (xorb c d, e) mc) as [ec Ee]; [apply Fe, in_edges_refl|].
    unfold bmap_at. rewrite Et, Ee. cbn [bind]. rewrite (G _ _ _ _ Et Ee) in *.
    destruct (Bool.eqb rh (gt (c, t) (xorb c d, e))).
    + destruct (IHe (xorb c d) m Fe Hm) as (m2 & -> & H2). cbn [bind]. eexists. split; [reflexivity|]. now apply ADD'.
    + destruct (IHt c m Ft Hm) as (m1 & -> & H1). cbn [bind]. eexists. split; [reflexivity|]. now apply ADD'.
Qed.
Lemma rcg_shape (N : nat -> bdd -> bdd -> (asg -> bool) -> (asg -> bool) -> (asg -> bool) -> Prop) n : forall c,
  (forall c' v t d e ht he h, In (c', Nd v t d e) (edges n c) ->
     (if Bool.eqb rh (gt (c', t) (xorb c' d, e)) then then_const v (negb sub) he h else else_const v (negb sub) ht h) -> N v (c', t) (xorb c' d, e) ht he h) ->
  at_range ls le N (c, n) (ev (rcg n c)).
Proof.
  induction n as [|v t IHt d e IHe]; intros c HR.
  - apply ar_const. intro a. cbn. now destruct c.
  - assert (It : at_range ls le N (c, t) (ev (rcg t c))).
    { apply IHt. intros. apply (HR c' v0 t0 d0 e0 ht he h); auto. cbn [edges]. right. apply in_or_app. auto. }
    assert (Ie : at_range ls le N (xorb c d, e) (ev (rcg e (xorb c d)))).
    { apply IHe. intros. apply (HR c' v0 t0 d0 e0 ht he h); auto. cbn [edges]. right. apply in_or_app. auto. }
    cbn [rcg]. destruct (v <? ls) eqn:E1.
    + apply Nat.ltb_lt in E1. eapply ar_before; eauto. intro a. apply ev_itev.
    + apply Nat.ltb_ge in E1. destruct (v <=? le) eqn:E2; [apply Nat.leb_le in E2|apply Nat.leb_gt in E2; apply ar_after; auto].
      eapply ar_in; eauto. apply HR; [apply in_edges_refl|].
      destruct (Bool.eqb rh _); intro a; rewrite ev_itev, ev_repl; auto.
Qed.
End Compare.

Definition solutions_gt (T : nat) (k k' : bdd) : bool := dgtb (solsd T (snd k) (fst k)) (solsd T (snd k') (fst k')).
Lemma solutions_gt_ok f k k' x y : blookup k (count_solutions_d f) = Some x -> blookup k' (count_solutions_d f) = Some y ->
  dgtb x y = solutions_gt (terminal_level [[f]]) k k'.
Proof. intros X Y. apply blookup_some in X, Y. apply solutions_d_in in X, Y. subst. reflexivity. Qed.

Section Choice.
Variable M : mgr.
Hypothesis HI : index_order M.
Variable f : bdd.
Hypothesis W : wf M f.
Variable T : nat.
Hypothesis L : levels_of [f] T.
Hypothesis B : (Z.of_nat T < 2 ^ 64)%Z.
Lemma vars_below i : In i (varsn (snd f)) -> i < T.
Proof. intro Hi. rewrite (levels_of_terminal _ _ L). apply (terminal_level_gt [[f]] [f] f i); [now left|now left|exact Hi]. Qed.
Lemma own_sols k : In k (reachable f) -> (sols T (snd k) (fst k) == own_solutions T k)%Q.
Proof.
  intro Hk. pose proof (reach_wf M f k W Hk) as Wk. assert (Vk : forall i, In i (varsn (snd k)) -> i < T) by (intros i Hi; apply vars_below; exact (NanFacts2.edges_vars _ _ _ _ Hk Hi)).
  destruct (sols_frac M T (snd k) HI 0 (fst k) Wk ltac:(lia) Vk) as [_ E]. unfold own_solutions.
  change (match snd k with One => T | Nd v _ _ _ => v end) with (node_level (snd k) T). fold (pow2 (node_level (snd k) T)).
  assert (F : (fracn (snd k) (fst k) == average T (fun a => b2q (ev k a)))%Q).
  { apply (frac_average M T k Wk). now apply vars_depends_below. }
  rewrite F, average_eq in E. pose proof (pow2Q_pos T) as P1. pose proof (pow2Q_pos (node_level (snd k) T)) as P2.
  apply (Qmult_inj_r _ _ (inject_Z (pow2 (node_level (snd k) T)))); [lra|]. rewrite E. field. split; lra.
Qed.
Lemma near_own k : In k (reachable f) -> ~ has_far_zero M T k -> near (2 * T) (solsd T (snd k) (fst k)) (own_solutions T k).
Proof.
  intros Hk N. pose proof (reach_wf M f k W Hk) as Wk. apply (near_eq _ _ (sols T (snd k) (fst k))); [now apply own_sols|].
  replace T with (T - 0) at 1 by lia. apply (solsd_near M T HI B (snd k) 0 (fst k) Wk ltac:(lia)).
  - intros i Hi. apply vars_below. exact (NanFacts2.edges_vars _ _ _ _ Hk Hi).
  - intros k' Hk' Hb. apply N. exists k'. split; [exact Hk'|]. apply (far_zero_bad M); auto. exact (reach_wf M k k' Wk Hk').
Qed.
Lemma solutions_near k x : In (k, x) (count_solutions_d f) ->
  (has_far_zero M T k -> x = DNaN)
  /\ (~ has_far_zero M T k ->
      (exists q, x = DFin q /\ (q < 2 ^ 1024)%Q /\ within u53 (2 * T) q (own_solutions T k))
      \/ (x = DInf false /\ (2 ^ 1024 <= qpow (1 + u53) (2 * T) * own_solutions T k)%Q)).
Proof.
  intro H. assert (Hk : In k (reachable f)).
  { destruct (solutions_rec_d_keys (terminal_level [[f]]) (snd f) (fst f) [] closed_nil) as (_ & K).
    assert (In k (keys (count_solutions_d f))) as Hi by (apply in_map_iff; exists (k, x); auto). apply K in Hi as [[]|Hi]. exact Hi. }
  apply solutions_d_in in H. rewrite <- (levels_of_terminal _ _ L) in H. subst x. split.
  - apply (nan_value M f T k W L B Hk).
  - intro N. destruct (near_own k Hk N) as [(q & E & _ & U & X)|X]; [left; exists q; auto|now right].
Qed.
Lemma choice_limited (k : bool) c v t d e ht he (h : asg -> bool) : In (c, Nd v t d e) (reachable f) ->
  (if Bool.eqb false (solutions_gt T (c, t) (xorb c d, e)) then then_const v k he h else else_const v k ht h) ->
  limited_light_const (qpow (1 - u53) (2 * T)) (qpow (1 + u53) (2 * T)) (2 ^ 1024) (fun g => ~ has_far_zero M T g) (own_solutions T) k v (c, t) (xorb c d, e) ht he h.
Proof.
  intro Hk. assert (Ht : In (c, t) (reachable f)) by (apply (reach_trans f _ _ Hk); apply in_then).
  assert (He : In (xorb c d, e) (reachable f)) by (apply (reach_trans f _ _ Hk); apply in_else).
  unfold solutions_gt. pose proof limit_pos as LP. set (x := qpow (1 - u53) (2 * T)). set (y := qpow (1 + u53) (2 * T)).
  destruct (nan_value M f T _ W L B Ht) as [Nt _]. destruct (nan_value M f T _ W L B He) as [Ne _].
  pose proof (near_own _ Ht) as Rt. pose proof (near_own _ He) as Re. unfold near, within in Rt, Re. fold x y in Rt, Re.
  set (tc := solsd T (snd (c, t)) (fst (c, t))) in *. set (ec := solsd T (snd (xorb c d, e)) (fst (xorb c d, e))) in *. clearbody tc ec x y.
  set (A := own_solutions T (c, t)) in *. set (E := own_solutions T (xorb c d, e)) in *. set (B1024 := (2 ^ 1024)%Q) in *.
  destruct (dgtb tc ec) eqn:G; cbn [Bool.eqb]; intro C.
  - right. assert (Kt : ~ has_far_zero M T (c, t)) by (intro F; apply Nt in F; subst tc; discriminate).
    assert (Ke : ~ has_far_zero M T (xorb c d, e)) by (intro F; apply Ne in F; subst ec; destruct tc as [|[|]|]; discriminate).
    split; [exact C|]. split; [exact Kt|]. split; [exact Ke|]. fold A E B1024.
    destruct (Rt Kt) as [(q & -> & _ & U & X)|(-> & X)], (Re Ke) as [(q' & -> & _ & U' & X')|(-> & X')]; cbn in G; try discriminate.
    + rewrite negb_true_iff in G. assert (G' : (q' < q)%Q) by (apply Qnot_le_lt; intro Z; apply Qle_bool_iff in Z; congruence).
      clearbody A E B1024. split; lra.
    + clearbody A E B1024. split; lra.
  - left. split; [exact C|]. intros Kt Ke. fold A E B1024.
    destruct (Rt Kt) as [(q & -> & _ & U & X)|(-> & X)], (Re Ke) as [(q' & -> & _ & U' & X')|(-> & X')]; cbn in G; try discriminate.
    + left. rewrite negb_false_iff in G. apply Qle_bool_iff in G. clearbody A E B1024. lra.
    + left. clearbody A E B1024. lra.
    + right. auto.
Qed.
Lemma round_limited ls le :
  (exists r, round_down_d M f ls le = Ok r
     /\ at_range ls le (limited_light_const (qpow (1 - u53) (2 * T)) (qpow (1 + u53) (2 * T)) (2 ^ 1024) (fun g => ~ has_far_zero M T g) (own_solutions T) false) f (ev r))
  /\ (exists r, round_up_d M f ls le = Ok r
     /\ at_range ls le (limited_light_const (qpow (1 - u53) (2 * T)) (qpow (1 + u53) (2 * T)) (2 ^ 1024) (fun g => ~ has_far_zero M T g) (own_solutions T) true) f (ev r)).
Proof.
  unfold round_down_d, round_up_d.
  destruct (remove_d_rcg M (solutions_gt (terminal_level [[f]])) ls le false true (count_solutions_d f) (snd f) (solutions_gt_ok f) (fst f) [] (solutions_full f) ltac:(intros ? ? [])) as (m1 & -> & _).
  destruct (remove_d_rcg M (solutions_gt (terminal_level [[f]])) ls le false false (count_solutions_d f) (snd f) (solutions_gt_ok f) (fst f) [] (solutions_full f) ltac:(intros ? ? [])) as (m2 & -> & _).
  cbn [bind]. rewrite <- (levels_of_terminal _ _ L). split; eexists; (split; [reflexivity|]).
  - match goal with |- at_range _ _ ?N _ _ => pose proof (rcg_shape M (solutions_gt T) ls le false true N (snd f) (fst f)) as H end.
    rewrite edge_eta in H. apply H. intros c v t d e ht he h Hk HC. exact (choice_limited false c v t d e ht he h Hk HC).
  - match goal with |- at_range _ _ ?N _ _ => pose proof (rcg_shape M (solutions_gt T) ls le false false N (snd f) (fst f)) as H end.
    rewrite edge_eta in H. apply H. intros c v t d e ht he h Hk HC. exact (choice_limited true c v t d e ht he h Hk HC).
Qed.
End Choice.
