(** Proofs about count_minterms, count_solutions and random_satisfying_input. *)
From Coq Require Import List Bool Arith ZArith QArith Lia Lqa.
From Verif Require Import Res Cudd CuddFacts Spec SpecFacts Helpers HelpersFacts HelpersFacts2 Counting AddFacts.
Import ListNotations.
Open Scope nat_scope.

Lemma blookup_some {T} k (m : bmap T) v : blookup k m = Some v -> In (k, v) m.
Proof.
  unfold blookup. destruct (find _ m) as [[k' v']|] eqn:E; [|discriminate]. intros [= <-].
  apply find_some in E. destruct E as [E1 E2]. apply bdd_eqb_spec in E2. cbn in E2. now subst.
Qed.
Lemma blookup_none {T} k (m : bmap T) : blookup k m = None -> ~ In k (map fst m).
Proof.
  unfold blookup. destruct (find _ m) as [p|] eqn:E; [discriminate|]. intros _ H.
  apply in_map_iff in H. destruct H as (p & Hp & Hi). pose proof (find_none _ _ E p Hi) as N. cbn in N.
  apply bdd_eqb_false in N. auto.
Qed.
Lemma blookup_in {T} k (m : bmap T) v : NoDup (map fst m) -> In (k, v) m -> blookup k m = Some v.
Proof.
  intros Hn Hi. destruct (blookup k m) as [v'|] eqn:E.
  - apply blookup_some in E. f_equal.
    clear -Hn Hi E. induction m as [|[k0 v0] m IH]; [destruct Hi|]. cbn in Hn. inversion Hn; subst.
    destruct Hi as [Hi|Hi], E as [E|E]; auto.
    + congruence.
    + injection Hi as -> ->. exfalso. apply H1. apply in_map_iff. exists (k, v'). auto.
    + injection E as -> ->. exfalso. apply H1. apply in_map_iff. exists (k, v). auto.
  - apply blookup_none in E. exfalso. apply E. apply in_map_iff. exists (k, v). auto.
Qed.

Lemma edges_size n c k : In k (edges n c) -> nsize (snd k) <= nsize n.
Proof.
  revert c; induction n as [|v t IHt d e IHe]; intros c; cbn [edges].
  - intros [<-|[]]. auto.
  - intros [<-|H]; auto. apply in_app_or in H. cbn [nsize]. destruct H as [H|H]; [apply IHt in H|apply IHe in H]; lia.
Qed.

Lemma edges_trans n : forall c k k', In k (edges n c) -> In k' (reachable k) -> In k' (edges n c).
Proof.
  induction n as [|v t IHt d e IHe]; intros c k k'; cbn [edges].
  - intros [<-|[]]. auto.
  - intros [<-|H] H'.
    + exact H'.
    + right. apply in_or_app. apply in_app_or in H. destruct H; eauto.
Qed.

Lemma edges_wf M n : forall c lvl k, okn M lvl n -> In k (edges n c) -> wf M k.
Proof.
  induction n as [|v t IHt d e IHe]; intros c lvl k Hok; cbn [edges].
  - intros [<-|[]]. exact I.
  - intros [<-|H].
    + unfold wf; cbn in *. intuition lia.
    + cbn in Hok. destruct Hok as (H1 & H2 & H3 & H4). apply in_app_or in H. destruct H; eauto.
Qed.
Lemma edges_vars n : forall c k i, In k (edges n c) -> In i (varsn (snd k)) -> In i (varsn n).
Proof.
  induction n as [|v t IHt d e IHe]; intros c k i; cbn [edges].
  - intros [<-|[]]. auto.
  - intros [<-|H] Hi; auto. cbn [varsn]. right. apply in_or_app. apply in_app_or in H. destruct H; eauto.
Qed.

(** ** A memoised traversal *)
Definition good_map (w : bdd -> Q) (m : bmap Q) : Prop :=
  (forall k v, In (k, v) m -> (v == w k)%Q)
  /\ NoDup (map fst m)
  /\ (forall k, In k (map fst m) -> forall k', In k' (reachable k) -> In k' (map fst m)).

Lemma good_map_add w m c n v : good_map w m -> ~ In (c, n) (map fst m) -> (v == w (c, n))%Q ->
  (forall k, In k (edges n c) -> k = (c, n) \/ In k (map fst m)) ->
  good_map w (((c, n), v) :: m).
Proof.
  intros (G1 & G2 & G3) Hn Hv Hr. repeat split.
  - intros k x [[= <- <-]|H]; auto.
  - cbn. constructor; auto.
  - cbn [map fst]. intros k [<-|Hk] k' Hk'.
    + destruct (Hr k' Hk') as [->|H]; [now left|now right].
    + right. eauto.
Qed.

Lemma not_in_children c v t d e (m : list bdd) :
  ~ In (c, Nd v t d e) m ->
  ~ (In (c, Nd v t d e) m \/ In (c, Nd v t d e) (edges t c) \/ In (c, Nd v t d e) (edges e (xorb c d))).
Proof.
  intros H [H1|[H1|H1]]; auto; apply edges_size in H1; cbn in H1; lia.
Qed.

Lemma count_minterms_rec_spec n : forall c m, good_map frac m ->
  let '(v, m') := count_minterms_rec n c m in
  (v == frac (c, n))%Q /\ good_map frac m'
  /\ (forall k, In k (map fst m') <-> In k (map fst m) \/ In k (edges n c)).
Proof.
  induction n as [|x t IHt d e IHe]; intros c m G.
  - cbn [count_minterms_rec]. destruct (blookup (c, One) m) as [v|] eqn:E.
    + apply blookup_some in E. repeat split; auto; try apply G; auto.
      intros [H|[<-|[]]]; auto. apply in_map_iff. exists ((c, One), v). auto.
    + apply blookup_none in E. split; [now destruct c|]. split.
      * apply good_map_add; auto; [now destruct c|]. intros k [<-|[]]. auto.
      * intro k. cbn [map fst In edges]. tauto.
  - cbn [count_minterms_rec]. destruct (blookup (c, Nd x t d e) m) as [v|] eqn:E.
    + apply blookup_some in E. repeat split; auto; try apply G; auto.
      intros [H|H]; auto. destruct G as (_ & _ & G3). apply (G3 (c, Nd x t d e)); auto.
      apply in_map_iff. eexists; split; [|exact E]. reflexivity.
    + apply blookup_none in E.
      specialize (IHt c m G). destruct (count_minterms_rec t c m) as [hr m1]. destruct IHt as (V1 & G1 & K1).
      specialize (IHe (xorb c d) m1 G1). destruct (count_minterms_rec e (xorb c d) m1) as [lr m2].
      destruct IHe as (V2 & G2 & K2).
      assert (V : (hr / 2 + lr / 2 == frac (c, Nd x t d e))%Q).
      { unfold frac in *. cbn [fst snd fracn] in *. rewrite V1, V2. field. }
      split; auto. split.
      * apply good_map_add; auto.
        -- rewrite K2, K1. intros [[H|H]|H]; [auto|..]; apply (not_in_children c x t d e (map fst m)); auto.
        -- cbn [edges]. intros k [<-|H]; auto. right. rewrite K2, K1. apply in_app_or in H. tauto.
      * intro k. cbn [map fst In edges]. rewrite K2, K1, in_app_iff. tauto.
Qed.

Lemma good_map_nil w : good_map w [].
Proof. repeat split; cbn; try tauto. constructor. Qed.

Lemma count_minterms_keys f k : In k (map fst (count_minterms f)) <-> In k (reachable f).
Proof.
  pose proof (count_minterms_rec_spec (snd f) (fst f) [] (good_map_nil _)) as H.
  unfold count_minterms. destruct (count_minterms_rec (snd f) (fst f) []) as [v m]. cbn [snd].
  destruct H as (_ & _ & K). rewrite K. cbn. tauto.
Qed.
Lemma count_minterms_good f : good_map frac (count_minterms f).
Proof.
  pose proof (count_minterms_rec_spec (snd f) (fst f) [] (good_map_nil _)) as H.
  unfold count_minterms. destruct (count_minterms_rec (snd f) (fst f) []) as [v m]. tauto.
Qed.
Lemma count_minterms_at f k : In k (reachable f) ->
  exists v, bmap_at (count_minterms f) k = Ok v /\ (v == frac k)%Q.
Proof.
  intro H. apply count_minterms_keys in H. apply in_map_iff in H. destruct H as ([k' v] & Hk & Hi). cbn in Hk; subst.
  destruct (count_minterms_good f) as (G1 & G2 & _). exists v. unfold bmap_at.
  rewrite (blookup_in k _ v); auto.
Qed.

Lemma reachable_below n f k : (forall i, In i (varsn (snd f)) -> (i < n)%nat) -> In k (reachable f) -> depends_below n k.
Proof. intros H Hk. apply vars_depends_below. intros i Hi. apply H. eapply edges_vars; eauto. Qed.

(** C18 *)
Lemma count_minterms_full M n f : wf M f -> depends_below n f ->
  NoDup (map fst (count_minterms f))
  /\ (forall k, In k (map fst (count_minterms f)) <-> In k (reachable f))
  /\ (forall k v, In (k, v) (count_minterms f) -> (v == average n (fun a => b2q (ev k a)))%Q).
Proof.
  intros Hf Hd. destruct (count_minterms_good f) as (G1 & G2 & G3).
  split; auto. split; [apply count_minterms_keys|]. intros k v H.
  assert (Hk : In k (reachable f)) by (apply count_minterms_keys, in_map_iff; exists (k, v); auto).
  rewrite (G1 k v H). apply (frac_average M).
  - exact (edges_wf M (snd f) (fst f) 0 k Hf Hk).
  - eapply reachable_below; eauto. now apply (depends_below_vars M).
Qed.

(** ** count_solutions *)
Fixpoint sols (T : nat) (n : node) (c : bool) : Q :=
  match n with
  | One => if c then 0 else 1
  | Nd own t d e => sols T t c * pow_levels (node_level t T) own
                    + sols T e (xorb c d) * pow_levels (node_level e T) own
  end%Q.
Definition solw (T : nat) (f : bdd) : Q := sols T (snd f) (fst f).

Lemma count_solutions_rec_spec T n : forall c m, good_map (solw T) m ->
  let '(v, m') := count_solutions_rec n c m T in
  (v == solw T (c, n))%Q /\ good_map (solw T) m'
  /\ (forall k, In k (map fst m') <-> In k (map fst m) \/ In k (edges n c)).
Proof.
  induction n as [|x t IHt d e IHe]; intros c m G.
  - cbn [count_solutions_rec]. destruct (blookup (c, One) m) as [v|] eqn:E.
    + apply blookup_some in E. repeat split; auto; try apply G; auto.
      intros [H|[<-|[]]]; auto. apply in_map_iff. exists ((c, One), v). auto.
    + apply blookup_none in E. split; [now destruct c|]. split.
      * apply good_map_add; auto; [now destruct c|]. intros k [<-|[]]. auto.
      * intro k. cbn [map fst In edges]. tauto.
  - cbn [count_solutions_rec]. destruct (blookup (c, Nd x t d e) m) as [v|] eqn:E.
    + apply blookup_some in E. repeat split; auto; try apply G; auto.
      intros [H|H]; auto. destruct G as (_ & _ & G3). apply (G3 (c, Nd x t d e)); auto.
      apply in_map_iff. eexists; split; [|exact E]. reflexivity.
    + apply blookup_none in E.
      specialize (IHt c m G). destruct (count_solutions_rec t c m T) as [hr m1]. destruct IHt as (V1 & G1 & K1).
      specialize (IHe (xorb c d) m1 G1). destruct (count_solutions_rec e (xorb c d) m1 T) as [lr m2].
      destruct IHe as (V2 & G2 & K2).
      assert (V : (hr * pow_levels (node_level t T) x + lr * pow_levels (node_level e T) x
                   == solw T (c, Nd x t d e))%Q).
      { unfold solw in *. cbn [fst snd sols] in *. rewrite V1, V2. reflexivity. }
      split; auto. split.
      * apply good_map_add; auto.
        -- rewrite K2, K1. intros [[H|H]|H]; [auto|..]; apply (not_in_children c x t d e (map fst m)); auto.
        -- cbn [edges]. intros k [<-|H]; auto. right. rewrite K2, K1. apply in_app_or in H. tauto.
      * intro k. cbn [map fst In edges]. rewrite K2, K1, in_app_iff. tauto.
Qed.

Lemma pow_levels_pos a b : b < a -> (pow_levels a b == inject_Z (pow2 (a - b - 1)))%Q.
Proof.
  intro H. unfold pow_levels, pow2. destruct (Z.of_nat a - Z.of_nat b - 1 <? 0)%Z eqn:E; [apply Z.ltb_lt in E; lia|].
  replace (Z.of_nat (a - b - 1)) with (Z.of_nat a - Z.of_nat b - 1)%Z by lia. reflexivity.
Qed.

Lemma pow2Q_add a b : (inject_Z (pow2 (a + b)) == inject_Z (pow2 a) * inject_Z (pow2 b))%Q.
Proof. now rewrite pow2_add, inject_Z_mult. Qed.

Lemma sols_frac M T n : index_order M -> forall lvl c, okn M lvl n -> lvl <= T -> (forall i, In i (varsn n) -> i < T) ->
  lvl <= node_level n T /\
  (sols T n c * inject_Z (pow2 (node_level n T)) == fracn n c * inject_Z (pow2 T))%Q.
Proof.
  intro HI. induction n as [|v t IHt d e IHe]; intros lvl c Hok HlT Hv.
  - cbn. split; auto. reflexivity.
  - cbn [okn] in Hok. rewrite HI in Hok. destruct Hok as (H1 & H2 & H3 & _).
    assert (v < T) by (apply Hv; now left). 
    destruct (IHt (S v) c H2) as [Lt Et]; [lia|intros; apply Hv; right; apply in_or_app; auto|].
    destruct (IHe (S v) (xorb c d) H3) as [Le Ee]; [lia|intros; apply Hv; right; apply in_or_app; auto|].
    split; [exact H1|]. cbn [sols fracn node_level].
    rewrite !pow_levels_pos by lia.
    assert (Pt : (inject_Z (pow2 (node_level t T)) == 2 * (inject_Z (pow2 (node_level t T - v - 1)) * inject_Z (pow2 v)))%Q).
    { replace (node_level t T) with (S ((node_level t T - v - 1) + v)) at 1 by lia.
      rewrite pow2_S, inject_Z_mult, pow2Q_add. reflexivity. }
    assert (Pe : (inject_Z (pow2 (node_level e T)) == 2 * (inject_Z (pow2 (node_level e T - v - 1)) * inject_Z (pow2 v)))%Q).
    { replace (node_level e T) with (S ((node_level e T - v - 1) + v)) at 1 by lia.
      rewrite pow2_S, inject_Z_mult, pow2Q_add. reflexivity. }
    rewrite Pt in Et. rewrite Pe in Ee. lra.
Qed.

(** C19 *)
Lemma count_solutions_full M f : index_order M -> wf M f ->
  let T := terminal_level [[f]] in
  NoDup (map fst (count_solutions f))
  /\ (forall k, In k (map fst (count_solutions f)) <-> In k (reachable f))
  /\ (forall k v, In (k, v) (count_solutions f) ->
       (v * inject_Z (pow2 (node_level (snd k) T)) == sum_inputs T (fun a => b2q (ev k a)))%Q).
Proof.
  intros HI Hf T.
  pose proof (count_solutions_rec_spec T (snd f) (fst f) [] (good_map_nil _)) as H.
  unfold count_solutions. fold T. destruct (count_solutions_rec (snd f) (fst f) [] T) as [v m]. cbn [snd].
  destruct H as (_ & (G1 & G2 & G3) & K). split; auto. split; [intro k; rewrite K; cbn; tauto|].
  intros k x Hk. assert (Hr : In k (reachable f)).
  { assert (Hm : In k (map fst m)) by (apply in_map_iff; exists (k, x); auto). apply K in Hm. cbn in Hm. tauto. }
  assert (Hv : forall i, In i (varsn (snd f)) -> i < T).
  { intros i Hi. apply (terminal_level_gt [[f]] [f] f i); cbn; auto. }
  assert (Hwk : wf M k) by exact (edges_wf M (snd f) (fst f) 0 k Hf Hr).
  rewrite (G1 k x Hk). unfold solw.
  destruct (sols_frac M T (snd k) HI 0 (fst k)) as [_ E]; auto; [lia|intros i Hi; apply Hv; eapply edges_vars; eauto|].
  rewrite E. change (fracn (snd k) (fst k)) with (frac k).
  rewrite (frac_average M T k); auto.
  - rewrite average_eq. field. apply pow2Q_nz.
  - eapply reachable_below; eauto.
Qed.

(** ** random_satisfying_input *)
Lemma frac_nonneg n : forall c, (0 <= fracn n c)%Q.
Proof.
  induction n as [|v t IHt d e IHe]; intro c; cbn [fracn]; [destruct c; lra|].
  specialize (IHt c). specialize (IHe (xorb c d)). lra.
Qed.
Lemma frac_pos M f : wf M f -> f <> bzero -> (0 < frac f)%Q.
Proof.
  intros Hf Hz. set (n := S (list_max0 (varsn (snd f)))).
  assert (Hd : depends_below n f).
  { apply vars_depends_below. intros i Hi. unfold n. pose proof (list_max0_ge _ _ Hi). lia. }
  rewrite (frac_average M n f Hf Hd), average_eq.
  assert (E : is_zero f = false) by (apply bdd_eqb_false; auto).
  destruct (is_zero_false M f Hf E) as [a Ha].
  assert (P : (0 < sum_inputs n (fun a => b2q (ev f a)))%Q).
  { apply sum_inputs_pos with a.
    - intro b. destruct (ev f b); cbn; lra.
    - intros x y Hxy. now rewrite (Hd x y Hxy).
    - rewrite Ha. cbn. lra. }
  unfold Qdiv. apply Qmult_lt_0_compat; auto. apply Qinv_lt_0_compat, pow2Q_pos.
Qed.
Lemma frac_zero_iff M f : wf M f -> ((frac f == 0)%Q <-> f = bzero).
Proof.
  intro Hf. split.
  - intro H. destruct (bdd_eqb f bzero) eqn:E; [now apply bdd_eqb_spec|].
    apply bdd_eqb_false in E. pose proof (frac_pos M f Hf E). lra.
  - intros ->. reflexivity.
Qed.

Lemma in_edges_refl n c : In (c, n) (edges n c).
Proof. destruct n; now left. Qed.

Lemma rsi_loop_spec M rm mc root T : index_order M -> (0 < rm)%Z -> wf M root ->
  mc = count_minterms root -> (forall i, In i (varsn (snd root)) -> i < T) ->
  forall k level c nd draws,
  level + k = T -> length draws = k -> Forall (fun d => 0 < d <= rm)%Z draws ->
  In (c, nd) (reachable root) -> okn M level nd -> (c, nd) <> bzero ->
  exists l, rsi_loop rm mc T k level c nd draws = Ok l /\ length l = k
    /\ Forall (fun x => x = 0 \/ x = 1)%Z l
    /\ forall a, (forall i, i < k -> a (level + i) = (nth i l 0 =? 1)%Z) -> ev (c, nd) a = true.
Proof.
  intros HI Hrm Hroot -> Hv. induction k as [|k IH]; intros level c nd draws HT Hl Hd Hr Hok Hnz.
  - exists []. destruct draws; [|discriminate]. repeat split; auto. intros a _.
    assert (Hno : forall i, ~ In i (varsn nd)).
    { intros i Hi. pose proof (okn_vars _ _ _ _ Hok Hi) as H. rewrite HI in H.
      assert (i < T) by (apply Hv; apply (edges_vars (snd root) (fst root) (c, nd)); auto). lia. }
    destruct nd as [|v t d e]; [|exfalso; apply (Hno v); now left].
    destruct c; [exfalso; now apply Hnz|reflexivity].
  - destruct draws as [|d draws]; [discriminate|]. inversion Hd as [|? ? Hd1 Hd2]; subst.
    cbn [rsi_loop]. cbn [length] in Hl.
    destruct (level <? node_level nd (level + S k)) eqn:El.
    + apply Nat.ltb_lt in El.
      destruct (IH (S level) c nd draws) as (l & Hr' & Hlen & Hf & Hs); auto; try lia.
      { destruct nd as [|v t d' e]; cbn in *; auto. rewrite HI in *. intuition lia. }
      rewrite Hr'. cbn [bind]. eexists; split; [reflexivity|]. repeat split.
      * cbn; lia.
      * constructor; auto. pose proof (Z.mod_pos_bound d 2). lia.
      * intros a Ha. apply Hs. intros i Hi. specialize (Ha (S i)). cbn [nth] in Ha.
        replace (S level + i) with (level + S i) by lia. apply Ha. lia.
    + apply Nat.ltb_ge in El. destruct nd as [|v t d' e]; [cbn in El; lia|]. cbn [node_level] in El.
      pose proof Hok as Hok'. cbn [okn] in Hok'. rewrite HI in Hok'. destruct Hok' as (H1 & H2 & H3 & H4).
      assert (v = level) by lia. subst v.
      assert (R1 : In (c, t) (reachable root)).
      { eapply edges_trans; [exact Hr|]. unfold reachable; cbn. right. apply in_or_app. left. apply in_edges_refl. }
      assert (R2 : In (xorb c d', e) (reachable root)).
      { eapply edges_trans; [exact Hr|]. unfold reachable; cbn. right. apply in_or_app. right. apply in_edges_refl. }
      destruct (count_minterms_at root _ R1) as (tw & -> & E1).
      destruct (count_minterms_at root _ R2) as (ew & -> & E2). cbn [bind].
      assert (Wt : wf M (c, t)) by (eapply edges_wf; [exact Hroot|exact R1]).
      assert (We : wf M (xorb c d', e)) by (eapply edges_wf; [exact Hroot|exact R2]).
      pose proof (frac_nonneg t c) as N1. pose proof (frac_nonneg e (xorb c d')) as N2.
      unfold frac in E1, E2. cbn [fst snd] in E1, E2.
      assert (Pos : (0 < tw + ew)%Q).
      { assert (W : wf M (c, Nd level t d' e)) by (eapply edges_wf; [exact Hroot|exact Hr]).
        pose proof (frac_pos M _ W Hnz) as P. unfold frac in P. cbn [fst snd fracn] in P. lra. }
      unfold le_ratio.
      destruct (Qeq_bool (tw + ew) 0) eqn:Ez; [apply Qeq_bool_iff in Ez; lra|].
      assert (Dpos : (0 < inject_Z d / inject_Z rm <= 1)%Q).
      { assert (0 < inject_Z rm)%Q by (change 0%Q with (inject_Z 0); rewrite <- Zlt_Qlt; auto).
        assert (0 < inject_Z d)%Q by (change 0%Q with (inject_Z 0); rewrite <- Zlt_Qlt; lia).
        split.
        - unfold Qdiv. apply Qmult_lt_0_compat; auto. now apply Qinv_lt_0_compat.
        - apply Qle_shift_div_r; auto. rewrite Qmult_1_l, <- Zle_Qle. lia. }
      destruct (Qle_bool (inject_Z d / inject_Z rm) (tw / (tw + ew))) eqn:Eq.
      * apply Qle_bool_iff in Eq.
        assert (Hnt : (c, t) <> bzero).
        { intro Hz. apply (frac_zero_iff M) in Hz; auto. unfold frac in Hz. cbn [fst snd] in Hz.
          rewrite Hz in E1.
          assert (tw / (tw + ew) == 0)%Q by (rewrite E1; field; lra). lra. }
        destruct (IH (S level) c t draws) as (l & Hr' & Hlen & Hf & Hs); auto; try lia.
        rewrite Hr'. cbn [bind]. eexists; split; [reflexivity|]. repeat split.
        -- cbn; lia.
        -- constructor; auto.
        -- intros a Ha. pose proof (Ha 0) as A0. rewrite Nat.add_0_r in A0. cbn [nth] in A0.
           assert (ev (c, t) a = true) as Hev.
           { apply Hs. intros i Hi. specialize (Ha (S i)). cbn [nth] in Ha.
             replace (S level + i) with (level + S i) by lia. apply Ha. lia. }
           unfold ev in *. cbn [fst snd evn] in *. rewrite A0 by lia. exact Hev.
      * assert (Hne : (xorb c d', e) <> bzero).
        { intro Hz. apply (frac_zero_iff M) in Hz; auto. unfold frac in Hz. cbn [fst snd] in Hz.
          rewrite Hz in E2. 
          assert (tw / (tw + ew) == 1)%Q by (rewrite E2; field; lra).
          assert (Qle_bool (inject_Z d / inject_Z rm) (tw / (tw + ew)) = true) by (apply Qle_bool_iff; lra). congruence. }
        destruct (IH (S level) (xorb c d') e draws) as (l & Hr' & Hlen & Hf & Hs); auto; try lia.
        rewrite Hr'. cbn [bind]. eexists; split; [reflexivity|]. repeat split.
        -- cbn; lia.
        -- constructor; auto.
        -- intros a Ha. pose proof (Ha 0) as A0. rewrite Nat.add_0_r in A0. cbn [nth] in A0.
           assert (ev (xorb c d', e) a = true) as Hev.
           { apply Hs. intros i Hi. specialize (Ha (S i)). cbn [nth] in Ha.
             replace (S level + i) with (level + S i) by lia. apply Ha. lia. }
           unfold ev in *. cbn [fst snd evn] in *. rewrite A0 by lia. cbn. rewrite <- Hev. now destruct c, d', (evn e a).
Qed.

Lemma random_satisfying_input_full M rm f T draws : index_order M -> (0 < rm)%Z -> wf M f ->
  (exists a, ev f a = true) -> depends_below T f -> length draws = T ->
  Forall (fun d => 0 < d <= rm)%Z draws ->
  exists l, random_satisfying_input rm f (count_minterms f) T draws = Ok l /\ length l = T
    /\ Forall (fun x => x = 0 \/ x = 1)%Z l
    /\ ev f (asg_ints l) = true.
Proof.
  intros HI Hrm Hf [a0 Ha0] Hd Hl HF. unfold random_satisfying_input.
  assert (Hz : (fst f, snd f) <> bzero).
  { intro E. destruct f as [c n]. cbn in E. rewrite E, ev_zero in Ha0. discriminate. }
  destruct (rsi_loop_spec M rm (count_minterms f) f T HI Hrm Hf eq_refl (depends_below_vars M T f Hf Hd)
              T 0 (fst f) (snd f) draws) as (l & Hr & Hlen & H01 & Hs); auto.
  - destruct f as [c n]. apply in_edges_refl.
  - exists l. repeat split; auto. destruct f as [c n]. apply Hs. intros i Hi. reflexivity.
Qed.

Lemma random_satisfying_input_bad : exists M rm f T draws,
  index_order M /\ (0 < rm)%Z /\ wf M f /\ (exists a, ev f a = true) /\ depends_below T f
  /\ length draws = T /\ Forall (fun d => 0 <= d <= rm)%Z draws
  /\ exists l, random_satisfying_input rm f (count_minterms f) T draws = Ok l
       /\ length l = T /\ ev f (asg_ints l) = false.
Proof.
  exists (id_mgr 1), 2147483647%Z, (bnot (bvar 0)), 1, [0%Z].
  split; [intro i; reflexivity|]. split; [reflexivity|].
  split; [cbn; repeat split; auto; intros [? _]; discriminate|].
  split; [exists (fun _ => false); reflexivity|].
  split; [intros a b H; cbn; rewrite (H 0) by auto; reflexivity|].
  split; [reflexivity|]. split; [repeat constructor; discriminate|].
  exists [1%Z]. repeat split; vm_compute; reflexivity.
Qed.
