(** random_satisfying_input in other variable orders and with other maps: proofs *)
From Coq Require Import List Bool Arith ZArith QArith Lia Lqa.
From Verif Require Import Res Cudd CuddFacts Spec SpecFacts Helpers HelpersFacts HelpersFacts2 Counting CountFacts Metrics MetricsFacts RelFacts3
  SpecMinimize SpecSampling SamplingFacts SamplingFacts2 SamplingFacts3 OrderFacts SpecOrder.
Import ListNotations.
Open Scope nat_scope.

Fixpoint conj_down (n : nat) : node := match n with O => One | S k => Nd k (conj_down k) true One end.
Lemma conj_down_ev n a : evn (conj_down n) a = true <-> forall i, i < n -> a i = true.
Proof.
  induction n as [|n IH]; cbn [conj_down evn]; [split; auto; intros; lia|].
  destruct (a n) eqn:E.
  - rewrite IH. split; intros H i Hi; [|apply H; lia]. destruct (Nat.eq_dec i n) as [->|]; [exact E|apply H; lia].
  - split; [intro H; discriminate H|]. intro H. rewrite (H n) in E by lia. discriminate E.
Qed.
Lemma conj_down_ok M n : opposite_order M n -> forall k, (forall i, i < n -> k <= lv M i) -> okn M k (conj_down n).
Proof.
  induction n as [|n IH]; intros O k Hk; cbn [conj_down okn]; [exact I|]. split; [apply Hk; lia|]. split; [|split; [exact I|intros [H _]; discriminate H]].
  apply IH; [intros i j Hi Hj; apply O; lia|]. intros i Hi. apply O; lia.
Qed.
Lemma conj_down_unique M n f : opposite_order M n -> wf M f -> conjunction n f -> f = (false, conj_down n).
Proof.
  intros O W H. apply (canonical M); [exact W|apply (conj_down_ok M n O 0); intros; lia|]. intro a. apply eq_true_iff_eq. rewrite (H a).
  unfold ev. cbn [fst snd]. rewrite xorb_false_l. symmetry. apply conj_down_ev.
Qed.
Lemma conj_down_frac n : (0 < fracn (conj_down n) false)%Q.
Proof. induction n as [|n IH]; cbn [conj_down fracn]; [reflexivity|]. cbn. lra. Qed.

Lemma le_ratio_one x w1 w2 : (x <= 1)%Q -> (0 < w1)%Q -> (w2 == 0)%Q -> le_ratio x w1 w2 = true.
Proof.
  intros Hx H1 H2. unfold le_ratio. destruct (Qeq_bool (w1 + w2) 0) eqn:E; [apply Qeq_bool_eq in E; lra|].
  apply Qle_bool_iff. apply Qle_trans with 1%Q; [exact Hx|].
  assert (E2 : (w1 / (w1 + w2) == 1)%Q) by (rewrite H2; field; lra). rewrite E2. lra.
Qed.
Lemma conj_down_last rm m d : (0 < rm)%Z -> (d <= rm)%Z ->
  rsi_loop rm (count_minterms (false, conj_down (S m))) (S m) 1 m false (conj_down (S m)) [d] = Ok [1%Z].
Proof.
  intros Hrm Hd. remember (false, conj_down (S m)) as f eqn:Hf. cbn [rsi_loop conj_down node_level]. rewrite Nat.ltb_irrefl.
  destruct (count_minterms_at f (false, conj_down m)) as (w1 & -> & E1);
    [subst f; unfold reachable; cbn; right; apply in_or_app; left; apply in_edges_refl|].
  destruct (count_minterms_at f (xorb false true, One)) as (w2 & -> & E2);
    [subst f; unfold reachable; cbn; right; apply in_or_app; right; apply in_edges_refl|].
  cbn [bind]. rewrite le_ratio_one; [reflexivity| | |].
  - assert (0 < inject_Z rm)%Q by (change 0%Q with (inject_Z 0); rewrite <- Zlt_Qlt; exact Hrm).
    apply Qle_shift_div_r; [assumption|]. rewrite Qmult_1_l, <- Zle_Qle. exact Hd.
  - rewrite E1. apply conj_down_frac.
  - rewrite E2. reflexivity.
Qed.
Lemma conj_down_loop rm m : (0 < rm)%Z -> forall k level draws, level + k = m -> length draws = S k -> Forall (fun d => d <= rm)%Z draws ->
  rsi_loop rm (count_minterms (false, conj_down (S m))) (S m) (S k) level false (conj_down (S m)) draws
  = Ok (map (fun d => (d mod 2)%Z) (firstn k draws) ++ [1%Z]).
Proof.
  intro Hrm. induction k as [|k IH]; intros level draws Hk HL HF.
  - destruct draws as [|d [|]]; try discriminate HL. inversion_clear HF. replace level with m by lia. apply conj_down_last; assumption.
  - destruct draws as [|d draws]; [discriminate HL|]. injection HL as HL. inversion_clear HF.
    remember (S k) as k1. cbn [rsi_loop]. cbn [conj_down node_level]. destruct (Nat.ltb_spec level m); [|lia].
    change (Nd m (conj_down m) true One) with (conj_down (S m)). subst k1. rewrite IH by (assumption || lia). reflexivity.
Qed.
Lemma opposite_value M n f rm draws : 0 < n -> opposite_order M n -> wf M f -> conjunction n f -> (0 < rm)%Z ->
  length draws = n -> Forall (fun d => d <= rm)%Z draws ->
  random_satisfying_input rm f (count_minterms f) n draws = Ok (map (fun d => (d mod 2)%Z) (firstn (n - 1) draws) ++ [1%Z]).
Proof.
  intros Hn O W C Hrm HL HF. rewrite (conj_down_unique M n f O W C). destruct n as [|m]; [lia|]. replace (S m - 1) with m by lia.
  unfold random_satisfying_input. cbn [fst snd]. apply conj_down_loop; auto.
Qed.

Lemma odd_mod2 d : Z.odd (d mod 2) = (d mod 2 =? 1)%Z.
Proof. pose proof (Z.mod_pos_bound d 2 ltac:(lia)). assert (E : (d mod 2 = 0 \/ d mod 2 = 1)%Z) by lia. destruct E as [-> | ->]; reflexivity. Qed.
Lemma nth_mod2 x i : nth i (map (fun d => (d mod 2)%Z) x) 0%Z = (nth i x 0 mod 2)%Z.
Proof. exact (map_nth (fun d => (d mod 2)%Z) x 0%Z i). Qed.
Lemma conj_input n f m x : conjunction n f -> n = S m -> length x = m ->
  ev f (input_of (map (fun d => (d mod 2)%Z) x ++ [1%Z])) = forallb (fun z => (z =? 1)%Z) (map (fun d => (d mod 2)%Z) x).
Proof.
  intros C -> HL. apply eq_true_iff_eq. rewrite (C _), forallb_forall. unfold input_of. split.
  - intros H z Hz. apply In_nth with (d := 0%Z) in Hz. destruct Hz as (i & Hi & <-). specialize (H i). rewrite app_nth1 in H by exact Hi.
    rewrite map_length in Hi. rewrite nth_mod2 in *. rewrite <- odd_mod2. apply H. lia.
  - intros H i Hi. destruct (Nat.eq_dec i m) as [->|Ne].
    + rewrite app_nth2 by (rewrite map_length; lia). rewrite map_length, HL, Nat.sub_diag. reflexivity.
    + rewrite app_nth1 by (rewrite map_length; lia). rewrite nth_mod2, odd_mod2.
      apply H. apply (in_map (fun d => (d mod 2)%Z)). apply nth_In. lia.
Qed.
Lemma bmean_ones k : (bmean k (fun l => b2q (forallb (fun z => (z =? 1)%Z) l)) == 1 / inject_Z (2 ^ Z.of_nat k))%Q.
Proof.
  induction k as [|k IH]; [reflexivity|]. cbn [bmean forallb]. change (1 =? 1)%Z with true. change (0 =? 1)%Z with false. cbn [andb].
  assert (E0 : (bmean k (fun _ => b2q false) == 0)%Q) by (clear IH; induction k as [|k IHk]; cbn [bmean]; [reflexivity|rewrite IHk; reflexivity]).
  rewrite IH, E0, Nat2Z.inj_succ, Z.pow_succ_r, inject_Z_mult by lia.
  assert (0 < inject_Z (2 ^ Z.of_nat k))%Q by (change 0%Q with (inject_Z 0); rewrite <- Zlt_Qlt; apply Z.pow_pos_nonneg; lia).
  change (inject_Z 2) with 2%Q. field. lra.
Qed.
Lemma opposite_probability M n f r : 0 < n -> opposite_order M n -> wf M f -> conjunction n f -> Nat.Odd r ->
  (probability r n (fun l => match random_satisfying_input (Z.of_nat r) f (count_minterms f) n l with Ok x => ev f (input_of x) | _ => false end)
   == 1 / inject_Z (2 ^ Z.of_nat (n - 1)))%Q.
Proof.
  intros Hn O W C Hr. destruct n as [|m]; [lia|]. replace (S m - 1) with m by lia. unfold probability.
  assert (0 < r) by (destruct Hr; lia).
  rewrite (exp_ext_in r (S m) _ (fun l => b2q (forallb (fun z => (z =? 1)%Z) (parity (firstn m l))))).
  - replace (S m) with (m + 1) by lia. rewrite (exp_app_l r m 1 (fun x => b2q (forallb (fun z => (z =? 1)%Z) (parity x)))).
    rewrite (exp_parity r Hr m (fun x => b2q (forallb (fun z => (z =? 1)%Z) x))). apply bmean_ones.
  - intros l [HL HF]. rewrite (opposite_value M (S m) f (Z.of_nat r) l); auto; try lia.
    + replace (S m - 1) with m by lia. rewrite (conj_input (S m) f m) by (auto; rewrite firstn_length; lia). reflexivity.
    + eapply Forall_impl; [|exact HF]. cbn. lia.
Qed.

(** other maps *)
Lemma bmap_at_dec (mc : bmap Q) k : (exists v, bmap_at mc k = Ok v) \/ (bmap_at mc k = Throw /\ ~ has_weight mc k).
Proof.
  unfold bmap_at, has_weight. destruct (blookup k mc) as [v|]; [left; now exists v|right]. split; [reflexivity|]. intros [v E]. discriminate E.
Qed.
Lemma rsi_other rm (mc : bmap Q) root T : forall k level c nd draws, level + k = T -> length draws = k -> In (c, nd) (reachable root) ->
  (exists l, rsi_loop rm mc T k level c nd draws = Ok l /\ length l = k) \/ (rsi_loop rm mc T k level c nd draws = Throw /\ lacks_child mc root).
Proof.
  induction k as [|k IH]; intros level c nd draws HT HL Hr; cbn [rsi_loop]; [left; now exists []|].
  destruct draws as [|x draws]; [discriminate|]. injection HL as HL.
  destruct (Nat.ltb_spec level (node_level nd T)) as [Hlt|Hge].
  - destruct (IH (S level) c nd draws) as [(l & -> & E)|[-> E]]; auto; [lia|]; left; cbn [bind]; eexists; split; [reflexivity|cbn; lia].
  - destruct nd as [|v t d e]; [cbn [node_level] in Hge; lia|].
    assert (R1 : In (c, t) (reachable root)).
    { apply (edges_trans _ _ (c, Nd v t d e)); auto. cbn. right. apply in_or_app. left. apply in_edges_refl. }
    assert (R2 : In (xorb c d, e) (reachable root)).
    { apply (edges_trans _ _ (c, Nd v t d e)); auto. cbn. right. apply in_or_app. right. apply in_edges_refl. }
    destruct (bmap_at_dec mc (c, t)) as [(w1 & ->)|[-> N]]; cbn [bind]; [|right; split; [reflexivity|]; exists c, v, t, d, e; auto].
    destruct (bmap_at_dec mc (xorb c d, e)) as [(w2 & ->)|[-> N]]; cbn [bind]; [|right; split; [reflexivity|]; exists c, v, t, d, e; auto].
    destruct (le_ratio _ _ _).
    + destruct (IH (S level) c t draws) as [(l & -> & E)|[-> E]]; auto; [lia|]; left; cbn [bind]; eexists; split; [reflexivity|cbn; lia].
    + destruct (IH (S level) (xorb c d) e draws) as [(l & -> & E)|[-> E]]; auto; [lia|]; left; cbn [bind]; eexists; split; [reflexivity|cbn; lia].
Qed.
Lemma other_map rm f (mc : bmap Q) T draws : length draws = T ->
  (exists l, random_satisfying_input rm f mc T draws = Ok l /\ length l = T)
  \/ (fails Exception (random_satisfying_input rm f mc T draws) /\ lacks_child mc f).
Proof.
  intro H. unfold random_satisfying_input, fails. apply rsi_other; auto. unfold reachable. destruct f. apply in_edges_refl.
Qed.
Lemma missing_child rm c v t c' e (mc : bmap Q) T draws : v < T -> length draws = T ->
  ~ has_weight mc (then_edge c t) \/ ~ has_weight mc (else_edge c c' e) ->
  fails Exception (random_satisfying_input rm (c, Nd v t c' e) mc T draws).
Proof.
  intros Hv HL HN. unfold random_satisfying_input. cbn [fst snd].
  enough (K : forall k level draws, level + k = T -> level <= v -> length draws = k -> rsi_loop rm mc T k level c (Nd v t c' e) draws = Throw)
    by (rewrite (K T 0 draws) by lia; reflexivity).
  clear draws HL. induction k as [|k IH]; intros level draws HT Hl HL; [lia|]. destruct draws as [|d draws]; [discriminate|]. injection HL as HL.
  cbn [rsi_loop node_level]. destruct (Nat.ltb_spec level v); [rewrite IH by lia; reflexivity|].
  destruct (bmap_at_dec mc (c, t)) as [(w1 & E1)|[-> _]]; [|reflexivity]. rewrite E1. cbn [bind].
  destruct (bmap_at_dec mc (xorb c c', e)) as [(w2 & E2)|[-> _]]; [|reflexivity]. exfalso.
  unfold has_weight, then_edge, else_edge, bmap_at in *. destruct (blookup (c, t) mc); [|discriminate E1]. destruct (blookup (xorb c c', e) mc); [|discriminate E2].
  destruct HN as [N|N]; apply N; eauto.
Qed.

(** witnesses *)
Lemma opposite_two : opposite_order (reversed_mgr 2 2) 2.
Proof. intros i j H1 H2. assert (i = 0 /\ j = 1) as [-> ->] by lia. cbn. lia. Qed.
Lemma two_conjunction : conjunction 2 (false, conj_down 2).
Proof. intro a. unfold ev. cbn [fst snd]. rewrite xorb_false_l. apply conj_down_ev. Qed.
Lemma two_wf : wf (reversed_mgr 2 2) (false, conj_down 2).
Proof. apply (conj_down_ok _ 2 opposite_two 0). intros; lia. Qed.
Lemma opposite_refuted : exists (M : mgr) (n : nat) (f : bdd) (rm : Z) (draws x : list Z),
  wf M f /\ conjunction n f /\ length draws = n /\ Forall (fun d => 0 < d <= rm)%Z draws
  /\ random_satisfying_input rm f (count_minterms f) n draws = Ok x /\ ev f (input_of x) = false.
Proof.
  exists (reversed_mgr 2 2), 2, (false, conj_down 2), 7%Z, [4; 5]%Z, [0; 1]%Z. split; [exact two_wf|]. split; [exact two_conjunction|].
  split; [reflexivity|]. split; [repeat constructor; lia|]. vm_compute. auto.
Qed.
Lemma opposite_case : let f := band (reversed_mgr 2 2) (bvar 0) (bvar 1) in
  opposite_order (reversed_mgr 2 2) 2 /\ wf (reversed_mgr 2 2) f /\ conjunction 2 f
  /\ random_satisfying_input 7 f (count_minterms f) 2 [4; 5]%Z = Ok [0; 1]%Z
  /\ fails Exception (random_satisfying_input 7 f [] 2 [4; 5]%Z).
Proof.
  replace (band (reversed_mgr 2 2) (bvar 0) (bvar 1)) with (false, conj_down 2) by (vm_compute; reflexivity). cbn zeta.
  split; [exact opposite_two|]. split; [exact two_wf|]. split; [exact two_conjunction|]. split; vm_compute; reflexivity.
Qed.
