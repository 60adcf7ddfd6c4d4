(** Proofs about the distribution of random_satisfying_input *)
From Coq Require Import List Bool Arith ZArith QArith Qround Qabs Lia Lqa.
From Verif Require Import Res Cudd CuddFacts Spec SpecFacts Helpers HelpersFacts HelpersFacts2 Counting CountFacts Metrics MetricsFacts RelFacts3
  SpecSampling SamplingFacts SamplingFacts2.
Import ListNotations.
Open Scope nat_scope.

Lemma Qabs_le x y : (- y <= x)%Q -> (x <= y)%Q -> (Qabs x <= y)%Q.
Proof. intros. apply Qabs_Qle_condition. split; auto. Qed.
Lemma Qabs_range x y : (Qabs x <= y)%Q -> (- y <= x <= y)%Q.
Proof. apply Qabs_Qle_condition. Qed.

Lemma bmean_le k : forall H H', (forall l, length l = k -> H l <= H' l)%Q -> (bmean k H <= bmean k H')%Q.
Proof.
  induction k as [|k IH]; intros H H' E; cbn [bmean]; [apply E; reflexivity|].
  assert (bmean k (fun l => H (1%Z :: l)) <= bmean k (fun l => H' (1%Z :: l)))%Q by (apply IH; intros l Hl; apply E; cbn; lia).
  assert (bmean k (fun l => H (0%Z :: l)) <= bmean k (fun l => H' (0%Z :: l)))%Q by (apply IH; intros l Hl; apply E; cbn; lia).
  unfold Qdiv. apply Qmult_le_compat_r; [lra|]. change (/ 2)%Q with (1 # 2)%Q. lra.
Qed.
Lemma bmean_const k c : (bmean k (fun _ => c) == c)%Q.
Proof. induction k as [|k IH]; cbn [bmean]; [reflexivity|]. rewrite IH. field. Qed.

(** how many draws are at most [y] *)
Lemma count_le r : forall z, z <= r -> length (filter (fun d => d <=? z) (seq 0 (S r))) = S z.
Proof.
  intros z H. replace (S r) with (S z + (r - z)) by lia. rewrite seq_app, filter_app, app_length.
  assert (A : forall n s, z < s -> filter (fun d => d <=? z) (seq s n) = []).
  { induction n as [|n IH]; intros s Hs; [reflexivity|]. cbn [seq filter]. destruct (Nat.leb_spec s z); [lia|]. apply IH. lia. }
  assert (B : forall n s, s + n <= S z -> filter (fun d => d <=? z) (seq s n) = seq s n).
  { induction n as [|n IH]; intros s Hs; [reflexivity|]. cbn [seq filter]. destruct (Nat.leb_spec s z); [|lia]. f_equal. apply IH. lia. }
  rewrite B, A, seq_length by lia. cbn. lia.
Qed.
Lemma sum_threshold (A B : Q) (b : nat -> bool) l :
  (sumQ (map (fun d => if b d then A else B) l)
   == B * inject_Z (Z.of_nat (length l)) + (A - B) * inject_Z (Z.of_nat (length (filter b l))))%Q.
Proof.
  induction l as [|d l IH]; cbn [map filter length]; [rewrite sumQ_nil; ring|]. rewrite sumQ_cons, IH, Nat2Z.inj_succ.
  unfold Z.succ. rewrite inject_Z_plus. change (inject_Z 1) with 1%Q. destruct (b d); cbn [length]; [|ring].
  rewrite Nat2Z.inj_succ. unfold Z.succ. rewrite inject_Z_plus. change (inject_Z 1) with 1%Q. ring.
Qed.
Lemma injZ_mono a b : (a <= b)%Z -> (inject_Z a <= inject_Z b)%Q.
Proof. intro H. now rewrite <- Zle_Qle. Qed.

Section Uniform.
Variable M : mgr.
Hypothesis HI : index_order M.
Variable r : nat.
Hypothesis Hodd : Nat.Odd r.
Let R := inject_Z (Z.of_nat (S r)).
Let rm := Z.of_nat r.
Lemma r_pos : (0 < inject_Z rm)%Q.
Proof. destruct Hodd as [m Hm]. change 0%Q with (inject_Z 0). rewrite <- Zlt_Qlt. unfold rm. lia. Qed.
Lemma R_eq : (R == inject_Z rm + 1)%Q.
Proof. unfold R, rm. rewrite Nat2Z.inj_succ. unfold Z.succ. rewrite inject_Z_plus. reflexivity. Qed.

(** the share of the draws that take the then branch *)
Lemma then_share tw ew : (0 <= tw)%Q -> (0 <= ew)%Q -> (0 < tw + ew)%Q ->
  let cnt := inject_Z (Z.of_nat (length (filter (fun d => le_ratio (inject_Z (Z.of_nat d) / inject_Z rm) tw ew) (seq 0 (S r))))) in
  (- (1) <= cnt - R * (tw / (tw + ew)) <= 1)%Q /\ (0 <= cnt <= R)%Q.
Proof.
  intros Ht He Hs. cbv zeta. set (p := (tw / (tw + ew))%Q).
  assert (P0 : (0 <= p)%Q) by (apply Qle_shift_div_l; auto; lra). assert (P1 : (p <= 1)%Q) by (apply Qle_shift_div_r; auto; lra).
  pose proof r_pos as Rp. set (y := (p * inject_Z rm)%Q).
  assert (Y0 : (0 <= y)%Q) by (apply Qmult_le_0_compat; lra). assert (Y1 : (y <= inject_Z rm)%Q) by (unfold y; nra).
  pose proof (Qfloor_le y) as F1. pose proof (Qlt_floor y) as F2. set (z := Qfloor y) in *.
  assert (Z0 : (0 <= z)%Z). { assert (Qfloor (inject_Z 0) <= z)%Z by (apply Qfloor_resp_le; exact Y0). rewrite Qfloor_Z in H. exact H. }
  assert (Z1 : (z <= rm)%Z). { assert (z <= Qfloor (inject_Z rm))%Z by (apply Qfloor_resp_le; exact Y1). rewrite Qfloor_Z in H. exact H. }
  rewrite (filter_ext _ (fun d => d <=? Z.to_nat z)).
  - rewrite count_le by (unfold rm in Z1; lia). rewrite Nat2Z.inj_succ, Z2Nat.id by exact Z0. rewrite inject_Z_plus in F2.
    unfold Z.succ. rewrite inject_Z_plus. change (inject_Z 1) with 1%Q in *. pose proof R_eq as RE.
    assert (E : (R * p == y + p)%Q) by (rewrite RE; unfold y; ring). apply injZ_mono in Z0, Z1. change (inject_Z 0) with 0%Q in Z0.
    split; [|split]; [split|..]; lra.
  - intro d. unfold le_ratio. destruct (Qeq_bool (tw + ew) 0) eqn:E0; [apply Qeq_bool_iff in E0; lra|].
    apply eq_true_iff_eq. rewrite Qle_bool_iff, Nat.leb_le. fold p. split.
    + intro H. assert (inject_Z (Z.of_nat d) <= y)%Q.
      { unfold y. assert (E : (inject_Z (Z.of_nat d) == inject_Z (Z.of_nat d) / inject_Z rm * inject_Z rm)%Q) by (field; lra). rewrite E. apply Qmult_le_compat_r; [exact H|lra]. }
      assert (Z.of_nat d <= z)%Z. { rewrite <- (Qfloor_Z (Z.of_nat d)). apply Qfloor_resp_le. exact H0. } lia.
    + intro H. apply Qle_shift_div_r; [lra|]. fold y. eapply Qle_trans; [|exact F1]. apply injZ_mono. lia.
Qed.

Definition out (x : res (list Z)) : list Z := match x with Ok l => l | _ => [] end.
(** the input that starts at [level] with [x] *)
Definition at_level (level : nat) (x : list Z) : asg := fun i => (nth (i - level) x 0 =? 1)%Z.

Variable root : bdd.
Hypothesis Hroot : wf M root.
Variable T : nat.
Hypothesis Hv : forall i, In i (varsn (snd root)) -> i < T.
Let mc := count_minterms root.

Lemma out_ok k level c nd draws : level + k = T -> length draws = k -> In (c, nd) (reachable root) ->
  exists l, rsi_loop rm mc T k level c nd draws = Ok l.
Proof. intros. destruct (rsi_total rm root T k level c nd draws) as (l & E & _); auto. exists l. exact E. Qed.

Lemma at_level_child level (n : node) z x : (forall i, In i (varsn n) -> S level <= i) ->
  evn n (at_level level (z :: x)) = evn n (at_level (S level) x).
Proof.
  intro H. apply evn_ext. intros i Hi. specialize (H i Hi). unfold at_level. replace (i - level) with (S (i - S level)) by lia. reflexivity.
Qed.

Lemma frac_bmean : forall k level c nd, level + k = T -> In (c, nd) (reachable root) -> okn M level nd ->
  (bmean k (fun x => b2q (ev (c, nd) (at_level level x))) == fracn nd c)%Q.
Proof.
  induction k as [|k IH]; intros level c nd HT Hr Hok.
  - assert (Hno : forall i, ~ In i (varsn nd)).
    { intros i Hi. pose proof (okn_vars _ _ _ _ Hok Hi) as H. rewrite HI in H.
      assert (i < T) by (apply Hv; apply (edges_vars (snd root) (fst root) (c, nd)); auto). lia. }
    destruct nd as [|v t d e]; [|exfalso; apply (Hno v); now left]. destruct c; reflexivity.
  - cbn [bmean]. destruct (Nat.ltb_spec level (node_level nd T)) as [El|El].
    + assert (Hok' : okn M (S level) nd) by (destruct nd as [|v t d' e]; cbn in *; auto; rewrite HI in *; intuition lia).
      assert (Y : forall i, In i (varsn nd) -> S level <= i) by (intros i Hi; pose proof (okn_vars _ _ _ _ Hok' Hi) as H; rewrite HI in H; exact H).
      rewrite (bmean_ext k _ (fun x => b2q (ev (c, nd) (at_level (S level) x)))) by (intros x _; unfold ev; cbn [fst snd]; rewrite at_level_child by exact Y; reflexivity).
      rewrite (bmean_ext k (fun l => b2q (ev (c, nd) (at_level level (0%Z :: l)))) (fun x => b2q (ev (c, nd) (at_level (S level) x))))
        by (intros x _; unfold ev; cbn [fst snd]; rewrite at_level_child by exact Y; reflexivity).
      rewrite IH by (auto; lia). field.
    + destruct nd as [|v t d' e]; [cbn in El; lia|]. cbn [node_level] in El.
      pose proof Hok as Hok'. cbn [okn] in Hok'. rewrite HI in Hok'. destruct Hok' as (H1 & H2 & H3 & H4).
      assert (v = level) by lia. subst v.
      assert (R1 : In (c, t) (reachable root)).
      { eapply edges_trans; [exact Hr|]. unfold reachable; cbn. right. apply in_or_app. left. apply in_edges_refl. }
      assert (R2 : In (xorb c d', e) (reachable root)).
      { eapply edges_trans; [exact Hr|]. unfold reachable; cbn. right. apply in_or_app. right. apply in_edges_refl. }
      rewrite (bmean_ext k _ (fun x => b2q (ev (c, t) (at_level (S level) x)))).
      * rewrite (bmean_ext k (fun l => b2q (ev (c, Nd level t d' e) (at_level level (0%Z :: l)))) (fun x => b2q (ev (xorb c d', e) (at_level (S level) x)))).
        -- rewrite !IH by (auto; lia). cbn [fracn]. field.
        -- intros x _. unfold ev. cbn [fst snd evn]. replace (at_level level (0%Z :: x) level) with false by (unfold at_level; rewrite Nat.sub_diag; reflexivity).
           rewrite at_level_child by (intros i Hi; pose proof (okn_vars _ _ _ _ H3 Hi) as H; rewrite HI in H; exact H). destruct c, d', (evn e _); reflexivity.
      * intros x _. unfold ev. cbn [fst snd evn]. replace (at_level level (1%Z :: x) level) with true by (unfold at_level; rewrite Nat.sub_diag; reflexivity).
        rewrite at_level_child by (intros i Hi; pose proof (okn_vars _ _ _ _ H2 Hi) as H; rewrite HI in H; exact H). reflexivity.
Qed.

Lemma out_cons k level c nd draws (z : Z) : level + k = T -> length draws = k -> In (c, nd) (reachable root) ->
  out (l <- rsi_loop rm mc T k level c nd draws ;; Ok (z :: l)) = z :: out (rsi_loop rm mc T k level c nd draws).
Proof. intros H1 H2 H3. destruct (out_ok k level c nd draws H1 H2 H3) as (l & ->). reflexivity. Qed.

Lemma rsi_bound : forall k level c nd (G : list Z -> Q), level + k = T -> In (c, nd) (reachable root) -> okn M level nd ->
  (forall x, 0 <= G x <= 1)%Q ->
  (Qabs (fracn nd c * expectation r k (fun l => G (out (rsi_loop rm mc T k level c nd l)))
         - bmean k (fun x => b2q (ev (c, nd) (at_level level x)) * G x))
   <= fracn nd c * (inject_Z (Z.of_nat k) / R))%Q.
Proof.
  assert (RP : (0 < R)%Q) by apply R_pos.
  induction k as [|k IH]; intros level c nd G HT Hr Hok HG.
  - assert (Hno : forall i, ~ In i (varsn nd)).
    { intros i Hi. pose proof (okn_vars _ _ _ _ Hok Hi) as H. rewrite HI in H.
      assert (i < T) by (apply Hv; apply (edges_vars (snd root) (fst root) (c, nd)); auto). lia. }
    destruct nd as [|v t d e]; [|exfalso; apply (Hno v); now left]. rewrite exp_0. cbn [bmean rsi_loop out].
    change (inject_Z (Z.of_nat 0)) with 0%Q.
    assert (E : (fracn One c * G [] - b2q (ev (c, One) (at_level level [])) * G [] == 0)%Q) by (destruct c; cbn; ring).
    rewrite E. destruct c; cbn [fracn]; unfold Qdiv; rewrite ?Qmult_0_l, ?Qmult_0_r; discriminate.
  - assert (EK : (inject_Z (Z.of_nat (S k)) / R == inject_Z (Z.of_nat k) / R + 1 / R)%Q).
    { rewrite Nat2Z.inj_succ. unfold Z.succ. rewrite inject_Z_plus. field. lra. }
    assert (Bk : (0 <= inject_Z (Z.of_nat k) / R)%Q).
    { apply Qle_shift_div_l; [exact RP|]. rewrite Qmult_0_l. change 0%Q with (inject_Z 0). apply injZ_mono. lia. }
    assert (B1 : (0 < 1 / R)%Q) by (apply Qlt_shift_div_l; [exact RP|lra]).
    rewrite EK. set (bk := (inject_Z (Z.of_nat k) / R)%Q) in *. set (b1 := (1 / R)%Q) in *. rewrite exp_S. cbn [bmean].
    destruct (Nat.ltb_spec level (node_level nd T)) as [El|El].
    + assert (Hok' : okn M (S level) nd) by (destruct nd as [|v t d' e]; cbn in *; auto; rewrite HI in *; intuition lia).
      assert (Y : forall i, In i (varsn nd) -> S level <= i) by (intros i Hi; pose proof (okn_vars _ _ _ _ Hok' Hi) as H; rewrite HI in H; exact H).
      set (X := fun z : Z => expectation r k (fun l => G (z :: out (rsi_loop rm mc T k (S level) c nd l)))).
      rewrite (sumQ_map_ext_in _ (fun d => X (Z.of_nat d mod 2)%Z)).
      2:{ intros d _. unfold X. apply exp_ext_in. intros l [Ll _]. cbn [rsi_loop].
          rewrite (proj2 (Nat.ltb_lt _ _) El). rewrite out_cons by (auto; lia). reflexivity. }
      change (inject_Z (Z.of_nat (S r))) with R.
      assert (HD : (sumQ (map (fun d => X (Z.of_nat d mod 2)%Z) (seq 0 (S r))) / R == (X 1%Z + X 0%Z) / 2)%Q) by exact (half_draws r Hodd X).
      rewrite HD.
      set (V := fun z : Z => bmean k (fun x => b2q (ev (c, nd) (at_level (S level) x)) * G (z :: x))%Q).
      assert (EV : forall z : Z, (bmean k (fun x => b2q (ev (c, nd) (at_level level (z :: x))) * G (z :: x)) == V z)%Q).
      { intro z. apply bmean_ext. intros x _. unfold ev. cbn [fst snd]. rewrite at_level_child by exact Y. reflexivity. }
      rewrite (EV 1%Z), (EV 0%Z).
      pose proof (Qabs_range _ _ (IH (S level) c nd (fun x => G (1%Z :: x)) ltac:(lia) Hr Hok' (fun x => HG _))) as I1.
      pose proof (Qabs_range _ _ (IH (S level) c nd (fun x => G (0%Z :: x)) ltac:(lia) Hr Hok' (fun x => HG _))) as I0.
      cbv beta in I1, I0. fold bk in I1, I0. change (expectation r k (fun l => G (1%Z :: out (rsi_loop rm mc T k (S level) c nd l)))) with (X 1%Z) in I1.
      change (expectation r k (fun l => G (0%Z :: out (rsi_loop rm mc T k (S level) c nd l)))) with (X 0%Z) in I0.
      change (bmean k (fun x => b2q (ev (c, nd) (at_level (S level) x)) * G (1%Z :: x))%Q) with (V 1%Z) in I1.
      change (bmean k (fun x => b2q (ev (c, nd) (at_level (S level) x)) * G (0%Z :: x))%Q) with (V 0%Z) in I0.
      pose proof (frac_nonneg nd c) as N. set (q := fracn nd c) in *.
      assert (Z0 : (0 <= q * b1)%Q) by (apply Qmult_le_0_compat; lra).
      assert (E : (q * ((X 1%Z + X 0%Z) / 2) - (V 1%Z + V 0%Z) / 2 == (1 # 2) * (q * X 1%Z - V 1%Z) + (1 # 2) * (q * X 0%Z - V 0%Z))%Q) by field.
      rewrite E. clear - I1 I0 Z0. set (x1 := (q * X 1%Z - V 1%Z)%Q) in *. set (x0 := (q * X 0%Z - V 0%Z)%Q) in *. clearbody x1 x0.
      assert (Eb : (q * (bk + b1) == q * bk + q * b1)%Q) by ring. apply Qabs_le; rewrite Eb; lra.
    + destruct nd as [|v t d' e]; [cbn in El; lia|]. cbn [node_level] in El.
      pose proof Hok as Hok'. cbn [okn] in Hok'. rewrite HI in Hok'. destruct Hok' as (H1 & H2 & H3 & H4).
      assert (v = level) by lia. subst v.
      assert (R1 : In (c, t) (reachable root)).
      { eapply edges_trans; [exact Hr|]. unfold reachable; cbn. right. apply in_or_app. left. apply in_edges_refl. }
      assert (R2 : In (xorb c d', e) (reachable root)).
      { eapply edges_trans; [exact Hr|]. unfold reachable; cbn. right. apply in_or_app. right. apply in_edges_refl. }
      destruct (count_minterms_at root _ R1) as (tw & Q1 & E1). destruct (count_minterms_at root _ R2) as (ew & Q2 & E2).
      unfold frac in E1, E2. cbn [fst snd] in E1, E2.
      pose proof (frac_nonneg t c) as N1. pose proof (frac_nonneg e (xorb c d')) as N2.
      set (A := expectation r k (fun l => G (1%Z :: out (rsi_loop rm mc T k (S level) c t l)))).
      set (B := expectation r k (fun l => G (0%Z :: out (rsi_loop rm mc T k (S level) (xorb c d') e l)))).
      set (b := fun d => le_ratio (inject_Z (Z.of_nat d) / inject_Z rm) tw ew).
      rewrite (sumQ_map_ext_in _ (fun d => if b d then A else B)).
      2:{ intros d _. unfold b, A, B. destruct (le_ratio (inject_Z (Z.of_nat d) / inject_Z rm) tw ew) eqn:Eb; apply exp_ext_in; intros l [Ll _]; cbn [rsi_loop];
          (destruct (Nat.ltb_spec level (node_level (Nd level t d' e) T)) as [El'|_]; [cbn [node_level] in El'; lia|]);
          unfold mc; rewrite Q1, Q2; cbn [bind]; rewrite Eb; fold mc; rewrite out_cons by (auto; lia); reflexivity. }
      rewrite sum_threshold, seq_length. change (inject_Z (Z.of_nat (S r))) with R.
      set (Vt := bmean k (fun x => b2q (ev (c, t) (at_level (S level) x)) * G (1%Z :: x))%Q).
      set (Ve := bmean k (fun x => b2q (ev (xorb c d', e) (at_level (S level) x)) * G (0%Z :: x))%Q).
      assert (EVt : (bmean k (fun x => b2q (ev (c, Nd level t d' e) (at_level level (1%Z :: x))) * G (1%Z :: x)) == Vt)%Q).
      { apply bmean_ext. intros x _. unfold ev. cbn [fst snd evn]. replace (at_level level (1%Z :: x) level) with true by (unfold at_level; rewrite Nat.sub_diag; reflexivity).
        rewrite at_level_child by (intros i Hi; pose proof (okn_vars _ _ _ _ H2 Hi) as H; rewrite HI in H; exact H). reflexivity. }
      assert (EVe : (bmean k (fun x => b2q (ev (c, Nd level t d' e) (at_level level (0%Z :: x))) * G (0%Z :: x)) == Ve)%Q).
      { apply bmean_ext. intros x _. unfold ev. cbn [fst snd evn]. replace (at_level level (0%Z :: x) level) with false by (unfold at_level; rewrite Nat.sub_diag; reflexivity).
        rewrite at_level_child by (intros i Hi; pose proof (okn_vars _ _ _ _ H3 Hi) as H; rewrite HI in H; exact H). destruct c, d', (evn e _); reflexivity. }
      rewrite EVt, EVe.
      pose proof (Qabs_range _ _ (IH (S level) c t (fun x => G (1%Z :: x)) ltac:(lia) R1 H2 (fun x => HG _))) as I1.
      pose proof (Qabs_range _ _ (IH (S level) (xorb c d') e (fun x => G (0%Z :: x)) ltac:(lia) R2 H3 (fun x => HG _))) as I0.
      cbv beta in I1, I0. fold bk A Vt in I1. fold bk B Ve in I0. cbn [fracn].
      assert (A01 : (0 <= A <= 1)%Q) by (apply exp_range; intros; apply HG).
      assert (B01 : (0 <= B <= 1)%Q) by (apply exp_range; intros; apply HG).
      set (ft := fracn t c) in *. set (fe := fracn e (xorb c d')) in *.
      set (cnt := inject_Z (Z.of_nat (length (filter b (seq 0 (S r)))))).
      destruct (Qlt_le_dec 0 (tw + ew)) as [Ps|Ps].
      * destruct (then_share tw ew ltac:(lra) ltac:(lra) Ps) as [C1 C2]. change (inject_Z (Z.of_nat (length (filter _ (seq 0 (S r)))))) with cnt in C1, C2.
        assert (E3 : (tw / (tw + ew) == ft / (ft + fe))%Q) by (rewrite E1, E2; reflexivity). rewrite E3 in C1.
        assert (Ps' : (0 < ft + fe)%Q) by lra. set (s := (ft + fe)%Q) in *.
        set (w := (cnt / R - ft / s)%Q).
        assert (W : (- b1 <= w <= b1)%Q).
        { assert (Ew : (w == (cnt - R * (ft / s)) * b1)%Q) by (unfold w, b1; field; split; lra). rewrite Ew. destruct C1 as [C1 C1']. split; nra. }
        assert (E4 : ((ft * (1 # 2) + fe * (1 # 2)) * ((B * R + (A - B) * cnt) / R) - (Vt + Ve) / 2
                      == (1 # 2) * ((ft * A - Vt) + (fe * B - Ve) + s * (w * (A - B))))%Q).
        { unfold w, s. field. split; [unfold s in Ps'; lra|lra]. }
        rewrite E4. assert (D : (- (1) <= A - B <= 1)%Q) by lra.
        assert (W2 : (- b1 <= w * (A - B) <= b1)%Q) by (split; nra).
        assert (W3 : (- (s * b1) <= s * (w * (A - B)) <= s * b1)%Q).
        { destruct W2 as [W2 W2']. split.
          - assert (s * (- b1) <= s * (w * (A - B)))%Q by (apply Qmult_le_l; lra). lra.
          - apply Qmult_le_l; lra. }
        assert (E5 : ((ft * (1 # 2) + fe * (1 # 2)) * (bk + b1) == (1 # 2) * (ft * bk + fe * bk + s * b1))%Q) by (unfold s; ring).
        rewrite E5. apply Qabs_le; lra.
      * assert (Z1 : (ft == 0)%Q) by lra. assert (Z2 : (fe == 0)%Q) by lra. rewrite Z1, Z2 in *.
        assert (E6 : ((0 * (1 # 2) + 0 * (1 # 2)) * ((B * R + (A - B) * cnt) / R) - (Vt + Ve) / 2 == - ((Vt + Ve) / 2))%Q) by (field; lra).
        rewrite E6. assert (Y1 : (Vt == 0)%Q) by lra. assert (Y2 : (Ve == 0)%Q) by lra. rewrite Y1, Y2. rewrite !Qmult_0_l. discriminate.
Qed.
End Uniform.

Lemma random_input_uniform M r f T (F : list Z -> Q) : index_order M -> Nat.Odd r -> wf M f -> depends_below T f -> (exists a, ev f a = true) ->
  (forall x, 0 <= F x <= 1)%Q ->
  exists input : list Z -> list Z,
    (forall l, draw_list r T l -> random_satisfying_input (Z.of_nat r) f (count_minterms f) T l = Ok (input l))
    /\ (Qabs (expectation r T (fun l => F (input l)) - conditional T f F) <= inject_Z (Z.of_nat T) / inject_Z (Z.of_nat (S r)))%Q.
Proof.
  intros HI Hodd Hf Hd [a0 Ha0] HF.
  exists (fun l => out (random_satisfying_input (Z.of_nat r) f (count_minterms f) T l)). split.
  - intros l [Ll _]. destruct (random_input_total (Z.of_nat r) f T l Ll) as (x & -> & _). reflexivity.
  - assert (Hv : forall i, In i (varsn (snd f)) -> i < T) by (apply (depends_below_vars M); auto).
    assert (Hr : In (fst f, snd f) (reachable f)) by (destruct f; apply in_edges_refl).
    pose proof (rsi_bound M HI r Hodd f T Hv T 0 (fst f) (snd f) F eq_refl Hr Hf HF) as B. apply Qabs_range in B.
    change (fracn (snd f) (fst f)) with (frac f) in B.
    assert (Hz : f <> bzero) by (intros ->; rewrite ev_zero in Ha0; discriminate). pose proof (frac_pos M f Hf Hz) as P.
    set (E := expectation r T (fun l => F (out (random_satisfying_input (Z.of_nat r) f (count_minterms f) T l)))).
    change (expectation r T _) with E in B.
    set (b := (inject_Z (Z.of_nat T) / inject_Z (Z.of_nat (S r)))%Q) in *.
    assert (C : (conditional T f F == bmean T (fun x => b2q (ev f (at_level 0 x)) * F x) / frac f)%Q).
    { unfold conditional. rewrite <- (frac_average M T f Hf Hd). rewrite <- bmean_average. apply Qmult_comp; [|reflexivity]. apply average_ext. intro a.
      rewrite (Hd a (at_level 0 (input_list T a))); [reflexivity|]. intros i Hi. unfold at_level, input_list. rewrite Nat.sub_0_r.
      rewrite (nth_indep _ 0%Z (Z.b2z (a 0))) by (rewrite map_length, seq_length; exact Hi).
      rewrite (map_nth (fun i => Z.b2z (a i))), seq_nth by exact Hi. cbn [plus]. destruct (a i); reflexivity. }
    rewrite C. destruct f as [c n]. cbn [fst snd] in B. set (V := bmean T _) in *.
    assert (E1 : (E - V / frac (c, n) == (frac (c, n) * E - V) * / frac (c, n))%Q) by (field; lra). rewrite E1.
    assert (I : (0 < / frac (c, n))%Q) by (apply Qinv_lt_0_compat; exact P).
    assert (E2 : (b == frac (c, n) * b * / frac (c, n))%Q) by (field; lra).
    destruct B as [B1 B2]. apply Qabs_le; [setoid_replace (- b)%Q with (- (frac (c, n) * b) * / frac (c, n))%Q by (rewrite E2 at 1; ring)|rewrite E2];
      apply Qmult_le_compat_r; lra.
Qed.
