(** The rounded computations: exact for few variables, small relative error in general *)
From Coq Require Import List Bool Arith ZArith QArith Qabs Qround Lia Lqa.
From Verif Require Import Res Cudd CuddFacts Spec SpecFacts SpecFloat Float FloatFacts Helpers HelpersFacts HelpersFacts2 Counting AddFacts CountFacts
  Metrics MetricsFacts MetricsFacts2 MetricsFacts4 Operators OperatorFacts Rounded LevelFacts.
Import ListNotations.
Open Scope nat_scope.

(** ** maps with the values of a plain recursion *)
Definition good_mapL (w : bdd -> Q) (m : bmap Q) : Prop :=
  (forall k v, In (k, v) m -> v = w k)
  /\ NoDup (map fst m)
  /\ (forall k, In k (map fst m) -> forall k', In k' (reachable k) -> In k' (map fst m)).
Lemma good_mapL_nil w : good_mapL w [].
Proof. repeat split; cbn; try tauto. constructor. Qed.
Lemma good_mapL_add w m c n v : good_mapL w m -> ~ In (c, n) (map fst m) -> v = w (c, n) ->
  (forall k, In k (edges n c) -> k = (c, n) \/ In k (map fst m)) ->
  good_mapL w (((c, n), v) :: m).
Proof.
  intros (G1 & G2 & G3) Hn Hv Hr. repeat split.
  - intros k x [[= <- <-]|H]; auto.
  - cbn. constructor; auto.
  - cbn [map fst]. intros k [<-|Hk] k' Hk'.
    + destruct (Hr k' Hk') as [->|H]; [now left|now right].
    + right. eauto.
Qed.

Section Rnd.
Variable rnd : Q -> Q.

Fixpoint fracn_fl (n : node) (c : bool) : Q :=
  match n with
  | One => if c then 0 else 1
  | Nd _ t d e => rnd (rnd (fracn_fl t c / 2) + rnd (fracn_fl e (xorb c d) / 2))
  end%Q.
Definition frac_fl (f : bdd) : Q := fracn_fl (snd f) (fst f).
Fixpoint sols_fl (T : nat) (n : node) (c : bool) : Q :=
  match n with
  | One => if c then 0 else 1
  | Nd own t d e => rnd (rnd (sols_fl T t c * pow_levels (node_level t T) own)
                         + rnd (sols_fl T e (xorb c d) * pow_levels (node_level e T) own))
  end%Q.
Definition solw_fl (T : nat) (f : bdd) : Q := sols_fl T (snd f) (fst f).

Lemma minterms_rec_fl_spec n : forall c m, good_mapL frac_fl m ->
  let '(v, m') := count_minterms_rec_fl rnd n c m in
  v = frac_fl (c, n) /\ good_mapL frac_fl m'
  /\ (forall k, In k (map fst m') <-> In k (map fst m) \/ In k (edges n c)).
Proof.
  induction n as [|x t IHt d e IHe]; intros c m G.
  - cbn [count_minterms_rec_fl]. destruct (blookup (c, One) m) as [v|] eqn:E.
    + apply blookup_some in E. repeat split; auto; try apply G; auto.
      intros [H|[<-|[]]]; auto. apply in_map_iff. exists ((c, One), v). auto.
    + apply blookup_none in E. split; [now destruct c|]. split.
      * apply good_mapL_add; [exact G|exact E|now destruct c|]. intros k [<-|[]]. now left.
      * intro k. cbn [map fst In edges]. tauto.
  - cbn [count_minterms_rec_fl]. destruct (blookup (c, Nd x t d e) m) as [v|] eqn:E.
    + apply blookup_some in E. repeat split; auto; try apply G; auto.
      intros [H|H]; auto. destruct G as (_ & _ & G3). apply (G3 (c, Nd x t d e)); auto.
      apply in_map_iff. eexists; split; [|exact E]. reflexivity.
    + apply blookup_none in E.
      specialize (IHt c m G). destruct (count_minterms_rec_fl rnd t c m) as [hr m1]. destruct IHt as (V1 & G1 & K1).
      specialize (IHe (xorb c d) m1 G1). destruct (count_minterms_rec_fl rnd e (xorb c d) m1) as [lr m2].
      destruct IHe as (V2 & G2 & K2). subst hr lr.
      split; [reflexivity|]. split.
      * apply good_mapL_add; auto.
        -- rewrite K2, K1. intros [[H|H]|H]; [auto|..]; apply (not_in_children c x t d e (map fst m)); auto.
        -- cbn [edges]. intros k [<-|H]; auto. right. rewrite K2, K1. apply in_app_or in H. tauto.
      * intro k. cbn [map fst In edges]. rewrite K2, K1, in_app_iff. tauto.
Qed.
Lemma solutions_rec_fl_spec T n : forall c m, good_mapL (solw_fl T) m ->
  let '(v, m') := count_solutions_rec_fl rnd n c m T in
  v = solw_fl T (c, n) /\ good_mapL (solw_fl T) m'
  /\ (forall k, In k (map fst m') <-> In k (map fst m) \/ In k (edges n c)).
Proof.
  induction n as [|x t IHt d e IHe]; intros c m G.
  - cbn [count_solutions_rec_fl]. destruct (blookup (c, One) m) as [v|] eqn:E.
    + apply blookup_some in E. repeat split; auto; try apply G; auto.
      intros [H|[<-|[]]]; auto. apply in_map_iff. exists ((c, One), v). auto.
    + apply blookup_none in E. split; [now destruct c|]. split.
      * apply good_mapL_add; [exact G|exact E|now destruct c|]. intros k [<-|[]]. now left.
      * intro k. cbn [map fst In edges]. tauto.
  - cbn [count_solutions_rec_fl]. destruct (blookup (c, Nd x t d e) m) as [v|] eqn:E.
    + apply blookup_some in E. repeat split; auto; try apply G; auto.
      intros [H|H]; auto. destruct G as (_ & _ & G3). apply (G3 (c, Nd x t d e)); auto.
      apply in_map_iff. eexists; split; [|exact E]. reflexivity.
    + apply blookup_none in E.
      specialize (IHt c m G). destruct (count_solutions_rec_fl rnd t c m T) as [hr m1]. destruct IHt as (V1 & G1 & K1).
      specialize (IHe (xorb c d) m1 G1). destruct (count_solutions_rec_fl rnd e (xorb c d) m1 T) as [lr m2].
      destruct IHe as (V2 & G2 & K2). subst hr lr.
      split; [reflexivity|]. split.
      * apply good_mapL_add; auto.
        -- rewrite K2, K1. intros [[H|H]|H]; [auto|..]; apply (not_in_children c x t d e (map fst m)); auto.
        -- cbn [edges]. intros k [<-|H]; auto. right. rewrite K2, K1. apply in_app_or in H. tauto.
      * intro k. cbn [map fst In edges]. rewrite K2, K1, in_app_iff. tauto.
Qed.

Lemma minterms_fl_map f : good_mapL frac_fl (count_minterms_fl rnd f)
  /\ forall k, In k (map fst (count_minterms_fl rnd f)) <-> In k (reachable f).
Proof.
  pose proof (minterms_rec_fl_spec (snd f) (fst f) [] (good_mapL_nil _)) as H.
  unfold count_minterms_fl. destruct (count_minterms_rec_fl rnd (snd f) (fst f) []) as [v m]. cbn [snd].
  destruct H as (_ & G & K). split; auto. intro k. rewrite K. cbn. tauto.
Qed.
Lemma solutions_fl_map f : good_mapL (solw_fl (terminal_level [[f]])) (count_solutions_fl rnd f)
  /\ forall k, In k (map fst (count_solutions_fl rnd f)) <-> In k (reachable f).
Proof.
  pose proof (solutions_rec_fl_spec (terminal_level [[f]]) (snd f) (fst f) [] (good_mapL_nil _)) as H.
  unfold count_solutions_fl. destruct (count_solutions_rec_fl rnd (snd f) (fst f) [] (terminal_level [[f]])) as [v m]. cbn [snd].
  destruct H as (_ & G & K). split; auto. intro k. rewrite K. cbn. tauto.
Qed.
End Rnd.

(** ** height *)
Fixpoint height (n : node) : nat :=
  match n with One => 0 | Nd _ t _ e => S (Nat.max (height t) (height e)) end.
Lemma height_path M n : forall lvl, okn M lvl n ->
  exists l, length l = height n /\ NoDup l /\ (forall i, In i l -> In i (varsn n)) /\ forall i, In i l -> lvl <= lv M i.
Proof.
  induction n as [|v t IHt d e IHe]; intros lvl H.
  - exists []. cbn. repeat split; auto; try constructor; intros i [].
  - cbn [okn] in H. destruct H as (H1 & H2 & H3 & _). cbn [height].
    assert (K : forall l, NoDup l -> (forall i, In i l -> S (lv M v) <= lv M i) -> NoDup (v :: l)).
    { intros l N L. constructor; auto. intro I. specialize (L v I). lia. }
    destruct (Nat.max_spec (height t) (height e)) as [[_ ->]|[_ ->]].
    + destruct (IHe _ H3) as (l & L1 & L2 & L3 & L4). exists (v :: l). cbn [length varsn]. repeat split; auto.
      * intros i [<-|I]; [now left|right; apply in_or_app; auto].
      * intros i [<-|I]; auto. specialize (L4 i I). lia.
    + destruct (IHt _ H2) as (l & L1 & L2 & L3 & L4). exists (v :: l). cbn [length varsn]. repeat split; auto.
      * intros i [<-|I]; [now left|right; apply in_or_app; auto].
      * intros i [<-|I]; auto. specialize (L4 i I). lia.
Qed.
Lemma height_support M f : wf M f -> height (snd f) <= support_size f.
Proof.
  intro H. destruct (height_path M (snd f) 0 H) as (l & L1 & L2 & L3 & _). rewrite <- L1. unfold support_size.
  apply NoDup_incl_length; auto. intros i I. apply support_in. auto.
Qed.
Lemma support_below_size n f : (forall i, In i (varsn (snd f)) -> i < n) -> support_size f <= n.
Proof.
  intro H. unfold support_size. rewrite <- (seq_length n 0). apply NoDup_incl_length; [apply sorted_set_nodup|].
  intros i I. apply support_in in I. apply in_seq. specialize (H i I). lia.
Qed.
Lemma height_below M n f : wf M f -> depends_below n f -> height (snd f) <= n.
Proof.
  intros H D. eapply Nat.le_trans; [apply (height_support M f H)|]. apply support_below_size. now apply (depends_below_vars M).
Qed.
Lemma height_reachable n : forall c k, In k (edges n c) -> height (snd k) <= height n.
Proof.
  induction n as [|v t IHt d e IHe]; intros c k; cbn [edges].
  - intros [<-|[]]. auto.
  - intros [<-|H]; auto. apply in_app_or in H. cbn [height]. destruct H as [H|H]; [apply IHt in H|apply IHe in H]; lia.
Qed.

(** ** exactness *)
Lemma float_half p z (k : nat) : (0 <= z <= pow2 k)%Z -> (Z.of_nat k <= p)%Z ->
  forall (e : Z), float_number p (inject_Z z * 2 ^ e)%Q.
Proof.
  intros Hz Hk e. exists z, e. split; [|reflexivity]. rewrite Z.abs_eq by lia.
  eapply Z.le_trans; [apply Hz|]. unfold pow2. apply Z.pow_le_mono_r; lia.
Qed.

(** the share of satisfying inputs is a multiple of 2^-height *)
Lemma fracn_grid n : forall c, exists z, (0 <= z <= pow2 (height n))%Z /\ (fracn n c == inject_Z z * 2 ^ (- Z.of_nat (height n)))%Q.
Proof.
  assert (UP : forall a b (q : Q), a <= b -> (exists z, (0 <= z <= pow2 a)%Z /\ (q == inject_Z z * 2 ^ (- Z.of_nat a))%Q) ->
     exists z, (0 <= z <= pow2 b)%Z /\ (q == inject_Z z * 2 ^ (- Z.of_nat b))%Q).
  { intros a b q L (z & Hz & E). exists (z * pow2 (b - a))%Z. pose proof (pow2_pos (b - a)) as P. split.
    - replace (pow2 b) with (pow2 a * pow2 (b - a))%Z by (unfold pow2; rewrite <- Z.pow_add_r by lia; f_equal; lia). nia.
    - rewrite E, inject_Z_mult. unfold pow2. rewrite <- p2_inj by lia. rewrite <- Qmult_assoc, <- p2_add.
      replace (Z.of_nat (b - a) + - Z.of_nat b)%Z with (- Z.of_nat a)%Z by lia. reflexivity. }
  induction n as [|v t IHt d e IHe]; intro c; cbn [fracn height].
  - destruct c; [exists 0%Z|exists 1%Z]; (split; [cbn; lia|reflexivity]).
  - set (h := Nat.max (height t) (height e)).
    destruct (UP _ h _ (Nat.le_max_l _ _) (IHt c)) as (z1 & H1 & E1).
    destruct (UP _ h _ (Nat.le_max_r _ _) (IHe (xorb c d))) as (z2 & H2 & E2).
    exists (z1 + z2)%Z. split; [rewrite pow2_S; lia|].
    rewrite E1, E2, inject_Z_plus. replace (- Z.of_nat (S h))%Z with (-1 + - Z.of_nat h)%Z by lia. rewrite p2_add.
    assert (EH : (2 ^ (-1) == 1 # 2)%Q) by reflexivity. rewrite EH. ring.
Qed.
Lemma fracn_float p n c (j : Z) : (Z.of_nat (height n) <= p)%Z -> float_number p (fracn n c * 2 ^ j)%Q.
Proof.
  intro H. destruct (fracn_grid n c) as (z & Hz & E). destruct (float_half p z (height n) Hz H (- Z.of_nat (height n) + j)) as (m & e & Hm & Em).
  exists m, e. split; auto. rewrite <- Em, E, p2_add. ring.
Qed.
Lemma float_eq p x y : (x == y)%Q -> float_number p y -> float_number p x.
Proof. intros E (m & e & Hm & He). exists m, e. split; auto. now rewrite E. Qed.

Section Exact.
Variable p : Z.
Variable rnd : Q -> Q.
Hypothesis K : keeps_floats p rnd.

(** 2^j times the share, computed with rounding *)
Lemma half_sum (j : Z) v t d e c x y : (Z.of_nat (height (Nd v t d e)) <= p)%Z ->
  (x == fracn t c * 2 ^ j)%Q -> (y == fracn e (xorb c d) * 2 ^ j)%Q ->
  forall x' y', (x' == x * (1 # 2))%Q -> (y' == y * (1 # 2))%Q ->
  (rnd (rnd x' + rnd y') == fracn (Nd v t d e) c * 2 ^ j)%Q.
Proof.
  intros H Ex Ey x' y' Ex' Ey'. assert (EH : (2 ^ (-1) == 1 # 2)%Q) by reflexivity. cbn [height] in H.
  assert (X : (x' == fracn t c * 2 ^ (j + -1))%Q) by (rewrite Ex', Ex, p2_add, EH; ring).
  assert (Y : (y' == fracn e (xorb c d) * 2 ^ (j + -1))%Q) by (rewrite Ey', Ey, p2_add, EH; ring).
  assert (RX : (rnd x' == x')%Q) by (apply K; apply (float_eq _ _ _ X); apply fracn_float; lia).
  assert (RY : (rnd y' == y')%Q) by (apply K; apply (float_eq _ _ _ Y); apply fracn_float; lia).
  assert (S : (rnd x' + rnd y' == fracn (Nd v t d e) c * 2 ^ j)%Q).
  { rewrite RX, RY, Ex', Ey', Ex, Ey. cbn [fracn]. ring. }
  rewrite <- S. apply K. apply (float_eq _ _ _ S). apply fracn_float. cbn [height]. lia.
Qed.

Lemma fracn_fl_exact n : forall c, (Z.of_nat (height n) <= p)%Z -> (fracn_fl rnd n c == fracn n c)%Q.
Proof.
  induction n as [|v t IHt d e IHe]; intros c H; [reflexivity|]. cbn [fracn_fl].
  assert (E0 : forall q, (q == q * 2 ^ 0)%Q) by (intro q; change (2 ^ 0)%Q with 1%Q; ring).
  rewrite (E0 (fracn (Nd v t d e) c)).
  assert (Ht : (fracn_fl rnd t c == fracn t c)%Q) by (apply IHt; cbn [height] in H; lia).
  assert (He : (fracn_fl rnd e (xorb c d) == fracn e (xorb c d))%Q) by (apply IHe; cbn [height] in H; lia).
  apply (half_sum 0 v t d e c (fracn_fl rnd t c) (fracn_fl rnd e (xorb c d))); auto.
  - rewrite <- E0. exact Ht.
  - rewrite <- E0. exact He.
  - field.
  - field.
Qed.
Lemma countn_fl_exact s n : forall c, (Z.of_nat (height n) <= p)%Z ->
  (countn_fl rnd (inject_Z (pow2 s)) n c == fracn n c * inject_Z (pow2 s))%Q.
Proof.
  assert (P : (inject_Z (pow2 s) == 2 ^ Z.of_nat s)%Q) by (unfold pow2; rewrite <- p2_inj by lia; reflexivity).
  induction n as [|v t IHt d e IHe]; intros c H.
  - cbn [countn_fl fracn]. destruct c; ring.
  - cbn [countn_fl]. transitivity (fracn (Nd v t d e) c * 2 ^ Z.of_nat s)%Q; [|now rewrite P]. cbn [height] in H.
    apply (half_sum (Z.of_nat s) v t d e c (countn_fl rnd (inject_Z (pow2 s)) t c) (countn_fl rnd (inject_Z (pow2 s)) e (xorb c d))).
    + cbn [height]. exact H.
    + rewrite <- P. apply IHt. lia.
    + rewrite <- P. apply IHe. lia.
    + reflexivity.
    + reflexivity.
Qed.
Lemma CountMinterm_fl_exact f s : (Z.of_nat (height (snd f)) <= p)%Z -> (CountMinterm_fl rnd f s == CountMinterm f s)%Q.
Proof. intro H. apply countn_fl_exact. exact H. Qed.

(** solutions are integers of at most [T] bits *)
Lemma sols_int M T n : index_order M -> forall lvl c, okn M lvl n -> lvl <= T -> (forall i, In i (varsn n) -> i < T) ->
  exists z, (0 <= z <= pow2 (T - node_level n T))%Z /\ (sols T n c == inject_Z z)%Q.
Proof.
  intro HI. induction n as [|v t IHt d e IHe]; intros lvl c Hok HlT Hv.
  - cbn [node_level sols]. rewrite Nat.sub_diag. destruct c; [exists 0%Z|exists 1%Z]; (split; [cbn; lia|reflexivity]).
  - pose proof Hok as Hok'. cbn [okn] in Hok. rewrite HI in Hok. destruct Hok as (H1 & H2 & H3 & _).
    assert (Lv : v < T) by (apply Hv; now left).
    assert (Vt : forall i, In i (varsn t) -> i < T) by (intros; apply Hv; right; apply in_or_app; auto).
    assert (Ve : forall i, In i (varsn e) -> i < T) by (intros; apply Hv; right; apply in_or_app; auto).
    destruct (IHt (S v) c H2 ltac:(lia) Vt) as (z1 & Z1 & E1).
    destruct (IHe (S v) (xorb c d) H3 ltac:(lia) Ve) as (z2 & Z2 & E2).
    destruct (sols_frac M T t HI (S v) c H2 ltac:(lia) Vt) as [Lt _].
    destruct (sols_frac M T e HI (S v) (xorb c d) H3 ltac:(lia) Ve) as [Le _].
    assert (Nt : node_level t T <= T) by (destruct t; cbn [node_level]; [lia|apply Nat.lt_le_incl, Vt; now left]).
    assert (Ne : node_level e T <= T) by (destruct e; cbn [node_level]; [lia|apply Nat.lt_le_incl, Ve; now left]).
    exists (z1 * pow2 (node_level t T - v - 1) + z2 * pow2 (node_level e T - v - 1))%Z. split.
    + cbn [node_level]. replace (T - v) with (S (T - v - 1)) by lia. rewrite pow2_S.
      assert (A : forall z L, S v <= L -> L <= T -> (0 <= z <= pow2 (T - L))%Z -> (0 <= z * pow2 (L - v - 1) <= pow2 (T - v - 1))%Z).
      { intros z L A1 A2 A3. replace (T - v - 1) with ((T - L) + (L - v - 1)) by lia. rewrite pow2_add.
        pose proof (pow2_pos (L - v - 1)). nia. }
      specialize (A z1 (node_level t T) Lt Nt Z1) as A1. specialize (A z2 (node_level e T) Le Ne Z2) as A2. lia.
    + cbn [sols]. rewrite !pow_levels_pos by lia. rewrite E1, E2, inject_Z_plus, !inject_Z_mult. reflexivity.
Qed.
Lemma float_int z : (0 <= z <= 2 ^ p)%Z -> float_number p (inject_Z z).
Proof. intro H. exists z, 0%Z. split; [lia|]. change (2 ^ 0)%Q with 1%Q. ring. Qed.

Lemma sols_fl_exact M T n : index_order M -> (Z.of_nat T <= p)%Z ->
  forall lvl c, okn M lvl n -> lvl <= T -> (forall i, In i (varsn n) -> i < T) -> (sols_fl rnd T n c == sols T n c)%Q.
Proof.
  intros HI HT. induction n as [|v t IHt d e IHe]; intros lvl c Hok HlT Hv; [reflexivity|].
  pose proof (sols_int M T (Nd v t d e) HI lvl c Hok HlT Hv) as (z & Z & E).
  cbn [okn] in Hok. rewrite HI in Hok. destruct Hok as (H1 & H2 & H3 & _).
  assert (Lv : v < T) by (apply Hv; now left).
  assert (Vt : forall i, In i (varsn t) -> i < T) by (intros; apply Hv; right; apply in_or_app; auto).
  assert (Ve : forall i, In i (varsn e) -> i < T) by (intros; apply Hv; right; apply in_or_app; auto).
  destruct (sols_int M T t HI (S v) c H2 ltac:(lia) Vt) as (z1 & Z1 & E1).
  destruct (sols_int M T e HI (S v) (xorb c d) H3 ltac:(lia) Ve) as (z2 & Z2 & E2).
  destruct (sols_frac M T t HI (S v) c H2 ltac:(lia) Vt) as [Lt _].
  destruct (sols_frac M T e HI (S v) (xorb c d) H3 ltac:(lia) Ve) as [Le _].
  assert (Nt : node_level t T <= T) by (destruct t; cbn [node_level]; [lia|apply Nat.lt_le_incl, Vt; now left]).
  assert (Ne : node_level e T <= T) by (destruct e; cbn [node_level]; [lia|apply Nat.lt_le_incl, Ve; now left]).
  transitivity (inject_Z z); [|symmetry; exact E]. cbn [sols_fl]. cbn [sols] in E. rewrite !pow_levels_pos in E by lia.
  set (x' := (sols_fl rnd T t c * pow_levels (node_level t T) v)%Q).
  set (y' := (sols_fl rnd T e (xorb c d) * pow_levels (node_level e T) v)%Q).
  assert (X : (x' == inject_Z (z1 * pow2 (node_level t T - v - 1)))%Q).
  { unfold x'. rewrite (IHt (S v) c H2 ltac:(lia) Vt), E1, inject_Z_mult, pow_levels_pos by lia. reflexivity. }
  assert (Y : (y' == inject_Z (z2 * pow2 (node_level e T - v - 1)))%Q).
  { unfold y'. rewrite (IHe (S v) (xorb c d) H3 ltac:(lia) Ve), E2, inject_Z_mult, pow_levels_pos by lia. reflexivity. }
  assert (B : forall z0 L, S v <= L -> L <= T -> (0 <= z0 <= pow2 (T - L))%Z -> (0 <= z0 * pow2 (L - v - 1) <= 2 ^ p)%Z).
  { intros z0 L A1 A2 A3. assert (P : (pow2 (T - v - 1) <= 2 ^ p)%Z) by (unfold pow2; apply Z.pow_le_mono_r; lia).
    assert (P2 : pow2 (T - v - 1) = (pow2 (T - L) * pow2 (L - v - 1))%Z) by (rewrite <- pow2_add; f_equal; lia).
    pose proof (pow2_pos (L - v - 1)). nia. }
  assert (RX : (rnd x' == x')%Q) by (apply K; apply (float_eq _ _ _ X); apply float_int; now apply B).
  assert (RY : (rnd y' == y')%Q) by (apply K; apply (float_eq _ _ _ Y); apply float_int; now apply B).
  assert (S : (rnd x' + rnd y' == inject_Z z)%Q).
  { rewrite RX, RY, X, Y, <- E, E1, E2, !inject_Z_mult. reflexivity. }
  rewrite <- S. apply K. apply (float_eq _ _ _ S). apply float_int. cbn [node_level] in Z.
  assert (P : (pow2 (T - v) <= 2 ^ p)%Z) by (unfold pow2; apply Z.pow_le_mono_r; lia). lia.
Qed.
End Exact.

(** ** maps, exact *)
Lemma minterms_fl_exact p rnd M n f : keeps_floats p rnd -> wf M f -> depends_below n f -> (Z.of_nat n <= p)%Z ->
  NoDup (map fst (count_minterms_fl rnd f))
  /\ (forall k, In k (map fst (count_minterms_fl rnd f)) <-> In k (reachable f))
  /\ (forall k v, In (k, v) (count_minterms_fl rnd f) -> (v == average n (fun a => b2q (ev k a)))%Q).
Proof.
  intros K Hf Hd Hn. destruct (minterms_fl_map rnd f) as [(G1 & G2 & _) Kk]. split; auto. split; auto. intros k v H.
  assert (Hk : In k (reachable f)) by (apply Kk, in_map_iff; exists (k, v); auto).
  rewrite (G1 k v H). unfold frac_fl. rewrite (fracn_fl_exact p rnd K).
  - apply (frac_average M); [exact (edges_wf M (snd f) (fst f) 0 k Hf Hk)|]. eapply reachable_below; eauto. now apply (depends_below_vars M).
  - pose proof (height_below M n f Hf Hd). pose proof (height_reachable (snd f) (fst f) k Hk). lia.
Qed.
Lemma minterms_fl_wt p rnd M n f k : keeps_floats p rnd -> wf M f -> depends_below n f -> (Z.of_nat n <= p)%Z ->
  In k (reachable f) -> (wt_of (count_minterms_fl rnd f) k == wt_of (count_minterms f) k)%Q.
Proof.
  intros K Hf Hd Hn Hk. rewrite (minterms_wt f k Hk). destruct (minterms_fl_map rnd f) as [(G1 & _) Kk].
  pose proof (proj2 (Kk k) Hk) as Hm. destruct (blookup_key k _ Hm) as [v E]. unfold wt_of. rewrite E. apply blookup_some in E.
  rewrite (G1 _ _ E). unfold frac_fl. rewrite (fracn_fl_exact p rnd K); [reflexivity|].
  pose proof (height_below M n f Hf Hd). pose proof (height_reachable (snd f) (fst f) k Hk). lia.
Qed.
Lemma solw_fl_exact p rnd M f k : keeps_floats p rnd -> index_order M -> wf M f -> (Z.of_nat (terminal_level [[f]]) <= p)%Z ->
  In k (reachable f) -> (solw_fl rnd (terminal_level [[f]]) k == solw (terminal_level [[f]]) k)%Q.
Proof.
  intros K HI Hf Hn Hk. set (T := terminal_level [[f]]) in *. unfold solw_fl, solw.
  assert (Hv : forall i, In i (varsn (snd f)) -> i < T).
  { intros i Hi. apply (terminal_level_gt [[f]] [f] f i); cbn; auto. }
  apply (sols_fl_exact p rnd K M T (snd k) HI Hn 0); [|lia|].
  - exact (edges_wf M (snd f) (fst f) 0 k Hf Hk).
  - intros i Hi. apply Hv. eapply edges_vars; eauto.
Qed.
Lemma solutions_fl_wt p rnd M f k : keeps_floats p rnd -> index_order M -> wf M f -> (Z.of_nat (terminal_level [[f]]) <= p)%Z ->
  In k (reachable f) -> (wt_of (count_solutions_fl rnd f) k == wt_of (count_solutions f) k)%Q.
Proof.
  intros K HI Hf Hn Hk. rewrite (solutions_wt f k Hk). destruct (solutions_fl_map rnd f) as [(G1 & _) Kk].
  pose proof (proj2 (Kk k) Hk) as Hm. destruct (blookup_key k _ Hm) as [v E]. unfold wt_of. rewrite E. apply blookup_some in E.
  rewrite (G1 _ _ E). now apply (solw_fl_exact p rnd M).
Qed.
Lemma solutions_fl_exact p rnd M f T : keeps_floats p rnd -> index_order M -> wf M f -> levels_of [f] T -> (Z.of_nat T <= p)%Z ->
  NoDup (map fst (count_solutions_fl rnd f))
  /\ (forall k, In k (map fst (count_solutions_fl rnd f)) <-> In k (reachable f))
  /\ (forall k v, In (k, v) (count_solutions_fl rnd f) ->
       (v * inject_Z (2 ^ Z.of_nat (start_level T k)) == sum_inputs T (fun a => b2q (ev k a)))%Q).
Proof.
  intros K HI Hf HT Hn. pose proof (levels_of_terminal [f] T HT) as ET.
  destruct (solutions_levels M f T HI Hf HT) as (_ & Kx & V).
  destruct (solutions_fl_map rnd f) as [(G1 & G2 & _) Kk]. split; auto. split; auto. intros k v H.
  assert (Hk : In k (reachable f)) by (apply Kk, in_map_iff; exists (k, v); auto).
  pose proof (proj2 (Kx k) Hk) as Hx. apply in_map_iff in Hx. destruct Hx as ([k' x] & Ek & Hx). cbn [fst] in Ek. subst k'.
  rewrite <- (V k x Hx). apply Qmult_comp; [|reflexivity]. rewrite (G1 _ _ H).
  rewrite (solw_fl_exact p rnd M) by (auto; rewrite <- ET; auto).
  rewrite <- (solutions_wt f k Hk). unfold wt_of.
  assert (ND : NoDup (map fst (count_solutions f))) by (destruct (solutions_levels M f T HI Hf HT); auto).
  rewrite (blookup_in k _ x); auto. reflexivity.
Qed.

(** ** metrics, exact *)
Lemma div_pow2 q s : (q * inject_Z (pow2 s) / inject_Z (pow2 s) == q)%Q.
Proof. field. apply pow2Q_nz. Qed.
Lemma fracn_float0 p n c : (Z.of_nat (height n) <= p)%Z -> float_number p (fracn n c).
Proof. intro H. apply (float_eq _ _ (fracn n c * 2 ^ 0)%Q); [change (2 ^ 0)%Q with 1%Q; ring|now apply fracn_float]. Qed.

Lemma error_rate_fl_exact p rnd M n f g : keeps_floats p rnd -> wfs M f -> wfs M g -> below n f -> below n g -> (Z.of_nat n <= p)%Z ->
  length f <= length g -> exists q, error_rate_fl rnd M f g = Ok q /\ (q == average n (fun a => b2q (differ f g a)))%Q.
Proof.
  intros K Wf Wg Bf Bg Hn L. unfold error_rate_fl. destruct (miter_spec M f g bzero L) as (r & -> & W & E). cbn [bind].
  eexists; split; [reflexivity|].
  assert (Wr : wf M r) by (apply W; auto with wf).
  assert (Dr : depends_below n r) by (intros a b Hab; rewrite !E, !ev_zero; cbn [orb]; eapply differ_below; eauto).
  assert (H : (Z.of_nat (height (snd r)) <= p)%Z) by (pose proof (height_below M n r Wr Dr); lia).
  set (s := terminal_level [f; g] - 1).
  assert (X : (CountMinterm_fl rnd r s / inject_Z (pow2 s) == frac r)%Q).
  { rewrite (CountMinterm_fl_exact p rnd K) by exact H. apply CountMinterm_ratio. }
  rewrite (K _ (float_eq p _ _ X (fracn_float0 p (snd r) (fst r) H))), X.
  rewrite (frac_average M n r Wr Dr). apply average_ext. intro a. rewrite E, ev_zero. reflexivity.
Qed.

(** the share of satisfying inputs as a multiple of 2^-n *)
Lemma frac_grid M n f : wf M f -> depends_below n f ->
  exists z, (0 <= z <= pow2 n)%Z /\ (frac f == inject_Z z * 2 ^ (- Z.of_nat n))%Q.
Proof.
  intros W D. pose proof (height_below M n f W D) as L. destruct (fracn_grid (snd f) (fst f)) as (z & Hz & E).
  set (h := height (snd f)) in *. exists (z * pow2 (n - h))%Z. pose proof (pow2_pos (n - h)) as P. split.
  - replace (pow2 n) with (pow2 h * pow2 (n - h))%Z by (rewrite <- pow2_add; f_equal; lia). nia.
  - unfold frac. rewrite E, inject_Z_mult. unfold pow2. rewrite <- p2_inj by lia. rewrite <- Qmult_assoc, <- p2_add.
    replace (Z.of_nat (n - h) + - Z.of_nat n)%Z with (- Z.of_nat h)%Z by lia. reflexivity.
Qed.
Lemma flip_sum_fl_exact p rnd M n s (j := (Z.of_nat s - Z.of_nat n)%Z) : keeps_floats p rnd -> (Z.of_nat n <= p)%Z -> forall f g r z,
  wfs M f -> wfs M g -> below n f -> below n g -> length f = length g ->
  (0 <= z)%Z -> (z + Z.of_nat (length f) * pow2 n <= 2 ^ p)%Z -> (r == inject_Z z * 2 ^ j)%Q ->
  exists q z', flip_sum_fl rnd M f g s r = Ok q /\ (q == inject_Z z' * 2 ^ j)%Q /\ (0 <= z' <= z + Z.of_nat (length f) * pow2 n)%Z
    /\ (q == r + inject_Z (pow2 s) * xfrac M f g)%Q.
Proof.
  intros K Hn. induction f as [|x f IH]; intros [|y g] r z Wf Wg Bf Bg L Z0 Zp E; cbn [length] in L; try discriminate; cbn [flip_sum_fl].
  - exists r, z. split; [auto|]. split; [auto|]. split; [cbn; lia|]. unfold xfrac. cbn. ring.
  - apply below_cons in Bf, Bg. destruct Bf as [Bx Bf], Bg as [By Bg]. inversion Wf; inversion Wg; subst.
    assert (Wx : wf M (bxor M x y)) by auto with wf. pose proof (depends_below_xor M n x y Bx By) as Dx.
    destruct (frac_grid M n (bxor M x y) Wx Dx) as (zx & Hzx & Ex).
    assert (Hh : (Z.of_nat (height (snd (bxor M x y))) <= p)%Z) by (pose proof (height_below M n _ Wx Dx); lia).
    assert (C : (CountMinterm_fl rnd (bxor M x y) s == inject_Z zx * 2 ^ j)%Q).
    { rewrite (CountMinterm_fl_exact p rnd K) by exact Hh. unfold CountMinterm. rewrite Ex. unfold pow2. rewrite <- p2_inj by lia.
      unfold j. replace (Z.of_nat s - Z.of_nat n)%Z with (- Z.of_nat n + Z.of_nat s)%Z by lia. rewrite p2_add. ring. }
    set (w := (r + CountMinterm_fl rnd (bxor M x y) s)%Q).
    assert (Ew : (w == inject_Z (z + zx) * 2 ^ j)%Q) by (unfold w; rewrite E, C, inject_Z_plus; ring).
    cbn [length] in Zp. rewrite Nat2Z.inj_succ in Zp. pose proof (pow2_pos n) as Pn.
    assert (PP : (0 <= Z.of_nat (length f) * pow2 n)%Z) by (apply Z.mul_nonneg_nonneg; lia).
    assert (Rw : (rnd w == w)%Q).
    { apply K. exists (z + zx)%Z, j. split; [rewrite Z.abs_eq; lia|exact Ew]. }
    destruct (IH g (rnd w) (z + zx)%Z) as (q & z' & F & Q & Zq & S); auto; [lia|lia|now rewrite Rw|].
    exists q, z'. split; [exact F|]. split; [exact Q|]. split; [cbn [length]; rewrite Nat2Z.inj_succ; lia|].
    rewrite S, Rw. unfold w, xfrac. rewrite (CountMinterm_fl_exact p rnd K) by exact Hh. unfold CountMinterm.
    cbn [combine map fst snd]. rewrite sumQ_cons. ring.
Qed.
Lemma average_bit_flip_fl_exact p rnd M n f g : keeps_floats p rnd -> wfs M f -> wfs M g -> below n f -> below n g -> length f = length g ->
  (Z.of_nat n <= p)%Z -> (Z.of_nat (length f) * 2 ^ Z.of_nat n <= 2 ^ p)%Z ->
  exists q, average_bit_flip_error_fl rnd M f g = Ok q /\ (q == average n (fun a => inject_Z (hamming f g a)))%Q.
Proof.
  intros K Wf Wg Bf Bg L Hn Hm. unfold average_bit_flip_error_fl. rewrite (proj2 (Nat.eqb_eq _ _) L). cbn [assert_ bind].
  set (s := max_support g (max_support f 0)).
  destruct (flip_sum_fl_exact p rnd M n s K Hn f g 0 0) as (q & z & -> & Q & Zq & E); auto; [lia|ring|]. cbn [bind].
  eexists; split; [reflexivity|]. rewrite <- (xfrac_average M) by auto.
  assert (X : (q / inject_Z (pow2 s) == xfrac M f g)%Q) by (rewrite E; field; apply pow2Q_nz).
  assert (Y : (q / inject_Z (pow2 s) == inject_Z z * 2 ^ (- Z.of_nat n))%Q).
  { rewrite Q. replace (Z.of_nat s - Z.of_nat n)%Z with (- Z.of_nat n + Z.of_nat s)%Z by lia. rewrite p2_add.
    unfold pow2. rewrite <- p2_inj by lia. field. intro A. pose proof (p2_pos (Z.of_nat s)) as P. rewrite A in P. discriminate P. }
  rewrite <- X. apply K. exists z, (- Z.of_nat n)%Z. split; [|exact Y]. rewrite Z.abs_eq by lia.
  unfold pow2 in Zq. lia.
Qed.
