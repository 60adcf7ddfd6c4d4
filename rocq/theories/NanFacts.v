(** NaN in the counts of solutions *)
From Coq Require Import List Bool Arith ZArith QArith Lia Lqa.
From Verif Require Import Res Cudd CuddFacts Spec SpecFacts SpecFloat SpecNan Float FloatFacts Helpers HelpersFacts HelpersFacts2 Counting CountFacts
  Metrics Operators OperatorFacts OperatorFacts2 OperatorFacts5 LevelFacts OrderFacts Ieee IeeeFacts IeeeFacts2 IeeeFacts3 IeeeFacts4 IeeeFacts7.
Import ListNotations.
Open Scope nat_scope.

Section Values.
Variable T : nat.
Fixpoint solsd (n : node) (c : bool) : dbl :=
  match n with
  | One => DFin (if c then 0%Q else 1%Q)
  | Nd v t c' e => dadd (dmul (solsd t c) (dpow_levels (node_level t T) v)) (dmul (solsd e (xorb c c')) (dpow_levels (node_level e T) v))
  end.
Definition svalued (m : bmap dbl) : Prop := forall k v, In (k, v) m -> v = solsd (snd k) (fst k).
Lemma solutions_rec_d_value n : forall c m, svalued m ->
  fst (count_solutions_rec_d n c m T) = solsd n c /\ svalued (snd (count_solutions_rec_d n c m T)).
Proof.
  assert (ADD : forall n c m, svalued m -> svalued (((c, n), solsd n c) :: m)) by (intros n0 c m G k v [[= <- <-]|H]; auto).
  induction n as [|x t IHt d e IHe]; intros c m G; cbn [count_solutions_rec_d].
  - destruct (blookup (c, One) m) as [v|] eqn:E; cbn [fst snd].
    + apply blookup_some in E. split; auto. exact (G _ _ E).
    + split; [reflexivity|]. exact (ADD One c m G).
  - destruct (blookup (c, Nd x t d e) m) as [v|] eqn:E; cbn [fst snd].
    { apply blookup_some in E. split; auto. exact (G _ _ E). }
    specialize (IHt c m G). destruct (count_solutions_rec_d t c m T) as [hr m1]. cbn [fst snd] in IHt. destruct IHt as (E1 & G1).
    specialize (IHe (xorb c d) m1 G1). destruct (count_solutions_rec_d e (xorb c d) m1 T) as [lr m2]. cbn [fst snd] in IHe. destruct IHe as (E2 & G2).
    subst hr lr. cbn [fst snd]. split; [reflexivity|]. exact (ADD (Nd x t d e) c m2 G2).
Qed.
End Values.
Lemma solutions_d_at f k : In k (reachable f) -> blookup k (count_solutions_d f) = Some (solsd (terminal_level [[f]]) (snd k) (fst k)).
Proof.
  intro H. pose proof (solutions_full f k H) as Hk. destruct (blookup_key k _ Hk) as [v E]. rewrite E. f_equal.
  assert (N : svalued (terminal_level [[f]]) []) by (intros ? ? []).
  destruct (solutions_rec_d_value (terminal_level [[f]]) (snd f) (fst f) [] N) as (_ & V).
  apply blookup_some in E. exact (V _ _ E).
Qed.
Lemma solutions_d_in f k x : In (k, x) (count_solutions_d f) -> x = solsd (terminal_level [[f]]) (snd k) (fst k).
Proof.
  intro H. assert (N : svalued (terminal_level [[f]]) []) by (intros ? ? []).
  destruct (solutions_rec_d_value (terminal_level [[f]]) (snd f) (fst f) [] N) as (_ & V). exact (V _ _ H).
Qed.

(** ** where NaN comes from *)
Definition zero_child (c : bool) (t : node) (d : bool) (e : node) : Prop := (c, t) = bzero \/ (xorb c d, e) = bzero.
Definition bad (T : nat) (k : bdd) : Prop := exists c v t d e, k = (c, Nd v t d e) /\ zero_child c t d e /\ v + 1025 <= T.
Lemma dadd_nan_r x : dadd x DNaN = DNaN. Proof. destruct x; reflexivity. Qed.
Lemma dpow_far T v : v + 1025 <= T -> (Z.of_nat T < 2 ^ 64)%Z -> dpow_levels T v = DInf false.
Proof.
  intros H B. unfold dpow_levels, dpow2. rewrite Z.mod_small by lia.
  replace (1024 <=? Z.of_nat T - Z.of_nat v - 1)%Z with true by (symmetry; apply Z.leb_le; lia). reflexivity.
Qed.
Lemma bad_nan T : (Z.of_nat T < 2 ^ 64)%Z -> forall n c k, In k (edges n c) -> bad T k -> solsd T n c = DNaN.
Proof.
  intro B. induction n as [|v t IHt d e IHe]; intros c k Hk Hb; cbn [edges] in Hk.
  - destruct Hk as [<-|[]]. destruct Hb as (c0 & v & t & d & e & E & _). discriminate.
  - cbn [solsd]. destruct Hk as [<-|Hk].
    + destruct Hb as (c0 & v0 & t0 & d0 & e0 & [= <- <- <- <- <-] & Z & L). destruct Z as [[= -> ->]|[= Ec ->]].
      * cbn [solsd node_level]. rewrite dpow_far by auto. reflexivity.
      * cbn [solsd node_level]. rewrite Ec, (dpow_far T v) by auto. cbn [dmul]. change (Qeq_bool 0 0) with true. cbv iota. apply dadd_nan_r.
    + apply in_app_or in Hk as [Hk|Hk].
      * rewrite (IHt _ _ Hk Hb). reflexivity.
      * rewrite (IHe _ _ Hk Hb). cbn [dmul]. apply dadd_nan_r.
Qed.

(** a count that is not NaN: zero for the constant 0, otherwise at least one or infinite *)
Definition positive_count (x : dbl) : Prop := (exists q, x = DFin q /\ (1 <= q)%Q) \/ x = DInf false.
Lemma to_double_ge1 q : (1 <= q)%Q -> positive_count (to_double q).
Proof.
  intro H. unfold to_double.
  assert (E : (binary_exponent (Qabs.Qabs q) <? -1022)%Z = false).
  { apply Z.ltb_ge. assert (0 <= binary_exponent (Qabs.Qabs q))%Z; [|lia]. apply exponent_low; rewrite Qabs.Qabs_pos by lra; [lra|].
    change (2 ^ 0)%Q with 1%Q. exact H. }
  rewrite E, andb_false_r. cbv zeta. assert (R : (1 <= r53 q)%Q).
  { apply r53_ge; [|exact H]. exists 1%Z, 0%Z. split; [cbn; lia|reflexivity]. }
  destruct (Qle_bool (2 ^ 1024) (r53 q)); [now right|].
  destruct (Qle_bool (r53 q) (- 2 ^ 1024)) eqn:G; [|left; eauto]. exfalso. apply Qle_bool_iff in G.
  assert (P : (0 < 2 ^ 1024)%Q) by (vm_compute; reflexivity). lra.
Qed.
Lemma dpow_cases a b : (exists k, dpow_levels a b = DFin (inject_Z (2 ^ k)) /\ (0 <= k)%Z) \/ dpow_levels a b = DInf false.
Proof.
  unfold dpow_levels, dpow2. set (k := ((Z.of_nat a - Z.of_nat b - 1) mod 2 ^ 64)%Z).
  assert (0 <= k)%Z by (apply Z.mod_pos_bound; lia). destruct (1024 <=? k)%Z; [now right|left; eauto].
Qed.
Lemma p2_ge1 k : (0 <= k)%Z -> (1 <= inject_Z (2 ^ k))%Q.
Proof. intro H. change 1%Q with (inject_Z 1). rewrite <- Zle_Qle. pose proof (Z.pow_pos_nonneg 2 k). lia. Qed.
Lemma dmul_positive x a b : positive_count x -> positive_count (dmul x (dpow_levels a b)).
Proof.
  intros [(q & -> & Hq)| ->]; destruct (dpow_cases a b) as [(k & -> & Hk)| ->]; cbn [dmul].
  - apply to_double_ge1. pose proof (p2_ge1 k Hk). nra.
  - right. replace (Qeq_bool q 0) with false. 2:{ symmetry. apply not_true_iff_false. intro E. apply Qeq_bool_iff in E. lra. }
    replace (negative q) with false; [reflexivity|]. symmetry. unfold negative. apply Z.ltb_ge. destruct q as [n p]. unfold Qle in Hq. cbn in *. lia.
  - right. pose proof (p2_ge1 k Hk) as P. replace (Qeq_bool (inject_Z (2 ^ k)) 0) with false.
    2:{ symmetry. apply not_true_iff_false. intro E. apply Qeq_bool_iff in E. lra. }
    replace (negative (inject_Z (2 ^ k))) with false; [reflexivity|]. symmetry. unfold negative. cbn. apply Z.ltb_ge. now apply Z.pow_nonneg.
  - right. reflexivity.
Qed.
Lemma dmul_zero_pow q a b : (q == 0)%Q -> (b < a) -> a <= b + 1024 -> (Z.of_nat a < 2 ^ 64)%Z -> is_double (dmul (DFin q) (dpow_levels a b)) 0.
Proof.
  intros E L U B. unfold dpow_levels, dpow2. rewrite Z.mod_small by lia.
  replace (1024 <=? Z.of_nat a - Z.of_nat b - 1)%Z with false by (symmetry; apply Z.leb_gt; lia). cbn [dmul]. apply to_double_zero. rewrite E. ring.
Qed.
Lemma dadd_positive x y : positive_count x -> positive_count y -> positive_count (dadd x y).
Proof.
  intros [(q & -> & Hq)| ->] [(r & -> & Hr)| ->]; cbn [dadd]; try (right; reflexivity). apply to_double_ge1. lra.
Qed.
Lemma dadd_zero_l x y : is_double x 0 -> positive_count y -> positive_count (dadd x y).
Proof. intros (q & -> & E) [(r & -> & Hr)| ->]; cbn [dadd]; [apply to_double_ge1; lra|now right]. Qed.
Lemma dadd_zero_r x y : positive_count x -> is_double y 0 -> positive_count (dadd x y).
Proof. intros [(r & -> & Hr)| ->] (q & -> & E); cbn [dadd]; [apply to_double_ge1; lra|now right]. Qed.

Lemma good_count M T : (Z.of_nat T < 2 ^ 64)%Z -> forall n lvl c, okn M lvl n -> (forall i, In i (varsn n) -> i < T) ->
  (forall k, In k (edges n c) -> ~ bad T k) -> (c, n) <> bzero -> positive_count (solsd T n c).
Proof.
  intro B. induction n as [|v t IHt d e IHe]; intros lvl c K V Hb N; cbn [solsd].
  - destruct c; [now elim N|]. left. exists 1%Q. split; [reflexivity|lra].
  - assert (Lv : v < T) by (apply V; cbn; auto). destruct K as (_ & Kt & Ke & NE).
    assert (Vt : forall i, In i (varsn t) -> i < T) by (intros i Hi; apply V; cbn; right; apply in_or_app; auto).
    assert (Ve : forall i, In i (varsn e) -> i < T) by (intros i Hi; apply V; cbn; right; apply in_or_app; auto).
    assert (Bt : forall k, In k (edges t c) -> ~ bad T k) by (intros k Hk; apply Hb; cbn [edges]; right; apply in_or_app; auto).
    assert (Be : forall k, In k (edges e (xorb c d)) -> ~ bad T k) by (intros k Hk; apply Hb; cbn [edges]; right; apply in_or_app; auto).
    assert (Far : zero_child c t d e -> T <= v + 1024).
    { intro Z. destruct (Nat.le_gt_cases T (v + 1024)) as [|G]; auto. exfalso. apply (Hb (c, Nd v t d e)); [now left|].
      exists c, v, t, d, e. repeat split; auto. lia. }
    assert (D : forall x y : bdd, x = y \/ x <> y).
    { intros x y. destruct (bdd_eqb x y) eqn:Q; [left; now apply bdd_eqb_spec|right; now apply bdd_eqb_false]. }
    destruct (D (c, t) bzero) as [Et|Nt], (D (xorb c d, e) bzero) as [Ee|Ne].
    + exfalso. injection Et as -> ->. injection Ee as Ed ->. destruct d; [discriminate|]. apply NE. auto.
    + apply dadd_zero_l; [|apply dmul_positive, (IHe _ _ Ke Ve Be Ne)]. assert (F : zero_child c t d e) by now left.
      injection Et as -> ->. cbn [solsd node_level]. apply dmul_zero_pow; auto; reflexivity.
    + apply dadd_zero_r; [apply dmul_positive, (IHt _ _ Kt Vt Bt Nt)|]. assert (F : zero_child c t d e) by now right.
      injection Ee as -> ->. cbn [solsd node_level]. apply dmul_zero_pow; auto; reflexivity.
    + apply dadd_positive; apply dmul_positive; [exact (IHt _ _ Kt Vt Bt Nt)|exact (IHe _ _ Ke Ve Be Ne)].
Qed.
