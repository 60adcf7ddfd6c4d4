(** More than a thousand variables: underflow and overflow *)
From Coq Require Import List Bool Arith ZArith QArith Qabs Qround Lia Lqa.
From Verif Require Import Res Cudd CuddFacts Spec SpecFacts SpecFloat Float FloatFacts Helpers HelpersFacts HelpersFacts2 Counting AddFacts CountFacts
  Metrics MetricsFacts Operators OperatorFacts OperatorFacts2 Rounded RoundedFacts RoundedAverageFacts Ieee IeeeFacts IeeeFacts2 IeeeFacts3.
Import ListNotations.
Open Scope nat_scope.

(** ** the counts as a plain recursion *)
Fixpoint fracd (n : node) (c : bool) : dbl :=
  match n with
  | One => DFin (if c then 0%Q else 1%Q)
  | Nd _ t d e => dadd (ddiv (fracd t c) (DFin 2)) (ddiv (fracd e (xorb c d)) (DFin 2))
  end.
Definition valued (m : bmap dbl) : Prop := forall k v, In (k, v) m -> v = fracd (snd k) (fst k).
Lemma minterms_rec_d_value n : forall c m, valued m ->
  fst (count_minterms_rec_d n c m) = fracd n c /\ valued (snd (count_minterms_rec_d n c m)).
Proof.
  assert (ADD : forall n c m, valued m -> valued (((c, n), fracd n c) :: m)) by (intros n0 c m V k v [[= <- <-]|H]; auto).
  induction n as [|x t IHt d e IHe]; intros c m V; cbn [count_minterms_rec_d].
  - destruct (blookup (c, One) m) as [v|] eqn:E; cbn [fst snd]; [apply blookup_some in E; split; auto; exact (V _ _ E)|].
    split; [reflexivity|]. exact (ADD One c m V).
  - destruct (blookup (c, Nd x t d e) m) as [v|] eqn:E; cbn [fst snd]; [apply blookup_some in E; split; auto; exact (V _ _ E)|].
    destruct (IHt c m V) as (V1 & G1). destruct (count_minterms_rec_d t c m) as [hr m1]. cbn [fst snd] in V1, G1.
    destruct (IHe (xorb c d) m1 G1) as (V2 & G2). destruct (count_minterms_rec_d e (xorb c d) m1) as [lr m2]. cbn [fst snd] in V2, G2.
    subst hr lr. cbn [fst snd]. split; [reflexivity|]. exact (ADD (Nd x t d e) c m2 G2).
Qed.
Lemma minterms_d_at f k : In k (reachable f) -> blookup k (count_minterms_d f) = Some (fracd (snd k) (fst k)).
Proof.
  intro H. pose proof (minterms_full f k H) as Hk. destruct (blookup_key k _ Hk) as [v E]. rewrite E. f_equal.
  assert (N : valued []) by (intros ? ? []). destruct (minterms_rec_d_value (snd f) (fst f) [] N) as (_ & V).
  apply blookup_some in E. exact (V _ _ E).
Qed.

(** ** rounding of powers of two *)
Lemma half_even_int x z : (x == inject_Z z)%Q -> round_half_even x = z.
Proof.
  intro E. pose proof (round_near x z) as N. assert (Z0 : (Qabs (x - inject_Z z) == 0)%Q) by (rewrite E; setoid_replace (inject_Z z - inject_Z z)%Q with 0%Q by ring; reflexivity).
  rewrite Z0 in N. apply Qabs_Qle_condition in N. assert (E2 : (inject_Z (round_half_even x) == inject_Z z)%Q) by lra.
  apply (proj1 (inject_Z_injective _ _)) in E2. exact E2.
Qed.
Lemma half_even_tie x : (x == 1 # 2)%Q -> round_half_even x = 0%Z.
Proof.
  intro E. unfold round_half_even. rewrite (Qfloor_comp x (1 # 2) E). change (Qfloor (1 # 2)) with 0%Z. change (inject_Z 0) with 0%Q.
  assert (L1 : Qle_bool (1 # 2) (x - 0) = true) by (apply Qle_bool_iff; lra). assert (L2 : Qle_bool (x - 0) (1 # 2) = true) by (apply Qle_bool_iff; lra).
  now rewrite L1, L2.
Qed.
Lemma exponent_p2 x k : (x == 2 ^ k)%Q -> binary_exponent x = k.
Proof.
  intro E. pose proof (p2_pos k) as P. destruct (binary_exponent_spec x) as [B1 B2]; [lra|].
  assert (B3 : (2 ^ binary_exponent x <= 2 ^ k)%Q) by lra. apply p2_le_inv in B3. destruct (Z.le_gt_cases k (binary_exponent x)) as [|G]; [lia|]. exfalso.
  pose proof (p2_mono (binary_exponent x + 1) k ltac:(lia)). lra.
Qed.
Definition is_double (x : dbl) (q : Q) : Prop := exists r, x = DFin r /\ (r == q)%Q.
Lemma to_double_fin r0 x : (0 <= r0 < 2 ^ 1024)%Q -> (if Qle_bool (2 ^ 1024) r0 then DInf false else if Qle_bool r0 (- 2 ^ 1024) then DInf true else DFin r0) = x -> x = DFin r0.
Proof.
  intros (P0 & P1) <-. pose proof (p2_pos 1024) as P. set (B := (2 ^ 1024)%Q) in *. clearbody B.
  assert (T1 : Qle_bool B r0 = false) by (apply not_true_is_false; rewrite Qle_bool_iff; lra).
  assert (T2 : Qle_bool r0 (- B) = false) by (apply not_true_is_false; rewrite Qle_bool_iff; lra). now rewrite T1, T2.
Qed.
Lemma to_double_zero x : (x == 0)%Q -> is_double (to_double x) 0.
Proof.
  intro E. exists (r53 x). split.
  - apply (to_double_range 0); [rewrite E; split; vm_compute; discriminate|now left|lia].
  - rewrite (round_float_keeps 53 ltac:(lia) x); [exact E|]. apply (float_eq 53 _ 0); [exact E|exact float_0].
Qed.
Lemma to_double_p2 x k : (x == 2 ^ k)%Q -> (-1074 <= k <= 0)%Z -> is_double (to_double x) (2 ^ k).
Proof.
  intros E K. pose proof (p2_pos k) as P. destruct (Z.le_gt_cases (-1022) k) as [L|L].
  - exists (r53 x). split.
    + apply (to_double_range 0); [|right|lia]; rewrite E; [split; [lra|apply p2_mono; lia]|now apply p2_mono].
    + rewrite (round_float_keeps 53 ltac:(lia) x); [exact E|]. apply (float_eq 53 _ (2 ^ k)); [exact E|exact (float_p2 53 ltac:(lia) k)].
  - assert (A : (Qabs x == 2 ^ k)%Q) by (rewrite E; apply Qabs_pos; lra).
    unfold to_double. rewrite (exponent_p2 (Qabs x) k A).
    assert (N : Qeq_bool x 0 = false) by (apply not_true_is_false; rewrite Qeq_bool_iff; lra). rewrite N. cbn [negb andb].
    assert (LT : (k <? -1022)%Z = true) by (apply Z.ltb_lt; lia). rewrite LT.
    assert (D : (x / 2 ^ (-1074) == inject_Z (2 ^ (k + 1074)))%Q).
    { rewrite E, <- (p2_inj (k + 1074)) by lia. rewrite p2_add. assert (I : (2 ^ 1074 * 2 ^ (-1074) == 1)%Q) by (rewrite <- p2_add; reflexivity).
      pose proof (p2_pos (-1074)) as PJ. set (b := (2 ^ (-1074))%Q) in *. set (a := (2 ^ 1074)%Q) in *. clearbody a b.
      assert (X : (2 ^ k / b == 2 ^ k * (a * b) / b)%Q) by (rewrite I; field; lra). rewrite X. field. lra. }
    rewrite (half_even_int _ _ D).
    assert (R : (inject_Z (2 ^ (k + 1074)) * 2 ^ (-1074) == 2 ^ k)%Q).
    { rewrite <- (p2_inj (k + 1074)) by lia. rewrite <- p2_add. replace (k + 1074 + -1074)%Z with k by lia. reflexivity. }
    eexists. split; [|exact R]. eapply to_double_fin; [|reflexivity]. rewrite R. split; [lra|apply p2_lt; lia].
Qed.
Lemma to_double_lost x : (x == 2 ^ (-1075))%Q -> is_double (to_double x) 0.
Proof.
  intro E. pose proof (p2_pos (-1075)) as P. unfold to_double.
  assert (A : (Qabs x == 2 ^ (-1075))%Q) by (rewrite E; apply Qabs_pos; lra). rewrite (exponent_p2 (Qabs x) _ A).
  assert (N : Qeq_bool x 0 = false) by (apply not_true_is_false; rewrite Qeq_bool_iff; lra). rewrite N. cbn [negb andb].
  change (-1075 <? -1022)%Z with true. cbv iota.
  assert (D : (x / 2 ^ (-1074) == 1 # 2)%Q).
  { rewrite E. assert (I : (2 ^ (-1074) == 2 * 2 ^ (-1075))%Q) by (rewrite <- p2_succ; reflexivity). rewrite I.
    set (b := (2 ^ (-1075))%Q) in *. clearbody b. field. lra. }
  rewrite (half_even_tie _ D). change (inject_Z 0) with 0%Q. exists (0 * 2 ^ (-1074))%Q. split; [|ring].
  eapply to_double_fin; [|reflexivity]. assert (Z0 : (0 * 2 ^ (-1074) == 0)%Q) by ring. rewrite Z0. split; [lra|apply p2_pos].
Qed.

(** ** the conjunction of the variables [i .. i+k-1] *)
Fixpoint chain (i k : nat) : node := match k with O => One | S k' => Nd i (chain (S i) k') true One end.
Lemma chain_ev k : forall i a, ev (false, chain i k) a = forallb a (seq i k).
Proof.
  induction k as [|k IH]; intros i a; [reflexivity|]. cbn [chain seq forallb]. rewrite ev_nd, IH. cbn [xorb]. now destruct (a i).
Qed.
Lemma chain_ok M k : index_order M -> forall i, okn M i (chain i k).
Proof.
  intro HI. induction k as [|k IH]; intro i; [exact I|]. cbn [chain okn]. rewrite HI. repeat split; auto. intros [H _]. discriminate.
Qed.
Lemma chain_wf M k : index_order M -> wf M (false, chain 0 k).
Proof. intro HI. exact (chain_ok M k HI 0). Qed.
Lemma ddiv_zero x : is_double x 0 -> is_double (ddiv x (DFin 2)) 0.
Proof.
  intros (r & -> & E). rewrite ddiv_2. assert (E2 : (r / 2 == 0)%Q) by (rewrite E; reflexivity). exact (to_double_zero _ E2).
Qed.
Lemma is_double_eq x q q' : (q == q')%Q -> is_double x q -> is_double x q'.
Proof. intros E (r & -> & H). exists r. split; auto. now rewrite H. Qed.
Lemma dadd_zero x y k : is_double x (2 ^ k) -> is_double y 0 -> (-1074 <= k <= 0)%Z -> is_double (dadd x y) (2 ^ k).
Proof. intros (r & -> & E) (s & -> & F) K. cbn [dadd]. apply to_double_p2; auto. rewrite E, F. ring. Qed.
Lemma dadd_zeros x y : is_double x 0 -> is_double y 0 -> is_double (dadd x y) 0.
Proof. intros (r & -> & E) (s & -> & F). cbn [dadd]. apply to_double_zero. rewrite E, F. reflexivity. Qed.
Lemma chain_value k : forall i, is_double (fracd (chain i k) false) (if k <=? 1074 then 2 ^ (- Z.of_nat k) else 0)%Q.
Proof.
  assert (Z0 : is_double (ddiv (DFin 0) (DFin 2)) 0) by (apply ddiv_zero; exists 0%Q; split; reflexivity).
  induction k as [|k IH]; intro i; [exists 1%Q; split; reflexivity|]. cbn [chain fracd xorb]. specialize (IH (S i)).
  destruct (S k <=? 1074) eqn:L.
  - apply Nat.leb_le in L. assert (L2 : k <=? 1074 = true) by (apply Nat.leb_le; lia). rewrite L2 in IH. apply dadd_zero; [|exact Z0|lia].
    destruct IH as (r & -> & E). rewrite ddiv_2. apply to_double_p2; [|lia]. rewrite E. pose proof (p2_succ (- Z.of_nat (S k))) as S1.
    replace (- Z.of_nat (S k) + 1)%Z with (- Z.of_nat k)%Z in S1 by lia. rewrite S1. field.
  - apply Nat.leb_gt in L. apply dadd_zeros; [|exact Z0]. destruct (k <=? 1074) eqn:L2.
    + apply Nat.leb_le in L2. assert (k = 1074) by lia. subst k. destruct IH as (r & -> & E). rewrite ddiv_2. apply to_double_lost. rewrite E.
      pose proof (p2_succ (-1075)) as S1. change (-1075 + 1)%Z with (-1074)%Z in S1. change (- Z.of_nat 1074)%Z with (-1074)%Z. rewrite S1. field.
    + now apply ddiv_zero.
Qed.
Lemma chain_reach i k : In (false, chain i k) (reachable (false, chain i k)). Proof. apply in_edges_refl. Qed.

Lemma underflow_count n : 1075 <= n -> exists v, blookup (false, chain 0 n) (count_minterms_d (false, chain 0 n)) = Some v /\ is_double v 0.
Proof.
  intro H. rewrite (minterms_d_at _ _ (chain_reach 0 n)). eexists. split; [reflexivity|]. pose proof (chain_value n 0) as V.
  assert (L : n <=? 1074 = false) by (apply Nat.leb_gt; lia). now rewrite L in V.
Qed.
Lemma zeros_gtb x y : is_double x 0 -> is_double y 0 -> dgtb x y = false.
Proof. intros (r & -> & E) (s & -> & F). rewrite dgtb_fin. apply qgtb_false. lra. Qed.
Lemma underflow_subset M n : index_order M -> 1076 <= n -> subset_light_child_d M (false, chain 0 n) 0 0 = Ok bzero.
Proof.
  intros HI H. destruct n as [|n]; [lia|]. unfold subset_light_child_d, round_any_d. cbn [fst snd].
  set (mc := count_minterms_d (false, chain 0 (S n))).
  assert (T : blookup (false, chain 1 n) mc = Some (fracd (chain 1 n) false)).
  { apply (minterms_d_at (false, chain 0 (S n)) (false, chain 1 n)). unfold reachable. cbn [fst snd chain edges]. right. apply in_or_app. left. apply in_edges_refl. }
  assert (E : blookup (true, One) mc = Some (DFin 0)).
  { apply (minterms_d_at (false, chain 0 (S n)) (true, One)). unfold reachable. cbn [fst snd chain edges]. right. apply in_or_app. right. now left. }
  clearbody mc. cbn [chain remove_children_rec_d blookup find]. cbn [Nat.ltb Nat.leb]. unfold bmap_at. cbn [xorb]. rewrite T, E. cbn [bind].
  pose proof (chain_value n 1) as V. assert (L : n <=? 1074 = false) by (apply Nat.leb_gt; lia). rewrite L in V.
  assert (Z0 : is_double (DFin 0) 0) by (exists 0%Q; split; reflexivity).
  rewrite (zeros_gtb _ _ V Z0). cbn [Bool.eqb remove_children_rec_d bind]. reflexivity.
Qed.
Lemma underflow_random n rand_max d draws : 1076 <= n -> length (d :: draws) = n ->
  exists l, random_satisfying_input_d rand_max (false, chain 0 n) (count_minterms_d (false, chain 0 n)) n (d :: draws) = Ok (0%Z :: l)
  /\ length l = length draws /\ ev (false, chain 0 n) (asg_ints (0%Z :: l)) = false.
Proof.
  intros H Ln. cbn [length] in Ln. destruct n as [|n]; [lia|]. injection Ln as Ln. unfold random_satisfying_input_d. cbn [fst snd].
  set (mc := count_minterms_d (false, chain 0 (S n))).
  assert (T : blookup (false, chain 1 n) mc = Some (fracd (chain 1 n) false)).
  { apply (minterms_d_at (false, chain 0 (S n)) (false, chain 1 n)). unfold reachable. cbn [fst snd chain edges]. right. apply in_or_app. left. apply in_edges_refl. }
  assert (E : blookup (true, One) mc = Some (DFin 0)).
  { apply (minterms_d_at (false, chain 0 (S n)) (true, One)). unfold reachable. cbn [fst snd chain edges]. right. apply in_or_app. right. now left. }
  assert (REST : forall k level dr, length dr = k -> level + k = S n -> exists l, rsi_loop_d rand_max mc (S n) k level true One dr = Ok l /\ length l = k).
  { induction k as [|k IH]; intros level dr L S1; [exists []; split; reflexivity|]. destruct dr as [|x dr]; [discriminate|]. cbn [rsi_loop_d node_level].
    assert (LT : level <? S n = true) by (apply Nat.ltb_lt; lia). rewrite LT. destruct (IH (S level) dr) as (l & -> & Ll); [now injection L|lia|].
    cbn [bind]. eexists. split; [reflexivity|]. cbn [length]. now rewrite Ll. }
  destruct (REST n 1 draws Ln ltac:(lia)) as (l & R & Ll). exists l. split; [|split].
  - clearbody mc. cbn [rsi_loop_d chain node_level Nat.ltb Nat.leb]. unfold bmap_at. cbn [xorb]. rewrite T, E. cbn [bind].
    pose proof (chain_value n 1) as V. assert (L : n <=? 1074 = false) by (apply Nat.leb_gt; lia). rewrite L in V.
    assert (Z0 : is_double (DFin 0) 0) by (exists 0%Q; split; reflexivity).
    destruct (dadd_zeros _ _ V Z0) as (s & -> & S0). destruct V as (r & -> & R0). cbn [ddiv].
    assert (B1 : Qeq_bool s 0 = true) by (now apply Qeq_bool_iff). assert (B2 : Qeq_bool r 0 = true) by (now apply Qeq_bool_iff). rewrite B1, B2.
    assert (NN : forall x, dleb x DNaN = false) by (intros [q|[|]|]; reflexivity). rewrite NN, R. reflexivity.
  - now rewrite Ll.
  - rewrite chain_ev. reflexivity.
Qed.

Lemma error_rate_over count M f g : Forall (wf M) f -> Forall (wf M) g -> length f = length g -> 1024 < terminal_level [f; g] ->
  error_rate_d count M f g = Ok (DFin 0) \/ error_rate_d count M f g = Ok DNaN.
Proof.
  intros Wf Wg L T. unfold error_rate_d. destruct (miter_spec M f g bzero ltac:(lia)) as (r & -> & _). cbn [bind].
  assert (P : dpow2 (Z.of_nat (terminal_level [f; g] - 1)) = DInf false).
  { unfold dpow2. assert (B : (1024 <=? Z.of_nat (terminal_level [f; g] - 1))%Z = true) by (apply Z.leb_le; lia). now rewrite B. }
  rewrite P. destruct (count r (terminal_level [f; g] - 1)) as [q|s|]; cbn [ddiv]; auto.
Qed.

Lemma chain_frac k : forall i, (0 < fracn (chain i k) false)%Q.
Proof.
  induction k as [|k IH]; intro i; [vm_compute; reflexivity|]. cbn [chain fracn xorb]. pose proof (IH (S i)). lra.
Qed.
Lemma chain_kept M n : index_order M -> subset_light_child M (false, chain 0 (S n)) 0 0 = Ok (false, chain 0 (S n)).
Proof.
  intro HI. unfold subset_light_child. rewrite round_any_pure. cbn [fst snd]. set (f := (false, chain 0 (S n))). set (w := wt_of (count_minterms f)).
  assert (T : (w (false, chain 1 n) == frac (false, chain 1 n))%Q) by (apply minterms_wt; unfold reachable, f; cbn [fst snd chain edges]; right; apply in_or_app; left; apply in_edges_refl).
  assert (E : (w (true, One) == 0)%Q) by (unfold w; rewrite minterms_wt; [reflexivity|]; unfold reachable, f; cbn [fst snd chain edges]; right; apply in_or_app; right; now left).
  assert (G : qgtb (w (false, chain 1 n)) (w (true, One)) = true).
  { apply qgtb_true. rewrite T, E. exact (chain_frac n 1). }
  clearbody w. f_equal. cbn [chain rc Nat.ltb Nat.leb xorb]. rewrite G. cbn [Bool.eqb].
  assert (C : rc M w 0 0 false true (chain 1 n) false = (false, chain 1 n)) by (destruct n; reflexivity). rewrite C.
  apply (canonical M); [apply wf_ite; auto with wf|exact (chain_wf M (S n) HI)|].
  - pose proof (chain_ok M n HI 1) as K. apply (okn_weaken M 1 0); [lia|exact K].
  - intro a. rewrite ev_itev. unfold f. cbn [chain]. rewrite ev_nd. reflexivity.
Qed.
