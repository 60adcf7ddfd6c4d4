(** Proofs about the absolute error metrics. *)
From Coq Require Import List Bool Arith ZArith QArith Qabs Qround Lia Lqa.
From Verif Require Import Res Cudd CuddFacts Spec SpecFacts Helpers HelpersFacts HelpersFacts2 Counting AddFacts CountFacts PathFacts Metrics.
Import ListNotations.
Open Scope nat_scope.

(** ** Averages do not depend on unused variables *)
Definition dep_belowQ (n : nat) (F : asg -> Q) : Prop :=
  forall a b, (forall i, i < n -> a i = b i) -> (F a == F b)%Q.

Lemma dep_belowQ_ext n F : dep_belowQ n F -> extQ F.
Proof. intros H a b E. apply H. intros; apply E. Qed.
Lemma dep_belowQ_mono m n F : m <= n -> dep_belowQ m F -> dep_belowQ n F.
Proof. intros L H a b E. apply H. intros; apply E. lia. Qed.

Lemma average_S n F : extQ F ->
  (average (S n) F == (1#2) * average n (fun a => F (cons_asg true a)) + (1#2) * average n (fun a => F (cons_asg false a)))%Q.
Proof.
  intro H. rewrite !average_eq, (sum_inputs_S n F H), pow2_S, inject_Z_mult. field. apply pow2Q_nz.
Qed.

Lemma average_indep m : forall n F, dep_belowQ m F -> m <= n -> (average n F == average m F)%Q.
Proof.
  induction m as [|m IH]; intros n F H L.
  - rewrite (average_ext n F (fun _ => F (fun _ => false))) by (intro a; apply H; intros; lia).
    rewrite (average_ext 0 F (fun _ => F (fun _ => false))) by (intro a; apply H; intros; lia).
    now rewrite !average_const.
  - destruct n as [|n]; [lia|]. rewrite !average_S by (eapply dep_belowQ_ext; eauto).
    rewrite (IH n (fun a => F (cons_asg true a))), (IH n (fun a => F (cons_asg false a))); [reflexivity| |lia| |lia];
      intros a b E; apply H; intros [|i] Hi; cbn [cons_asg]; auto; apply E; lia.
Qed.

Lemma average_zero_iff n F : dep_belowQ n F -> (forall a, (0 <= F a)%Q) ->
  ((average n F == 0)%Q <-> forall a, (F a == 0)%Q).
Proof.
  intros HD Hp. split.
  - intros H a. destruct (Qlt_le_dec 0 (F a)) as [L|L]; [|apply Qle_antisym; auto].
    exfalso. pose proof (sum_inputs_pos n F a Hp HD L) as P.
    rewrite average_eq in H. assert (H1 : (sum_inputs n F == 0)%Q).
    { rewrite <- (Qmult_div_r (sum_inputs n F) (inject_Z (pow2 n))) by apply pow2Q_nz. rewrite H. ring. }
    lra.
  - intro H. rewrite (average_ext n F (fun _ => 0%Q)) by auto. apply average_const.
Qed.

Lemma average_nonneg n F : (forall a, (0 <= F a)%Q) -> (0 <= average n F)%Q.
Proof. intro H. rewrite <- (average_const n 0). apply average_le. auto. Qed.

Lemma below_cons n b f : below n (b :: f) <-> depends_below n b /\ below n f.
Proof. unfold below. split; intro H; [now inversion H|constructor; tauto]. Qed.
Lemma below_uval n f a b : below n f -> (forall i, i < n -> a i = b i) -> uval f a = uval f b.
Proof.
  induction f as [|x f IH]; intros H E; cbn [uval]; auto. apply below_cons in H. destruct H as [H1 H2].
  rewrite (H1 a b E), IH; auto.
Qed.
Lemma below_sval n f a b : below n f -> (forall i, i < n -> a i = b i) -> sval f a = sval f b.
Proof.
  induction f as [|x f IH]; intros H E; auto. apply below_cons in H. destruct H as [H1 H2]. cbn [sval].
  destruct f; [rewrite (H1 a b E); auto|]. rewrite (H1 a b E), IH; auto.
Qed.
Lemma below_value n r f a b : below n f -> (forall i, i < n -> a i = b i) -> value r f a = value r f b.
Proof. destruct r; [apply below_uval|apply below_sval]. Qed.
Lemma below_vars M n f i : wfs M f -> below n f -> vars_in f i -> i < n.
Proof.
  intros W B (b & Hb & Hi). unfold below in B. rewrite Forall_forall in W, B.
  exact (depends_below_vars M n b (W b Hb) (B b Hb) i Hi).
Qed.

(** ** Differences *)
Lemma differ_ext f : forall g a b, (forall i, a i = b i) -> differ f g a = differ f g b.
Proof.
  induction f as [|x f IH]; intros [|y g] a b H; cbn [differ]; auto. now rewrite (ev_ext x a b), (ev_ext y a b), (IH g a b).
Qed.
Lemma differ_below n f : forall g a b, below n f -> below n g -> (forall i, i < n -> a i = b i) -> differ f g a = differ f g b.
Proof.
  induction f as [|x f IH]; intros [|y g] a b Hf Hg E; cbn [differ]; auto.
  apply below_cons in Hf, Hg. destruct Hf, Hg. rewrite (H a b E), (H1 a b E), (IH g a b); auto.
Qed.
Lemma hamming_below n f : forall g a b, below n f -> below n g -> (forall i, i < n -> a i = b i) -> hamming f g a = hamming f g b.
Proof.
  induction f as [|x f IH]; intros [|y g] a b Hf Hg E; cbn [hamming]; auto.
  apply below_cons in Hf, Hg. destruct Hf, Hg. rewrite (H a b E), (H1 a b E), (IH g a b); auto.
Qed.
Lemma hamming_range f : forall g a, (0 <= hamming f g a <= Z.of_nat (length f))%Z.
Proof.
  induction f as [|x f IH]; intros [|y g] a; cbn [hamming length]; try lia.
  specialize (IH g a). pose proof (b2z_range (xorb (ev x a) (ev y a))). lia.
Qed.
Lemma differ_hamming f : forall g a, differ f g a = negb (hamming f g a =? 0)%Z.
Proof.
  induction f as [|x f IH]; intros [|y g] a; cbn [differ hamming]; auto. rewrite IH.
  pose proof (hamming_range f g a). destruct (xorb (ev x a) (ev y a)); cbn [orb Z.b2z].
  - symmetry. apply negb_true_iff, Z.eqb_neq. lia.
  - reflexivity.
Qed.
Lemma differ_lxor f : forall g a, length f = length g ->
  differ f g a = negb (Z.lxor (uval f a) (uval g a) =? 0)%Z.
Proof.
  induction f as [|x f IH]; intros [|y g] a H; cbn [length] in H; try discriminate; auto.
  cbn [differ uval]. rewrite lxor_step, (IH g a) by lia.
  destruct (xorb (ev x a) (ev y a)); cbn [Z.b2z orb].
  - symmetry. apply negb_true_iff, Z.eqb_neq. lia.
  - destruct (Z.lxor (uval f a) (uval g a) =? 0)%Z eqn:E.
    + apply Z.eqb_eq in E. rewrite E. reflexivity.
    + apply Z.eqb_neq in E. symmetry. f_equal. apply Z.eqb_neq. lia.
Qed.
Lemma popcount_step b x : (0 <= x)%Z -> popcount (Z.b2z b + 2 * x) = (Z.b2z b + popcount x)%Z.
Proof. intro H. destruct x as [|p|p]; [destruct b; reflexivity|destruct b; reflexivity|lia]. Qed.
Lemma lxor_nonneg x y : (0 <= x -> 0 <= y -> 0 <= Z.lxor x y)%Z.
Proof. intros. apply Z.lxor_nonneg. tauto. Qed.
Lemma hamming_lxor f : forall g a, length f = length g ->
  hamming f g a = popcount (Z.lxor (uval f a) (uval g a)).
Proof.
  induction f as [|x f IH]; intros [|y g] a H; cbn [length] in H; try discriminate; auto.
  cbn [hamming uval]. rewrite lxor_step, popcount_step, (IH g a) by (try lia; apply lxor_nonneg; apply uval_range). reflexivity.
Qed.
Lemma lxor_lt_pow2 f : forall g a, length f = length g -> (Z.lxor (uval f a) (uval g a) < pow2 (length f))%Z.
Proof.
  induction f as [|x f IH]; intros [|y g] a H; cbn [length] in H; try discriminate; [reflexivity|].
  cbn [uval length]. rewrite lxor_step, pow2_S. specialize (IH g a). pose proof (b2z_range (xorb (ev x a) (ev y a))). lia.
Qed.
Lemma differ_zero_iff f : forall g, length f = length g ->
  ((forall a, differ f g a = false) <-> forall a, map (fun b => ev b a) f = map (fun b => ev b a) g).
Proof.
  intros g H.
  assert (G : forall a, differ f g a = false <-> map (fun b => ev b a) f = map (fun b => ev b a) g).
  { intro a. revert g H. induction f as [|x f IH]; intros [|y g] H; cbn [length] in H; try discriminate; [split; auto|].
    cbn [differ map]. rewrite orb_false_iff, IH by lia. split.
    - intros [A B]. rewrite B. f_equal. destruct (ev x a), (ev y a); auto; discriminate.
    - intros E. injection E as E1 E2. rewrite E1, xorb_nilpotent. auto. }
  split; intros E a; apply G, E.
Qed.

(** ** error_rate *)
Lemma miter_spec M f : forall g m, length f <= length g -> exists r, miter M f g m = Ok r
  /\ (wfs M f -> wfs M g -> wf M m -> wf M r) /\ forall a, ev r a = ev m a || differ f g a.
Proof.
  induction f as [|x f IH]; intros g m H; cbn [miter].
  - exists m. split; [auto|]. split; [auto|]. intro a. cbn [differ]. now rewrite orb_false_r.
  - destruct g as [|y g]; cbn [length] in H; [lia|].
    destruct (IH g (bor M m (bxor M x y)) ltac:(lia)) as (r & R & W & E). exists r. split; [auto|]. split.
    + intros Wf Wg Wm. inversion Wf; inversion Wg; subst. apply W; auto with wf.
    + intro a. rewrite E, ev_or, ev_xor. cbn [differ]. now rewrite orb_assoc.
Qed.
Lemma miter_ub M f : forall g m, length g < length f -> miter M f g m = UB.
Proof.
  induction f as [|x f IH]; intros [|y g] m H; cbn [length] in H; try lia; auto. cbn [miter]. apply IH. lia.
Qed.

Lemma CountMinterm_ratio f n : (CountMinterm f n / inject_Z (pow2 n) == frac f)%Q.
Proof. unfold CountMinterm. field. apply pow2Q_nz. Qed.

Lemma error_rate_spec M n f g : wfs M f -> wfs M g -> below n f -> below n g -> length f <= length g ->
  exists q, error_rate M f g = Ok q /\ (q == average n (fun a => b2q (differ f g a)))%Q.
Proof.
  intros Wf Wg Bf Bg L. unfold error_rate. destruct (miter_spec M f g bzero L) as (r & -> & W & E). cbn [bind].
  eexists; split; [reflexivity|]. rewrite CountMinterm_ratio.
  assert (Wr : wf M r) by (apply W; auto with wf).
  rewrite (frac_average M n r Wr).
  - apply average_ext. intro a. rewrite E, ev_zero. reflexivity.
  - intros a b Hab. rewrite !E, !ev_zero. cbn [orb]. eapply differ_below; eauto.
Qed.
Lemma error_rate_ub M f g : length g < length f -> error_rate M f g = UB.
Proof. intro H. unfold error_rate. rewrite miter_ub by auto. reflexivity. Qed.

Lemma b2q_nonneg b : (0 <= b2q b)%Q.
Proof. destruct b; cbn; lra. Qed.
Lemma b2q_zero b : (b2q b == 0)%Q <-> b = false.
Proof. destruct b; cbn; split; intro H; auto; try discriminate; try reflexivity. Qed.

Lemma error_rate_full M n f g : wfs M f -> wfs M g -> below n f -> below n g ->
  (length f = length g -> exists q, error_rate M f g = Ok q
     /\ (q == average n (fun a => b2q (differ f g a)))%Q
     /\ ((q == 0)%Q <-> forall a, map (fun b => ev b a) f = map (fun b => ev b a) g))
  /\ (length g < length f -> error_rate M f g = UB).
Proof.
  intros Wf Wg Bf Bg. split; [|apply error_rate_ub]. intro L.
  destruct (error_rate_spec M n f g) as (q & R & E); auto; [lia|]. exists q. split; [auto|]. split; [auto|].
  rewrite E, <- differ_zero_iff by auto. rewrite average_zero_iff.
  - split; intros H a; specialize (H a); now apply b2q_zero.
  - intros a b Hab. rewrite (differ_below n f g a b); auto. reflexivity.
  - intro a. apply b2q_nonneg.
Qed.

(** ** Histograms *)
Definition wsum (G : Q -> Q) (r : list (Q * Z)) : Q := sumQ (map (fun p => G (fst p) * inject_Z (snd p))%Q r).
Definition tsum (r : list (Q * Z)) : Z := fold_right Z.add 0%Z (map snd r).

Lemma hist_wsum (F : asg -> Q) (G : Q -> Q) (ls : list (list bool)) : forall vs, NoDup vs ->
  (forall l, In l ls -> In (F (asg_of l)) vs) ->
  (sumQ (map (fun v => G v * inject_Z (Z.of_nat (length (filter (fun l => q_eqb (F (asg_of l)) v) ls))))%Q vs)
   == sumQ (map (fun l => G (F (asg_of l))) ls))%Q.
Proof.
  intros vs Nv. induction ls as [|l ls IH]; intro H; cbn [filter length map].
  - rewrite sumQ_nil. clear. induction vs as [|v vs IH]; cbn [map]; rewrite ?sumQ_nil, ?sumQ_cons; [reflexivity|].
    rewrite IH. change (inject_Z (Z.of_nat 0)) with 0%Q. ring.
  - rewrite sumQ_cons, <- IH by (intros; apply H; now right).
    assert (Hv : In (F (asg_of l)) vs) by (apply H; now left).
    clear IH H. induction vs as [|v vs IHv]; [destruct Hv|]. cbn [map]. rewrite !sumQ_cons.
    inversion Nv as [|? ? Nn Nv']; subst.
    destruct (q_eqb (F (asg_of l)) v) eqn:E.
    + apply q_eqb_spec in E. subst v. cbn [length].
      assert (K : forall us, ~ In (F (asg_of l)) us ->
        (sumQ (map (fun v => G v * inject_Z (Z.of_nat (length (if q_eqb (F (asg_of l)) v then l :: filter (fun l0 => q_eqb (F (asg_of l0)) v) ls else filter (fun l0 => q_eqb (F (asg_of l0)) v) ls)))) us)
        == sumQ (map (fun v => G v * inject_Z (Z.of_nat (length (filter (fun l0 => q_eqb (F (asg_of l0)) v) ls)))) us))%Q).
      { clear. induction us as [|u us IH]; intro H; cbn [map]; rewrite ?sumQ_cons; [reflexivity|].
        rewrite IH by (intro; apply H; now right).
        destruct (q_eqb (F (asg_of l)) u) eqn:E; [|reflexivity]. apply q_eqb_spec in E. exfalso. apply H. now left. }
      rewrite (K vs Nn). rewrite Nat2Z.inj_succ, <- Z.add_1_l, inject_Z_plus. change (inject_Z 1) with 1%Q. ring.
    + destruct Hv as [Hv|Hv].
      * subst v. rewrite (proj2 (q_eqb_spec _ _) eq_refl) in E. discriminate.
      * rewrite (IHv Nv' Hv). ring.
Qed.

Lemma add_term_level_le A n : (forall i, In i (avars A) -> i < n) -> avars A <> [] -> add_term_level A <= n.
Proof.
  intros H Hne. unfold add_term_level.
  destruct (avars A) as [|i l] eqn:E; [contradiction|]. rewrite <- E in *.
  destruct (sorted_set (avars A)) as [|j l'] eqn:S.
  - assert (In i (sorted_set (avars A))) as K by (apply sorted_set_in; rewrite E; now left). rewrite S in K. destruct K.
  - assert (K : In (list_max0 (j :: l')) (j :: l')) by (apply list_max0_in; discriminate).
    rewrite <- S in K at 2. apply (proj1 (sorted_set_in _ _)) in K. apply H in K. lia.
Qed.

Lemma histogram_use64 M A n : index_order M -> aok M 0 A -> (forall i, In i (avars A) -> i < n) -> n <= 64 ->
  exists r, add_terminal_values A = Ok r
   /\ (forall v, In v (map fst r) <-> exists a, aev A a = v)
   /\ Forall (fun p => 0 <= snd p)%Z r
   /\ (0 < tsum r <= pow2 n)%Z
   /\ forall G, (wsum G r == inject_Z (tsum r) * average n (fun a => G (aev A a)))%Q.
Proof.
  intros HI Hok Hv Hn.
  assert (HT : add_term_level A <= 64).
  { destruct (Nat.eq_dec (length (avars A)) 0) as [E|E].
    - apply length_zero_iff_nil in E. unfold add_term_level. rewrite E. cbn. lia.
    - assert (add_term_level A <= n); [|lia]. apply add_term_level_le; [auto|]. intro K. rewrite K in E. now apply E. }
  destruct (add_terminal_values_full M A HI Hok HT) as (r & R & N & V & C & S).
  exists r. split; [auto|]. split; [auto|]. unfold tsum. rewrite S. destruct A as [q|x t e].
  - assert (Hr : r = [(q, 1%Z)]).
    { assert (Q1 : forall v c, In (v, c) r -> v = q /\ c = 1%Z).
      { intros v c Hi. split; [|eauto]. destruct (proj1 (V v) (in_map fst _ _ Hi)) as [a Ha]. symmetry. exact Ha. }
      destruct r as [|[v c] [|[v' c'] r]].
      - destruct (proj2 (V q)). exists (fun _ => false). reflexivity.
      - destruct (Q1 v c) as [-> ->]; [now left|reflexivity].
      - destruct (Q1 v c) as [-> _]; [now left|]. destruct (Q1 v' c') as [-> _]; [right; now left|].
        inversion N as [|? ? Nn _]. exfalso. apply Nn. now left. }
    subst r. split; [repeat constructor; cbn; lia|]. split; [pose proof (pow2_pos n); lia|].
    intro G. unfold wsum. cbn [map fst snd aev]. rewrite sumQ_cons, sumQ_nil, average_const.
    change (inject_Z 1) with 1%Q. ring.
  - split; [apply Forall_forall; intros [v c] Hi; rewrite (C v c Hi); cbn; lia|].
    assert (TL : add_term_level (AN x t e) <= n) by (apply add_term_level_le; [auto|cbn; discriminate]).
    split; [pose proof (pow2_pos (add_term_level (AN x t e))); pose proof (pow2_le _ _ TL); lia|].
    intro G. rewrite (average_indep (add_term_level (AN x t e)) n).
    + rewrite average_eq. unfold wsum.
      transitivity (sumQ (map (fun v => G v * inject_Z (Z.of_nat (length (filter (fun l => q_eqb (aev (AN x t e) (asg_of l)) v) (all_inputs (add_term_level (AN x t e)))))))%Q (map fst r))).
      * clear -C. induction r as [|[v c] r IH]; [reflexivity|]. cbn [map fst snd]. rewrite !sumQ_cons, IH.
        -- rewrite (C v c) by (now left). reflexivity.
        -- intros; apply C; now right.
      * rewrite hist_wsum; auto.
        -- unfold sum_inputs. field. apply pow2Q_nz.
        -- intros l _. apply V. eauto.
    + intros a b Hab. rewrite (aev_ext _ a b); [reflexivity|]. intros i Hi. apply Hab. now apply add_term_level_lt.
    + auto.
Qed.

Lemma histogram_use M A n : index_order M -> aok M 0 A -> (forall i, In i (avars A) -> i < n) -> n <= 63 ->
  exists r, add_terminal_values A = Ok r
   /\ (forall v, In v (map fst r) <-> exists a, aev A a = v)
   /\ Forall (fun p => 0 <= snd p)%Z r
   /\ (0 < tsum r <= pow2 n)%Z
   /\ forall G, (wsum G r == inject_Z (tsum r) * average n (fun a => G (aev A a)))%Q.
Proof. intros HI Hok Hv Hn. apply (histogram_use64 M A n); auto. Qed.

Lemma nonzero_sums_spec r : forall nz tot, Forall (fun p => 0 <= snd p)%Z r -> (0 <= nz)%Z -> (nz <= tot)%Z -> (tot + tsum r < 2 ^ 64)%Z ->
  let '(a, b) := nonzero_sums r nz tot in
  b = (tot + tsum r)%Z /\ (inject_Z a == inject_Z nz + wsum (fun v => b2q (negb (Qeq_bool v 0))) r)%Q.
Proof.
  induction r as [|[v c] r IH]; intros nz tot HF Hnz Hle Hb; cbn [nonzero_sums].
  - unfold tsum, wsum. cbn. split; [lia|]. ring.
  - inversion HF as [|? ? H1 H2]; subst. cbn [snd] in H1.
    assert (T0 : (0 <= tsum r)%Z) by (clear -H2; unfold tsum; induction H2; cbn; lia).
    change (tsum ((v, c) :: r)) with (c + tsum r)%Z in *.
    assert (E1 : u64 (tot + c) = (tot + c)%Z) by (apply Z.mod_small; lia). rewrite E1.
    set (nz' := if Qeq_bool v 0 then nz else u64 (nz + c)).
    assert (E2 : nz' = if Qeq_bool v 0 then nz else (nz + c)%Z).
    { unfold nz'. destruct (Qeq_bool v 0); auto. apply Z.mod_small. lia. }
    specialize (IH nz' (tot + c)%Z H2). destruct (nonzero_sums r nz' (tot + c)) as [a b].
    destruct IH as [I1 I2]; try (rewrite E2; destruct (Qeq_bool v 0); lia); [lia|].
    split; [lia|]. rewrite I2. unfold wsum. cbn [map fst snd]. rewrite sumQ_cons, E2.
    destruct (Qeq_bool v 0); cbn [negb b2q]; [ring|]. rewrite inject_Z_plus. ring.
Qed.

Lemma Qeq_bool_comp p q r s : (p == r)%Q -> (q == s)%Q -> Qeq_bool p q = Qeq_bool r s.
Proof.
  intros H1 H2. destruct (Qeq_bool r s) eqn:E.
  - apply Qeq_bool_iff. apply Qeq_bool_iff in E. now rewrite H1, H2.
  - destruct (Qeq_bool p q) eqn:E'; auto. apply Qeq_bool_iff in E'. rewrite H1, H2 in E'. apply Qeq_bool_iff in E'. congruence.
Qed.
Lemma Qeq_bool_inject x y : Qeq_bool (inject_Z x) (inject_Z y) = (x =? y)%Z.
Proof.
  destruct (x =? y)%Z eqn:E.
  - apply Z.eqb_eq in E. subst. apply Qeq_bool_iff. reflexivity.
  - destruct (Qeq_bool (inject_Z x) (inject_Z y)) eqn:E'; auto. apply Qeq_bool_iff in E'. unfold Qeq in E'. cbn in E'.
    apply Z.eqb_neq in E. lia.
Qed.

Lemma fdiv_pos p z : (0 < z)%Z -> fdiv p (inject_Z z) = Fin (p / inject_Z z).
Proof.
  intro H. unfold fdiv. change 0%Q with (inject_Z 0). rewrite Qeq_bool_inject. destruct (z =? 0)%Z eqn:E; auto. apply Z.eqb_eq in E. lia.
Qed.

Lemma xor_vars_below M n f g A : wfs M f -> wfs M g -> below n f -> below n g ->
  (forall i, In i (avars A) -> vars_in f i \/ vars_in g i) -> forall i, In i (avars A) -> i < n.
Proof. intros Wf Wg Bf Bg H i Hi. destruct (H i Hi) as [K|K]; [exact (below_vars M n f i Wf Bf K)|exact (below_vars M n g i Wg Bg K)]. Qed.

Lemma error_rate_add_spec M n f g : index_order M -> wfs M f -> wfs M g -> below n f -> below n g -> n <= 63 ->
  length f = length g ->
  exists q, error_rate_add M f g = Ok (Fin q) /\ (q == average n (fun a => b2q (differ f g a)))%Q.
Proof.
  intros HI Wf Wg Bf Bg Hn L. unfold error_rate_add.
  destruct (xor_difference_add_full M f g L) as (A & -> & HA & EA). destruct (HA Wf Wg) as [OA VA]. cbn [bind].
  destruct (histogram_use M A n HI OA (xor_vars_below M n f g A Wf Wg Bf Bg VA) Hn) as (r & -> & V & F & T & S). cbn [bind].
  pose proof (nonzero_sums_spec r 0 0 F) as H. destruct (nonzero_sums r 0 0) as [a b].
  destruct H as [H1 H2]; try lia.
  { assert (pow2 n <= 2 ^ 63)%Z by (change (2 ^ 63)%Z with (pow2 63); apply pow2_le; lia). lia. }
  cbn in H1. subst b. rewrite fdiv_pos by lia. eexists; split; [reflexivity|]. rewrite H2, S.
  rewrite (average_ext n _ (fun a0 => b2q (differ f g a0))).
  - field. change 0%Q with (inject_Z 0). intro E. unfold Qeq in E. cbn in E. lia.
  - intro a0. rewrite differ_lxor by auto. rewrite (Qeq_bool_comp _ 0 (inject_Z (Z.lxor (uval f a0) (uval g a0))) (inject_Z 0)).
    + rewrite Qeq_bool_inject. reflexivity.
    + apply EA.
    + reflexivity.
Qed.

Lemma error_rate_add_full M n f g : index_order M -> wfs M f -> wfs M g -> below n f -> below n g -> n <= 63 ->
  length f = length g ->
  exists p q, error_rate_add M f g = Ok (Fin p) /\ error_rate M f g = Ok q /\ (p == q)%Q
    /\ (p == average n (fun a => b2q (differ f g a)))%Q.
Proof.
  intros HI Wf Wg Bf Bg Hn L. destruct (error_rate_add_spec M n f g) as (p & P & EP); auto.
  destruct (error_rate_spec M n f g) as (q & R & EQ); auto; [lia|].
  exists p, q. split; [auto|]. split; [auto|]. split; [|auto]. now rewrite EP, EQ.
Qed.
