(** The rounded computations: relative errors, operators *)
From Coq Require Import List Bool Arith ZArith QArith Qabs Qround Lia Lqa.
From Verif Require Import Res Cudd CuddFacts Spec SpecFacts SpecFloat Float FloatFacts Helpers HelpersFacts HelpersFacts2 Counting AddFacts CountFacts
  Metrics MetricsFacts MetricsFacts2 MetricsFacts4 Operators OperatorFacts Rounded LevelFacts RoundedFacts.
Import ListNotations.
Open Scope nat_scope.

Lemma qpow_nonneg x k : (0 <= x)%Q -> (0 <= qpow x k)%Q.
Proof. intro H. induction k; cbn [qpow]; [discriminate|]. apply Qmult_le_0_compat; auto. Qed.

Section Rel.
Variable u : Q.
Hypothesis U : (0 <= u <= 1)%Q.
Variable rnd : Q -> Q.
Hypothesis R : relative_error u rnd.

Lemma qpow_up k : (qpow (1 + u) k <= qpow (1 + u) (S k))%Q.
Proof. cbn [qpow]. pose proof (qpow_nonneg (1 + u) k ltac:(lra)). nra. Qed.
Lemma qpow_down k : (qpow (1 - u) (S k) <= qpow (1 - u) k)%Q.
Proof. cbn [qpow]. pose proof (qpow_nonneg (1 - u) k ltac:(lra)). nra. Qed.
Lemma within_S k x y : (0 <= y)%Q -> within u k x y -> within u (S k) x y.
Proof. intros Hy [A B]. pose proof (qpow_up k). pose proof (qpow_down k). split; nra. Qed.
Lemma within_mono j k x y : (0 <= y)%Q -> j <= k -> within u j x y -> within u k x y.
Proof. intros Hy L H. induction L; auto. now apply within_S. Qed.
Lemma within_nonneg k x y : (0 <= y)%Q -> within u k x y -> (0 <= x)%Q.
Proof.
  intros Hy [A _]. eapply Qle_trans; [|exact A]. apply Qmult_le_0_compat; auto. apply qpow_nonneg. lra.
Qed.
Lemma within_refl k x : (0 <= x)%Q -> within u k x x.
Proof.
  intro H. apply (within_mono 0); auto; [lia|]. unfold within. cbn [qpow]. lra.
Qed.
Lemma within_eq k x y x' y' : (x == x')%Q -> (y == y')%Q -> within u k x y -> within u k x' y'.
Proof. unfold within. intros E F [A B]. rewrite <- E, <- F. auto. Qed.
Lemma rnd_bounds x : (0 <= x)%Q -> ((1 - u) * x <= rnd x <= (1 + u) * x)%Q.
Proof.
  intro H. pose proof (R x) as A. rewrite (Qabs_pos x H) in A.
  pose proof (Qle_Qabs (rnd x - x)) as B. pose proof (Qle_Qabs (- (rnd x - x))) as C. rewrite Qabs_opp in C. lra.
Qed.
Lemma within_rnd k x y : (0 <= y)%Q -> within u k x y -> within u (S k) (rnd x) y.
Proof.
  intros Hy H. pose proof (within_nonneg k x y Hy H) as X. destruct (rnd_bounds x X) as [L1 L2]. destruct H as [A B].
  unfold within. cbn [qpow]. split; nra.
Qed.
Lemma within_scale k x y c : (0 <= c)%Q -> within u k x y -> within u k (x * c) (y * c).
Proof. intros Hc [A B]. unfold within. split; nra. Qed.
Lemma within_plus k x y x' y' : within u k x y -> within u k x' y' -> within u k (x + x') (y + y').
Proof. intros [A B] [A' B']. unfold within. split; lra. Qed.

Lemma fracn_nonneg n : forall c, (0 <= fracn n c)%Q.
Proof.
  intro c. destruct (fracn_grid n c) as (z & Hz & E). rewrite E. apply Qmult_le_0_compat.
  - change 0%Q with (inject_Z 0). rewrite <- Zle_Qle. lia.
  - apply Qlt_le_weak, p2_pos.
Qed.
Lemma fracn_fl_within n : forall c, within u (2 * height n) (fracn_fl rnd n c) (fracn n c).
Proof.
  induction n as [|v t IHt d e IHe]; intro c.
  - cbn [fracn_fl fracn height]. apply within_refl. destruct c; discriminate.
  - cbn [fracn_fl fracn height]. set (h := Nat.max (height t) (height e)).
    pose proof (fracn_nonneg t c) as Pt. pose proof (fracn_nonneg e (xorb c d)) as Pe.
    assert (A : within u (2 * h) (fracn_fl rnd t c) (fracn t c)) by (apply (within_mono (2 * height t)); auto; lia).
    assert (B : within u (2 * h) (fracn_fl rnd e (xorb c d)) (fracn e (xorb c d))) by (apply (within_mono (2 * height e)); auto; lia).
    replace (2 * S h) with (S (S (2 * h))) by lia.
    apply (within_eq _ (rnd (rnd (fracn_fl rnd t c / 2) + rnd (fracn_fl rnd e (xorb c d) / 2)))
             (fracn t c * (1 # 2) + fracn e (xorb c d) * (1 # 2))); [reflexivity|field|].
    apply within_rnd; [lra|]. apply within_plus; apply within_rnd; try lra.
    + apply (within_eq _ (fracn_fl rnd t c * (1 # 2)) (fracn t c * (1 # 2))); [field|reflexivity|]. now apply within_scale.
    + apply (within_eq _ (fracn_fl rnd e (xorb c d) * (1 # 2)) (fracn e (xorb c d) * (1 # 2))); [field|reflexivity|]. now apply within_scale.
Qed.
Lemma countn_fl_within max n : (0 <= max)%Q -> forall c, within u (2 * height n) (countn_fl rnd max n c) (fracn n c * max).
Proof.
  intro Hm. induction n as [|v t IHt d e IHe]; intro c.
  - cbn [countn_fl fracn height]. apply (within_eq _ (if c then 0 else max) (if c then 0 else max)); [reflexivity|destruct c; ring|].
    apply within_refl. destruct c; lra.
  - cbn [countn_fl fracn height]. set (h := Nat.max (height t) (height e)).
    assert (Pt : (0 <= fracn t c * max)%Q) by (apply Qmult_le_0_compat; auto using fracn_nonneg).
    assert (Pe : (0 <= fracn e (xorb c d) * max)%Q) by (apply Qmult_le_0_compat; auto using fracn_nonneg).
    assert (A : within u (2 * h) (countn_fl rnd max t c) (fracn t c * max)) by (apply (within_mono (2 * height t)); auto; lia).
    assert (B : within u (2 * h) (countn_fl rnd max e (xorb c d)) (fracn e (xorb c d) * max)) by (apply (within_mono (2 * height e)); auto; lia).
    replace (2 * S h) with (S (S (2 * h))) by lia.
    apply (within_eq _ (rnd (rnd (countn_fl rnd max t c * (1 # 2)) + rnd (countn_fl rnd max e (xorb c d) * (1 # 2))))
             (fracn t c * max * (1 # 2) + fracn e (xorb c d) * max * (1 # 2))); [reflexivity|field|].
    apply within_rnd; [lra|]. apply within_plus; apply within_rnd; try lra; now apply within_scale.
Qed.
Lemma pow2Q_nonneg s : (0 <= inject_Z (pow2 s))%Q.
Proof. change 0%Q with (inject_Z 0). rewrite <- Zle_Qle. pose proof (pow2_pos s). lia. Qed.
Lemma CountMinterm_fl_within M n f s : wf M f -> depends_below n f ->
  within u (2 * n) (CountMinterm_fl rnd f s) (CountMinterm f s).
Proof.
  intros W D. apply (within_mono (2 * height (snd f))).
  - unfold CountMinterm. apply Qmult_le_0_compat; [apply fracn_nonneg|apply pow2Q_nonneg].
  - pose proof (height_below M n f W D). lia.
  - apply countn_fl_within. apply pow2Q_nonneg.
Qed.

Lemma minterms_fl_within M n f : wf M f -> depends_below n f ->
  forall k v, In (k, v) (count_minterms_fl rnd f) -> within u (2 * n) v (average n (fun a => b2q (ev k a))).
Proof.
  intros Hf Hd k v H. destruct (minterms_fl_map rnd f) as [(G1 & G2 & _) Kk].
  assert (Hk : In k (reachable f)) by (apply Kk, in_map_iff; exists (k, v); auto).
  assert (Wk : wf M k) by exact (edges_wf M (snd f) (fst f) 0 k Hf Hk).
  assert (Dk : depends_below n k) by (eapply reachable_below; eauto; now apply (depends_below_vars M)).
  rewrite (G1 k v H). apply (within_eq _ (frac_fl rnd k) (frac k)); [reflexivity|now apply (frac_average M)|].
  apply (within_mono (2 * height (snd k))); [apply fracn_nonneg| |apply fracn_fl_within].
  pose proof (height_below M n k Wk Dk). lia.
Qed.

Lemma divpow_within k x y s : within u k x y -> within u k (x / inject_Z (pow2 s)) (y / inject_Z (pow2 s)).
Proof.
  intro H. unfold Qdiv. apply within_scale; auto. apply Qinv_le_0_compat. apply pow2Q_nonneg.
Qed.
Lemma error_rate_fl_within M n f g : wfs M f -> wfs M g -> below n f -> below n g ->
  length f <= length g -> exists q, error_rate_fl rnd M f g = Ok q /\ within u (2 * n + 1) q (average n (fun a => b2q (differ f g a))).
Proof.
  intros Wf Wg Bf Bg L. unfold error_rate_fl. destruct (miter_spec M f g bzero L) as (r & -> & W & E). cbn [bind].
  eexists; split; [reflexivity|].
  assert (Wr : wf M r) by (apply W; auto with wf).
  assert (Dr : depends_below n r) by (intros a b Hab; rewrite !E, !ev_zero; cbn [orb]; eapply differ_below; eauto).
  set (s := terminal_level [f; g] - 1).
  assert (A : (frac r == average n (fun a => b2q (differ f g a)))%Q).
  { rewrite (frac_average M n r Wr Dr). apply average_ext. intro a. rewrite E, ev_zero. reflexivity. }
  eapply within_eq; [reflexivity|exact A|]. replace (2 * n + 1) with (S (2 * n)) by lia.
  apply within_rnd; [apply fracn_nonneg|].
  apply (within_eq _ (CountMinterm_fl rnd r s / inject_Z (pow2 s)) (CountMinterm r s / inject_Z (pow2 s)));
    [reflexivity|apply CountMinterm_ratio|].
  apply divpow_within. now apply (CountMinterm_fl_within M).
Qed.
Lemma xfrac_nonneg M f : forall g, (0 <= xfrac M f g)%Q.
Proof.
  intro g. unfold xfrac. induction (combine f g) as [|x l IH]; cbn [map].
  - discriminate.
  - rewrite sumQ_cons. assert (P : (0 <= frac (bxor M (fst x) (snd x)))%Q) by apply fracn_nonneg. lra.
Qed.
Lemma flip_sum_fl_within M n s : forall f g r q0 k, wfs M f -> wfs M g -> below n f -> below n g -> length f = length g ->
  (0 <= q0)%Q -> 2 * n <= k -> within u k r q0 ->
  exists q, flip_sum_fl rnd M f g s r = Ok q /\ within u (k + length f) q (q0 + inject_Z (pow2 s) * xfrac M f g).
Proof.
  induction f as [|x f IH]; intros [|y g] r q0 k Wf Wg Bf Bg L Q0 Hk W; cbn [length] in L; try discriminate; cbn [flip_sum_fl].
  - exists r. split; [auto|]. cbn [length]. rewrite Nat.add_0_r. eapply within_eq; [reflexivity| |exact W]. unfold xfrac. cbn. ring.
  - apply below_cons in Bf, Bg. destruct Bf as [Bx Bf], Bg as [By Bg]. inversion Wf; inversion Wg; subst.
    assert (Wx : wf M (bxor M x y)) by auto with wf. pose proof (depends_below_xor M n x y Bx By) as Dx.
    pose proof (CountMinterm_fl_within M n (bxor M x y) s Wx Dx) as C.
    assert (C0 : (0 <= CountMinterm (bxor M x y) s)%Q).
    { unfold CountMinterm. apply Qmult_le_0_compat; [apply fracn_nonneg|apply pow2Q_nonneg]. }
    apply (within_mono _ k) in C; auto.
    assert (W1 : within u (S k) (rnd (r + CountMinterm_fl rnd (bxor M x y) s)) (q0 + CountMinterm (bxor M x y) s)).
    { apply within_rnd; [lra|]. now apply within_plus. }
    assert (Q1 : (0 <= q0 + CountMinterm (bxor M x y) s)%Q) by lra.
    destruct (IH g _ _ (S k) ltac:(auto) ltac:(auto) Bf Bg ltac:(lia) Q1 ltac:(lia) W1) as (q & F & Wq).
    exists q. split; [exact F|]. cbn [length]. replace (k + S (length f)) with (S k + length f) by lia.
    eapply within_eq; [reflexivity| |exact Wq]. unfold xfrac, CountMinterm. cbn [combine map fst snd]. rewrite sumQ_cons. ring.
Qed.
Lemma average_bit_flip_fl_within M n f g : wfs M f -> wfs M g -> below n f -> below n g -> length f = length g ->
  exists q, average_bit_flip_error_fl rnd M f g = Ok q
    /\ within u (2 * n + length f + 1) q (average n (fun a => inject_Z (hamming f g a))).
Proof.
  intros Wf Wg Bf Bg L. unfold average_bit_flip_error_fl. rewrite (proj2 (Nat.eqb_eq _ _) L). cbn [assert_ bind].
  set (s := max_support g (max_support f 0)).
  destruct (flip_sum_fl_within M n s f g 0 0 (2 * n) Wf Wg Bf Bg L ltac:(lra) ltac:(lia)) as (q & -> & W); [apply within_refl; lra|].
  cbn [bind]. eexists; split; [reflexivity|].
  apply (within_eq _ (rnd (q / inject_Z (pow2 s))) (xfrac M f g)); [reflexivity|apply (xfrac_average M); auto|].
  replace (2 * n + length f + 1) with (S (2 * n + length f)) by lia. apply within_rnd; [apply xfrac_nonneg|].
  apply (within_eq _ (q / inject_Z (pow2 s)) ((0 + inject_Z (pow2 s) * xfrac M f g) / inject_Z (pow2 s))); [reflexivity| |].
  - field. apply pow2Q_nz.
  - now apply divpow_within.
Qed.
End Rel.

Lemma qpow_pos x k : (0 < x)%Q -> (0 < qpow x k)%Q.
Proof. intro H. induction k; cbn [qpow]; [reflexivity|]. apply Qmult_lt_0_compat; auto. Qed.
Lemma within_zero u k x y : (0 <= u < 1)%Q -> (0 <= y)%Q -> within u k x y -> ((x == 0)%Q <-> (y == 0)%Q).
Proof.
  intros U Hy [A B]. pose proof (qpow_pos (1 - u) k ltac:(lra)) as P. split; intro E.
  - rewrite E in A. destruct (Qlt_le_dec 0 y) as [L|L]; [|lra]. pose proof (Qmult_lt_0_compat _ _ P L). lra.
  - rewrite E in A, B. lra.
Qed.
Lemma error_rate_fl_zero u rnd M n f g : (0 <= u < 1)%Q -> relative_error u rnd ->
  wfs M f -> wfs M g -> below n f -> below n g -> length f = length g ->
  exists q, error_rate_fl rnd M f g = Ok q /\ ((q == 0)%Q <-> forall a, map (fun b => ev b a) f = map (fun b => ev b a) g).
Proof.
  intros U R Wf Wg Bf Bg L.
  destruct (error_rate_fl_within u ltac:(lra) rnd R M n f g Wf Wg Bf Bg ltac:(lia)) as (q & F & W).
  exists q. split; auto. destruct (proj1 (error_rate_full M n f g Wf Wg Bf Bg) L) as (q' & _ & E & Z).
  rewrite <- Z, E. apply (within_zero u (2 * n + 1)); auto.
  apply average_nonneg. intro a. apply b2q_nonneg.
Qed.

(** ** operators *)
Lemma qgtb_comp x x' y y' : (x == x')%Q -> (y == y')%Q -> qgtb x y = qgtb x' y'.
Proof. intros E F. unfold qgtb. now rewrite E, F. Qed.
Arguments qgtb_comp (_ _ _ _)%Q_scope _ _.
Definition same_wt (w w' : bdd -> Q) (n : node) (c : bool) : Prop := forall k, In k (edges n c) -> (w k == w' k)%Q.
Lemma same_then w w' v t d e c : same_wt w w' (Nd v t d e) c -> same_wt w w' t c.
Proof. intros H k Hk. apply H. cbn [edges]. right. apply in_or_app. auto. Qed.
Lemma same_else w w' v t d e c : same_wt w w' (Nd v t d e) c -> same_wt w w' e (xorb c d).
Proof. intros H k Hk. apply H. cbn [edges]. right. apply in_or_app. auto. Qed.
Lemma rc_ext M w w' ls le rh sub n : forall c, same_wt w w' n c -> rc M w ls le rh sub n c = rc M w' ls le rh sub n c.
Proof.
  induction n as [|v t IHt d e IHe]; intros c H; [reflexivity|]. cbn [rc].
  pose proof (same_then _ _ _ _ _ _ _ H) as St. pose proof (same_else _ _ _ _ _ _ _ H) as Se.
  rewrite (IHt c St), (IHe (xorb c d) Se).
  rewrite (qgtb_comp _ (w' (c, t)) _ (w' (xorb c d, e))); [reflexivity|apply St, in_edges_refl|apply Se, in_edges_refl].
Qed.
Lemma rr_ext M w w' ls n : forall c, same_wt w w' n c -> rr M w ls n c = rr M w' ls n c.
Proof.
  induction n as [|v t IHt d e IHe]; intros c H; [reflexivity|]. cbn [rr].
  pose proof (same_then _ _ _ _ _ _ _ H) as St. pose proof (same_else _ _ _ _ _ _ _ H) as Se.
  rewrite (IHt c St), (IHe (xorb c d) Se).
  rewrite (qgtb_comp (w (c, Nd v t d e)) (w' (c, Nd v t d e)) (1#2) (1#2)); [reflexivity|apply H, in_edges_refl|reflexivity].
Qed.

(** rounded complement of the share *)
Lemma rnd_complement p rnd (K : keeps_floats p rnd) n c q : (Z.of_nat (height n) <= p)%Z -> (q == fracn n c)%Q -> (rnd (1 - q) == 1 - q)%Q.
Proof.
  intros H E. apply K. destruct (fracn_grid n c) as (z & Hz & Ez).
  exists (pow2 (height n) - z)%Z, (- Z.of_nat (height n))%Z. split.
  - assert (P : (pow2 (height n) <= 2 ^ p)%Z) by (unfold pow2; apply Z.pow_le_mono_r; lia). rewrite Z.abs_eq; lia.
  - rewrite E, Ez. unfold Zminus. rewrite inject_Z_plus, inject_Z_opp. unfold pow2 at 1. rewrite <- p2_inj by lia.
    rewrite Qmult_plus_distr_l, <- p2_add, Z.add_opp_diag_r. change (2 ^ 0)%Q with 1%Q. ring.
Qed.
Lemma best_fl_memo p rnd (K : keeps_floats p rnd) M mc ls le n : forall c m, complete mc n c -> (Z.of_nat (height n) <= p)%Z ->
  (forall k, In k (edges n c) -> (wt_of mc k == frac k)%Q) ->
  let q := rb M (wt_of mc) ls le in memo_ok q m ->
  exists m', round_best_rec_fl rnd M n c ls le mc m = Ok (q n c, m') /\ memo_ok q m'.
Proof.
  induction n as [|v t IHt d e IHe]; intros c m HC Hh Hw p0 Hm; [exists m; split; auto|].
  cbn [round_best_rec_fl]. destruct (blookup (c, Nd v t d e) m) as [r|] eqn:E.
  { exists m. apply blookup_some in E. apply Hm in E. cbn [fst snd] in E. now rewrite E. }
  pose proof (complete_then _ _ _ _ _ _ HC) as Ct. pose proof (complete_else _ _ _ _ _ _ HC) as Ce.
  cbn [height] in Hh. assert (Ht : (Z.of_nat (height t) <= p)%Z) by lia. assert (He : (Z.of_nat (height e) <= p)%Z) by lia.
  assert (Wt : forall k, In k (edges t c) -> (wt_of mc k == frac k)%Q) by (intros k Hk; apply Hw; cbn [edges]; right; apply in_or_app; auto).
  assert (We : forall k, In k (edges e (xorb c d)) -> (wt_of mc k == frac k)%Q) by (intros k Hk; apply Hw; cbn [edges]; right; apply in_or_app; auto).
  pose proof (memo_ok_add p0) as ADD.
  assert (P : p0 (Nd v t d e) c = (
      if v <? ls then ite M (bvar v) (p0 t c) (p0 e (xorb c d))
      else if v <=? le then
        let tc := wt_of mc (c, t) in let ec := wt_of mc (xorb c d, e) in
        if qgtb ec tc && qgtb (1 - ec) tc then ite M (bvar v) (bnot bone) (p0 e (xorb c d))
        else if qgtb tc ec && qgtb (1 - tc) ec then ite M (bvar v) (p0 t c) (bnot bone)
        else if qgtb tc ec && qgtb tc (1 - ec) then ite M (bvar v) bone (p0 e (xorb c d))
        else if qgtb ec tc && qgtb ec (1 - tc) then ite M (bvar v) (p0 t c) bone
        else ite M (bvar v) (major tc) (major ec)
      else (c, Nd v t d e))) by reflexivity.
  destruct (v <? ls).
  - destruct (IHt c m Ct Ht Wt Hm) as (m1 & E1 & H1). rewrite E1. cbn [bind].
    destruct (IHe (xorb c d) m1 Ce He We H1) as (m2 & E2 & H2). rewrite E2. cbn [bind]. fold p0.
    eexists. rewrite <- P. split; [reflexivity|]. now apply ADD.
  - destruct (v <=? le).
    + rewrite !at_wt; [|apply Ce, in_edges_refl|apply Ct, in_edges_refl]. cbn [bind]. cbv zeta. cbv zeta in P.
      set (tc := wt_of mc (c, t)) in *. set (ec := wt_of mc (xorb c d, e)) in *.
      assert (RT : (rnd (1 - tc) == 1 - tc)%Q) by (apply (rnd_complement p rnd K t c); auto; apply (Wt (c, t)), in_edges_refl).
      assert (RE : (rnd (1 - ec) == 1 - ec)%Q) by (apply (rnd_complement p rnd K e (xorb c d)); auto; apply (We (xorb c d, e)), in_edges_refl).
      rewrite (qgtb_comp (rnd (1 - ec)%Q) (1 - ec) tc tc RE ltac:(reflexivity)), (qgtb_comp (rnd (1 - tc)%Q) (1 - tc) ec ec RT ltac:(reflexivity)).
      rewrite (qgtb_comp tc tc (rnd (1 - ec)%Q) (1 - ec) ltac:(reflexivity) RE), (qgtb_comp ec ec (rnd (1 - tc)%Q) (1 - tc) ltac:(reflexivity) RT).
      destruct (IHe (xorb c d) m Ce He We Hm) as (me & Ee & Hme). destruct (IHt c m Ct Ht Wt Hm) as (mt & Et & Hmt).
      repeat match goal with |- context [if ?b then _ else _] =>
        match b with context [major] => fail 1 | qgtb _ (1#2) => fail 1 | _ => destruct b end end;
        rewrite ?Ee, ?Et; cbn [bind]; fold p0; eexists; (split; [rewrite P; reflexivity|]); cbv beta zeta; unfold major in P; rewrite <- P; now apply ADD.
    + exists m. rewrite P. auto.
Qed.
Lemma rb_ext M w w' ls le n : forall c, same_wt w w' n c -> rb M w ls le n c = rb M w' ls le n c.
Proof.
  induction n as [|v t IHt d e IHe]; intros c H; [reflexivity|]. cbn [rb]. cbv zeta.
  pose proof (same_then _ _ _ _ _ _ _ H) as St. pose proof (same_else _ _ _ _ _ _ _ H) as Se.
  rewrite (IHt c St), (IHe (xorb c d) Se). unfold major.
  pose proof (St (c, t) (in_edges_refl _ _)) as T. pose proof (Se (xorb c d, e) (in_edges_refl _ _)) as E.
  set (tc := w (c, t)) in *. set (ec := w (xorb c d, e)) in *. set (tc' := w' (c, t)) in *. set (ec' := w' (xorb c d, e)) in *.
  rewrite (qgtb_comp ec ec' tc tc' E T), (qgtb_comp tc tc' ec ec' T E).
  rewrite (qgtb_comp (1 - ec) (1 - ec') tc tc' ltac:(now rewrite E) T), (qgtb_comp (1 - tc) (1 - tc') ec ec' ltac:(now rewrite T) E).
  rewrite (qgtb_comp tc tc' (1 - ec) (1 - ec') T ltac:(now rewrite E)), (qgtb_comp ec ec' (1 - tc) (1 - tc') E ltac:(now rewrite T)).
  rewrite (qgtb_comp tc tc' (1#2) (1#2) T ltac:(reflexivity)), (qgtb_comp ec ec' (1#2) (1#2) E ltac:(reflexivity)). reflexivity.
Qed.

Section Ops.
Variables (p : Z) (rnd : Q -> Q) (M : mgr) (n : nat) (f : bdd).
Hypotheses (K : keeps_floats p rnd) (W : wf M f) (D : depends_below n f) (N : (Z.of_nat n <= p)%Z).
Lemma fl_same : same_wt (wt_of (count_minterms_fl rnd f)) (wt_of (count_minterms f)) (snd f) (fst f).
Proof. intros k Hk. now apply (minterms_fl_wt p rnd M n). Qed.
Lemma fl_complete : complete (count_minterms_fl rnd f) (snd f) (fst f).
Proof. intros k Hk. now apply (proj2 (minterms_fl_map rnd f)). Qed.
Lemma round_any_fl_same ls le rh sub : round_any_fl rnd M f ls le rh sub = round_any M f ls le rh sub.
Proof.
  rewrite round_any_pure. unfold round_any_fl.
  destruct (remove_memo M (count_minterms_fl rnd f) ls le rh sub (snd f) (fst f) [] fl_complete (memo_ok_nil _)) as (m' & E & _).
  rewrite E. cbn [bind]. now rewrite (rc_ext M _ _ ls le rh sub (snd f) (fst f) fl_same).
Qed.
Lemma round_bdd_fl_same l : round_bdd_fl rnd M f l = round_bdd M f l.
Proof.
  rewrite round_bdd_pure. unfold round_bdd_fl.
  destruct (round_memo M (count_minterms_fl rnd f) l (snd f) (fst f) [] fl_complete (memo_ok_nil _)) as (m' & E & _).
  rewrite E. cbn [bind]. now rewrite (rr_ext M _ _ l (snd f) (fst f) fl_same).
Qed.
Lemma round_best_fl_same ls le : round_best_fl rnd M f ls le = round_best M f ls le.
Proof.
  rewrite round_best_pure. unfold round_best_fl.
  destruct (best_fl_memo p rnd K M (count_minterms_fl rnd f) ls le (snd f) (fst f) [] fl_complete) as (m' & E & _).
  - pose proof (height_below M n f W D). lia.
  - intros k Hk. rewrite (minterms_fl_wt p rnd M n f k) by auto. now apply minterms_wt.
  - apply memo_ok_nil.
  - rewrite E. cbn [bind]. now rewrite (rb_ext M _ _ ls le (snd f) (fst f) fl_same).
Qed.
End Ops.
Lemma round_ud_fl_same p rnd M f T ls le : keeps_floats p rnd -> index_order M -> wf M f -> levels_of [f] T -> (Z.of_nat T <= p)%Z ->
  round_up_fl rnd M f ls le = round_up M f ls le /\ round_down_fl rnd M f ls le = round_down M f ls le.
Proof.
  intros K HI W HT HN. pose proof (levels_of_terminal [f] T HT) as ET. rewrite round_up_pure, round_down_pure. unfold round_up_fl, round_down_fl.
  assert (C : complete (count_solutions_fl rnd f) (snd f) (fst f)) by (intros k Hk; now apply (proj2 (solutions_fl_map rnd f))).
  assert (S : same_wt (wt_of (count_solutions_fl rnd f)) (wt_of (count_solutions f)) (snd f) (fst f)).
  { intros k Hk. apply (solutions_fl_wt p rnd M); auto. now rewrite <- ET. }
  split.
  - destruct (remove_memo M (count_solutions_fl rnd f) ls le false false (snd f) (fst f) [] C (memo_ok_nil _)) as (m' & E & _).
    rewrite E. cbn [bind]. now rewrite (rc_ext M _ _ ls le false false (snd f) (fst f) S).
  - destruct (remove_memo M (count_solutions_fl rnd f) ls le false true (snd f) (fst f) [] C (memo_ok_nil _)) as (m' & E & _).
    rewrite E. cbn [bind]. now rewrite (rc_ext M _ _ ls le false true (snd f) (fst f) S).
Qed.
Lemma operators_fl_same p rnd M n f l ls le : keeps_floats p rnd -> wf M f -> depends_below n f -> (Z.of_nat n <= p)%Z ->
  subset_light_child_fl rnd M f ls le = subset_light_child M f ls le
  /\ subset_heavy_child_fl rnd M f ls le = subset_heavy_child M f ls le
  /\ superset_light_child_fl rnd M f ls le = superset_light_child M f ls le
  /\ superset_heavy_child_fl rnd M f ls le = superset_heavy_child M f ls le
  /\ round_bdd_fl rnd M f l = round_bdd M f l
  /\ round_best_fl rnd M f ls le = round_best M f ls le.
Proof.
  intros K W D N. repeat split; try apply (round_any_fl_same p rnd M n); auto.
  - now apply (round_bdd_fl_same p rnd M n).
  - now apply (round_best_fl_same p rnd M n).
Qed.

(** ** round to nearest *)
Lemma double_rounding : keeps_floats 53 (round_float 53) /\ relative_error (2 ^ (-53)) (round_float 53).
Proof. split; [apply round_float_keeps; discriminate|apply round_float_relative; discriminate]. Qed.
Lemma metrics_fl_exact rnd M n f g : keeps_floats 53 rnd -> wfs M f -> wfs M g -> below n f -> below n g -> length f = length g -> n <= 53 ->
  (exists q, error_rate_fl rnd M f g = Ok q /\ (q == average n (fun a => b2q (differ f g a)))%Q)
  /\ ((Z.of_nat (length f) * 2 ^ Z.of_nat n <= 2 ^ 53)%Z ->
      exists q, average_bit_flip_error_fl rnd M f g = Ok q /\ (q == average n (fun a => inject_Z (hamming f g a)))%Q).
Proof.
  intros K Wf Wg Bf Bg L N. split.
  - apply (error_rate_fl_exact 53 rnd M n); auto; lia.
  - intro H. apply (average_bit_flip_fl_exact 53 rnd M n); auto; lia.
Qed.
Lemma metrics_fl_relative u rnd M n f g : (0 <= u <= 1)%Q -> relative_error u rnd ->
  wfs M f -> wfs M g -> below n f -> below n g -> length f = length g ->
  (exists q, error_rate_fl rnd M f g = Ok q /\ within u (2 * n + 1) q (average n (fun a => b2q (differ f g a))))
  /\ (exists q, average_bit_flip_error_fl rnd M f g = Ok q
       /\ within u (2 * n + length f + 1) q (average n (fun a => inject_Z (hamming f g a)))).
Proof.
  intros U R Wf Wg Bf Bg L. split.
  - apply (error_rate_fl_within u U rnd R); auto. lia.
  - now apply (average_bit_flip_fl_within u U rnd R).
Qed.
(** x0 or the disjunction of the next 54 variables *)
Lemma operators_fl_differ : exists (M : mgr) (f : bdd),
  index_order M /\ wf M f /\ depends_below 55 f
  /\ subset_light_child_fl (round_float 53) M f 0 0 <> subset_light_child M f 0 0.
Proof.
  exists (id_mgr 55), (fold_right (fun j f => bor (id_mgr 55) (bvar j) f) bzero (seq 0 55)).
  assert (W : wf (id_mgr 55) (fold_right (fun j f => bor (id_mgr 55) (bvar j) f) bzero (seq 0 55))).
  { induction (seq 0 55) as [|i l IH]; cbn [fold_right]; auto with wf. }
  split; [intro; reflexivity|]. split; [exact W|]. split.
  - assert (L : forall l, Forall (fun i => i < 55) l -> depends_below 55 (fold_right (fun j f => bor (id_mgr 55) (bvar j) f) bzero l)).
    { induction 1 as [|i l Hi Hl IH]; cbn [fold_right]; intros a b Hab; [reflexivity|].
      rewrite !ev_or, !ev_var, (IH a b Hab), (Hab i Hi). reflexivity. }
    apply L. apply Forall_forall. intros i Hi. apply in_seq in Hi. lia.
  - set (same := fun x y : res bdd => match x, y with Ok a, Ok b => bdd_eqb a b | _, _ => true end).
    assert (D : same (subset_light_child_fl (round_float 53) (id_mgr 55) (fold_right (fun j f => bor (id_mgr 55) (bvar j) f) bzero (seq 0 55)) 0 0)
                     (subset_light_child (id_mgr 55) (fold_right (fun j f => bor (id_mgr 55) (bvar j) f) bzero (seq 0 55)) 0 0) = false)
      by (vm_compute; reflexivity).
    intro E. rewrite E in D. unfold same in D. destruct (subset_light_child _ _ _ _) as [b| | |]; try discriminate D.
    rewrite (proj2 (bdd_eqb_spec b b) eq_refl) in D. discriminate D.
Qed.
