(** Proofs about bit flips, the worst case error and its approximation. *)
From Coq Require Import List Bool Arith ZArith QArith Qabs Qround Lia Lqa.
From Verif Require Import Res Cudd CuddFacts Spec SpecFacts Helpers HelpersFacts HelpersFacts2 Counting AddFacts CountFacts PathFacts Metrics MetricsFacts.
Import ListNotations.
Open Scope nat_scope.

Lemma quot_int q z : (q == inject_Z z)%Q -> Z.quot (Qnum q) (Zpos (Qden q)) = z.
Proof.
  intro H. unfold Qeq in H. cbn [inject_Z Qnum Qden] in H. rewrite Z.mul_1_r in H. rewrite H. apply Z.quot_mul. lia.
Qed.
Lemma to_u256_int q z : (q == inject_Z z)%Q -> (0 <= z < 2 ^ 256)%Z -> to_u256 q = z.
Proof. intros H Hz. unfold to_u256. rewrite (quot_int q z H). apply Z.mod_small. auto. Qed.
Lemma inject_Z_inj x y : (inject_Z x == inject_Z y)%Q -> x = y.
Proof. unfold Qeq. cbn. lia. Qed.
Lemma injZ_nz z : z <> 0%Z -> ~ (inject_Z z == 0)%Q.
Proof. intros H E. apply H. apply inject_Z_inj. exact E. Qed.
Lemma injZ_le x y : (inject_Z x <= inject_Z y)%Q <-> (x <= y)%Z.
Proof. rewrite <- Zle_Qle. tauto. Qed.

(** ** Mean Hamming distance *)
Definition xfrac (M : mgr) (f g : list bdd) : Q := sumQ (map (fun p => frac (bxor M (fst p) (snd p))) (combine f g)).

Lemma flip_sum_spec M f : forall g s r, length f = length g ->
  exists q, flip_sum M f g s r = Ok q /\ (q == r + inject_Z (pow2 s) * xfrac M f g)%Q.
Proof.
  induction f as [|x f IH]; intros [|y g] s r H; cbn [length] in H; try discriminate; cbn [flip_sum].
  - eexists; split; [reflexivity|]. unfold xfrac. cbn. ring.
  - destruct (IH g s (r + CountMinterm (bxor M x y) s)%Q ltac:(lia)) as (q & -> & E). exists q. split; [auto|].
    rewrite E. unfold xfrac, CountMinterm. cbn [combine map fst snd]. rewrite sumQ_cons. ring.
Qed.
Lemma depends_below_xor M n x y : depends_below n x -> depends_below n y -> depends_below n (bxor M x y).
Proof. intros Hx Hy a b H. rewrite !ev_xor, (Hx a b H), (Hy a b H). reflexivity. Qed.
Lemma b2q_b2z b : (b2q b == inject_Z (Z.b2z b))%Q.
Proof. destruct b; reflexivity. Qed.
Lemma xfrac_average M n f : forall g, length f = length g -> wfs M f -> wfs M g -> below n f -> below n g ->
  (xfrac M f g == average n (fun a => inject_Z (hamming f g a)))%Q.
Proof.
  induction f as [|x f IH]; intros [|y g] H Wf Wg Bf Bg; cbn [length] in H; try discriminate.
  - unfold xfrac. cbn. rewrite average_const. reflexivity.
  - unfold xfrac. cbn [combine map fst snd]. rewrite sumQ_cons. fold (xfrac M f g).
    apply below_cons in Bf, Bg. destruct Bf as [Bx Bf], Bg as [By Bg]. inversion Wf; inversion Wg; subst.
    rewrite (IH g) by (auto; lia).
    rewrite (frac_average M n) by (auto using depends_below_xor with wf).
    rewrite <- average_plus. apply average_ext. intro a. cbn [hamming]. rewrite inject_Z_plus, b2q_b2z, ev_xor. reflexivity.
Qed.

Lemma average_bit_flip_spec M n f g : wfs M f -> wfs M g -> below n f -> below n g -> length f = length g ->
  exists q, average_bit_flip_error M f g = Ok q /\ (q == average n (fun a => inject_Z (hamming f g a)))%Q.
Proof.
  intros Wf Wg Bf Bg L. unfold average_bit_flip_error. rewrite (proj2 (Nat.eqb_eq _ _) L). cbn [assert_ bind].
  set (s := max_support g (max_support f 0)).
  destruct (flip_sum_spec M f g s 0 L) as (q & -> & E). cbn [bind]. eexists; split; [reflexivity|].
  rewrite E, <- (xfrac_average M) by auto. field. apply pow2Q_nz.
Qed.

Lemma popcount_sums_spec w r : forall bc tot, Forall (fun p => 0 <= snd p)%Z r ->
  (forall v, In v (map fst r) -> exists z, (v == inject_Z z)%Q /\ (0 <= z < 2 ^ 64)%Z /\ (0 <= popcount z <= w)%Z) ->
  (0 <= bc)%Z -> (0 <= tot)%Z -> (tot + tsum r < 2 ^ 64)%Z -> (bc + w * tsum r < 2 ^ 64)%Z ->
  exists s, popcount_sums r bc tot = Ok (s, (tot + tsum r)%Z)
    /\ (inject_Z s == inject_Z bc + wsum (fun v => inject_Z (popcount (Z.quot (Qnum v) (Zpos (Qden v))))) r)%Q.
Proof.
  induction r as [|[v c] r IH]; intros bc tot HF HV Hbc Ht Hb1 Hb2; cbn [popcount_sums].
  - exists bc. unfold tsum, wsum. cbn. rewrite Z.add_0_r. split; [auto|]. ring.
  - inversion HF as [|? ? H1 H2]; subst. cbn [snd] in H1.
    assert (T0 : (0 <= tsum r)%Z) by (clear -H2; unfold tsum; induction H2; cbn; lia).
    change (tsum ((v, c) :: r)) with (c + tsum r)%Z in *.
    destruct (HV v) as (z & Ez & Hz & Hp); [now left|].
    unfold popcountll at 1. rewrite (quot_int v z Ez).
    replace ((-1 <? z)%Z && (z <? 2 ^ 64)%Z) with true
      by (symmetry; apply andb_true_iff; split; apply Z.ltb_lt; lia). cbn [bind].
    assert (popcount z * c <= w * c)%Z by (apply Z.mul_le_mono_nonneg_r; lia).
    assert (0 <= popcount z * c)%Z by (apply Z.mul_nonneg_nonneg; lia).
    assert (0 <= w * tsum r)%Z by (apply Z.mul_nonneg_nonneg; lia).
    rewrite Z.mul_add_distr_l in Hb2.
    unfold u64. rewrite (Z.mod_small (tot + c)), (Z.mod_small (bc + popcount z * c)) by lia.
    destruct (IH (bc + popcount z * c)%Z (tot + c)%Z H2) as (s & R & E); try lia.
    { intros u Hu. apply HV. now right. }
    exists s. rewrite Z.add_assoc. split; [exact R|]. rewrite E. unfold wsum. cbn [map fst snd]. rewrite sumQ_cons.
    rewrite (quot_int v z Ez), inject_Z_plus, inject_Z_mult. ring.
Qed.

Lemma pow2_64 w : w <= 64 -> (pow2 w <= 2 ^ 64)%Z.
Proof. intro H. change (2 ^ 64)%Z with (pow2 64). now apply pow2_le. Qed.
Lemma pow2_256 w : w <= 256 -> (pow2 w <= 2 ^ 256)%Z.
Proof. intro H. change (2 ^ 256)%Z with (pow2 256). now apply pow2_le. Qed.

Lemma average_bit_flip_add_spec M n f g : index_order M -> wfs M f -> wfs M g -> below n f -> below n g -> n <= 63 ->
  length f = length g -> length f <= 64 -> (Z.of_nat (length f) * pow2 n < 2 ^ 64)%Z ->
  exists q, average_bit_flip_error_add M f g = Ok (Fin q) /\ (q == average n (fun a => inject_Z (hamming f g a)))%Q.
Proof.
  intros HI Wf Wg Bf Bg Hn L H64 Hb. unfold average_bit_flip_error_add.
  destruct (xor_difference_add_full M f g L) as (A & -> & HA & EA). destruct (HA Wf Wg) as [OA VA]. cbn [bind].
  destruct (histogram_use M A n HI OA (xor_vars_below M n f g A Wf Wg Bf Bg VA) Hn) as (r & -> & V & F & T & S). cbn [bind].
  destruct (popcount_sums_spec (Z.of_nat (length f)) r 0 0 F) as (s & -> & E); try lia.
  - intros v Hv. apply V in Hv. destruct Hv as (a & <-). exists (Z.lxor (uval f a) (uval g a)). split; [apply EA|]. split.
    + split; [apply lxor_nonneg; apply uval_range|]. pose proof (lxor_lt_pow2 f g a L). pose proof (pow2_64 _ H64). lia.
    + rewrite <- hamming_lxor by auto. apply hamming_range.
  - assert (pow2 n <= 2 ^ 63)%Z by (change (2 ^ 63)%Z with (pow2 63); apply pow2_le; lia). lia.
  - assert (Z.of_nat (length f) * tsum r <= Z.of_nat (length f) * pow2 n)%Z by (apply Z.mul_le_mono_nonneg_l; lia). lia.
  - cbn [bind Z.add]. rewrite fdiv_pos by lia. eexists; split; [reflexivity|]. rewrite E, S.
    rewrite (average_ext n _ (fun a => inject_Z (hamming f g a))).
    + change (inject_Z 0) with 0%Q. field. apply injZ_nz. lia.
    + intro a. rewrite (quot_int _ _ (EA a)), hamming_lxor by auto. reflexivity.
Qed.

Lemma average_bit_flip_full M n f g : wfs M f -> wfs M g -> below n f -> below n g ->
  (length f = length g ->
     exists q, average_bit_flip_error M f g = Ok q /\ (q == average n (fun a => inject_Z (hamming f g a)))%Q)
  /\ (length f = length g -> index_order M -> n <= 63 -> length f <= 64 -> (Z.of_nat (length f) * pow2 n < 2 ^ 64)%Z ->
     exists q, average_bit_flip_error_add M f g = Ok (Fin q) /\ (q == average n (fun a => inject_Z (hamming f g a)))%Q)
  /\ (length f <> length g -> average_bit_flip_error M f g = Abort).
Proof.
  intros Wf Wg Bf Bg. split; [|split].
  - apply average_bit_flip_spec; auto.
  - intros. apply average_bit_flip_add_spec; auto.
  - intro H. unfold average_bit_flip_error. rewrite (proj2 (Nat.eqb_neq _ _) H). reflexivity.
Qed.

(** ** Maximal Hamming distance *)
Lemma amax_spec M f : forall k, aok M k f -> is_maxQ (aev f) (amax f).
Proof.
  induction f as [q|v t IHt e IHe]; intros k H.
  - split; [exists (fun _ => false); reflexivity|]. intro a. cbn. apply Qle_refl.
  - assert (HL : (forall a, aev (AN v t e) a <= amax (AN v t e))%Q).
    { cbn in H. destruct H as (_ & H1 & H2 & _). destruct (IHt _ H1) as [_ U1], (IHe _ H2) as [_ U2].
      intro a. cbn [aev amax]. specialize (U1 a). specialize (U2 a).
      destruct (Qle_bool (amax t) (amax e)) eqn:E.
      - apply Qle_bool_iff in E. destruct (a v); lra.
      - assert (~ (amax t <= amax e)%Q) by (intro K; apply Qle_bool_iff in K; congruence). destruct (a v); lra. }
    split; [|exact HL].
    assert (HA : In (Leaf (amax (AN v t e))) (asubs (AN v t e))).
    { clear. generalize (AN v t e). intro f. induction f as [q|v' t' IHt' e' IHe']; cbn [amax asubs]; [now left|].
      right. apply in_or_app. destruct (Qle_bool (amax t') (amax e')); auto. }
    destruct (leaf_attained M _ k H _ HA) as [a Ha]. exists a. rewrite Ha. reflexivity.
Qed.

Lemma flip_add_spec M f : forall g A, length f = length g -> exists B, flip_add M f g A = Ok B
  /\ (wfs M f -> wfs M g -> aok M 0 A -> aok M 0 B)
  /\ forall a, (aev B a == aev A a + inject_Z (hamming f g a))%Q.
Proof.
  induction f as [|x f IH]; intros [|y g] A H; cbn [length] in H; try discriminate; cbn [flip_add].
  - exists A. split; [auto|]. split; [auto|]. intro a. cbn. ring.
  - destruct (IH g (aadd M A (to_add (bxor M x y))) ltac:(lia)) as (B & -> & W & E). exists B. split; [auto|]. split.
    + intros Wf Wg WA. inversion Wf; inversion Wg; subst. apply W; auto. apply apply_ok; auto. apply to_add_ok. auto with wf.
    + intro a. rewrite E. unfold aadd. rewrite apply_sem, to_add_sem. cbn [hamming].
      rewrite inject_Z_plus, b2q_b2z, ev_xor. ring.
Qed.

Lemma worst_case_bit_flip_spec M f g : wfs M f -> wfs M g -> length f = length g -> (Z.of_nat (length f) < 2 ^ 32)%Z ->
  exists m, worst_case_bit_flip_error M f g = Ok m /\ is_max (hamming f g) m.
Proof.
  intros Wf Wg L Hb. unfold worst_case_bit_flip_error. rewrite (proj2 (Nat.eqb_eq _ _) L). cbn [assert_ bind].
  destruct (flip_add_spec M f g (aconst 0) L) as (B & -> & W & E). cbn [bind].
  assert (WB : aok M 0 B) by (apply W; auto using aconst_ok).
  destruct (amax_spec M B 0 WB) as [(a & Ha) HU].
  assert (E' : forall a, (aev B a == inject_Z (hamming f g a))%Q) by (intro; rewrite E, aev_const; ring).
  exists (hamming f g a).
  assert (HM : (amax B == inject_Z (hamming f g a))%Q) by (rewrite <- Ha; apply E').
  split.
  - unfold const_ADD_value, aconst.
    rewrite (quot_int (Qred (amax B)) (hamming f g a)) by (rewrite Qred_correct; exact HM).
    pose proof (hamming_range f g a).
    replace ((-1 <? hamming f g a)%Z && (hamming f g a <? 2 ^ 32)%Z) with true; [reflexivity|].
    symmetry; apply andb_true_iff; split; apply Z.ltb_lt; lia.
  - split; [eauto|]. intro b. apply injZ_le. rewrite <- (E' b), <- HM. apply HU.
Qed.

Lemma max_popcount_spec w r : (w < 2 ^ 32)%Z ->
  (forall v, In v (map fst r) -> exists z, (v == inject_Z z)%Q /\ (0 <= z < 2 ^ 64)%Z /\ (0 <= popcount z <= w)%Z) -> forall m,
  exists x, max_popcount r m = Ok x
    /\ (m <= x)%Z /\ (forall v, In v (map fst r) -> popcount (Z.quot (Qnum v) (Zpos (Qden v))) <= x)%Z
    /\ (x = m \/ exists v, In v (map fst r) /\ x = popcount (Z.quot (Qnum v) (Zpos (Qden v)))).
Proof.
  intros Hw. induction r as [|[v c] r IH]; intros HV m; cbn [max_popcount].
  - exists m. split; [auto|]. split; [lia|]. split; [intros v []|auto].
  - destruct (HV v) as (z & Ez & Hz & Hp); [now left|].
    unfold popcountll at 1. rewrite (quot_int v z Ez).
    replace ((-1 <? z)%Z && (z <? 2 ^ 64)%Z) with true
      by (symmetry; apply andb_true_iff; split; apply Z.ltb_lt; lia). cbn [bind].
    unfold u32. rewrite (Z.mod_small (popcount z)) by lia.
    destruct (IH ltac:(intros u Hu; apply HV; now right) (Z.max (popcount z) m)) as (x & R & L1 & L2 & L3).
    exists x. split; [exact R|]. split; [lia|]. split.
    + intros u [<-|Hu]; [cbn [fst]; rewrite (quot_int v z Ez); lia|auto].
    + destruct L3 as [->|(u & Hu & ->)].
      * destruct (Z.max_spec (popcount z) m) as [[_ ->]|[_ ->]]; auto.
        right. exists v. cbn [map fst]. split; [now left|]. now rewrite (quot_int v z Ez).
      * right. exists u. split; [now right|auto].
Qed.

Lemma worst_case_bit_flip_add_spec M n f g : index_order M -> wfs M f -> wfs M g -> below n f -> below n g -> n <= 63 ->
  length f = length g -> length f <= 64 ->
  exists m, worst_case_bit_flip_error_add M f g = Ok m /\ is_max (hamming f g) m.
Proof.
  intros HI Wf Wg Bf Bg Hn L H64. unfold worst_case_bit_flip_error_add.
  destruct (xor_difference_add_full M f g L) as (A & -> & HA & EA). destruct (HA Wf Wg) as [OA VA]. cbn [bind].
  destruct (histogram_use M A n HI OA (xor_vars_below M n f g A Wf Wg Bf Bg VA) Hn) as (r & -> & V & F & T & S). cbn [bind].
  assert (EV : forall a, popcount (Z.quot (Qnum (aev A a)) (Zpos (Qden (aev A a)))) = hamming f g a).
  { intro a. rewrite (quot_int _ _ (EA a)). symmetry. now apply hamming_lxor. }
  destruct (max_popcount_spec (Z.of_nat (length f)) r) with (m := 0%Z) as (x & -> & L1 & L2 & L3); [lia| |].
  - intros v Hv. apply V in Hv. destruct Hv as (a & <-). exists (Z.lxor (uval f a) (uval g a)). split; [apply EA|]. split.
    + split; [apply lxor_nonneg; apply uval_range|]. pose proof (lxor_lt_pow2 f g a L). pose proof (pow2_64 _ H64). lia.
    + rewrite <- hamming_lxor by auto. apply hamming_range.
  - exists x. split; [auto|].
    assert (HU : forall a, (hamming f g a <= x)%Z) by (intro a; rewrite <- EV; apply L2, V; eauto).
    split; [|exact HU]. destruct L3 as [->|(v & Hv & ->)].
    + exists (fun _ => false). specialize (HU (fun _ => false)). pose proof (hamming_range f g (fun _ => false)). lia.
    + apply V in Hv. destruct Hv as (a & <-). exists a. symmetry. apply EV.
Qed.

Lemma worst_case_bit_flip_full M n f g : wfs M f -> wfs M g -> length f = length g ->
  ((Z.of_nat (length f) < 2 ^ 32)%Z -> exists m, worst_case_bit_flip_error M f g = Ok m /\ is_max (hamming f g) m)
  /\ (index_order M -> below n f -> below n g -> n <= 63 -> length f <= 64 ->
      exists m, worst_case_bit_flip_error_add M f g = Ok m /\ is_max (hamming f g) m).
Proof.
  intros Wf Wg L. split; intros.
  - now apply worst_case_bit_flip_spec.
  - apply worst_case_bit_flip_add_spec with (n := n); auto.
Qed.

(** ** The maximum of a vector *)
Lemma is_max_unique F x y : is_max F x -> is_max F y -> x = y.
Proof. intros [(a & <-) HA] [(b & <-) HB]. specialize (HA b). specialize (HB a). lia. Qed.
Lemma is_max_ext F G m : (forall a, F a = G a) -> is_max F m -> is_max G m.
Proof. intros H [(a & Ha) HU]. split; [exists a; now rewrite <- H|]. intro b. now rewrite <- H. Qed.

Lemma max_loop_spec M l : forall sigma err, wf M sigma -> Forall (wf M) l -> is_zero sigma = false -> (0 <= err < 2 ^ 256)%Z ->
  exists m, (exists a, ev sigma a = true /\ uval (rev l) a = m) /\ (forall a, ev sigma a = true -> (uval (rev l) a <= m)%Z)
    /\ max_value_loop M l sigma err = ((err + m) mod 2 ^ 256)%Z.
Proof.
  induction l as [|b l IH]; intros sigma err Ws Wl Hz He; cbn [max_value_loop].
  - exists 0%Z. apply (is_zero_false M) in Hz; auto. destruct Hz as [a Ha]. split; [exists a; auto|]. split; [intros; cbn; lia|].
    rewrite Z.add_0_r, Z.mod_small; auto.
  - inversion Wl as [|? ? Wb Wl']; subst.
    assert (EU : forall a, uval (rev (b :: l)) a = (uval (rev l) a + pow2 (length l) * Z.b2z (ev b a))%Z).
    { intro a. cbn [rev]. rewrite uval_app, rev_length. cbn [uval]. ring. }
    destruct (is_zero (band M sigma b)) eqn:E; cbn [negb].
    + destruct (IH sigma err Ws Wl' Hz He) as (m & (a & Ha & Em) & HU & R).
      assert (Hb : forall a, ev sigma a = true -> ev b a = false).
      { rewrite (is_zero_sem M) in E by auto with wf. intros c Hc. specialize (E c). rewrite ev_and, Hc in E. exact E. }
      exists m. split; [exists a; split; [auto|]; rewrite EU, (Hb a Ha), Em; cbn; lia|].
      split; [|exact R]. intros c Hc. rewrite EU, (Hb c Hc). specialize (HU c Hc). cbn. lia.
    + destruct (IH (band M sigma b) (u256 (err + shl256 (length l)))) as (m & (a & Ha & Em) & HU & R); auto with wf.
      { apply Z.mod_pos_bound. lia. }
      exists (m + pow2 (length l))%Z. rewrite ev_and in Ha. apply andb_true_iff in Ha. destruct Ha as [H1 H2].
      split; [exists a; split; [auto|]; rewrite EU, H2, Em; cbn; lia|]. split.
      * intros c Hc. rewrite EU. pose proof (uval_range (rev l) c) as U. rewrite rev_length in U.
        pose proof (uval_range (rev l) a) as U'.
        destruct (ev b c) eqn:Hbc; cbn [Z.b2z]; [|lia]. assert (K : ev (band M sigma b) c = true) by (rewrite ev_and, Hc, Hbc; auto).
        specialize (HU c K). lia.
      * rewrite R. unfold u256, shl256, u256. fold (pow2 (length l)).
        rewrite Zplus_mod_idemp_l.
        replace (err + pow2 (length l) mod 2 ^ 256 + m)%Z with (pow2 (length l) mod 2 ^ 256 + (err + m))%Z by ring.
        rewrite Zplus_mod_idemp_l. f_equal. ring.
Qed.

Lemma get_max_value_mod M f : wfs M f -> exists m, is_max (uval f) m /\ get_max_value M f = (m mod 2 ^ 256)%Z.
Proof.
  intro W. unfold get_max_value. destruct (max_loop_spec M (rev f) bone 0) as (m & (a & _ & Ea) & HU & R); auto with wf; [|lia|].
  - apply Forall_forall. intros b Hb. apply in_rev in Hb. rewrite Forall_forall in W. auto.
  - rewrite rev_involutive in *. exists m. split; [|exact R]. split; [eauto|]. intro b. apply HU. apply ev_one.
Qed.

Lemma get_max_value_full M f : wfs M f ->
  (exists m, is_max (uval f) m /\ get_max_value M f = (m mod 2 ^ 256)%Z)
  /\ (length f <= 256 -> is_max (uval f) (get_max_value M f)).
Proof.
  intro W. destruct (get_max_value_mod M f W) as (m & Hm & R). split; [eauto|].
  intro H. rewrite R, Z.mod_small; auto. destruct Hm as [(a & <-) _].
  pose proof (uval_range f a). pose proof (pow2_256 _ H). lia.
Qed.

Lemma get_max_value_bounded M f : wfs M f -> (forall a, uval f a < 2 ^ 256)%Z -> is_max (uval f) (get_max_value M f).
Proof.
  intros W H. destruct (get_max_value_mod M f W) as (m & Hm & R). rewrite R, Z.mod_small; auto.
  destruct Hm as [(a & <-) _]. pose proof (uval_range f a). specialize (H a). lia.
Qed.

(** ** Worst case error *)
Lemma dist_uval_lt f g a : (0 <= dist (uval f a) (uval g a) < pow2 (Nat.max (length f) (length g)))%Z.
Proof.
  unfold dist. pose proof (uval_range f a). pose proof (uval_range g a).
  pose proof (pow2_le (length f) (Nat.max (length f) (length g)) ltac:(lia)).
  pose proof (pow2_le (length g) (Nat.max (length f) (length g)) ltac:(lia)). lia.
Qed.
Lemma wce_base_spec M f g : wfs M f -> wfs M g -> length f <= 256 -> length g <= 256 ->
  exists m, worst_case_error M f g BaseTwo = Ok m /\ is_max (fun a => dist (uval f a) (uval g a)) m.
Proof.
  intros Wf Wg Lf Lg. unfold worst_case_error. destruct (absdiff_base M f g) as (r & -> & Lr & Wr & E). cbn [bind].
  eexists; split; [reflexivity|]. apply is_max_ext with (F := uval r); [exact E|]. apply get_max_value_bounded; auto.
  intro a. rewrite E. pose proof (dist_uval_lt f g a). pose proof (pow2_256 (Nat.max (length f) (length g)) ltac:(lia)). lia.
Qed.
Lemma dist_sym x y : dist x y = dist y x.
Proof. unfold dist. lia. Qed.
Lemma is_max_zero F : (forall a, 0 <= F a)%Z -> forall m, is_max F m -> (m = 0%Z <-> forall a, F a = 0%Z).
Proof.
  intros Hp m [(a & <-) HU]. split; [|auto]. intros E b. specialize (HU b). specialize (Hp b). lia.
Qed.

Lemma sval_dist_lt f g a : f <> [] -> g <> [] ->
  (0 <= dist (sval f a) (sval g a) < pow2 (Nat.max (length f) (length g)))%Z.
Proof.
  intros Hf Hg. unfold dist. pose proof (sval_range f a Hf). pose proof (sval_range g a Hg).
  set (w := Nat.max (length f) (length g)).
  assert (1 <= w) by (unfold w; destruct f; [congruence|cbn [length]; lia]).
  pose proof (pow2_le (length f - 1) (w - 1) ltac:(lia)). pose proof (pow2_le (length g - 1) (w - 1) ltac:(lia)).
  pose proof (pow2_S (w - 1)) as K. replace (S (w - 1)) with w in K by lia. lia.
Qed.
Lemma value_dist_lt r f g a : (r = TwosComplement -> f <> [] /\ g <> []) ->
  (0 <= dist (value r f a) (value r g a) < pow2 (Nat.max (length f) (length g)))%Z.
Proof. destruct r; cbn [value]; intro H; [apply dist_uval_lt|apply sval_dist_lt; now apply H]. Qed.

Lemma fold_max_spec (r : list (Q * Z)) : (forall v, In v (map fst r) -> exists z, (v == inject_Z z)%Q /\ (0 <= z < 2 ^ 256)%Z) -> forall m,
  let x := fold_left (fun max_value p => Z.max (to_u256 (fst p)) max_value) r m in
  (m <= x)%Z /\ (forall (v : Q), In v (map fst r) -> to_u256 v <= x)%Z /\ (x = m \/ exists v, In v (map fst r) /\ x = to_u256 v).
Proof.
  induction r as [|[v c] r IH]; intros HV m; cbn [fold_left fst].
  - split; [lia|]. split; [intros v []|auto].
  - destruct (IH ltac:(intros u Hu; apply HV; now right) (Z.max (to_u256 v) m)) as (L1 & L2 & L3). cbv zeta in *.
    set (x := fold_left _ r _) in *. split; [lia|]. split.
    + intros u [<-|Hu]; [cbn [fst]; lia|auto].
    + destruct L3 as [L3|(u & Hu & L3)].
      * rewrite L3. destruct (Z.max_spec (to_u256 v) m) as [[_ ->]|[_ ->]]; auto.
        right. exists v. split; [now left|auto].
      * right. exists u. split; [now right|auto].
Qed.

Lemma absdiff_vars_below M n f g A : wfs M f -> wfs M g -> below n f -> below n g ->
  (forall i, In i (avars A) -> vars_in f i \/ vars_in g i) -> forall i, In i (avars A) -> i < n.
Proof. exact (xor_vars_below M n f g A). Qed.

Lemma wce_add_spec M n f g r : index_order M -> wfs M f -> wfs M g -> below n f -> below n g -> n <= 63 ->
  (r = TwosComplement -> f <> [] /\ g <> []) -> length f <= 256 -> length g <= 256 ->
  exists m, worst_case_error_add M f g r = Ok m /\ is_max (fun a => dist (value r f a) (value r g a)) m.
Proof.
  intros HI Wf Wg Bf Bg Hn Hr Lf Lg. unfold worst_case_error_add.
  destruct (absdiff_add_spec M f g r Hr) as (A & -> & HA & VA & EA). cbn [bind].
  destruct (histogram_use M A n HI (HA Wf Wg) (absdiff_vars_below M n f g A Wf Wg Bf Bg VA) Hn) as (h & -> & V & F & T & S). cbn [bind].
  assert (HB : forall a, (0 <= dist (value r f a) (value r g a) < 2 ^ 256)%Z).
  { intro a. pose proof (value_dist_lt r f g a Hr). pose proof (pow2_256 (Nat.max (length f) (length g)) ltac:(lia)). lia. }
  assert (EV : forall a, to_u256 (aev A a) = dist (value r f a) (value r g a)) by (intro; apply to_u256_int; auto).
  destruct (fold_max_spec h) with (m := 0%Z) as (L1 & L2 & L3).
  { intros v Hv. apply V in Hv. destruct Hv as (a & <-). eauto. }
  cbv zeta in *. set (x := fold_left _ h 0%Z) in *. exists x. split; [reflexivity|].
  assert (HU : forall a, (dist (value r f a) (value r g a) <= x)%Z) by (intro a; rewrite <- EV; apply L2, V; eauto).
  split; [|exact HU]. destruct L3 as [L3|(v & Hv & L3)].
  - exists (fun _ => false). specialize (HU (fun _ => false)). specialize (HB (fun _ => false)). lia.
  - apply V in Hv. destruct Hv as (a & <-). exists a. rewrite L3. symmetry. apply EV.
Qed.
