(** Facts about wcre_search *)
From Coq Require Import List Bool Arith ZArith QArith Qround Lia Lqa.
From Verif Require Import Res Cudd CuddFacts Spec SpecFacts Helpers HelpersFacts HelpersFacts2 Counting AddFacts CountFacts PathFacts Metrics MetricsFacts MetricsFacts2 MetricsFacts3 MetricsFacts4 RelMetrics RelFacts RelFacts2 RelFacts3.
Import ListNotations.
Open Scope nat_scope.

Definition N16 : Z := 65536.

Section Search.
Variable M : mgr.
Variable clog2 : Z -> nat.
Hypothesis HC : clog2_ok clog2.
Variables d f_ : list bdd.
Hypothesis Wd : wfs M d.
Hypothesis Wf : wfs M f_.
Let D := uval d.
Let F := uval f_.
Hypothesis HF : forall a, (1 <= F a)%Z.
Hypothesis F16 : forall a, (N16 | F a)%Z.

(** [m / 65536] exceeded at an input *)
Definition above (m : Z) (a : asg) : Prop := (m * F a < N16 * D a)%Z.

Lemma times_spec lg c m : wf M lg -> (c * inject_Z N16 == inject_Z m)%Q -> (N16 <= m < N16 * 2 ^ 128)%Z ->
  exists r, bdd_multiply_constant_double M clog2 (mask M f_ lg) c 16 = Ok r /\ wfs M r
    /\ forall a, (N16 * uval r a = m * (if ev lg a then F a else 0))%Z.
Proof.
  intros Wl Hc Hm. 
  assert (C1 : (1 <= c)%Q).
  { assert (inject_Z N16 <= inject_Z m)%Q by (apply (proj2 (injZ_le _ _)); lia). change (inject_Z N16) with 65536%Q in *. lra. }
  assert (C2 : (c < inject_Z (2 ^ 256))%Q).
  { assert (inject_Z m < inject_Z (N16 * 2 ^ 128))%Q by (apply (proj2 (injZ_lt _ _)); lia).
    rewrite inject_Z_mult in H. change (inject_Z N16) with 65536%Q in *.
    assert (inject_Z (2 ^ 128) < inject_Z (2 ^ 256))%Q by (apply (proj2 (injZ_lt _ _)); vm_compute; reflexivity). lra. }
  destruct (multiply_double_full M clog2 (mask M f_ lg) c 16 HC ltac:(lra) C2 ltac:(lia)) as (r & -> & _ & Wr & V).
  exists r. split; auto. split; [apply Wr, mask_wf; auto|]. intro a. destruct (V a) as (_ & _ & _ & V4).
  rewrite mask_uval in V4. fold (F a) in V4. change (pow2 16) with N16 in V4.
  specialize (V4 ltac:(destruct (ev lg a); [apply F16|apply Z.divide_0_r]) (ex_intro _ m Hc)).
  assert (E : (inject_Z (N16 * uval r a) == inject_Z (m * (if ev lg a then F a else 0)))%Q).
  { rewrite !inject_Z_mult, V4, <- Hc. ring. }
  apply inject_Z_injective. exact E.
Qed.

(** the comparison at [m / 65536] restricted to the inputs of [lg] *)
Lemma compare_spec lg c m : wf M lg -> (c * inject_Z N16 == inject_Z m)%Q -> (N16 <= m < N16 * 2 ^ 128)%Z ->
  exists r, bdd_multiply_constant_double M clog2 (mask M f_ lg) c 16 = Ok r
    /\ wf M (greater_than M (mask M d lg) r)
    /\ (forall a, ev (greater_than M (mask M d lg) r) a = true <-> ev lg a = true /\ above m a)
    /\ match exists_greater_equals M (mask M d lg) r with
       | (true, false) => exists a, ev lg a = true /\ above m a
       | (true, true) => (forall a, ev lg a = true -> ~ above m a)
                         /\ exists a, (ev lg a = true -> m * F a = N16 * D a)%Z
       | (false, false) => forall a, ev lg a = true /\ (N16 * D a < m * F a)%Z
       | (false, true) => False
       end.
Proof.
  intros Wl Hc Hm. destruct (times_spec lg c m Wl Hc Hm) as (r & E & Wr & V). exists r. split; auto.
  assert (Wm : wfs M (mask M d lg)) by (apply mask_wf; auto).
  split; [apply greater_than_wf; auto|]. split.
  - intro a. rewrite greater_than_spec, mask_uval, Z.ltb_lt. specialize (V a). unfold above, D, N16 in *. pose proof (uval_range d a).
    destruct (ev lg a); split; intro X; try (split; [reflexivity|]); try lia.
  - pose proof (exists_greater_equals_spec M (mask M d lg) r Wm Wr) as S. unfold classified in S.
    destruct (exists_greater_equals M (mask M d lg) r) as [[|] [|]]; auto.
    + destruct S as (S1 & a & S2). split.
      * intros b Hb. specialize (S1 b). specialize (V b). rewrite mask_uval, Hb in S1. rewrite Hb in V. unfold above, D, N16 in *. lia.
      * exists a. intro Ha. specialize (V a). rewrite mask_uval, Ha in S2. rewrite Ha in V. unfold D, N16 in *. lia.
    + destruct S as (a & S). exists a. rewrite mask_uval in S. specialize (V a). unfold above, D, N16 in *. pose proof (uval_range r a).
      destruct (ev lg a); [split; [auto|lia]|lia].
    + intro a. specialize (S a). specialize (V a). rewrite mask_uval in S. unfold D, N16 in *. destruct (ev lg a); [split; [auto|lia]|lia].
Qed.

(** in rationals *)
Definition quotient (a : asg) : Q := (inject_Z (D a) / inject_Z (F a))%Q.

Lemma above_iff m c a : (c * inject_Z N16 == inject_Z m)%Q -> (above m a <-> (c < quotient a)%Q).
Proof.
  intro Hc. assert (P : (0 < inject_Z (F a))%Q) by (apply injZ_pos; specialize (HF a); lia).
  assert (E : (inject_Z (D a) == quotient a * inject_Z (F a))%Q) by (unfold quotient; field; lra).
  unfold above. rewrite <- injZ_lt, !inject_Z_mult, <- Hc, E. change (inject_Z N16) with 65536%Q. split; intro H.
  - apply (Qmult_lt_r _ _ (inject_Z (F a)) P). lra.
  - apply (Qmult_lt_r _ _ (inject_Z (F a)) P) in H. lra.
Qed.
Lemma equal_iff m c a : (c * inject_Z N16 == inject_Z m)%Q -> ((m * F a = N16 * D a)%Z -> (c == quotient a)%Q).
Proof.
  intros Hc H. assert (P : (0 < inject_Z (F a))%Q) by (apply injZ_pos; specialize (HF a); lia).
  assert (E : (inject_Z (D a) == quotient a * inject_Z (F a))%Q) by (unfold quotient; field; lra).
  assert (H' : (inject_Z (m * F a) == inject_Z (N16 * D a))%Q) by now rewrite H.
  rewrite !inject_Z_mult, <- Hc, E in H'. change (inject_Z N16) with 65536%Q in H'.
  apply (Qmult_inj_r _ _ (inject_Z (F a))); [lra|]. lra.
Qed.
Lemma less_iff m c a : (c * inject_Z N16 == inject_Z m)%Q -> (N16 * D a < m * F a)%Z -> (quotient a < c)%Q.
Proof.
  intros Hc H. assert (P : (0 < inject_Z (F a))%Q) by (apply injZ_pos; specialize (HF a); lia).
  assert (E : (inject_Z (D a) == quotient a * inject_Z (F a))%Q) by (unfold quotient; field; lra).
  apply (proj2 (injZ_lt _ _)) in H. rewrite !inject_Z_mult, <- Hc, E in H. change (inject_Z N16) with 65536%Q in H.
  apply (Qmult_lt_r _ _ (inject_Z (F a)) P). lra.
Qed.

Variable top : Q.
Hypothesis Htop : is_maxQ quotient top.

(** state of the bisection: the lower end [mi / 65536] is exceeded exactly on [lg] *)
Definition state (mi : Z) (j : nat) (mn mx : Q) (lg : bdd) : Prop :=
  (N16 <= mi)%Z /\ (mi + pow2 j < N16 * 2 ^ 128)%Z /\ (mn * inject_Z N16 == inject_Z mi)%Q /\ (mx * inject_Z N16 == inject_Z (mi + pow2 j))%Q
  /\ wf M lg /\ (forall a, ev lg a = true <-> (mn < quotient a)%Q) /\ (mn < top <= mx)%Q.

Definition answer (precision mn mx : Q) (r : Q) : Prop :=
  (top - precision / 2 <= r)%Q /\ (r - top < (mx - mn) / 2)%Q
  /\ ((forall a, (quotient a == top)%Q) -> (r <= top + precision / 2)%Q).

Lemma bisect_spec precision : (1 # 65536 <= precision)%Q -> forall j fuel mi mn mx lg, j <= fuel -> state mi j mn mx lg ->
  exists r, ws_bisect M clog2 d f_ precision fuel mn mx lg = Some (Ok r) /\ answer precision mn mx r.
Proof.
  intros Hp. induction j as [|j IH]; intros fuel mi mn mx lg Hf (S1 & S2 & S3 & S4 & S5 & S6 & S7).
  - assert (E : Qle_bool (mx - mn) precision = true).
    { apply Qle_bool_iff. rewrite inject_Z_plus in S4. change (inject_Z (pow2 0)) with 1%Q in S4. change (inject_Z N16) with 65536%Q in *. lra. }
    exists ((mn + mx) / 2)%Q. split; [destruct fuel; cbn [ws_bisect]; rewrite E; reflexivity|].
    apply Qle_bool_iff in E. unfold answer. 
    assert (H2 : ((mn + mx) / 2 == (1#2) * mn + (1#2) * mx)%Q) by field.
    assert (H3 : (precision / 2 == (1#2) * precision)%Q) by field.
    assert (H4 : ((mx - mn) / 2 == (1#2) * mx - (1#2) * mn)%Q) by field. rewrite H2, H3, H4. repeat split; intros; lra.
  - destruct fuel as [|fuel]; [lia|]. cbn [ws_bisect].
    destruct (Qle_bool (mx - mn) precision) eqn:E.
    + exists ((mn + mx) / 2)%Q. split; auto. apply Qle_bool_iff in E. unfold answer. 
      assert (H2 : ((mn + mx) / 2 == (1#2) * mn + (1#2) * mx)%Q) by field.
      assert (H3 : (precision / 2 == (1#2) * precision)%Q) by field.
      assert (H4 : ((mx - mn) / 2 == (1#2) * mx - (1#2) * mn)%Q) by field. rewrite H2, H3, H4. repeat split; intros; lra.
    + clear E. cbv zeta.
      assert (Hj : pow2 (S j) = (2 * pow2 j)%Z) by apply pow2_S. pose proof (pow2_pos j) as Pj.
      assert (Hm : ((mn + mx) / 2 * inject_Z N16 == inject_Z (mi + pow2 j))%Q).
      { assert (X : ((mn + mx) / 2 * inject_Z N16 == (mn * inject_Z N16 + mx * inject_Z N16) / 2)%Q) by field.
        rewrite X, S3, S4, Hj, !inject_Z_plus, inject_Z_mult. field. }
      destruct (compare_spec lg ((mn + mx) / 2) (mi + pow2 j)%Z S5 Hm ltac:(lia)) as (r & Er & Wgr & Vgr & CL). rewrite Er.
      set (mid := ((mn + mx) / 2)%Q) in *. assert (Emid : (mid == (1#2) * mn + (1#2) * mx)%Q) by (unfold mid; field).
      assert (H4 : ((mx - mn) / 2 == (1#2) * mx - (1#2) * mn)%Q) by field.
      assert (H3 : (precision / 2 == (1#2) * precision)%Q) by field.
      destruct (exists_greater_equals M (mask M d lg) r) as [[|] [|]]; cbn [fst snd].
      * destruct CL as [C1 (x & C2)]. exists mid. split; auto.
        assert (TM : (top <= mid)%Q).
        { destruct Htop as [(a & Ha) _]. rewrite <- Ha. destruct (ev lg a) eqn:El.
          - specialize (C1 a El). rewrite (above_iff _ mid) in C1 by auto. lra.
          - assert (~ (mn < quotient a)%Q) by (rewrite <- S6, El; discriminate). lra. }
        unfold answer. rewrite H3, H4. repeat split; try lra. intro U.
        assert (El : ev lg x = true) by (apply S6; rewrite U; lra). specialize (C2 El).
        apply (equal_iff _ mid) in C2; auto. rewrite U in C2. lra.
      * destruct CL as (x & Cx1 & Cx2). rewrite (above_iff _ mid) in Cx2 by auto.
        destruct (IH fuel (mi + pow2 j)%Z mid mx (greater_than M (mask M d lg) r)) as (r' & -> & A); [lia| |].
        { unfold state. rewrite Hj in S2, S4. repeat split; auto; try lia; try lra.
          - rewrite S4. apply inject_Z_injective. lia.
          - intro H. apply Vgr in H. destruct H as [_ H]. now rewrite (above_iff _ mid) in H by auto.
          - intro H. apply Vgr. split; [apply S6; lra|]. now rewrite (above_iff _ mid) by auto.
          - destruct Htop as [_ HT]. specialize (HT x). lra. }
        exists r'. split; auto. destruct A as (A1 & A2 & A3). unfold answer. split; [auto|]. split; [|auto].
        assert (H5 : ((mx - mid) / 2 == (1#2) * mx - (1#2) * mid)%Q) by field. lra.
      * contradiction.
      * destruct (IH fuel mi mn mid lg) as (r' & -> & A); [lia| |].
        { unfold state. rewrite Hj in S2, S4. repeat split; auto; try lia; try lra.
          - intro H. now apply S6.
          - intro H. now apply S6.
          - destruct Htop as [(a & Ha) _]. rewrite <- Ha. destruct (CL a) as [_ CLa]. apply (less_iff _ mid) in CLa; auto. lra. }
        exists r'. split; auto. destruct A as (A1 & A2 & A3). unfold answer. split; [auto|]. split; [|auto].
        assert (H5 : ((mid - mn) / 2 == (1#2) * mid - (1#2) * mn)%Q) by field. lra.
Qed.

Lemma mask_one f : wfs M f -> mask M f bone = f.
Proof.
  induction 1 as [|b f Wb Wf' IH]; cbn [mask map]; [reflexivity|]. fold (mask M f bone). rewrite IH. f_equal.
  apply (canonical M); auto with wf. intro a. rewrite ev_and. cbn. now rewrite andb_true_r.
Qed.

Lemma compare_one c k : (c == inject_Z (pow2 k))%Q -> k < 128 ->
  exists r, bdd_multiply_constant_double M clog2 f_ c 16 = Ok r
    /\ wf M (greater_than M d r)
    /\ (forall a, ev (greater_than M d r) a = true <-> (c < quotient a)%Q)
    /\ match exists_greater_equals M d r with
       | (true, false) => exists a, (c < quotient a)%Q
       | (true, true) => is_maxQ quotient c
       | (false, false) => forall a, (quotient a < c)%Q
       | (false, true) => False
       end.
Proof.
  intros Hc Hk. assert (Hm : (c * inject_Z N16 == inject_Z (N16 * pow2 k))%Q) by (rewrite Hc, inject_Z_mult; ring).
  pose proof (pow2_pos k). assert (P : (pow2 k < 2 ^ 128)%Z) by (apply (pow2_lt k 128); lia).
  destruct (compare_spec bone c (N16 * pow2 k)%Z (wf_one M) Hm) as (r & Er & Wr & Vr & CL).
  { unfold N16. lia. }
  rewrite mask_one in * by auto. exists r. split; auto. split; auto. split.
  - intro a. rewrite Vr, (above_iff _ c) by auto. cbn. tauto.
  - destruct (exists_greater_equals M d r) as [[|] [|]]; auto.
    + destruct CL as [C1 (x & C2)]. split.
      * exists x. symmetry. apply (equal_iff _ c x Hm). apply C2. reflexivity.
      * intro a. specialize (C1 a eq_refl). rewrite (above_iff _ c) in C1 by auto. lra.
    + destruct CL as (x & _ & C). exists x. now rewrite (above_iff _ c) in C by auto.
    + intro a. destruct (CL a) as [_ C]. now apply (less_iff _ c) in C.
Qed.

Lemma double_spec L : (forall a, D a < pow2 L * F a)%Z -> L <= 127 -> forall fuel k, fuel + k = S L ->
  (k <> 0 -> (inject_Z (pow2 (k - 1)) < top)%Q) ->
  exists x, ws_double M clog2 d f_ fuel (pow2 k) = Ok x
    /\ match x with
       | inl q => (q == top)%Q /\ (1 <= q)%Q
       | inr (mn, mx, lg) => (mn = 0%Q /\ mx = 1%Q /\ lg = bone /\ (top < 1)%Q)
                             \/ ((1 < top)%Q /\ (mx - mn == mn)%Q /\ exists mi j, j <= 142 /\ state mi j mn mx lg)
       end.
Proof.
  intros HB HL. assert (TL : (top < inject_Z (pow2 L))%Q).
  { destruct Htop as [(a & Ha) _]. rewrite <- Ha. apply (less_iff (N16 * pow2 L)%Z).
    - rewrite inject_Z_mult. ring.
    - specialize (HB a). unfold N16. lia. }
  assert (KL : forall k, (k <> 0 -> (inject_Z (pow2 (k - 1)) < top)%Q) -> k <= L).
  { intros k Hk. destruct k; [lia|]. specialize (Hk ltac:(lia)). rewrite Nat.sub_succ, Nat.sub_0_r in Hk.
    assert (H : (inject_Z (pow2 k) < inject_Z (pow2 L))%Q) by lra. apply (proj1 (injZ_lt _ _)) in H.
    destruct (le_lt_dec L k) as [X|X]; [apply pow2_le in X; lia|lia]. }
  induction fuel as [|fuel IH]; intros k Hk HT; [specialize (KL k HT); lia|]. cbn [ws_double].
  specialize (KL k HT). pose proof (pow2_pos k) as Pk.
  assert (P : (pow2 k < 2 ^ 128)%Z) by (apply (pow2_lt k 128); lia).
  rewrite (proj2 (Z.ltb_lt _ _) P). cbn [require_ bind].
  destruct (compare_one (inject_Z (pow2 k)) k ltac:(reflexivity) ltac:(lia)) as (r & -> & Wr & Vr & CL). cbn [bind].
  destruct (exists_greater_equals M d r) as [[|] [|]]; cbn [fst snd negb].
  - eexists. split; [reflexivity|]. cbv iota. split.
    + destruct CL as [(x & C1) C2], Htop as [(y & T1) T2]. specialize (C2 y). specialize (T2 x). lra.
    + change 1%Q with (inject_Z 1). apply (proj2 (injZ_le _ _)). lia.
  - replace (pow2 k * 2)%Z with (pow2 (S k)) by (rewrite pow2_S; lia). apply IH; [lia|]. intros _. rewrite Nat.sub_succ, Nat.sub_0_r.
    destruct CL as (x & C), Htop as [_ T2]. specialize (T2 x). lra.
  - contradiction.
  - assert (TK : (top < inject_Z (pow2 k))%Q) by (destruct Htop as [(a & Ha) _]; rewrite <- Ha; apply CL).
    destruct k as [|k].
    + change (pow2 0 =? 1)%Z with true. cbv iota. eexists. split; [reflexivity|]. cbv iota. left. change (inject_Z (pow2 0)) with 1%Q in TK. auto.
    + assert (E1 : (pow2 (S k) =? 1)%Z = false) by (apply Z.eqb_neq; rewrite pow2_S in *; lia). rewrite E1. 
      specialize (HT ltac:(lia)). rewrite Nat.sub_succ, Nat.sub_0_r in HT.
      assert (EH : (inject_Z (pow2 (S k)) / 2 == inject_Z (pow2 k))%Q) by (rewrite pow2_S, inject_Z_mult; field).
      destruct (compare_one (inject_Z (pow2 (S k)) / 2) k EH ltac:(lia)) as (r2 & -> & Wr2 & Vr2 & _). cbn [bind].
      eexists. split; [reflexivity|]. cbv iota. right. pose proof (pow2_pos k).
      assert (ES : (inject_Z (pow2 (S k)) == 2 * inject_Z (pow2 k))%Q) by (rewrite pow2_S, inject_Z_mult; reflexivity).
      split; [|split].
      * assert (inject_Z 1 <= inject_Z (pow2 k))%Q by (apply (proj2 (injZ_le _ _)); lia). change (inject_Z 1) with 1%Q in *. lra.
      * rewrite EH. lra.
      * exists (N16 * pow2 k)%Z, (16 + k). split; [lia|]. unfold state.
        assert (P16 : pow2 (16 + k) = (N16 * pow2 k)%Z) by (rewrite pow2_add; reflexivity). rewrite P16.
        rewrite pow2_S in P. unfold N16 in *.
        repeat split; auto; try lia.
        -- rewrite EH, inject_Z_mult. ring.
        -- rewrite ES, inject_Z_plus, inject_Z_mult. change (inject_Z 65536) with 65536%Q. lra.
        -- intro X. now apply Vr2.
        -- intro X. now apply Vr2.
        -- lra.
        -- lra.
Qed.
End Search.

Lemma uval_prefix0 e f a : uval (repeat bzero e ++ f) a = (pow2 e * uval f a)%Z.
Proof. rewrite uval_app, uval_repeat, repeat_length. cbn. lia. Qed.

Lemma wfs_prefix0 M e f : wfs M f -> wfs M (repeat bzero e ++ f).
Proof. intro H. apply Forall_app. split; auto. apply Forall_forall. intros x Hx. apply repeat_spec in Hx. subst. apply wf_zero. Qed.

(** what wcre_search returns, relative to the true maximum [top] *)
Theorem wcre_search_spec M clog2 n f g r e precision top : clog2_ok clog2 -> wfs M f -> wfs M g -> below n f -> below n g ->
  f <> [] -> (r = TwosComplement -> g <> []) -> Nat.max (length f) (length g) <= 126 -> 16 <= e ->
  (1 # 65536 <= precision < 1)%Q -> is_maxQ (wrel r f g) top ->
  forall fuel, 142 <= fuel ->
  ((top == 0)%Q -> wcre_search M clog2 f g e precision r fuel = Some (Ok 0%Q))
  /\ ((0 < top < 1)%Q -> wcre_search M clog2 f g e precision r fuel = Some UB)
  /\ ((1 <= top)%Q -> exists q, wcre_search M clog2 f g e precision r fuel = Some (Ok q)
        /\ (top - precision / 2 <= q)%Q /\ (q < (3 # 2) * top)%Q
        /\ ((forall a, (wrel r f g a == top)%Q) -> (q <= top + precision / 2)%Q)).
Proof.
  intros HC Wf Wg Bf Bg Hf Hg HL He Hp Ht fuel Hfuel. unfold wcre_search, ws_start.
  destruct (rel_parts M _ f g r Wf Wg Bf Bg Hf Hg) as (d & fa & f_ & Ed & Ea & Em & Ld & La & Lm & Wd & Wa & Wm & Bd & Ba & Bm & V).
  rewrite Ea. cbn [bind]. rewrite Em. cbn [bind]. rewrite Ed. cbn [bind].
  destruct (forallb is_zero d) eqn:Ez.
  { rewrite (all_zero_iff M) in Ez by auto.
    assert (T0 : (top == 0)%Q).
    { destruct Ht as [(a & Ha) _]. rewrite <- Ha. unfold wrel. destruct (V a) as (V1 & _). rewrite <- V1, Ez.
      assert (0 < inject_Z (Z.max 1 (Z.abs (value r f a))))%Q by (apply injZ_pos; lia). change (inject_Z 0) with 0%Q. field. lra. }
    split; [auto|]. split; intro; exfalso; lra. }
  apply (all_zero_false M) in Ez; auto. destruct Ez as (a0 & Ha0).
  set (d' := repeat bzero e ++ d). set (f' := repeat bzero e ++ f_).
  assert (Pe := pow2_pos e).
  assert (HQ : forall a, (quotient d' f' a == wrel r f g a)%Q).
  { intro a. unfold quotient, wrel, d', f'. rewrite !uval_prefix0. destruct (V a) as (-> & _ & ->). rewrite !inject_Z_mult.
    assert (0 < inject_Z (pow2 e))%Q by now apply injZ_pos. assert (0 < inject_Z (Z.max 1 (Z.abs (value r f a))))%Q by (apply injZ_pos; lia). field. lra. }
  assert (Ht' : is_maxQ (quotient d' f') top).
  { destruct Ht as [(a & Ha) HT]. split; [exists a; now rewrite HQ|]. intro b. rewrite HQ. apply HT. }
  assert (HF : forall a, (1 <= uval f' a)%Z) by (intro a; unfold f'; rewrite uval_prefix0; destruct (V a) as (_ & _ & ->); nia).
  assert (F16 : forall a, (N16 | uval f' a)%Z).
  { intro a. unfold f'. rewrite uval_prefix0. exists (pow2 (e - 16) * uval f_ a)%Z. replace e with (16 + (e - 16)) at 1 by lia. rewrite pow2_add.
    change (pow2 16) with N16. ring. }
  assert (Wd' : wfs M d') by (apply wfs_prefix0; auto). assert (Wf' : wfs M f') by (apply wfs_prefix0; auto).
  assert (T0 : (0 < top)%Q).
  { destruct Ht' as [_ HT]. specialize (HT a0). rewrite HQ in HT. unfold wrel in HT. destruct (V a0) as (V1 & _). rewrite <- V1 in HT.
    assert (X : (0 < inject_Z (Z.max 1 (Z.abs (value r f a0))))%Q) by (apply injZ_pos; lia).
    apply (div_le_iff _ _ _ X) in HT. assert (0 < inject_Z (uval d a0))%Q by now apply injZ_pos.
    destruct (Qlt_le_dec 0 top) as [|X2]; auto. exfalso.
    assert (top * inject_Z (Z.max 1 (Z.abs (value r f a0))) <= 0)%Q by (rewrite <- (Qmult_0_l (inject_Z (Z.max 1 (Z.abs (value r f a0))))); apply Qmult_le_compat_r; lra). lra. }
  split; [intro; lra|].
  destruct (double_spec M clog2 HC d' f' Wd' Wf' HF F16 top Ht' (length d)) with (fuel := S (length d)) (k := 0) as (x & Ex & Hx); try lia.
  { intro a. unfold d', f'. rewrite !uval_prefix0. pose proof (uval_range d a). destruct (V a) as (_ & _ & V3). pose proof (pow2_pos (length d)).
    assert (1 <= uval f_ a)%Z by lia.
    assert (X : (uval d a < pow2 (length d) * uval f_ a)%Z) by nia.
    replace (pow2 (length d) * (pow2 e * uval f_ a))%Z with (pow2 e * (pow2 (length d) * uval f_ a))%Z by ring.
    apply Z.mul_lt_mono_pos_l; auto. }
  change (pow2 0) with 1%Z in Ex. rewrite Ex. cbn [bind].
  destruct x as [q|[[mn mx] lg]].
  - split; [intro|intro].
    + exfalso. lra.
    + exists q. split; auto. assert (precision / 2 == (1#2) * precision)%Q by field. split; [lra|]. split; [lra|]. intros; lra.
  - destruct Hx as [(-> & -> & -> & T1)|(T1 & Tm & mi & j & Hj & HS)].
    + split; [intros _|intro; lra]. destruct fuel as [|fuel]; [lia|]. cbn [ws_bisect].
      assert (E : Qle_bool (1 - 0) precision = false).
      { destruct (Qle_bool (1 - 0) precision) eqn:E; auto. apply Qle_bool_iff in E. lra. }
      rewrite E. cbv zeta. rewrite multiply_double_ub; [reflexivity|]. vm_compute. discriminate.
    + split; [intro; lra|]. intros _.
      destruct (bisect_spec M clog2 HC d' f' Wd' Wf' HF F16 top Ht' precision ltac:(lra) j fuel mi mn mx lg ltac:(lia) HS) as (q & -> & A1 & A2 & A3).
      exists q. split; auto. split; auto. split.
      * destruct HS as (_ & _ & _ & _ & _ & _ & S7). assert (((mx - mn) / 2 == (1#2) * mn)%Q) by (rewrite Tm; field). lra.
      * intro U. apply A3. intro a. rewrite HQ. apply U.
Qed.
