(** The value wcre_search returns *)
From Coq Require Import List Bool Arith ZArith QArith Qround Qpower Lia Lqa.
From Verif Require Import Res Cudd CuddFacts Spec SpecFacts SpecBisect Helpers HelpersFacts HelpersFacts2 Counting AddFacts CountFacts PathFacts Metrics MetricsFacts
  MetricsFacts2 MetricsFacts3 MetricsFacts4 RelMetrics RelFacts RelFacts2 RelFacts3 RelFacts4 RelFacts5 RelFacts6.
Import ListNotations.
Open Scope nat_scope.

Section Search.
Variable M : mgr.
Variable clog2 : Z -> nat.
Hypothesis HC : clog2_ok clog2.
Variables d f_ : list bdd.
Hypothesis Wd : wfs M d.
Hypothesis Wf : wfs M f_.
Hypothesis HF : forall a, (1 <= uval f_ a)%Z.
Hypothesis F16 : forall a, (N16 | uval f_ a)%Z.
Variables low top : Q.
Hypothesis Htop : is_maxQ (quotient d f_) top.
Hypothesis Hlow1 : exists a, (quotient d f_ a == low)%Q.
Hypothesis Hlow2 : forall a, (low <= quotient d f_ a)%Q.

Lemma bisect_value precision : (1 # 65536 <= precision)%Q -> forall j fuel mi mn mx lg, j <= fuel -> state M d f_ top mi j mn mx lg ->
  exists r, ws_bisect M clog2 d f_ precision fuel mn mx lg = Some (Ok r) /\ bisection low top precision mn mx r.
Proof.
  intros Hp. induction j as [|j IH]; intros fuel mi mn mx lg Hf (S1 & S2 & S3 & S4 & S5 & S6 & S7).
  - assert (E : Qle_bool (mx - mn) precision = true).
    { apply Qle_bool_iff. rewrite inject_Z_plus in S4. change (inject_Z (pow2 0)) with 1%Q in S4. change (inject_Z N16) with 65536%Q in *. lra. }
    exists ((mn + mx) / 2)%Q. split; [destruct fuel; cbn [ws_bisect]; rewrite E; reflexivity|].
    apply Qle_bool_iff in E. now apply ends_close.
  - destruct fuel as [|fuel]; [lia|]. cbn [ws_bisect].
    destruct (Qle_bool (mx - mn) precision) eqn:E.
    + exists ((mn + mx) / 2)%Q. split; auto. apply Qle_bool_iff in E. now apply ends_close.
    + assert (E' : (precision < mx - mn)%Q).
      { destruct (Qlt_le_dec precision (mx - mn)) as [X|X]; auto. apply Qle_bool_iff in X. congruence. }
      clear E. cbv zeta.
      assert (Hj : pow2 (S j) = (2 * pow2 j)%Z) by apply pow2_S. pose proof (pow2_pos j) as Pj.
      assert (Hm : ((mn + mx) / 2 * inject_Z N16 == inject_Z (mi + pow2 j))%Q).
      { assert (X : ((mn + mx) / 2 * inject_Z N16 == (mn * inject_Z N16 + mx * inject_Z N16) / 2)%Q) by field.
        rewrite X, S3, S4, Hj, !inject_Z_plus, inject_Z_mult. field. }
      destruct (compare_spec M clog2 HC d f_ Wd Wf F16 lg ((mn + mx) / 2) (mi + pow2 j)%Z S5 Hm ltac:(lia)) as (r & Er & Wgr & Vgr & CL). rewrite Er.
      set (mid := ((mn + mx) / 2)%Q) in *. assert (Emid : (mid == (1#2) * mn + (1#2) * mx)%Q) by (unfold mid; field).
      destruct (exists_greater_equals M (mask M d lg) r) as [[|] [|]]; cbn [fst snd].
      * destruct CL as [C1 (x & C2)]. exists mid. split; auto.
        assert (TM : (top <= mid)%Q).
        { destruct Htop as [(a & Ha) _]. rewrite <- Ha. destruct (ev lg a) eqn:El.
          - specialize (C1 a El). rewrite (above_iff d f_ HF _ mid) in C1 by auto. lra.
          - assert (~ (mn < quotient d f_ a)%Q) by (rewrite <- S6, El; discriminate). lra. }
        destruct (ev lg x) eqn:El.
        -- specialize (C2 eq_refl). apply (equal_iff d f_ HF _ mid) in C2; auto. apply ends_exact; auto; [unfold mid; reflexivity|].
           destruct Htop as [_ HT]. specialize (HT x). lra.
        -- assert (L : (low <= mn)%Q).
           { assert (~ (mn < quotient d f_ x)%Q) by (rewrite <- S6, El; discriminate). specialize (Hlow2 x). lra. }
           destruct (Qlt_le_dec top mid); [apply ends_masked|apply ends_exact]; auto; try (unfold mid; reflexivity). lra.
      * destruct CL as (x & Cx1 & Cx2). rewrite (above_iff d f_ HF _ mid) in Cx2 by auto.
        assert (TM : (mid < top)%Q) by (destruct Htop as [_ HT]; specialize (HT x); lra).
        destruct (IH fuel (mi + pow2 j)%Z mid mx (greater_than M (mask M d lg) r)) as (r' & -> & A); [lia| |].
        { unfold state. rewrite Hj in S2, S4. repeat split; auto; try lia; try lra.
          - rewrite S4. apply inject_Z_injective. lia.
          - intro H. apply Vgr in H. destruct H as [_ H]. now rewrite (above_iff d f_ HF _ mid) in H by auto.
          - intro H. apply Vgr. split; [apply S6; lra|]. now rewrite (above_iff d f_ HF _ mid) by auto. }
        exists r'. split; auto. now apply (goes_up _ _ _ _ _ mid).
      * contradiction.
      * assert (TM : (top < mid)%Q) by (destruct Htop as [(a & Ha) _]; rewrite <- Ha; destruct (CL a) as [_ CLa]; apply (less_iff d f_ HF _ mid) in CLa; auto).
        destruct (IH fuel mi mn mid lg) as (r' & -> & A); [lia| |].
        { unfold state. rewrite Hj in S2, S4. repeat split; auto; try lia; try lra.
          - intro H. now apply S6.
          - intro H. now apply S6. }
        exists r'. split; auto. apply (goes_down _ _ _ _ _ mid); auto; [reflexivity|].
        destruct Hlow1 as (a & Ha). assert (X : (mn < quotient d f_ a)%Q) by (apply S6, CL). lra.
Qed.

(** the interval the bisection starts with *)
Lemma double_value L : (forall a, uval d a < pow2 L * uval f_ a)%Z -> L <= 127 -> forall fuel k, fuel + k = S L ->
  (k <> 0 -> (inject_Z (pow2 (k - 1)) < top)%Q) ->
  exists x, ws_double M clog2 d f_ fuel (pow2 k) = Ok x
    /\ match x with
       | inl q => (q == top)%Q /\ exists z, (q == inject_Z (pow2 z))%Q
       | inr (mn, mx, lg) => (top < 1)%Q
                             \/ (top < mx)%Q /\ exists z, (mn == inject_Z (pow2 z))%Q /\ (mx == inject_Z (pow2 (S z)))%Q
                                /\ exists mi j, j <= 142 /\ state M d f_ top mi j mn mx lg
       end.
Proof.
  intros HB HL. assert (TL : (top < inject_Z (pow2 L))%Q).
  { destruct Htop as [(a & Ha) _]. rewrite <- Ha. apply (less_iff d f_ HF (N16 * pow2 L)%Z).
    - rewrite inject_Z_mult. ring.
    - specialize (HB a). unfold N16. lia. }
  assert (KL : forall k, (k <> 0 -> (inject_Z (pow2 (k - 1)) < top)%Q) -> k <= L).
  { intros k Hk. destruct k; [lia|]. specialize (Hk ltac:(lia)). rewrite Nat.sub_succ, Nat.sub_0_r in Hk.
    assert (H : (inject_Z (pow2 k) < inject_Z (pow2 L))%Q) by lra. apply (proj1 (injZ_lt _ _)) in H.
    destruct (le_lt_dec L k) as [X|X]; [apply pow2_le in X; lia|lia]. }
  induction fuel as [|fuel IH]; intros k Hk HT; [specialize (KL k HT); lia|]. cbn [ws_double].
  specialize (KL k HT). pose proof (pow2_pos k) as Pk.
  assert (P : (pow2 k < 2 ^ 128)%Z) by (apply (pow2_lt k 128); lia).
  rewrite (proj2 (Z.ltb_lt _ _) P). cbn [require_ bind].
  destruct (compare_one M clog2 HC d f_ Wd Wf HF F16 (inject_Z (pow2 k)) k ltac:(reflexivity) ltac:(lia)) as (r & -> & Wr & Vr & CL). cbn [bind].
  destruct (exists_greater_equals M d r) as [[|] [|]]; cbn [fst snd negb].
  - eexists. split; [reflexivity|]. cbv iota. split.
    + destruct CL as [(x & C1) C2], Htop as [(y & T1) T2]. specialize (C2 y). specialize (T2 x). lra.
    + exists k. reflexivity.
  - replace (pow2 k * 2)%Z with (pow2 (S k)) by (rewrite pow2_S; lia). apply IH; [lia|]. intros _. rewrite Nat.sub_succ, Nat.sub_0_r.
    destruct CL as (x & C), Htop as [_ T2]. specialize (T2 x). lra.
  - contradiction.
  - assert (TK : (top < inject_Z (pow2 k))%Q) by (destruct Htop as [(a & Ha) _]; rewrite <- Ha; apply CL).
    destruct k as [|k].
    + change (pow2 0 =? 1)%Z with true. cbv iota. eexists. split; [reflexivity|]. cbv iota. left. exact TK.
    + assert (E1 : (pow2 (S k) =? 1)%Z = false) by (apply Z.eqb_neq; rewrite pow2_S in *; lia). rewrite E1. 
      specialize (HT ltac:(lia)). rewrite Nat.sub_succ, Nat.sub_0_r in HT.
      assert (EH : (inject_Z (pow2 (S k)) / 2 == inject_Z (pow2 k))%Q) by (rewrite pow2_S, inject_Z_mult; field).
      destruct (compare_one M clog2 HC d f_ Wd Wf HF F16 (inject_Z (pow2 (S k)) / 2) k EH ltac:(lia)) as (r2 & -> & Wr2 & Vr2 & _). cbn [bind].
      eexists. split; [reflexivity|]. cbv iota. right. pose proof (pow2_pos k).
      assert (ES : (inject_Z (pow2 (S k)) == 2 * inject_Z (pow2 k))%Q) by (rewrite pow2_S, inject_Z_mult; reflexivity).
      split; [exact TK|]. exists k. split; [exact EH|]. split; [reflexivity|].
      exists (N16 * pow2 k)%Z, (16 + k). split; [lia|]. unfold state.
      assert (P16 : pow2 (16 + k) = (N16 * pow2 k)%Z) by (rewrite pow2_add; reflexivity). rewrite P16.
      rewrite pow2_S in P. unfold N16 in *.
      repeat split; auto; try lia.
      * rewrite EH, inject_Z_mult. ring.
      * rewrite ES, inject_Z_plus, inject_Z_mult. change (inject_Z 65536) with 65536%Q. lra.
      * intro X. now apply Vr2.
      * intro X. now apply Vr2.
      * lra.
      * lra.
Qed.
End Search.

Lemma min_exists n F : dep_belowQ n F -> exists q, is_minQ F q.
Proof.
  intro H. destruct (max_exists n (fun a => - F a)%Q) as (q & (a & Ha) & Hq).
  { intros a b Hab. rewrite (H a b Hab). reflexivity. }
  exists (- q)%Q. split; [exists a; lra|]. intro b. specialize (Hq b). lra.
Qed.

Lemma pow2Q_lt i j : (inject_Z (pow2 i) < inject_Z (pow2 j))%Q -> i < j.
Proof.
  intro H. apply (proj1 (injZ_lt _ _)) in H. destruct (le_lt_dec j i) as [X|X]; [apply pow2_le in X; lia|lia].
Qed.

Lemma bisection_same low top p lo hi q : bisection low top p lo hi q -> forall lo' hi', (lo == lo')%Q -> (hi == hi')%Q -> bisection low top p lo' hi' q.
Proof.
  induction 1 as [lo hi q H1 H2|lo hi q H1 H2 H3|lo hi q H1 H2 H3 H4|lo hi m q H1 H2 H3 H4 IH|lo hi m q H1 H2 H3 H4 H5 IH]; intros lo' hi' El Eh;
    rewrite ?El, ?Eh in *.
  - now apply ends_close.
  - now apply ends_exact.
  - now apply ends_masked.
  - apply (goes_up _ _ _ _ _ m); auto. apply IH; auto. reflexivity.
  - apply (goes_down _ _ _ _ _ m); auto. apply IH; auto. reflexivity.
Qed.

Theorem wcre_search_value M clog2 n f g r e precision low top : clog2_ok clog2 -> wfs M f -> wfs M g -> below n f -> below n g ->
  f <> [] -> (r = TwosComplement -> g <> []) -> Nat.max (length f) (length g) <= 126 -> 16 <= e ->
  (1 # 65536 <= precision < 1)%Q -> is_minQ (wrel r f g) low -> is_maxQ (wrel r f g) top ->
  forall fuel, 142 <= fuel ->
  (forall k, (top == inject_Z (pow2 k))%Q -> exists q, wcre_search M clog2 f g e precision r fuel = Some (Ok q) /\ (q == top)%Q)
  /\ (forall k, (inject_Z (pow2 k) < top < inject_Z (pow2 (S k)))%Q ->
       exists q, wcre_search M clog2 f g e precision r fuel = Some (Ok q)
         /\ bisection low top precision (inject_Z (pow2 k)) (inject_Z (pow2 (S k))) q).
Proof.
  intros HC Wf Wg Bf Bg Hf Hg HL He Hp Hlow Ht fuel Hfuel. unfold wcre_search, ws_start.
  destruct (rel_parts M _ f g r Wf Wg Bf Bg Hf Hg) as (d & fa & f_ & Ed & Ea & Em & Ld & La & Lm & Wd & Wa & Wm & Bd & Ba & Bm & V).
  rewrite Ea. cbn [bind]. rewrite Em. cbn [bind]. rewrite Ed. cbn [bind].
  destruct (forallb is_zero d) eqn:Ez.
  { rewrite (all_zero_iff M) in Ez by auto.
    assert (T0 : (top == 0)%Q).
    { destruct Ht as [(a & Ha) _]. rewrite <- Ha. unfold wrel. destruct (V a) as (V1 & _). rewrite <- V1, Ez.
      assert (0 < inject_Z (Z.max 1 (Z.abs (value r f a))))%Q by (apply injZ_pos; lia). change (inject_Z 0) with 0%Q. field. lra. }
    assert (PQ : forall k, (0 < inject_Z (pow2 k))%Q) by (intro k; apply injZ_pos, pow2_pos).
    split; intros k Hk; specialize (PQ k); exfalso; lra. }
  apply (all_zero_false M) in Ez; auto. destruct Ez as (a0 & Ha0).
  set (d' := repeat bzero e ++ d). set (f' := repeat bzero e ++ f_).
  assert (Pe := pow2_pos e).
  assert (HQ : forall a, (quotient d' f' a == wrel r f g a)%Q).
  { intro a. unfold quotient, wrel, d', f'. rewrite !uval_prefix0. destruct (V a) as (-> & _ & ->). rewrite !inject_Z_mult.
    assert (0 < inject_Z (pow2 e))%Q by now apply injZ_pos. assert (0 < inject_Z (Z.max 1 (Z.abs (value r f a))))%Q by (apply injZ_pos; lia). field. lra. }
  assert (Ht' : is_maxQ (quotient d' f') top).
  { destruct Ht as [(a & Ha) HT]. split; [exists a; now rewrite HQ|]. intro b. rewrite HQ. apply HT. }
  assert (Hl1 : exists a, (quotient d' f' a == low)%Q) by (destruct Hlow as [(a & Ha) _]; exists a; now rewrite HQ).
  assert (Hl2 : forall a, (low <= quotient d' f' a)%Q) by (intro a; rewrite HQ; apply Hlow).
  assert (HF : forall a, (1 <= uval f' a)%Z) by (intro a; unfold f'; rewrite uval_prefix0; destruct (V a) as (_ & _ & ->); nia).
  assert (F16 : forall a, (N16 | uval f' a)%Z).
  { intro a. unfold f'. rewrite uval_prefix0. exists (pow2 (e - 16) * uval f_ a)%Z. replace e with (16 + (e - 16)) at 1 by lia. rewrite pow2_add.
    change (pow2 16) with N16. ring. }
  assert (Wd' : wfs M d') by (apply wfs_prefix0; auto). assert (Wf' : wfs M f') by (apply wfs_prefix0; auto).
  destruct (double_value M clog2 HC d' f' Wd' Wf' HF F16 top Ht' (length d)) with (fuel := S (length d)) (k := 0) as (x & Ex & Hx); try lia.
  { intro a. unfold d', f'. rewrite !uval_prefix0. pose proof (uval_range d a). destruct (V a) as (_ & _ & V3). pose proof (pow2_pos (length d)).
    assert (1 <= uval f_ a)%Z by lia.
    assert (X : (uval d a < pow2 (length d) * uval f_ a)%Z) by nia.
    replace (pow2 (length d) * (pow2 e * uval f_ a))%Z with (pow2 e * (pow2 (length d) * uval f_ a))%Z by ring.
    apply Z.mul_lt_mono_pos_l; auto. }
  change (pow2 0) with 1%Z in Ex. rewrite Ex. cbn [bind].
  assert (P1 : forall k, (1 <= inject_Z (pow2 k))%Q).
  { intro k. change 1%Q with (inject_Z 1). apply (proj2 (injZ_le _ _)). pose proof (pow2_pos k). lia. }
  destruct x as [q|[[mn mx] lg]].
  - destruct Hx as (Hq & z & Hz). split; intros k Hk.
    + exists q. auto.
    + exfalso. rewrite <- Hq, Hz in Hk. destruct Hk as [K1 K2]. apply pow2Q_lt in K1. apply pow2Q_lt in K2. lia.
  - destruct Hx as [T1|(TX & z & Hmn & Hmx & mi & j & Hj & HS)].
    + split; intros k Hk; specialize (P1 k); exfalso; lra.
    + pose proof HS as (_ & _ & _ & _ & _ & _ & S7).
      destruct (bisect_value M clog2 HC d' f' Wd' Wf' HF F16 low top Ht' Hl1 Hl2 precision ltac:(lra) j fuel mi mn mx lg ltac:(lia) HS) as (q & -> & A).
      split; intros k Hk.
      * exfalso. destruct S7 as [S7 _]. rewrite Hk, Hmn in S7. rewrite Hk, Hmx in TX. apply pow2Q_lt in S7. apply pow2Q_lt in TX. lia.
      * assert (z = k).
        { assert (z < S k) by (apply pow2Q_lt; lra). assert (k < S z) by (apply pow2Q_lt; lra). lia. }
        subst z. exists q. split; auto. now apply (bisection_same _ _ _ _ _ _ A).
Qed.

(** the hits below the interval *)
Lemma half_div w j : (w / inject_Z (pow2 (S j)) == w / 2 / inject_Z (pow2 j))%Q.
Proof. rewrite pow2_S, inject_Z_mult. assert (0 < inject_Z (pow2 j))%Q by (apply injZ_pos, pow2_pos). field. lra. Qed.
Lemma div_one w : (w / inject_Z (pow2 0) == w)%Q.
Proof. change (inject_Z (pow2 0)) with 1%Q. field. Qed.

Lemma bisection_masked low top p hi : forall j lo q, (lo < hi)%Q -> (low <= lo)%Q -> bisection low top p lo hi q -> 
  (forall i, i < j -> (hi - (hi - lo) / inject_Z (pow2 (S i)) < top)%Q /\ (p < (hi - lo) / inject_Z (pow2 i))%Q) ->
  (top <= hi - (hi - lo) / inject_Z (pow2 (S j)) \/ (hi - lo) / inject_Z (pow2 j) <= p)%Q ->
  (q == hi - (hi - lo) / inject_Z (pow2 (S j)))%Q.
Proof.
  induction j as [|j IH]; intros lo q P L B H1 H2.
  - rewrite half_div, !div_one in *. assert (X : ((lo + hi) / 2 == hi - (hi - lo) / 2)%Q) by field.
    inversion_clear B as [? ? ? B1 B2|? ? ? B1 B2 B3|? ? ? B1 B2 B3 B4|? ? m ? B1 B2 B3 B4|? ? m ? B1 B2 B3 B4 B5].
    + now rewrite <- X.
    + now rewrite <- X.
    + now rewrite <- X.
    + destruct H2; lra.
    + lra.
  - destruct (H1 0 ltac:(lia)) as [A1 A2]. rewrite half_div, div_one in A1. rewrite div_one in A2. rewrite (half_div (hi - lo) (S j)) in *. rewrite (half_div (hi - lo) j) in H2. assert (X : ((lo + hi) / 2 == hi - (hi - lo) / 2)%Q) by field.
    inversion_clear B as [? ? ? B1 B2|? ? ? B1 B2 B3|? ? ? B1 B2 B3 B4|? ? m ? B1 B2 B3 B4|? ? m ? B1 B2 B3 B4 B5]; try lra.
    assert (Y : (hi - m == (hi - lo) / 2)%Q) by (rewrite B2; field).
    assert (Y' : ((hi - lo) / 2 == (1#2) * (hi - lo))%Q) by field.
    assert (LM : (low <= m)%Q) by lra.
    rewrite <- Y in *. apply IH; auto; [lra|].
    intros i Hi. specialize (H1 (S i) ltac:(lia)). rewrite (half_div (hi - lo) (S i)), (half_div (hi - lo) i), <- Y in H1. exact H1.
Qed.

Theorem wcre_search_masked M clog2 n f g r e precision top : clog2_ok clog2 -> wfs M f -> wfs M g -> below n f -> below n g ->
  f <> [] -> (r = TwosComplement -> g <> []) -> Nat.max (length f) (length g) <= 126 -> 16 <= e ->
  (1 # 65536 <= precision < 1)%Q -> is_maxQ (wrel r f g) top ->
  forall k j, (inject_Z (pow2 k) < top < inject_Z (pow2 (S k)))%Q -> (exists a, (wrel r f g a <= inject_Z (pow2 k))%Q) ->
  (forall i, i < j -> (inject_Z (pow2 (S k)) - inject_Z (pow2 k) / inject_Z (pow2 (S i)) < top)%Q
                      /\ (precision < inject_Z (pow2 k) / inject_Z (pow2 i))%Q) ->
  (top <= inject_Z (pow2 (S k)) - inject_Z (pow2 k) / inject_Z (pow2 (S j)) \/ inject_Z (pow2 k) / inject_Z (pow2 j) <= precision)%Q ->
  forall fuel, 142 <= fuel ->
  exists q, wcre_search M clog2 f g e precision r fuel = Some (Ok q)
    /\ (q == inject_Z (pow2 (S k)) - inject_Z (pow2 k) / inject_Z (pow2 (S j)))%Q.
Proof.
  intros HC Wf Wg Bf Bg Hf Hg HL He Hp Ht k j Hk (a & Ha) H1 H2 fuel Hfuel.
  destruct (min_exists n (wrel r f g) (wrel_dep n f g r Bf Bg)) as (low & Hlow).
  destruct (wcre_search_value M clog2 n f g r e precision low top HC Wf Wg Bf Bg Hf Hg HL He Hp Hlow Ht fuel Hfuel) as [_ V].
  destruct (V k Hk) as (q & E & B). exists q. split; auto.
  assert (W : (inject_Z (pow2 (S k)) - inject_Z (pow2 k) == inject_Z (pow2 k))%Q) by (rewrite pow2_S, inject_Z_mult; ring).
  rewrite (bisection_masked low top precision (inject_Z (pow2 (S k))) j (inject_Z (pow2 k)) q); auto.
  - now rewrite W.
  - lra.
  - destruct Hlow as [_ HLow]. specialize (HLow a). lra.
  - intros i Hi. rewrite W. auto.
  - now rewrite W.
Qed.

(** the largest overestimation *)
Definition sharp_f (n : nat) : list bdd := repeat bzero (S n) ++ [bone; bzero].
Definition sharp_g (n : nat) : list bdd := bvar 0 :: repeat bzero n ++ [bnot (bvar 0); bvar 0].

Lemma sharp_rel n a : (wrel BaseTwo (sharp_f n) (sharp_g n) a == if a 0%nat then 1 + 1 / inject_Z (pow2 (S n)) else 0)%Q.
Proof.
  assert (Vf : uval (sharp_f n) a = pow2 (S n)).
  { unfold sharp_f. rewrite uval_app, uval_repeat, repeat_length. cbn [uval]. change (ev bone a) with true. change (ev bzero a) with false. cbn [Z.b2z]. lia. }
  assert (Vg : uval (sharp_g n) a = if a 0%nat then (2 * pow2 (S n) + 1)%Z else pow2 (S n)).
  { unfold sharp_g. cbn [uval]. rewrite uval_app, uval_repeat, repeat_length, pow2_S. cbn [uval]. rewrite ev_not.
    rewrite ev_var. change (ev bzero a) with false. destruct (a 0%nat); cbn [Z.b2z negb]; lia. }
  pose proof (pow2_pos (S n)). assert (P : (0 < inject_Z (pow2 (S n)))%Q) by now apply injZ_pos.
  unfold wrel. cbn [wrapped value]. rewrite Vf, Vg. unfold dist. replace (Z.max 1 (Z.abs (pow2 (S n)))) with (pow2 (S n)) by lia.
  destruct (a 0%nat).
  - replace (Z.abs (pow2 (S n) - (2 * pow2 (S n) + 1))) with (pow2 (S n) + 1)%Z by lia. rewrite inject_Z_plus. change (inject_Z 1) with 1%Q. field. lra.
  - rewrite Z.sub_diag. change (inject_Z (Z.abs 0)) with 0%Q. field. lra.
Qed.

Theorem wcre_search_sharp M clog2 n e precision : clog2_ok clog2 -> n <= 123 -> 16 <= e -> (1 # 65536 <= precision < 1)%Q ->
  exists f g, wfs M f /\ wfs M g /\ below 1 f /\ below 1 g /\ length f = n + 3 /\ length g = n + 3
  /\ is_maxQ (wrel BaseTwo f g) (1 + 1 / inject_Z (pow2 (S n)))%Q
  /\ forall fuel, 142 <= fuel -> exists q, wcre_search M clog2 f g e precision BaseTwo fuel = Some (Ok q) /\ (q == 3 # 2)%Q.
Proof.
  intros HC Hn He Hp. exists (sharp_f n), (sharp_g n).
  assert (Wf : wfs M (sharp_f n)).
  { unfold sharp_f. apply Forall_app. split; [apply Forall_forall; intros x Hx; apply repeat_spec in Hx; subst; apply wf_zero|]. wfs_tac. }
  assert (Wg : wfs M (sharp_g n)).
  { unfold sharp_g. apply Forall_cons; [auto with wf|]. apply Forall_app. split; [apply Forall_forall; intros x Hx; apply repeat_spec in Hx; subst; apply wf_zero|]. wfs_tac. }
  assert (Bf : below 1 (sharp_f n)).
  { unfold sharp_f. apply Forall_app. split; [apply Forall_forall; intros x Hx; apply repeat_spec in Hx; subst|]; repeat constructor. }
  assert (Bg : below 1 (sharp_g n)).
  { unfold sharp_g. apply Forall_cons; [intros a b H; rewrite !ev_var; apply H; lia|]. apply Forall_app. split; [apply Forall_forall; intros x Hx; apply repeat_spec in Hx; subst; repeat constructor|].
    apply Forall_cons; [intros a b H; rewrite !ev_not, !ev_var; f_equal; apply H; lia|]. apply Forall_cons; [intros a b H; rewrite !ev_var; apply H; lia|]. apply Forall_nil. }
  assert (Lf : length (sharp_f n) = n + 3) by (unfold sharp_f; rewrite app_length, repeat_length; cbn; lia).
  assert (Lg : length (sharp_g n) = n + 3) by (unfold sharp_g; cbn [length]; rewrite app_length, repeat_length; cbn; lia).
  assert (P : (0 < inject_Z (pow2 (S n)))%Q) by apply injZ_pos, pow2_pos.
  assert (P2 : (2 <= inject_Z (pow2 (S n)))%Q).
  { change 2%Q with (inject_Z 2). apply (proj2 (injZ_le _ _)). rewrite pow2_S. pose proof (pow2_pos n). lia. }
  assert (D1 : (0 < 1 / inject_Z (pow2 (S n)))%Q) by (apply Qlt_shift_div_l; lra).
  assert (D2 : (1 / inject_Z (pow2 (S n)) <= 1 # 2)%Q) by (apply Qle_shift_div_r; lra).
  assert (T : is_maxQ (wrel BaseTwo (sharp_f n) (sharp_g n)) (1 + 1 / inject_Z (pow2 (S n)))%Q).
  { split; [exists (fun _ => true); now rewrite sharp_rel|]. intro a. rewrite sharp_rel. destruct (a 0%nat); lra. }
  do 7 (split; [assumption|]). intros fuel Hfuel.
  destruct (wcre_search_masked M clog2 1 (sharp_f n) (sharp_g n) BaseTwo e precision (1 + 1 / inject_Z (pow2 (S n)))%Q HC Wf Wg Bf Bg) with (k := 0) (j := 0) (fuel := fuel) as (q & E & Eq); eauto.
  - unfold sharp_f. destruct n; discriminate.
  - discriminate.
  - rewrite Lf, Lg. lia.
  - change (inject_Z (pow2 0)) with 1%Q. change (inject_Z (pow2 1)) with 2%Q. lra.
  - exists (fun _ => false). rewrite sharp_rel. discriminate.
  - intros i Hi. lia.
  - left. change (inject_Z (pow2 0)) with 1%Q. change (inject_Z (pow2 1)) with 2%Q. assert (1 / 2 == 1 # 2)%Q by reflexivity. lra.
Qed.
