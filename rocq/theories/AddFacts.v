(** Facts about the ADD model and the vector-to-ADD conversions. *)
From Coq Require Import List Bool Arith ZArith QArith Qabs Lia Lqa.
From Verif Require Import Res Cudd CuddFacts Spec SpecFacts Helpers HelpersFacts HelpersFacts2 Counting.
Import ListNotations.
Open Scope nat_scope.

Lemma Qred_involutive q : Qred (Qred q) = Qred q.
Proof. apply Qred_complete, Qred_correct. Qed.

Lemma q_eqb_spec p q : q_eqb p q = true <-> p = q.
Proof.
  destruct p as [a b], q as [c d]; unfold q_eqb; cbn. rewrite andb_true_iff, Z.eqb_eq, Pos.eqb_eq.
  split; [intros [-> ->]; auto|intros [= -> ->]; auto].
Qed.

Lemma add_eqb_spec f g : add_eqb f g = true <-> f = g.
Proof.
  revert g; induction f as [p|v t IHt e IHe]; destruct g as [q|v' t' e']; cbn; split; intro H; try congruence.
  - apply q_eqb_spec in H. congruence.
  - inversion H. now apply q_eqb_spec.
  - rewrite !andb_true_iff in H. destruct H as [[H1 H2] H3]. apply Nat.eqb_eq in H1.
    apply IHt in H2. apply IHe in H3. congruence.
  - inversion H; subst. rewrite !andb_true_iff, Nat.eqb_refl. repeat split; [now apply IHt|now apply IHe].
Qed.
Lemma add_eqb_false f g : add_eqb f g = false <-> f <> g.
Proof. rewrite <- (add_eqb_spec f g). destruct (add_eqb f g); split; congruence. Qed.

Lemma aev_ext f a b : (forall i, In i (avars f) -> a i = b i) -> aev f a = aev f b.
Proof.
  induction f as [q|v t IHt e IHe]; cbn; auto. intro H. rewrite (H v) by auto.
  rewrite IHt, IHe; auto; intros; apply H; right; apply in_or_app; auto.
Qed.

Lemma aev_amk v t e a : aev (amk v t e) a = if a v then aev t a else aev e a.
Proof.
  unfold amk. destruct (add_eqb t e) eqn:E; auto. apply add_eqb_spec in E. subst. now destruct (a v).
Qed.

Lemma aev_acof w f a : aev (acof (a w) w f) a = aev f a.
Proof.
  destruct f as [q|v t e]; cbn; auto. destruct (v =? w) eqn:E; auto. apply Nat.eqb_eq in E. subst.
  now destruct (a w).
Qed.

Lemma acof_size b w f : asize (acof b w f) <= asize f.
Proof. destruct f as [q|v t e]; cbn; auto. destruct (v =? w); cbn; [destruct b; lia|lia]. Qed.
Lemma acof_size_top b w f : atop f = Some w -> asize (acof b w f) < asize f.
Proof.
  destruct f as [q|v t e]; cbn; [congruence|]. intros [= ->]. rewrite Nat.eqb_refl. destruct b; lia.
Qed.

Definition atop_of (M : mgr) (f g : add) : nat :=
  match atop f with
  | Some v => upper M v (atop g)
  | None => match atop g with Some w => w | None => 0 end
  end.

Lemma upper_cases' M v o : upper M v o = v \/ o = Some (upper M v o).
Proof. destruct o as [w|]; unfold upper; auto. destruct (lv M w <? lv M v); auto. Qed.

Lemma atop_of_cases M f g : (exists v, atop f = Some v) \/ (exists v, atop g = Some v) ->
  atop f = Some (atop_of M f g) \/ atop g = Some (atop_of M f g).
Proof.
  unfold atop_of. destruct (atop f) as [v|] eqn:F.
  - destruct (upper_cases' M v (atop g)) as [E|E]; [left; congruence|right; congruence].
  - intros [[v H]|[v H]]; [congruence|]. right. rewrite H. auto.
Qed.

Lemma apply_fuel_sem M op : forall n f g a, asize f + asize g < n ->
  (aev (apply_fuel M op n f g) a == op (aev f a) (aev g a))%Q.
Proof.
  induction n as [|n IH]; intros f g a Hn; [lia|]. cbn [apply_fuel].
  assert (Step : forall f g, (exists v, atop f = Some v) \/ (exists v, atop g = Some v) -> asize f + asize g < S n ->
    (aev (let w := atop_of M f g in
      amk w (apply_fuel M op n (acof true w f) (acof true w g))
            (apply_fuel M op n (acof false w f) (acof false w g))) a == op (aev f a) (aev g a))%Q).
  { clear f g Hn. intros f g Hex Hn. cbn zeta. set (w := atop_of M f g). rewrite aev_amk.
    assert (Hs : forall b, asize (acof b w f) + asize (acof b w g) < n).
    { intro b. pose proof (acof_size b w f). pose proof (acof_size b w g).
      destruct (atop_of_cases M f g Hex) as [E|E]; fold w in E; apply (acof_size_top b) in E; lia. }
    rewrite <- (aev_acof w f a), <- (aev_acof w g a). destruct (a w); apply IH; auto. }
  destruct f as [p|v t e], g as [q|v' t' e']; try (apply (Step _ _); auto; cbn; eauto).
  cbn. apply Qred_correct.
Qed.

Lemma apply_sem M op f g a : (aev (apply M op f g) a == op (aev f a) (aev g a))%Q.
Proof. apply apply_fuel_sem. lia. Qed.

Lemma aok_weaken M k k' f : k' <= k -> aok M k f -> aok M k' f.
Proof. destruct f; cbn; auto. intros H (H1 & H2). split; auto. lia. Qed.

Lemma amk_ok M k v t e : k <= lv M v -> aok M (S (lv M v)) t -> aok M (S (lv M v)) e -> aok M k (amk v t e).
Proof.
  intros Hk Ht He. unfold amk. destruct (add_eqb t e) eqn:E.
  - apply aok_weaken with (S (lv M v)); auto; lia.
  - apply add_eqb_false in E. cbn. auto.
Qed.

Lemma acof_ok M k b w f : aok M k f -> k <= lv M w ->
  (forall v, atop f = Some v -> lv M w <= lv M v) -> aok M (S (lv M w)) (acof b w f).
Proof.
  destruct f as [q|v t e]; cbn; auto. intros (H1 & H2 & H3 & H4) Hk Hw. specialize (Hw v eq_refl).
  destruct (v =? w) eqn:E.
  - apply Nat.eqb_eq in E; subst. now destruct b.
  - apply Nat.eqb_neq in E. cbn. assert (lv M v <> lv M w) by (intro; apply E; now apply (lv_inj M)).
    repeat split; auto. lia.
Qed.

Lemma atop_of_le M f g v : atop f = Some v \/ atop g = Some v -> lv M (atop_of M f g) <= lv M v.
Proof.
  unfold atop_of. intros [H|H].
  - rewrite H. exact (proj1 (upper_le M v (atop g))).
  - rewrite H. destruct (atop f) as [u|]; auto. now apply (proj2 (upper_le M u (Some v))).
Qed.

Lemma aok_top M k f v : aok M k f -> atop f = Some v -> k <= lv M v.
Proof. destruct f; cbn; [congruence|]. intros H [= <-]. tauto. Qed.

Lemma apply_fuel_ok M op : forall n k f g, asize f + asize g < n -> aok M k f -> aok M k g -> aok M k (apply_fuel M op n f g).
Proof.
  induction n as [|n IH]; intros k f g Hn Hf Hg; [lia|]. cbn [apply_fuel].
  assert (Step : forall f g, (exists v, atop f = Some v) \/ (exists v, atop g = Some v) ->
    asize f + asize g < S n -> aok M k f -> aok M k g ->
    aok M k (let w := atop_of M f g in
      amk w (apply_fuel M op n (acof true w f) (acof true w g))
            (apply_fuel M op n (acof false w f) (acof false w g)))).
  { clear f g Hn Hf Hg. intros f g Hex Hn Hf Hg. cbn zeta. set (w := atop_of M f g).
    assert (Hk : k <= lv M w).
    { destruct (atop_of_cases M f g Hex) as [E|E]; fold w in E;
        [exact (aok_top M k f w Hf E)|exact (aok_top M k g w Hg E)]. }
    assert (Hs : forall b, asize (acof b w f) + asize (acof b w g) < n).
    { intro b. pose proof (acof_size b w f). pose proof (acof_size b w g).
      destruct (atop_of_cases M f g Hex) as [E|E]; fold w in E; apply (acof_size_top b) in E; lia. }
    apply amk_ok; auto; apply IH; auto; apply acof_ok with k; auto; intros v Hv; apply atop_of_le; auto. }
  destruct f as [p|v t e], g as [q|v' t' e']; try (apply (Step _ _); auto; cbn; eauto).
  cbn. apply Qred_involutive.
Qed.

Lemma apply_ok M op f g : aok M 0 f -> aok M 0 g -> aok M 0 (apply M op f g).
Proof. apply apply_fuel_ok. lia. Qed.

Lemma amk_vars v t e i : In i (avars (amk v t e)) -> i = v \/ In i (avars t) \/ In i (avars e).
Proof.
  unfold amk. destruct (add_eqb t e); auto. cbn. intros [H|H]; auto. apply in_app_or in H. tauto.
Qed.
Lemma acof_vars b w f i : In i (avars (acof b w f)) -> In i (avars f).
Proof.
  destruct f as [q|v t e]; cbn; auto. destruct (v =? w); cbn; auto.
  intro H. right. apply in_or_app. destruct b; auto.
Qed.
Lemma atop_vars f v : atop f = Some v -> In v (avars f).
Proof. destruct f; cbn; [congruence|]. intros [= ->]. auto. Qed.
Lemma apply_fuel_vars M op : forall n f g i, asize f + asize g < n ->
  In i (avars (apply_fuel M op n f g)) -> In i (avars f) \/ In i (avars g).
Proof.
  induction n as [|n IH]; intros f g i Hn; [lia|]. cbn [apply_fuel].
  assert (Step : forall f g, (exists v, atop f = Some v) \/ (exists v, atop g = Some v) -> asize f + asize g < S n ->
    In i (avars (let w := atop_of M f g in
      amk w (apply_fuel M op n (acof true w f) (acof true w g))
            (apply_fuel M op n (acof false w f) (acof false w g)))) -> In i (avars f) \/ In i (avars g)).
  { clear f g Hn. intros f g Hex Hn. cbn zeta. set (w := atop_of M f g). intro H.
    assert (Hs : forall b, asize (acof b w f) + asize (acof b w g) < n).
    { intro b. pose proof (acof_size b w f). pose proof (acof_size b w g).
      destruct (atop_of_cases M f g Hex) as [E|E]; fold w in E; apply (acof_size_top b) in E; lia. }
    apply amk_vars in H. destruct H as [->|[H|H]].
    - destruct (atop_of_cases M f g Hex) as [E|E]; fold w in E; apply atop_vars in E; auto.
    - apply IH in H; auto. destruct H as [H|H]; apply acof_vars in H; auto.
    - apply IH in H; auto. destruct H as [H|H]; apply acof_vars in H; auto. }
  destruct f as [p|v t e], g as [q|v' t' e']; try (apply (Step _ _); auto; cbn; eauto).
  cbn. tauto.
Qed.
Lemma apply_vars M op f g i : In i (avars (apply M op f g)) -> In i (avars f) \/ In i (avars g).
Proof. apply apply_fuel_vars. lia. Qed.

(** ** 0/1 ADD of a BDD *)
Lemma ton_sem n c a : aev (ton n c) a = b2q (xorb c (evn n a)).
Proof.
  revert c; induction n as [|v t IHt d e IHe]; intro c; cbn [ton evn].
  - now destruct c.
  - rewrite aev_amk, IHt, IHe. destruct (a v); auto. now destruct c, d, (evn e a).
Qed.
Lemma to_add_sem f a : aev (to_add f) a = b2q (ev f a).
Proof. apply ton_sem. Qed.
Lemma ton_ok M n : forall k c, okn M k n -> aok M k (ton n c).
Proof.
  induction n as [|v t IHt d e IHe]; intros k c; cbn [ton okn].
  - intros _. now destruct c.
  - intros (H1 & H2 & H3 & _). apply amk_ok; auto.
Qed.
Lemma to_add_ok M f : wf M f -> aok M 0 (to_add f).
Proof. apply ton_ok. Qed.
Lemma ton_vars n i : forall c, In i (avars (ton n c)) -> In i (varsn n).
Proof.
  induction n as [|v t IHt d e IHe]; intro c; cbn [ton varsn]; auto.
  intro H. apply amk_vars in H. destruct H as [->|[H|H]]; [now left|..]; right; apply in_or_app; eauto.
Qed.
Lemma aconst_ok M q : aok M 0 (aconst q).
Proof. cbn. apply Qred_involutive. Qed.
Lemma aev_const q a : (aev (aconst q) a == q)%Q.
Proof. cbn. apply Qred_correct. Qed.

(** ** Vectors to ADDs *)
Lemma forest_loop_spec M l : forall res sbp,
  let '(r, s) := forest_loop M l res sbp in
  (aok M 0 res -> aok M 0 sbp -> wfs M l -> aok M 0 r /\ aok M 0 s)
  /\ (forall i, In i (avars r) -> In i (avars res) \/ vars_in l i)
  /\ (forall i, In i (avars s) -> In i (avars sbp))
  /\ forall a, (aev r a == aev res a * inject_Z (pow2 (length l)) + inject_Z (uval (rev l) a))%Q
            /\ (aev s a == aev sbp a * inject_Z (pow2 (length l)))%Q.
Proof.
  induction l as [|b l IH]; intros res sbp; cbn [forest_loop].
  - repeat split; auto; cbn [rev uval length]; rewrite ?pow2_0; change (inject_Z 1) with 1%Q; change (inject_Z 0) with 0%Q; ring.
  - set (two := aadd M (aconst 1) (aconst 1)).
    specialize (IH (aadd M (amul M res two) (to_add b)) (amul M sbp two)).
    destruct (forest_loop M l _ _) as [r s]. destruct IH as (I1 & I2 & I2' & I3).
    assert (Ktwo : aok M 0 two) by (apply apply_ok; apply aconst_ok).
    assert (Vtwo : forall i, ~ In i (avars two)) by (intros i Hi; apply apply_vars in Hi; cbn in Hi; tauto).
    assert (Etwo : forall a, (aev two a == 2)%Q).
    { intro a. unfold two, aadd. rewrite apply_sem, !aev_const. reflexivity. }
    split; [|split; [|split; [|intro a; split]]].
    + intros H1 H2 H3. inversion H3; subst. apply I1; auto; repeat apply apply_ok; auto using to_add_ok; apply aconst_ok.
    + intros i Hi. apply I2 in Hi. destruct Hi as [Hi|(b' & Hb & Hi)].
      * apply apply_vars in Hi. destruct Hi as [Hi|Hi].
        -- apply apply_vars in Hi. destruct Hi as [Hi|Hi]; auto. exfalso. eapply Vtwo; eauto.
        -- right. exists b. split; [now left|]. eapply ton_vars; eauto.
      * right. exists b'. split; [now right|auto].
    + intros i Hi. apply I2' in Hi. apply apply_vars in Hi. destruct Hi as [Hi|Hi]; auto. exfalso. eapply Vtwo; eauto.
    + destruct (I3 a) as [E _]. rewrite E. unfold aadd, amul. rewrite !apply_sem, Etwo, to_add_sem.
      cbn [rev length]. rewrite uval_app, pow2_S, rev_length. cbn [uval].
      rewrite inject_Z_plus, !inject_Z_mult, inject_Z_plus. change (inject_Z 2) with 2%Q.
      change (inject_Z (2 * 0)) with 0%Q.
      destruct (ev b a); cbn [b2q Z.b2z]; change (inject_Z 1) with 1%Q; change (inject_Z 0) with 0%Q; ring.
    + destruct (I3 a) as [_ E]. rewrite E. unfold amul. rewrite !apply_sem, Etwo. cbn [length].
      rewrite pow2_S, inject_Z_mult. change (inject_Z 2) with 2%Q. ring.
Qed.

(** the number encoded by a vector in a representation *)
Lemma forest_to_add_spec M f r : (r = TwosComplement -> f <> []) ->
  exists A, bdd_forest_to_add M f r = Ok A
    /\ (wfs M f -> aok M 0 A)
    /\ (forall i, In i (avars A) -> vars_in f i)
    /\ forall a, (aev A a == inject_Z (value r f a))%Q.
Proof.
  intro Hne.
  assert (G : forall f : list bdd, f <> [] -> exists A,
    match rev f with
    | [] => UB
    | sign :: rest =>
      let '(result, signBitPower) := forest_loop M rest (aconst 0) (aconst 1) in
      Ok (asub M result (amul M (to_add sign) signBitPower))
    end = Ok A
    /\ (wfs M f -> aok M 0 A)
    /\ (forall i, In i (avars A) -> vars_in f i)
    /\ forall a, (aev A a == inject_Z (sval f a))%Q).
  { clear f Hne. intros f Hne. destruct f as [|s f _] using rev_ind; [congruence|]. clear Hne.
    rewrite rev_app_distr. cbn [rev app].
    pose proof (forest_loop_spec M (rev f) (aconst 0) (aconst 1)) as H.
    destruct (forest_loop M (rev f) (aconst 0) (aconst 1)) as [res sbp].
    destruct H as (H1 & H2 & H2' & H3). eexists; split; [reflexivity|]. repeat split.
    - intro W. apply Forall_app in W. destruct W as [W Ws]. inversion Ws; subst.
      destruct H1; try apply aconst_ok; [now apply wfs_rev|]. repeat apply apply_ok; auto. now apply to_add_ok.
    - intros i Hi. apply apply_vars in Hi. destruct Hi as [Hi|Hi].
      + apply H2 in Hi. destruct Hi as [Hi|(b & Hb & Hi)]; [destruct Hi|].
        exists b. split; auto. apply in_or_app. left. now apply in_rev.
      + apply apply_vars in Hi. destruct Hi as [Hi|Hi].
        * exists s. split; [apply in_or_app; right; now left|]. eapply ton_vars; eauto.
        * apply H2' in Hi. destruct Hi.
    - intro a. destruct (H3 a) as [E1 E2]. unfold asub, amul. rewrite !apply_sem, E1, E2, to_add_sem, !aev_const.
      rewrite rev_involutive, rev_length, sval_app.
      unfold Z.sub. rewrite inject_Z_plus, inject_Z_opp, inject_Z_mult.
      destruct (ev s a); cbn [b2q Z.b2z]; change (inject_Z 1) with 1%Q; change (inject_Z 0) with 0%Q; ring. }
  unfold bdd_forest_to_add. destruct r.
  - destruct (G (f ++ [bzero])) as (A & HA & HW & HV & HE); [intro E; now apply app_eq_nil in E|].
    exists A. repeat split; auto.
    + intro W. apply HW. apply wfs_app; auto. constructor; auto with wf.
    + intros i Hi. destruct (HV i Hi) as (b & Hb & Hi'). apply in_app_or in Hb. destruct Hb as [Hb|[<-|[]]].
      * exists b; auto. * destruct Hi'.
    + intro a. rewrite HE, sval_snoc_zero. reflexivity.
  - destruct (G f) as (A & HA & HW & HV & HE); [auto|]. exists A. auto.
Qed.

Lemma absdiff_add_spec M f g r : (r = TwosComplement -> f <> [] /\ g <> []) ->
  exists A, absolute_difference_add M f g r = Ok A
    /\ (wfs M f -> wfs M g -> aok M 0 A)
    /\ (forall i, In i (avars A) -> vars_in f i \/ vars_in g i)
    /\ forall a, (aev A a == inject_Z (dist (value r f a) (value r g a)))%Q.
Proof.
  intro H. unfold absolute_difference_add.
  destruct (forest_to_add_spec M f r) as (A & HA & WA & VA & EA); [intro; now apply H|].
  destruct (forest_to_add_spec M g r) as (B & HB & WB & VB & EB); [intro; now apply H|].
  rewrite HA, HB. cbn [bind]. eexists; split; [reflexivity|]. repeat split.
  - intros. apply apply_ok; auto.
  - intros i Hi. apply apply_vars in Hi. destruct Hi; auto.
  - intro a. rewrite apply_sem. unfold qabsdiff. rewrite EA, EB. unfold Qminus.
    rewrite <- inject_Z_opp, <- inject_Z_plus. reflexivity.
Qed.

Lemma xor_vec_spec M f : forall g, length f = length g ->
  exists d, xor_vec M f g = Ok d /\ length d = length f
    /\ (wfs M f -> wfs M g -> wfs M d)
    /\ (forall i a, (i < length f)%nat -> ev (nth i d bzero) a = xorb (ev (nth i f bzero) a) (ev (nth i g bzero) a)).
Proof.
  induction f as [|x f IH]; intros [|y g] H; cbn in H; try discriminate.
  - exists []. repeat split; auto. intros i a Hi. cbn in Hi. lia.
  - destruct (IH g) as (d & Hd & Hl & Hw & Hn); [lia|]. cbn [xor_vec]. rewrite Hd. cbn [bind].
    eexists; split; [reflexivity|]. repeat split.
    + cbn. lia.
    + intros W1 W2. inversion W1; inversion W2; subst. constructor; auto with wf.
    + intros [|i] a Hi; cbn [nth].
      * now rewrite ev_xor.
      * apply Hn. cbn in Hi. lia.
Qed.
Lemma xor_vec_ub M f : forall g, length g < length f -> xor_vec M f g = UB.
Proof.
  induction f as [|x f IH]; intros [|y g] H; cbn in H; try lia; auto. cbn [xor_vec]. rewrite IH by lia. reflexivity.
Qed.

(** variables of a vector: those of the operands *)
Lemma xor_vec_vars M f : forall g d i, wfs M f -> wfs M g -> xor_vec M f g = Ok d -> vars_in d i -> vars_in f i \/ vars_in g i.
Proof.
  induction f as [|x f IH]; intros [|y g] d i Wf Wg; cbn [xor_vec].
  - intros [= <-] (b & [] & _).
  - intros [= <-] (b & [] & _).
  - discriminate.
  - destruct (xor_vec M f g) as [d'| | |] eqn:E; cbn [bind]; try discriminate. intros [= <-] (b & Hb & Hi).
    inversion Wf; inversion Wg; subst. destruct Hb as [<-|Hb].
    + assert (Wx : wf M (bxor M x y)) by auto with wf.
      destruct (vars_exact M 0 _ i Wx Hi) as [a Ha].
      destruct (in_dec Nat.eq_dec i (varsn (snd x))) as [Ix|Ix]; [left; exists x; split; [now left|auto]|].
      destruct (in_dec Nat.eq_dec i (varsn (snd y))) as [Iy|Iy]; [right; exists y; split; [now left|auto]|].
      exfalso. apply Ha.
      assert (Hev : ev (bxor M x y) (upd a i true) = ev (bxor M x y) (upd a i false)).
      { rewrite !ev_xor, !ev_upd_notin; auto. }
      unfold ev in Hev. destruct (fst (bxor M x y)), (evn (snd (bxor M x y)) (upd a i true)),
        (evn (snd (bxor M x y)) (upd a i false)); cbn in Hev; congruence.
    + destruct (IH g d' i) as [(b' & Hb' & Hi')|(b' & Hb' & Hi')]; auto.
      * exists b; auto.
      * left. exists b'; split; [now right|auto].
      * right. exists b'; split; [now right|auto].
Qed.

Lemma xor_difference_add_spec M f g : length f = length g -> wfs M f -> wfs M g ->
  exists A d, xor_difference_add M f g = Ok A /\ xor_vec M f g = Ok d
    /\ aok M 0 A
    /\ (forall i, In i (avars A) -> vars_in f i \/ vars_in g i)
    /\ forall a, (aev A a == inject_Z (uval d a))%Q.
Proof.
  intros H Wf Wg. destruct (xor_vec_spec M f g H) as (d & Hd & Hl & Hw & Hn).
  unfold xor_difference_add. rewrite Hd. cbn [bind].
  destruct (forest_to_add_spec M d BaseTwo) as (A & HA & WA & VA & EA); [discriminate|].
  exists A, d. rewrite HA. repeat split; auto. intros i Hi. eapply xor_vec_vars; eauto.
Qed.

Lemma lxor_step b c x y : Z.lxor (Z.b2z b + 2 * x) (Z.b2z c + 2 * y) = (Z.b2z (xorb b c) + 2 * Z.lxor x y)%Z.
Proof.
  apply Z.bits_inj'. intros n Hn. rewrite Z.lxor_spec. rewrite !(Z.add_comm (Z.b2z _)).
  destruct (Z.eq_dec n 0) as [->|Hz].
  - now rewrite !Z.testbit_0_r.
  - replace n with (Z.succ (n - 1)) by lia. rewrite !Z.testbit_succ_r by lia. now rewrite Z.lxor_spec.
Qed.

Lemma xor_vec_uval M f : forall g d, length f = length g -> xor_vec M f g = Ok d ->
  forall a, uval d a = Z.lxor (uval f a) (uval g a).
Proof.
  induction f as [|x f IH]; intros [|y g] d H; cbn in H; try discriminate.
  - cbn. intros [= <-] a. reflexivity.
  - cbn [xor_vec]. destruct (xor_vec M f g) as [d'| | |] eqn:E; cbn [bind]; try discriminate. intros [= <-] a.
    cbn [uval]. rewrite ev_xor, lxor_step, (IH g d'); auto.
Qed.

Lemma xor_difference_add_full M f g : length f = length g ->
  exists A, xor_difference_add M f g = Ok A
    /\ (Forall (wf M) f -> Forall (wf M) g -> aok M 0 A /\ (forall i, In i (avars A) -> vars_in f i \/ vars_in g i))
    /\ forall a, (aev A a == inject_Z (Z.lxor (uval f a) (uval g a)))%Q.
Proof.
  intros H. destruct (xor_vec_spec M f g H) as (d & Hd & Hl & Hw & Hn).
  unfold xor_difference_add. rewrite Hd. cbn [bind].
  destruct (forest_to_add_spec M d BaseTwo) as (A & HA & WA & VA & EA); [discriminate|].
  exists A. rewrite HA. split; [reflexivity|]. split.
  - intros Wf Wg. split; auto. intros i Hi. eapply xor_vec_vars; eauto.
  - intro a. rewrite EA. cbn [value]. now rewrite (xor_vec_uval M f g d).
Qed.

Lemma forest_to_add_full M f r :
  ((r = TwosComplement -> f <> []) ->
    exists A, bdd_forest_to_add M f r = Ok A
      /\ (wfs M f -> aok M 0 A)
      /\ (forall i, In i (avars A) -> vars_in f i)
      /\ forall a, (aev A a == inject_Z (value r f a))%Q)
  /\ bdd_forest_to_add M [] TwosComplement = UB.
Proof. split; [apply forest_to_add_spec|reflexivity]. Qed.
