(** Facts about the CUDD model: semantics of the operations, preservation of the
    normal form, canonicity. *)
From Coq Require Import List Bool Arith ZArith QArith Lia.
From Verif Require Import Res Cudd.
Import ListNotations.
Open Scope nat_scope.

(** ** Equality tests *)
Lemma node_eqb_spec m n : node_eqb m n = true <-> m = n.
Proof.
  revert n; induction m as [|v t IHt c e IHe]; destruct n as [|v' t' c' e']; cbn; split; intro H;
    try congruence.
  - rewrite !andb_true_iff in H. destruct H as [[[H1 H2] H3] H4].
    apply Nat.eqb_eq in H1. apply Bool.eqb_prop in H2.
    apply IHt in H3. apply IHe in H4. congruence.
  - inversion H; subst. rewrite !andb_true_iff. repeat split.
    + apply Nat.eqb_refl. + apply Bool.eqb_reflx. + now apply IHt. + now apply IHe.
Qed.

Lemma bdd_eqb_spec f g : bdd_eqb f g = true <-> f = g.
Proof.
  destruct f as [c n], g as [d m]; unfold bdd_eqb; cbn.
  rewrite andb_true_iff, node_eqb_spec. split.
  - intros [H ->]. apply Bool.eqb_prop in H. congruence.
  - intros [= -> ->]. split; auto. apply Bool.eqb_reflx.
Qed.

Lemma bdd_eqb_false f g : bdd_eqb f g = false <-> f <> g.
Proof.
  rewrite <- (bdd_eqb_spec f g). destruct (bdd_eqb f g); split; congruence.
Qed.

Lemma upd_same a v b : upd a v b v = b.
Proof. unfold upd. now rewrite Nat.eqb_refl. Qed.
Lemma upd_other a v b i : i <> v -> upd a v b i = a i.
Proof. intro H. unfold upd. apply Nat.eqb_neq in H. now rewrite H. Qed.

(** ** Evaluation only depends on the occurring variables *)
Lemma evn_ext n a b : (forall i, In i (varsn n) -> a i = b i) -> evn n a = evn n b.
Proof.
  induction n as [|v t IHt c e IHe]; cbn; auto. intro H.
  rewrite (H v) by auto. rewrite IHt, IHe; auto; intros; apply H; right; apply in_or_app; auto.
Qed.

Lemma ev_ext f a b : (forall i, a i = b i) -> ev f a = ev f b.
Proof. intro H. unfold ev. f_equal. apply evn_ext; auto. Qed.

Lemma ev_ext_vars f a b : (forall i, In i (varsn (snd f)) -> a i = b i) -> ev f a = ev f b.
Proof. intro H. unfold ev. f_equal. apply evn_ext; auto. Qed.

(** ** Semantics of the constructors *)
Lemma ev_one a : ev bone a = true. Proof. reflexivity. Qed.
Lemma ev_zero a : ev bzero a = false. Proof. reflexivity. Qed.
Lemma ev_not f a : ev (bnot f) a = negb (ev f a).
Proof. destruct f as [c n]; unfold ev; cbn. now destruct c, (evn n a). Qed.
Lemma ev_var i a : ev (bvar i) a = a i.
Proof. unfold ev; cbn. now destruct (a i). Qed.

Lemma ev_mk v t e a : ev (mk v t e) a = if a v then ev t a else ev e a.
Proof.
  unfold mk. destruct (bdd_eqb t e) eqn:E.
  - apply bdd_eqb_spec in E. subst. now destruct (a v).
  - destruct t as [ct t], e as [ce e]; unfold ev; cbn.
    destruct ct; cbn; destruct (a v), ce, (evn e a), (evn t a); reflexivity.
Qed.

Lemma ev_cof1 v f a : a v = true -> ev (cof1 v f) a = ev f a.
Proof.
  intro H. destruct f as [c [|w t d e]]; unfold cof1; cbn; auto.
  destruct (w =? v) eqn:E; auto. apply Nat.eqb_eq in E; subst.
  unfold ev; cbn. now rewrite H.
Qed.
Lemma ev_cof0 v f a : a v = false -> ev (cof0 v f) a = ev f a.
Proof.
  intro H. destruct f as [c [|w t d e]]; unfold cof0; cbn; auto.
  destruct (w =? v) eqn:E; auto. apply Nat.eqb_eq in E; subst.
  unfold ev; cbn. rewrite H. now rewrite xorb_assoc.
Qed.

Lemma cof1_size v f : bsize (cof1 v f) <= bsize f.
Proof. destruct f as [c [|w t d e]]; unfold cof1, bsize; cbn; auto. destruct (w =? v); cbn; lia. Qed.
Lemma cof0_size v f : bsize (cof0 v f) <= bsize f.
Proof. destruct f as [c [|w t d e]]; unfold cof0, bsize; cbn; auto. destruct (w =? v); cbn; lia. Qed.
Lemma cof1_size_lt v f : top f = Some v -> bsize (cof1 v f) < bsize f.
Proof.
  destruct f as [c [|w t d e]]; unfold top, cof1, bsize; cbn; intro H; inversion H; subst.
  rewrite Nat.eqb_refl; cbn; lia.
Qed.
Lemma cof0_size_lt v f : top f = Some v -> bsize (cof0 v f) < bsize f.
Proof.
  destruct f as [c [|w t d e]]; unfold top, cof0, bsize; cbn; intro H; inversion H; subst.
  rewrite Nat.eqb_refl; cbn; lia.
Qed.

Lemma upper_cases M v o : upper M v o = v \/ o = Some (upper M v o).
Proof. destruct o as [w|]; unfold upper; auto. destruct (lv M w <? lv M v); auto. Qed.

Lemma ite_fuel_ev M n f g h a :
  bsize f + bsize g + bsize h < n ->
  ev (ite_fuel M n f g h) a = if ev f a then ev g a else ev h a.
Proof.
  revert f g h; induction n as [|n IH]; intros f g h Hn; [lia|].
  cbn [ite_fuel]. destruct (snd f) as [|v t c e] eqn:Ef.
  - destruct f as [cf nf]; cbn in *; subst. unfold ev; cbn. now destruct cf.
  - destruct (bdd_eqb g h) eqn:Eg.
    { apply bdd_eqb_spec in Eg; subst. now destruct (ev f a). }
    assert (Hf : top f = Some v) by (unfold top; now rewrite Ef).
    set (w := upper M (upper M v (top g)) (top h)).
    assert (Hw : top f = Some w \/ top g = Some w \/ top h = Some w).
    { unfold w. destruct (upper_cases M (upper M v (top g)) (top h)) as [E|E]; [|auto].
      rewrite E. destruct (upper_cases M v (top g)) as [E'|E']; auto.
      left. now rewrite E'. }
    pose proof (cof1_size w f); pose proof (cof1_size w g); pose proof (cof1_size w h).
    pose proof (cof0_size w f); pose proof (cof0_size w g); pose proof (cof0_size w h).
    rewrite ev_mk, !IH.
    + destruct (a w) eqn:Ea.
      * now rewrite !ev_cof1.
      * now rewrite !ev_cof0.
    + destruct Hw as [Hw|[Hw|Hw]]; apply cof0_size_lt in Hw; lia.
    + destruct Hw as [Hw|[Hw|Hw]]; apply cof1_size_lt in Hw; lia.
Qed.

Lemma ev_ite M f g h a : ev (ite M f g h) a = if ev f a then ev g a else ev h a.
Proof. unfold ite. apply ite_fuel_ev. lia. Qed.
Lemma ev_and M f g a : ev (band M f g) a = ev f a && ev g a.
Proof. unfold band. rewrite ev_ite. now destruct (ev f a). Qed.
Lemma ev_or M f g a : ev (bor M f g) a = ev f a || ev g a.
Proof. unfold bor. rewrite ev_ite. now destruct (ev f a). Qed.
Lemma ev_xor M f g a : ev (bxor M f g) a = xorb (ev f a) (ev g a).
Proof. unfold bxor. rewrite ev_ite, ev_not. destruct (ev f a), (ev g a); auto. Qed.

(** ** Normal form *)
Lemma okn_weaken M k k' n : k' <= k -> okn M k n -> okn M k' n.
Proof. destruct n; cbn; auto. intuition lia. Qed.

Lemma okn_vars M k n i : okn M k n -> In i (varsn n) -> k <= lv M i.
Proof.
  revert k; induction n as [|v t IHt c e IHe]; cbn; intros k H Hi; [tauto|].
  destruct H as (H1 & H2 & H3 & _). destruct Hi as [->|Hi]; auto.
  apply in_app_or in Hi. destruct Hi as [Hi|Hi]; [apply IHt in H2|apply IHe in H3]; auto; lia.
Qed.

Lemma okn_top_notin M k v t c e : okn M k (Nd v t c e) -> ~ In v (varsn t) /\ ~ In v (varsn e).
Proof.
  cbn. intros (H1 & H2 & H3 & _). split; intro Hi.
  - apply (okn_vars _ _ _ _ H2) in Hi. lia.
  - apply (okn_vars _ _ _ _ H3) in Hi. lia.
Qed.

Lemma mk_ok M k v t e :
  k <= lv M v -> okn M (S (lv M v)) (snd t) -> okn M (S (lv M v)) (snd e) ->
  okn M k (snd (mk v t e)).
Proof.
  intros Hk Ht He. unfold mk. destruct (bdd_eqb t e) eqn:E.
  - apply okn_weaken with (S (lv M v)); auto; lia.
  - apply bdd_eqb_false in E. destruct t as [ct t], e as [ce e]; cbn in *.
    destruct ct; cbn; repeat split; auto; intros [H1 H2]; apply E; destruct ce; cbn in *; congruence.
Qed.

Definition okb (M : mgr) (k : nat) (f : bdd) : Prop := okn M k (snd f).

Lemma cof1_ok M k v f : okb M k f -> k <= lv M v ->
  (forall w, top f = Some w -> lv M v <= lv M w) -> okb M (S (lv M v)) (cof1 v f).
Proof.
  destruct f as [c [|w t d e]]; unfold okb, cof1, top; cbn; auto.
  intros (H1 & H2 & H3 & H4) Hk Hw. specialize (Hw w eq_refl).
  destruct (w =? v) eqn:E; cbn.
  - apply Nat.eqb_eq in E; subst; auto.
  - apply Nat.eqb_neq in E. assert (lv M w <> lv M v) by (intro; apply E; now apply (lv_inj M)).
    repeat split; auto; lia.
Qed.
Lemma cof0_ok M k v f : okb M k f -> k <= lv M v ->
  (forall w, top f = Some w -> lv M v <= lv M w) -> okb M (S (lv M v)) (cof0 v f).
Proof.
  destruct f as [c [|w t d e]]; unfold okb, cof0, top; cbn; auto.
  intros (H1 & H2 & H3 & H4) Hk Hw. specialize (Hw w eq_refl).
  destruct (w =? v) eqn:E; cbn.
  - apply Nat.eqb_eq in E; subst; auto.
  - apply Nat.eqb_neq in E. assert (lv M w <> lv M v) by (intro; apply E; now apply (lv_inj M)).
    repeat split; auto; lia.
Qed.

Lemma upper_le M v o : lv M (upper M v o) <= lv M v /\ forall w, o = Some w -> lv M (upper M v o) <= lv M w.
Proof.
  destruct o as [w|]; unfold upper.
  - destruct (lv M w <? lv M v) eqn:E; [apply Nat.ltb_lt in E|apply Nat.ltb_ge in E];
      split; try lia; intros ? [= <-]; lia.
  - split; auto. congruence.
Qed.

Lemma okb_top M k f w : okb M k f -> top f = Some w -> k <= lv M w.
Proof.
  destruct f as [c [|v t d e]]; unfold okb, top; cbn; [congruence|].
  intros H [= <-]. tauto.
Qed.

Lemma ite_fuel_ok M n k f g h :
  okb M k f -> okb M k g -> okb M k h -> okb M k (ite_fuel M n f g h).
Proof.
  revert k f g h; induction n as [|n IH]; intros k f g h Hf Hg Hh; cbn [ite_fuel].
  - now destruct (fst f).
  - destruct (snd f) as [|v t c e] eqn:Ef; [now destruct (fst f)|].
    destruct (bdd_eqb g h); auto.
    set (w := upper M (upper M v (top g)) (top h)).
    assert (Tf : top f = Some v) by (unfold top; now rewrite Ef).
    destruct (upper_le M v (top g)) as [A1 A2].
    destruct (upper_le M (upper M v (top g)) (top h)) as [B1 B2]. fold w in B1, B2.
    assert (Hk : k <= lv M w).
    { unfold w. destruct (upper_cases M (upper M v (top g)) (top h)) as [E|E].
      - rewrite E. destruct (upper_cases M v (top g)) as [E'|E'].
        + rewrite E'. now apply (okb_top M k f).
        + now apply (okb_top M k g).
      - now apply (okb_top M k h). }
    apply mk_ok; auto; apply IH;
      (apply cof1_ok with k || apply cof0_ok with k); auto;
      intros u Hu; rewrite ?Tf in Hu; try (inversion Hu; subst; lia).
    + specialize (A2 u Hu). lia.
    + specialize (A2 u Hu). lia.
Qed.

Lemma wf_ite M f g h : wf M f -> wf M g -> wf M h -> wf M (ite M f g h).
Proof. intros. apply ite_fuel_ok; auto. Qed.
Lemma wf_one M : wf M bone. Proof. exact I. Qed.
Lemma wf_zero M : wf M bzero. Proof. exact I. Qed.
Lemma wf_not M f : wf M f -> wf M (bnot f). Proof. exact (fun H => H). Qed.
Lemma wf_and M f g : wf M f -> wf M g -> wf M (band M f g).
Proof. intros; apply wf_ite; auto using wf_zero. Qed.
Lemma wf_or M f g : wf M f -> wf M g -> wf M (bor M f g).
Proof. intros; apply wf_ite; auto using wf_one. Qed.
Lemma wf_xor M f g : wf M f -> wf M g -> wf M (bxor M f g).
Proof. intros; apply wf_ite; auto. Qed.
Lemma wf_var M i : wf M (bvar i).
Proof. unfold wf; cbn. repeat split; try lia. all: intros [H _]; discriminate. Qed.
#[export] Hint Resolve wf_one wf_zero wf_not wf_and wf_or wf_xor wf_var wf_ite : wf.

(** ** Canonicity *)
(** A regular node is true when all variables are true. *)
Lemma evn_all_true n : evn n (fun _ => true) = true.
Proof. induction n; cbn; auto. Qed.

Lemma evn_upd_notin n a v b : ~ In v (varsn n) -> evn n (upd a v b) = evn n a.
Proof.
  intro H. apply evn_ext. intros i Hi. apply upd_other. intros ->. auto.
Qed.

Lemma ev_upd_notin f a v b : ~ In v (varsn (snd f)) -> ev f (upd a v b) = ev f a.
Proof. intro H. unfold ev. f_equal. now apply evn_upd_notin. Qed.

Lemma canonical_aux M : forall s m n k,
  nsize m + nsize n < s ->
  okn M k m -> okn M k n -> (forall a, evn m a = evn n a) -> m = n.
Proof.
  induction s as [|s IH]; intros m n k Hs Hm Hn Hev; [lia|].
  (* a node that does not depend on its top variable is not reduced *)
  assert (Hdep : forall v t c e x, okn M k (Nd v t c e) -> nsize t + nsize e < s ->
            (forall a, evn (Nd v t c e) a = evn x a) -> ~ In v (varsn x) -> False).
  { intros v t c e x Hok Hsz Heq Hnotin.
    destruct (okn_top_notin _ _ _ _ _ _ Hok) as [Nt Ne].
    cbn in Hok. destruct Hok as (Hk & Ht & He & Hred).
    assert (Hte : forall a, evn t a = xorb c (evn e a)).
    { intro a. pose proof (Heq (upd a v true)) as H1. pose proof (Heq (upd a v false)) as H2.
      cbn in H1, H2. rewrite !upd_same in H1, H2.
      rewrite (evn_upd_notin t) in H1 by auto. rewrite (evn_upd_notin e) in H2 by auto.
      rewrite (evn_upd_notin x) in H1, H2 by auto. congruence. }
    assert (c = false).
    { pose proof (Hte (fun _ => true)) as H. rewrite !evn_all_true in H. destruct c; cbn in H; congruence. }
    subst c. apply Hred. split; auto.
    apply (IH t e (S (lv M v))); auto. intro a. rewrite Hte. now destruct (evn e a). }
  destruct m as [|v t c e], n as [|v' t' c' e']; auto.
  - exfalso. apply (Hdep v' t' c' e' One); auto. cbn in Hs. lia.
  - exfalso. apply (Hdep v t c e One); auto. cbn in Hs. lia.
  - destruct (lt_eq_lt_dec (lv M v) (lv M v')) as [[Hlt|Heq]|Hgt].
    + exfalso. apply (Hdep v t c e (Nd v' t' c' e')); auto.
      * cbn in Hs; lia.
      * intro Hi. assert (Hok : okn M (lv M v') (Nd v' t' c' e')) by (cbn in Hn |- *; intuition).
        apply (okn_vars _ _ _ _ Hok) in Hi. lia.
    + apply (lv_inj M) in Heq. subst v'.
      destruct (okn_top_notin _ _ _ _ _ _ Hm) as [Nt Ne].
      destruct (okn_top_notin _ _ _ _ _ _ Hn) as [Nt' Ne'].
      cbn in Hm, Hn, Hs. destruct Hm as (Hk & Ht & He & Hred), Hn as (Hk' & Ht' & He' & Hred').
      assert (t = t').
      { apply (IH t t' (S (lv M v))); auto; [lia|]. intro a.
        pose proof (Hev (upd a v true)) as H. cbn in H. rewrite !upd_same in H.
        now rewrite !evn_upd_notin in H by auto. }
      assert (Hee : forall a, xorb c (evn e a) = xorb c' (evn e' a)).
      { intro a. pose proof (Hev (upd a v false)) as H0. cbn in H0. rewrite !upd_same in H0.
        now rewrite !evn_upd_notin in H0 by auto. }
      assert (c = c').
      { pose proof (Hee (fun _ => true)) as H0. rewrite !evn_all_true in H0. destruct c, c'; cbn in H0; congruence. }
      subst. f_equal. apply (IH e e' (S (lv M v))); auto; [lia|]. intro a. specialize (Hee a).
      destruct c', (evn e a), (evn e' a); cbn in Hee; congruence.
    + exfalso. apply (Hdep v' t' c' e' (Nd v t c e)); auto.
      * cbn in Hs; lia.
      * intro Hi. assert (Hok : okn M (lv M v) (Nd v t c e)) by (cbn in Hm |- *; intuition).
        apply (okn_vars _ _ _ _ Hok) in Hi. lia.
Qed.

Theorem canonical M f g : wf M f -> wf M g -> (forall a, ev f a = ev g a) -> f = g.
Proof.
  intros Hf Hg H. destruct f as [c m], g as [d n].
  assert (c = d).
  { specialize (H (fun _ => true)). unfold ev in H; cbn in H. rewrite !evn_all_true in H.
    destruct c, d; cbn in H; congruence. }
  subst d. f_equal. apply (canonical_aux M (S (nsize m + nsize n)) m n 0); auto.
  intro a. specialize (H a). unfold ev in H; cbn in H. destruct c, (evn m a), (evn n a); cbn in H; congruence.
Qed.

Lemma bdd_eqb_sem M f g : wf M f -> wf M g ->
  (bdd_eqb f g = true <-> forall a, ev f a = ev g a).
Proof.
  intros Hf Hg. rewrite bdd_eqb_spec. split; [now intros ->|]. now apply (canonical M).
Qed.

Lemma is_zero_sem M f : wf M f -> (is_zero f = true <-> forall a, ev f a = false).
Proof. intro H. unfold is_zero. rewrite (bdd_eqb_sem M) by auto with wf. reflexivity. Qed.

Lemma is_one_sem M f : wf M f -> (is_one f = true <-> forall a, ev f a = true).
Proof. intro H. unfold is_one. rewrite (bdd_eqb_sem M) by auto with wf. reflexivity. Qed.


Lemma is_zero_false M f : wf M f -> is_zero f = false -> exists a, ev f a = true.
Proof.
  destruct f as [c n]; unfold wf; cbn. intros Hok Hz.
  destruct c.
  2:{ exists (fun _ => true). unfold ev; cbn. now rewrite evn_all_true. }
  assert (Hn : n <> One) by (intros ->; now cbn in Hz).
  assert (H : exists a, evn n a = false).
  { clear Hz. revert Hok Hn. generalize 0. induction n as [|v t IHt c e IHe]; intros k Hok Hn; [easy|].
    destruct (okn_top_notin _ _ _ _ _ _ Hok) as [Nt Ne]. cbn in Hok. destruct Hok as (Hk & Ht & He & Hred).
    destruct (node_eq_dec t One) as [->|Ht1].
    - destruct c.
      + exists (upd (fun _ => true) v false). cbn. rewrite upd_same, evn_upd_notin, evn_all_true by auto. reflexivity.
      + assert (e <> One) as He1 by (intros ->; auto).
        destruct (IHe _ He He1) as [a Ha]. exists (upd a v false). cbn.
        rewrite upd_same, evn_upd_notin, Ha by auto. reflexivity.
    - destruct (IHt _ Ht Ht1) as [a Ha]. exists (upd a v true). cbn.
      rewrite upd_same, evn_upd_notin, Ha by auto. reflexivity. }
  destruct H as [a Ha]. exists a. unfold ev; cbn. now rewrite Ha.
Qed.
