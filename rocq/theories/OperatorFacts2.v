(** Proofs about the approximation operators: implications and numbers of lost inputs. *)
From Coq Require Import List Bool Arith ZArith QArith Lia Lqa.
From Verif Require Import Res Cudd CuddFacts Spec SpecFacts Helpers HelpersFacts Counting AddFacts CountFacts PathFacts MetricsFacts MetricsFacts4 Operators OperatorFacts.
Import ListNotations.
Open Scope nat_scope.

Lemma ev_nd c v t d e a : ev (c, Nd v t d e) a = if a v then ev (c, t) a else ev (xorb c d, e) a.
Proof. unfold ev. cbn [fst snd evn]. destruct (a v); auto. now rewrite xorb_assoc. Qed.
Lemma ev_itev M v g h a : ev (ite M (bvar v) g h) a = if a v then ev g a else ev h a.
Proof. rewrite ev_ite, ev_var. reflexivity. Qed.
Lemma ev_repl sub a : ev (repl sub) a = negb sub.
Proof. destruct sub; reflexivity. Qed.
Lemma wf_repl M sub : wf M (repl sub).
Proof. destruct sub; exact I. Qed.
Lemma wf_then M c v t d e : wf M (c, Nd v t d e) -> wf M (c, t).
Proof. unfold wf. cbn [snd okn]. intros (_ & H & _). eapply okn_weaken; [|exact H]. lia. Qed.
Lemma wf_else M c v t d e c' : wf M (c, Nd v t d e) -> wf M (c', e).
Proof. unfold wf. cbn [snd okn]. intros (_ & _ & H & _). eapply okn_weaken; [|exact H]. lia. Qed.

Section RC.
Variable M : mgr.
Variable w : bdd -> Q.
Variables ls le : nat.
Variable rh : bool.

Lemma rc_wf sub n : forall c, wf M (c, n) -> wf M (rc M w ls le rh sub n c).
Proof.
  induction n as [|v t IHt d e IHe]; intros c H; [exact I|]. cbn [rc].
  pose proof (IHt c (wf_then _ _ _ _ _ _ H)). pose proof (IHe (xorb c d) (wf_else _ _ _ _ _ _ _ H)).
  pose proof (wf_repl M sub).
  destruct (v <? ls); [apply wf_ite; auto with wf|]. destruct (v <=? le); auto.
  destruct (Bool.eqb rh _); apply wf_ite; auto with wf.
Qed.

Lemma rc_subset n a : forall c, ev (rc M w ls le rh true n c) a = true -> ev (c, n) a = true.
Proof.
  induction n as [|v t IHt d e IHe]; intro c; [auto|]. cbn [rc]. rewrite ev_nd.
  specialize (IHt c). specialize (IHe (xorb c d)).
  destruct (v <? ls); [rewrite ev_itev; destruct (a v); auto|]. destruct (v <=? le); [|now rewrite ev_nd].
  destruct (Bool.eqb rh _); rewrite ev_itev, ev_repl; destruct (a v); auto; discriminate.
Qed.
Lemma rc_superset n a : forall c, ev (c, n) a = true -> ev (rc M w ls le rh false n c) a = true.
Proof.
  induction n as [|v t IHt d e IHe]; intro c; [auto|]. cbn [rc]. rewrite ev_nd.
  specialize (IHt c). specialize (IHe (xorb c d)).
  destruct (v <? ls); [rewrite ev_itev; destruct (a v); auto|]. destruct (v <=? le); [|now rewrite ev_nd].
  destruct (Bool.eqb rh _); rewrite ev_itev, ev_repl; destruct (a v); auto.
Qed.

Lemma rc_notin sub n v b a : forall c, ~ In v (varsn n) ->
  ev (rc M w ls le rh sub n c) (upd a v b) = ev (rc M w ls le rh sub n c) a.
Proof.
  induction n as [|x t IHt d e IHe]; intros c H; [reflexivity|].
  pose proof (ev_upd_notin (c, Nd x t d e) a v b H) as Hid.
  cbn [varsn In] in H. rewrite in_app_iff in H. cbn [rc].
  assert (Hx : upd a v b x = a x) by (apply upd_other; intro; subst; tauto).
  destruct (x <? ls); [rewrite !ev_itev, Hx, IHt, IHe by tauto; auto|]. destruct (x <=? le); auto.
  destruct (Bool.eqb rh _); rewrite !ev_itev, !ev_repl, Hx, ?IHt, ?IHe by tauto; auto.
Qed.

Lemma rc_outside sub n a : (forall i, In i (varsn n) -> ~ ls <= i <= le) ->
  forall c, ev (rc M w ls le rh sub n c) a = ev (c, n) a.
Proof.
  induction n as [|v t IHt d e IHe]; intros H c; [reflexivity|]. cbn [rc].
  cbn [varsn In] in H.
  destruct (v <? ls) eqn:E1; [|apply Nat.ltb_ge in E1; destruct (v <=? le) eqn:E2; auto].
  - rewrite ev_itev, ev_nd, IHt, IHe; auto; intros i Hi; apply H; right; apply in_or_app; auto.
  - apply Nat.leb_le in E2. exfalso. apply (H v); auto.
Qed.
End RC.

(** ** densities *)
Definition avb (n : nat) (F : asg -> bool) : Q := average n (fun a => b2q (F a)).
Definition extb (F : asg -> bool) : Prop := forall a b, (forall i, a i = b i) -> F a = F b.
Lemma ev_extb f : extb (ev f). Proof. intros a b H. now apply ev_ext. Qed.
Lemma extb_extQ F : extb F -> extQ (fun a => b2q (F a)).
Proof. intros H a b E. rewrite (H a b E). reflexivity. Qed.

Lemma avb_split n v F : extb F -> v < n ->
  (avb n F == (1#2) * (avb n (fun a => F (upd a v true)) + avb n (fun a => F (upd a v false))))%Q.
Proof. intros H L. apply (average_split n v (fun a => b2q (F a))); auto. now apply extb_extQ. Qed.
Lemma avb_ext n F G : (forall a, F a = G a) -> (avb n F == avb n G)%Q.
Proof. intro H. apply average_ext. intro a. rewrite H. reflexivity. Qed.
Lemma avb_const n b : (avb n (fun _ => b) == b2q b)%Q. Proof. apply (average_const n (b2q b)). Qed.
Lemma avb_nonneg n F : (0 <= avb n F)%Q.
Proof. apply average_nonneg. intro a. destruct (F a); cbn; lra. Qed.
Lemma avb_le n F G : (forall a, F a = true -> G a = true) -> (avb n F <= avb n G)%Q.
Proof. intro H. apply average_le. intro a. specialize (H a). destruct (F a), (G a); cbn; try lra; now discriminate H. Qed.
Lemma avb_le_1 n F : (avb n F <= 1)%Q.
Proof. rewrite <- (avb_const n true). now apply avb_le. Qed.
Lemma avb_neg n F : (avb n (fun a => negb (F a)) == 1 - avb n F)%Q.
Proof.
  assert (H : (avb n (fun a => negb (F a)) + avb n F == 1)%Q); [|lra].
  unfold avb. rewrite <- average_plus, <- (average_const n 1). apply average_ext. intro a. destruct (F a); reflexivity.
Qed.

(** conditioning on a variable tested at the top *)
Lemma avb_if n v F G : extb F -> extb G -> v < n ->
  (forall a b, F (upd a v b) = F a) -> (forall a b, G (upd a v b) = G a) ->
  (avb n (fun a => if a v then F a else G a) == (1#2) * (avb n F + avb n G))%Q.
Proof.
  intros HF HG L IF IG. rewrite (avb_split n v); auto.
  - rewrite (avb_ext n (fun a => if upd a v true v then F (upd a v true) else G (upd a v true)) F)
      by (intro a; now rewrite upd_same, IF).
    rewrite (avb_ext n (fun a => if upd a v false v then F (upd a v false) else G (upd a v false)) G)
      by (intro a; now rewrite upd_same, IG). reflexivity.
  - intros a b E. now rewrite (E v), (HF a b E), (HG a b E).
Qed.

Lemma frac_avb M n f : wf M f -> depends_below n f -> (frac f == avb n (ev f))%Q.
Proof. apply frac_average. Qed.
Lemma avb_frac M n k x c : okn M k x -> (forall i, In i (varsn x) -> i < n) -> (avb n (ev (c, x)) == frac (c, x))%Q.
Proof.
  intros H V. symmetry. apply (frac_avb M).
  - eapply okn_weaken; [|exact H]. lia.
  - now apply vars_depends_below.
Qed.

Section Half.
Variable M : mgr.
Variable w : bdd -> Q.
Variables ls le : nat.
Variable N : nat.
(** the counts of the edges below [n] are the densities *)
Definition dense (n : node) (c : bool) : Prop := forall k, In k (edges n c) -> (w k == frac k)%Q.
Lemma dense_then v t d e c : dense (Nd v t d e) c -> dense t c.
Proof. intros H k Hk. apply H. cbn [edges]. right. apply in_or_app. auto. Qed.
Lemma dense_else v t d e c : dense (Nd v t d e) c -> dense e (xorb c d).
Proof. intros H k Hk. apply H. cbn [edges]. right. apply in_or_app. auto. Qed.

Lemma below_then v t d e : (forall i, In i (varsn (Nd v t d e)) -> i < N) -> forall i, In i (varsn t) -> i < N.
Proof. intros H i Hi. apply H. cbn [varsn]. right. apply in_or_app; auto. Qed.
Lemma below_else v t d e : (forall i, In i (varsn (Nd v t d e)) -> i < N) -> forall i, In i (varsn e) -> i < N.
Proof. intros H i Hi. apply H. cbn [varsn]. right. apply in_or_app; auto. Qed.

Lemma rc_avb_ite v (F G : bdd) (f g : asg -> bool) :
  (forall a, ev F a = f a) -> (forall a, ev G a = g a) -> v < N ->
  (forall a b, f (upd a v b) = f a) -> (forall a b, g (upd a v b) = g a) ->
  (avb N (ev (ite M (bvar v) F G)) == (1#2) * (avb N f + avb N g))%Q.
Proof.
  intros HF HG L If Ig. rewrite <- (avb_if N v f g); auto.
  - apply avb_ext. intro a. rewrite ev_itev, HF, HG. reflexivity.
  - intros a b E. rewrite <- !HF. now apply ev_ext.
  - intros a b E. rewrite <- !HG. now apply ev_ext.
Qed.

Lemma avb_nd k v t d e c : okn M k (Nd v t d e) -> (forall i, In i (varsn (Nd v t d e)) -> i < N) ->
  (avb N (ev (c, Nd v t d e)) == (1#2) * (avb N (ev (c, t)) + avb N (ev (xorb c d, e))))%Q.
Proof.
  intros H V. destruct (okn_top_notin _ _ _ _ _ _ H) as [Nt Ne].
  rewrite <- (avb_if N v); auto using ev_extb.
  - apply avb_ext. apply ev_nd.
  - apply V. now left.
  - intros a b. now apply ev_upd_notin.
  - intros a b. now apply ev_upd_notin.
Qed.

(** how many levels of the range are still possible below position [k] (index order) *)
Definition left_levels (k : nat) : nat := S le - Nat.max k ls.

Definition Q2 (k : nat) : Q := inject_Z (pow2 k).
Lemma Q2_S k : (Q2 (S k) == 2 * Q2 k)%Q.
Proof. unfold Q2. rewrite pow2_S, inject_Z_mult. reflexivity. Qed.
Lemma Q2_ge1 k : (1 <= Q2 k)%Q.
Proof. unfold Q2. change 1%Q with (inject_Z 1). rewrite <- Zle_Qle. pose proof (pow2_pos k). lia. Qed.
Lemma Q2_mono j k : j <= k -> (Q2 j <= Q2 k)%Q.
Proof. intro H. unfold Q2. rewrite <- Zle_Qle. now apply pow2_le. Qed.

(** in index order: each level of the range at most halves the ON set (subset, light child), or
    the OFF set (superset, heavy child) *)
Lemma scale_mono (j k : nat) (x y : Q) : j <= k -> (0 <= y)%Q -> (x <= Q2 j * y)%Q -> (x <= Q2 k * y)%Q.
Proof. intros L Hy H. pose proof (Q2_mono j k L). assert (Q2 j * y <= Q2 k * y)%Q by (apply Qmult_le_compat_r; auto). lra. Qed.

Lemma left_levels_mono j k : j <= k -> left_levels k <= left_levels j.
Proof. unfold left_levels. lia. Qed.

(** the share of inputs an operator must not lose: the ON set for subsets, the OFF set for supersets *)
Definition keep (sub : bool) (x : Q) : Q := if sub then x else (1 - x)%Q.
Lemma keep_nonneg sub F : (0 <= keep sub (avb N F))%Q.
Proof. destruct sub; cbn [keep]; pose proof (avb_nonneg N F); pose proof (avb_le_1 N F); lra. Qed.

Lemma rc_light (HI : index_order M) sub n : forall k c, okn M k n -> (forall i, In i (varsn n) -> i < N) -> dense n c ->
  (keep sub (avb N (ev (c, n))) <= Q2 (left_levels k) * keep sub (avb N (ev (rc M w ls le (negb sub) sub n c))))%Q.
Proof.
  induction n as [|v t IHt d e IHe]; intros k c Hok HV HD.
  - cbn [rc]. apply (scale_mono 0 (left_levels k)); [lia|apply keep_nonneg|]. change (Q2 0) with 1%Q. lra.
  - pose proof (avb_nd k v t d e c Hok HV) as EN. pose proof (okn_top_notin _ _ _ _ _ _ Hok) as [Nt Ne].
    assert (Hok' := Hok). cbn [okn] in Hok. rewrite HI in Hok. destruct Hok as (Lk & Ht & He & _).
    pose proof (below_then _ _ _ _ HV) as Vt. pose proof (below_else _ _ _ _ HV) as Ve.
    pose proof (IHt _ c Ht Vt (dense_then _ _ _ _ _ HD)) as It.
    pose proof (IHe _ (xorb c d) He Ve (dense_else _ _ _ _ _ HD)) as Ie.
    assert (Lv : v < N) by (apply HV; now left).
    pose proof (fun a b => rc_notin M w ls le (negb sub) sub t v b a c Nt) as It'.
    pose proof (fun a b => rc_notin M w ls le (negb sub) sub e v b a (xorb c d) Ne) as Ie'.
    pose proof (keep_nonneg sub (ev (rc M w ls le (negb sub) sub t c))) as Pt.
    pose proof (keep_nonneg sub (ev (rc M w ls le (negb sub) sub e (xorb c d)))) as Pe.
    assert (KH : forall x y z, (z == (1#2) * (x + y))%Q -> (keep sub z == (1#2) * (keep sub x + keep sub y))%Q)
      by (intros x y z Hz; destruct sub; cbn [keep]; lra).
    apply KH in EN.
    cbn [rc]. destruct (v <? ls) eqn:E1.
    + pose proof (KH _ _ _ (rc_avb_ite v _ _ _ _ (fun a => eq_refl) (fun a => eq_refl) Lv It' Ie')) as ER.
      rewrite ER, EN. clear ER EN.
      assert (M1 : left_levels (S v) <= left_levels k) by (apply left_levels_mono; lia).
      apply (scale_mono _ _ _ _ M1) in It; auto. apply (scale_mono _ _ _ _ M1) in Ie; auto.
      set (q := Q2 (left_levels k)) in *. clearbody q. lra.
    + apply Nat.ltb_ge in E1. destruct (v <=? le) eqn:E2.
      * apply Nat.leb_le in E2.
        assert (M1 : S (left_levels (S v)) <= left_levels k) by (unfold left_levels; lia).
        pose proof (HD (c, t) ltac:(cbn [edges]; right; apply in_or_app; left; apply in_edges_refl)) as Wt.
        pose proof (HD (xorb c d, e) ltac:(cbn [edges]; right; apply in_or_app; right; apply in_edges_refl)) as We.
        pose proof (avb_frac M N _ t c Ht Vt) as Ft. pose proof (avb_frac M N _ e (xorb c d) He Ve) as Fe.
        apply (scale_mono _ _ _ _ M1); [apply keep_nonneg|].
        rewrite Q2_S, EN. set (q := Q2 (left_levels (S v))) in *. clearbody q.
        pose proof (KH _ _ _ (rc_avb_ite v _ _ _ _ (fun a => ev_repl sub a) (fun a => eq_refl) Lv (fun a b => eq_refl) Ie')) as ER1.
        pose proof (KH _ _ _ (rc_avb_ite v _ _ _ _ (fun a => eq_refl) (fun a => ev_repl sub a) Lv It' (fun a b => eq_refl))) as ER2.
        assert (K0 : (keep sub (avb N (fun _ => negb sub)) == 0)%Q)
          by (destruct sub; cbn [keep negb]; rewrite avb_const; reflexivity).
        rewrite K0 in ER1, ER2.
        destruct (qgtb (w (c, t)) (w (xorb c d, e))) eqn:E3; [apply qgtb_true in E3|apply qgtb_false in E3];
          destruct sub; cbn [negb Bool.eqb]; [rewrite ER2|rewrite ER1|rewrite ER1|rewrite ER2]; cbn [keep negb] in *; nra.
      * apply (scale_mono 0 (left_levels k)); [lia|apply keep_nonneg|]. change (Q2 0) with 1%Q. lra.
Qed.

(** any order, a single level *)
Lemma rc_light1 sub n (Hl : ls = le) : forall k c, okn M k n -> (forall i, In i (varsn n) -> i < N) -> dense n c ->
  (keep sub (avb N (ev (c, n))) <= 2 * keep sub (avb N (ev (rc M w ls le (negb sub) sub n c))))%Q.
Proof.
  induction n as [|v t IHt d e IHe]; intros k c Hok HV HD.
  - cbn [rc]. pose proof (keep_nonneg sub (ev (c, One))). lra.
  - pose proof (avb_nd k v t d e c Hok HV) as EN. pose proof (okn_top_notin _ _ _ _ _ _ Hok) as [Nt Ne].
    assert (Hok' := Hok). cbn [okn] in Hok. destruct Hok as (Lk & Ht & He & _).
    pose proof (below_then _ _ _ _ HV) as Vt. pose proof (below_else _ _ _ _ HV) as Ve.
    pose proof (IHt _ c Ht Vt (dense_then _ _ _ _ _ HD)) as It.
    pose proof (IHe _ (xorb c d) He Ve (dense_else _ _ _ _ _ HD)) as Ie.
    assert (Lv : v < N) by (apply HV; now left).
    pose proof (fun a b => rc_notin M w ls le (negb sub) sub t v b a c Nt) as It'.
    pose proof (fun a b => rc_notin M w ls le (negb sub) sub e v b a (xorb c d) Ne) as Ie'.
    pose proof (keep_nonneg sub (ev (rc M w ls le (negb sub) sub t c))) as Pt.
    pose proof (keep_nonneg sub (ev (rc M w ls le (negb sub) sub e (xorb c d)))) as Pe.
    assert (KH : forall x y z, (z == (1#2) * (x + y))%Q -> (keep sub z == (1#2) * (keep sub x + keep sub y))%Q)
      by (intros x y z Hz; destruct sub; cbn [keep]; lra).
    apply KH in EN.
    cbn [rc]. destruct (v <? ls) eqn:E1.
    + pose proof (KH _ _ _ (rc_avb_ite v _ _ _ _ (fun a => eq_refl) (fun a => eq_refl) Lv It' Ie')) as ER.
      rewrite ER, EN. lra.
    + apply Nat.ltb_ge in E1. destruct (v <=? le) eqn:E2.
      * apply Nat.leb_le in E2. assert (Hv : v = ls) by lia.
        pose proof (HD (c, t) ltac:(cbn [edges]; right; apply in_or_app; left; apply in_edges_refl)) as Wt.
        pose proof (HD (xorb c d, e) ltac:(cbn [edges]; right; apply in_or_app; right; apply in_edges_refl)) as We.
        pose proof (avb_frac M N _ t c Ht Vt) as Ft. pose proof (avb_frac M N _ e (xorb c d) He Ve) as Fe.
        assert (Ot : forall a, ev (rc M w ls le (negb sub) sub t c) a = ev (c, t) a)
          by (intro a; apply rc_outside; intros i Hi Hb; apply Nt; replace v with i by lia; auto).
        assert (Oe : forall a, ev (rc M w ls le (negb sub) sub e (xorb c d)) a = ev (xorb c d, e) a)
          by (intro a; apply rc_outside; intros i Hi Hb; apply Ne; replace v with i by lia; auto).
        pose proof (KH _ _ _ (rc_avb_ite v _ _ _ _ (fun a => ev_repl sub a) Oe Lv (fun a b => eq_refl)
          (fun a b => ev_upd_notin (xorb c d, e) a v b Ne))) as ER1.
        pose proof (KH _ _ _ (rc_avb_ite v _ _ _ _ Ot (fun a => ev_repl sub a) Lv
          (fun a b => ev_upd_notin (c, t) a v b Nt) (fun a b => eq_refl))) as ER2.
        assert (K0 : (keep sub (avb N (fun _ => negb sub)) == 0)%Q)
          by (destruct sub; cbn [keep negb]; rewrite avb_const; reflexivity).
        rewrite K0 in ER1, ER2. rewrite EN.
        destruct (qgtb (w (c, t)) (w (xorb c d, e))) eqn:E3; [apply qgtb_true in E3|apply qgtb_false in E3];
          destruct sub; cbn [negb Bool.eqb]; [rewrite ER2|rewrite ER1|rewrite ER1|rewrite ER2]; cbn [keep negb] in *; lra.
      * pose proof (keep_nonneg sub (ev (c, Nd v t d e))). lra.
Qed.
End Half.
