(** The metrics do not depend on the variable order *)
From Coq Require Import List Bool Arith ZArith QArith Qround Lia Lqa.
From Verif Require Import Res Cudd CuddFacts Spec SpecFacts Helpers HelpersFacts HelpersFacts2 Counting AddFacts CountFacts PathFacts Metrics MetricsFacts MetricsFacts2 MetricsFacts3 MetricsFacts4 MetricsFacts6 RelMetrics RelFacts RelFacts2 RelFacts7.
From Verif Require BenchmarkFacts.
Import ListNotations.
Open Scope nat_scope.

Lemma same_length f g : same_functions f g -> length f = length g.
Proof. intro H. specialize (H (fun _ => false)). apply (f_equal (@length bool)) in H. now rewrite !map_length in H. Qed.
Lemma same_cons x f y g : same_functions (x :: f) (y :: g) -> (forall a, ev x a = ev y a) /\ same_functions f g.
Proof. intro H. split; intro a; specialize (H a); cbn [map] in H; now injection H. Qed.
Lemma same_nil_l g : same_functions [] g -> g = [].
Proof. intro H. apply same_length in H. now destruct g. Qed.
Lemma same_ind (P : list bdd -> list bdd -> Prop) : P [] [] ->
  (forall x f y g, (forall a, ev x a = ev y a) -> same_functions f g -> P f g -> P (x :: f) (y :: g)) ->
  forall f g, same_functions f g -> P f g.
Proof.
  intros H0 HS. induction f as [|x f IH]; intros g H.
  - now rewrite (same_nil_l g H).
  - destruct g as [|y g]; [apply same_length in H; discriminate|]. apply same_cons in H. destruct H. auto.
Qed.
Lemma same_uval f g : same_functions f g -> forall a, uval f a = uval g a.
Proof. revert f g. apply (same_ind (fun f g => forall a, uval f a = uval g a)); auto. intros x f y g E _ IH a. cbn [uval]. now rewrite E, IH. Qed.
Lemma same_snoc f g : same_functions f g -> f <> [] -> exists f' x g' y, f = f' ++ [x] /\ g = g' ++ [y] /\ same_functions f' g' /\ forall a, ev x a = ev y a.
Proof.
  intros H N. pose proof (same_length _ _ H) as L.
  destruct (exists_last N) as (f' & x & ->). assert (N' : g <> []) by (intros ->; rewrite app_length in L; cbn in L; lia).
  destruct (exists_last N') as (g' & y & ->). exists f', x, g', y. split; [auto|]. split; [auto|].
  split; intro a; specialize (H a); rewrite !map_app in H; apply app_inj_tail in H; apply H.
Qed.
Lemma same_sval f g : same_functions f g -> forall a, sval f a = sval g a.
Proof.
  intros H a. destruct f as [|b f]; [now rewrite (same_nil_l g H)|].
  destruct (same_snoc _ _ H ltac:(discriminate)) as (f' & x & g' & y & -> & -> & H' & E).
  rewrite !sval_app, (same_uval _ _ H'), E, (same_length _ _ H'). reflexivity.
Qed.
Lemma same_value r f g : same_functions f g -> forall a, value r f a = value r g a.
Proof. intros H a. destruct r; [now apply same_uval|now apply same_sval]. Qed.
Lemma same_differ f f' : same_functions f f' -> forall g g', same_functions g g' -> forall a, differ f g a = differ f' g' a.
Proof.
  revert f f'. apply (same_ind (fun f f' => forall g g', same_functions g g' -> forall a, differ f g a = differ f' g' a)); auto.
  intros x f y f' E _ IH g g' H a. destruct g as [|z g]; [now rewrite (same_nil_l g' H)|].
  destruct g' as [|z' g']; [apply same_length in H; discriminate|]. apply same_cons in H. destruct H as [E' H].
  cbn [differ]. rewrite E, E', (IH g g' H). reflexivity.
Qed.
Lemma same_hamming f f' : same_functions f f' -> forall g g', same_functions g g' -> forall a, hamming f g a = hamming f' g' a.
Proof.
  revert f f'. apply (same_ind (fun f f' => forall g g', same_functions g g' -> forall a, hamming f g a = hamming f' g' a)); auto.
  intros x f y f' E _ IH g g' H a. destruct g as [|z g]; [now rewrite (same_nil_l g' H)|].
  destruct g' as [|z' g']; [apply same_length in H; discriminate|]. apply same_cons in H. destruct H as [E' H].
  cbn [hamming]. rewrite E, E', (IH g g' H). reflexivity.
Qed.
Lemma same_below n f g : same_functions f g -> below n f -> below n g.
Proof.
  revert f g. apply (same_ind (fun f g => below n f -> below n g)); auto.
  intros x f y g E _ IH B. apply below_cons in B. destruct B as [B1 B2]. constructor; [|now apply IH].
  intros a b H. rewrite <- !E. auto.
Qed.
Lemma same_nonempty f g : same_functions f g -> f <> [] -> g <> [].
Proof. intros H N ->. apply same_length in H. now destruct f. Qed.
Lemma same_sym f g : same_functions f g -> same_functions g f.
Proof. intros H a. symmetry. apply H. Qed.
Lemma same_wrapped r f f' g g' : same_functions f f' -> same_functions g g' -> forall a, wrapped r f g a = wrapped r f' g' a.
Proof.
  intros H H' a. unfold wrapped. destruct r.
  - now rewrite (same_uval f f' H), (same_uval g g' H').
  - now rewrite (same_sval f f' H), (same_sval g g' H'), (same_length _ _ H), (same_length _ _ H').
Qed.
Lemma same_nth f g i a : same_functions f g -> ev (nth i f bzero) a = ev (nth i g bzero) a.
Proof.
  intro H. specialize (H a). rewrite <- (map_nth (fun b => ev b a) f), <- (map_nth (fun b => ev b a) g), H. reflexivity.
Qed.
Lemma same_top f f' g g' h : same_functions f f' -> same_functions g g' -> top_difference f g h -> top_difference f' g' h.
Proof.
  intros H H' (L & (a & Ha) & E). unfold top_difference. rewrite <- (same_length _ _ H). split; [auto|]. split.
  - exists a. now rewrite <- (same_nth f f' h a H), <- (same_nth g g' h a H').
  - intros i Hi b. rewrite <- (same_nth f f' i b H), <- (same_nth g g' i b H'). auto.
Qed.

(** the support consists of the essential variables *)
Lemma support_essential M f i : wf M f -> (In i (support f) <-> exists a, ev f (upd a i true) <> ev f (upd a i false)).
Proof.
  intro W. rewrite support_spec. split.
  - intro H. destruct (vars_exact M 0 _ i W H) as (a & Ha). exists a. unfold ev. intro E. apply Ha.
    destruct (fst f), (evn (snd f) (upd a i true)), (evn (snd f) (upd a i false)); cbn in E; congruence.
  - intros (a & Ha). destruct (in_dec Nat.eq_dec i (varsn (snd f))) as [|N]; auto. exfalso. apply Ha.
    unfold ev. now rewrite !evn_upd_notin.
Qed.
Lemma support_size_same M1 M2 f g : wf M1 f -> wf M2 g -> (forall a, ev f a = ev g a) -> support_size f = support_size g.
Proof.
  intros W1 W2 E. unfold support_size.
  assert (I : forall i, In i (support f) <-> In i (support g)).
  { intro i. rewrite (support_essential M1), (support_essential M2) by auto. split; intros (a & Ha); exists a; [now rewrite <- !E|now rewrite !E]. }
  apply Nat.le_antisymm; apply NoDup_incl_length; try apply support_nodup; intros i Hi; now apply I.
Qed.

Section Order.
Variables (M1 M2 : mgr) (n : nat).

Lemma same_support f g : wfs M1 f -> wfs M2 g -> same_functions f g -> map support_size f = map support_size g.
Proof.
  intros W1 W2 H. revert f g H W1 W2. apply (same_ind (fun f g => wfs M1 f -> wfs M2 g -> map support_size f = map support_size g)); auto.
  intros x f y g E _ IH W1 W2. inversion W1; inversion W2; subst. cbn [map]. f_equal; auto. now apply (support_size_same M1 M2).
Qed.
Lemma same_largest f g s : wfs M1 f -> wfs M2 g -> same_functions f g -> largest_support f s -> largest_support g s.
Proof.
  intros W1 W2 H. pose proof (same_support f g W1 W2 H) as E.
  assert (T : forall f' g', map support_size f' = map support_size g' -> forall b, In b g' -> exists b', In b' f' /\ support_size b' = support_size b).
  { intros f' g' E' b Hb. apply (in_map support_size) in Hb. rewrite <- E' in Hb. apply in_map_iff in Hb. destruct Hb as (b' & ? & ?). eauto. }
  intros [HB HE]. split.
  - intros b Hb. destruct (T f g E b Hb) as (b' & Hb' & <-). auto.
  - destruct HE as [HE|(b & Hb & <-)]; [auto|]. right. destruct (T g f (eq_sym E) b Hb) as (b' & ? & ?). eauto.
Qed.
Lemma digits_ext (F G : bdd -> Z) f g : length f = length g -> (forall i, F (nth i f bzero) = G (nth i g bzero)) -> digits (map F f) = digits (map G g).
Proof.
  revert g. induction f as [|x f IH]; intros [|y g] L H; cbn [length] in L; try discriminate; [reflexivity|].
  cbn [map digits fold_right]. rewrite (H 0 : F x = G y). f_equal. f_equal. apply IH; [lia|]. intro i. apply (H (S i)).
Qed.
Lemma same_truncated s f g : same_functions f g -> (truncated_square n s f == truncated_square n s g)%Q.
Proof.
  intro H. pose proof (same_length _ _ H) as L. unfold truncated_square.
  rewrite (digits_ext (fun x => digits (map (both_count n s x) f)) (fun x => digits (map (both_count n s x) g)) f g L); [reflexivity|].
  intro i. apply digits_ext; [auto|]. intro j. unfold both_count. apply Qfloor_comp. apply Qmult_comp; [reflexivity|].
  apply average_ext. intro a. now rewrite (same_nth f g i a H), (same_nth f g j a H).
Qed.

Variables f g f' g' : list bdd.
Hypotheses (Wf : wfs M1 f) (Wg : wfs M1 g) (Wf' : wfs M2 f') (Wg' : wfs M2 g').
Hypotheses (Bf : below n f) (Bg : below n g) (Sf : same_functions f f') (Sg : same_functions g g').

Lemma order_free_single : length f <= 256 -> (forall b, In b f -> 2 * length f + support_size b <= 256) ->
  get_max_value M1 f = get_max_value M2 f'
  /\ (exists p q, average_value f = Fin p /\ average_value f' = Fin q /\ (p == q)%Q)
  /\ (exists p q, mean_squared_value M1 f = Fin p /\ mean_squared_value M2 f' = Fin q /\ (p == q)%Q).
Proof.
  intros L H. pose proof (same_length _ _ Sf) as LE. pose proof (same_below n _ _ Sf Bf) as Bf'.
  assert (H' : forall b, In b f' -> 2 * length f' + support_size b <= 256).
  { intros b Hb. apply (in_map support_size) in Hb. rewrite <- (same_support f f' Wf Wf' Sf) in Hb. apply in_map_iff in Hb.
    destruct Hb as (b' & <- & Hb'). rewrite <- LE. auto. }
  split; [|split].
  - destruct (get_max_value_full M1 f Wf) as [_ H1]. destruct (get_max_value_full M2 f' Wf') as [_ H2].
    apply (is_max_unique (uval f)); [auto|]. apply is_max_ext with (2 := H2 ltac:(lia)). intro a. symmetry. now apply same_uval.
  - destruct (average_value_full M1 n f Wf Bf) as (p & -> & Ep); [intros b Hb; specialize (H b Hb); lia|].
    destruct (average_value_full M2 n f' Wf' Bf') as (q & -> & Eq); [intros b Hb; specialize (H' b Hb); lia|].
    exists p, q. split; [auto|]. split; [auto|]. rewrite Ep, Eq. apply average_ext. intro a. now rewrite (same_uval f f' Sf).
  - destruct (max_support_spec f 0) as (_ & L2 & L3).
    assert (HL : largest_support f (max_support f 0)) by (split; [auto|]; destruct L3 as [E0|(b & Hb & E0)]; [auto|right; eauto]).
    destruct (mean_squared_value_exact M1 n f _ Wf Bf H HL) as (p & -> & Ep).
    destruct (mean_squared_value_exact M2 n f' _ Wf' Bf' H' (same_largest f f' _ Wf Wf' Sf HL)) as (q & -> & Eq).
    exists p, q. split; [auto|]. split; [auto|]. rewrite Ep, Eq. now apply same_truncated.
Qed.

Lemma order_free_rates : length f = length g -> (Z.of_nat (length f) < 2 ^ 32)%Z ->
  (exists p q, error_rate M1 f g = Ok p /\ error_rate M2 f' g' = Ok q /\ (p == q)%Q)
  /\ (exists p q, average_bit_flip_error M1 f g = Ok p /\ average_bit_flip_error M2 f' g' = Ok q /\ (p == q)%Q)
  /\ worst_case_bit_flip_error M1 f g = worst_case_bit_flip_error M2 f' g'.
Proof.
  intros L H. pose proof (same_length _ _ Sf) as L1. pose proof (same_length _ _ Sg) as L2.
  pose proof (same_below n _ _ Sf Bf) as Bf'. pose proof (same_below n _ _ Sg Bg) as Bg'.
  split; [|split].
  - destruct (error_rate_full M1 n f g Wf Wg Bf Bg) as [X _]. destruct (X L) as (p & -> & Ep & _).
    destruct (error_rate_full M2 n f' g' Wf' Wg' Bf' Bg') as [Y _]. destruct (Y ltac:(lia)) as (q & -> & Eq & _).
    exists p, q. split; [auto|]. split; [auto|]. rewrite Ep, Eq. apply average_ext. intro a. now rewrite (same_differ f f' Sf g g' Sg).
  - destruct (average_bit_flip_full M1 n f g Wf Wg Bf Bg) as [X _]. destruct (X L) as (p & -> & Ep).
    destruct (average_bit_flip_full M2 n f' g' Wf' Wg' Bf' Bg') as [Y _]. destruct (Y ltac:(lia)) as (q & -> & Eq).
    exists p, q. split; [auto|]. split; [auto|]. rewrite Ep, Eq. apply average_ext. intro a. now rewrite (same_hamming f f' Sf g g' Sg).
  - destruct (worst_case_bit_flip_full M1 n f g Wf Wg L) as [X _]. destruct (X H) as (p & -> & Ep).
    destruct (worst_case_bit_flip_full M2 n f' g' Wf' Wg' ltac:(lia)) as [Y _]. destruct (Y ltac:(lia)) as (q & -> & Eq).
    f_equal. apply (is_max_unique (hamming f g)); auto. apply is_max_ext with (2 := Eq). intro a. symmetry. now apply same_hamming.
Qed.

Lemma order_free_arithmetic r : (r = TwosComplement -> f <> [] /\ g <> []) -> 2 * Nat.max (length f) (length g) + 2 + n <= 256 ->
  worst_case_error M1 f g r = worst_case_error M2 f' g' r
  /\ (exists p q, average_case_error M1 f g r = Ok (Fin p) /\ average_case_error M2 f' g' r = Ok (Fin q) /\ (p == q)%Q)
  /\ (exists p q, mean_squared_error M1 f g r = Ok (Fin p) /\ mean_squared_error M2 f' g' r = Ok (Fin q) /\ (p == q)%Q).
Proof.
  intros Hr H. pose proof (same_length _ _ Sf) as L1. pose proof (same_length _ _ Sg) as L2.
  pose proof (same_below n _ _ Sf Bf) as Bf'. pose proof (same_below n _ _ Sg Bg) as Bg'.
  assert (Hr' : r = TwosComplement -> f' <> [] /\ g' <> []).
  { intro E. destruct (Hr E). split; [apply (same_nonempty f)|apply (same_nonempty g)]; auto. }
  split; [|split].
  - destruct r.
    + destruct (wce_base_spec M1 f g Wf Wg) as (p & -> & Ep); try lia.
      destruct (wce_base_spec M2 f' g' Wf' Wg') as (q & -> & Eq); try lia.
      f_equal. apply (is_max_unique _ _ _ Ep). apply is_max_ext with (2 := Eq). intro a.
      now rewrite (same_uval f f' Sf), (same_uval g g' Sg).
    + destruct (Hr eq_refl), (Hr' eq_refl).
      destruct (wce_twos_spec M1 f g Wf Wg) as (p & -> & Ep); auto; try lia.
      destruct (wce_twos_spec M2 f' g' Wf' Wg') as (q & -> & Eq); auto; try lia.
      f_equal. apply (is_max_unique _ _ _ Ep). apply is_max_ext with (2 := Eq). intro a.
      now rewrite (same_sval f f' Sf), (same_sval g g' Sg), L1, L2.
  - destruct (ace_spec M1 n f g r) as (p & -> & Ep); auto; [lia|].
    destruct (ace_spec M2 n f' g' r) as (q & -> & Eq); auto; [lia|].
    exists p, q. split; [auto|]. split; [auto|]. rewrite Ep, Eq. apply average_ext. intro a. now rewrite (same_wrapped r f f' g g' Sf Sg).
  - destruct (mse_exact M1 n f g r) as (d & p & Ed & Vd & -> & Ep); auto.
    destruct (mse_exact M2 n f' g' r) as (d' & q & Ed' & Vd' & -> & Eq); auto; [lia|].
    exists p, q. split; [auto|]. split; [auto|].
    destruct (absdiff_any M1 n f g r) as (x & Ex & _ & Wd & Bd & _); auto. rewrite Ed in Ex. injection Ex as <-.
    destruct (absdiff_any M2 n f' g' r) as (x & Ex & _ & Wd' & Bd' & _); auto. rewrite Ed' in Ex. injection Ex as <-.
    assert (LD : length d = length d').
    { clear - Ed Ed' L1 L2 Hr Hr'. destruct r.
      - destruct (absdiff_base M1 f g) as (x & Ex & L & _). destruct (absdiff_base M2 f' g') as (x' & Ex' & L' & _).
        rewrite Ed in Ex. rewrite Ed' in Ex'. injection Ex as <-. injection Ex' as <-. lia.
      - destruct (Hr eq_refl), (Hr' eq_refl).
        destruct (absdiff_twos M1 f g) as (x & Ex & L & _); auto. destruct (absdiff_twos M2 f' g') as (x' & Ex' & L' & _); auto.
        rewrite Ed in Ex. rewrite Ed' in Ex'. injection Ex as <-. injection Ex' as <-. lia. }
    assert (SD : same_functions d d').
    { intro a. assert (V : uval d a = uval d' a) by (rewrite Vd, Vd'; now apply same_wrapped).
      clear - LD V. revert d' LD V. induction d as [|x d IH]; intros [|y d'] LD V; cbn [length] in LD; try discriminate; auto.
      cbn [uval map] in *. assert (E : ev x a = ev y a /\ uval d a = uval d' a) by (destruct (ev x a), (ev y a); cbn [Z.b2z] in V; split; auto; lia).
      destruct E as [-> E]. f_equal. apply IH; auto. }
    destruct (max_support_spec d 0) as (_ & S2 & S3).
    assert (HL : largest_support d (max_support d 0)) by (split; [auto|]; destruct S3 as [E0|(b & Hb & E0)]; [auto|right; eauto]).
    rewrite (Ep _ HL), (Eq _ (same_largest d d' _ Wd Wd' SD HL)). now apply same_truncated.
Qed.

Lemma order_free_approximate k : length f = length g -> length f <= 256 -> (1 <= k)%Z ->
  approximate_worst_case_error M1 f g k BaseTwo = approximate_worst_case_error M2 f' g' k BaseTwo.
Proof.
  intros L H Hk. pose proof (same_length _ _ Sf) as L1. pose proof (same_length _ _ Sg) as L2.
  destruct (awce_base_full M1 f g k Wf Wg L H Hk) as [E1 _]. destruct (awce_base_full M2 f' g' k Wf' Wg' ltac:(lia) ltac:(lia) Hk) as [E2 _].
  pose proof (BenchmarkFacts.top_difference_dec M1 f g Wf Wg L) as D.
  destruct D as [D|(h & D)].
  - rewrite E1 by auto. symmetry. apply E2. intro a. rewrite <- (Sf a), <- (Sg a). auto.
  - destruct (awce_base_value M1 f g k h Wf Wg L H Hk D) as (p & Ep & ->).
    destruct (awce_base_value M2 f' g' k h Wf' Wg' ltac:(lia) ltac:(lia) Hk (same_top f f' g g' h Sf Sg D)) as (q & Eq & ->).
    do 4 f_equal. apply (is_max_unique _ _ _ Ep). apply is_max_ext with (2 := Eq). intro a.
    now rewrite (same_uval f f' Sf), (same_uval g g' Sg).
Qed.

Lemma order_free_division e r : f <> [] -> (r = TwosComplement -> g <> []) -> Nat.max (length f) (length g) + e <= 256 ->
  exists p q, wcre_symbolic_division M1 f g e r = Ok p /\ wcre_symbolic_division M2 f' g' e r = Ok q /\ p = q.
Proof.
  intros Nf Ng H. pose proof (same_length _ _ Sf) as L1. pose proof (same_length _ _ Sg) as L2.
  destruct (wcre_division_exact M1 n f g e r) as (p & -> & Ep); auto.
  destruct (wcre_division_exact M2 n f' g' e r) as (q & -> & Eq); auto; try lia.
  { now apply (same_below n f). } { now apply (same_below n g). } { now apply (same_nonempty f). } { intro E. now apply (same_nonempty g); auto. }
  do 2 eexists. split; [reflexivity|]. split; [reflexivity|].
  rewrite (is_max_unique _ p q Ep); [reflexivity|]. apply is_max_ext with (2 := Eq). intro a. unfold wrel.
  now rewrite (same_wrapped r f f' g g' Sf Sg), (same_value r f f' Sf).
Qed.
End Order.

(** a manager with the first [k] variables in reverse order *)
Lemma reversed_inj : forall k i j,
  (if i <? k then k - 1 - i else i) = (if j <? k then k - 1 - j else j) -> i = j.
Proof. intros k i j. destruct (Nat.ltb_spec i k), (Nat.ltb_spec j k); lia. Qed.
Definition reversed_mgr (k n : nat) : mgr := Mgr (fun i => if i <? k then k - 1 - i else i) (reversed_inj k) n.
