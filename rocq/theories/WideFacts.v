(** Histograms of ADDs with any number of levels *)
From Coq Require Import List Bool Arith ZArith QArith Lia.
From Verif Require Import Res Cudd CuddFacts Spec SpecFacts Helpers HelpersFacts HelpersFacts2 Counting AddFacts CountFacts PathFacts
  SpecPaths LevelFacts Metrics MetricsFacts MetricsFacts2 MetricsFacts4 RelMetrics RelFacts MinimizeFacts3.
Import ListNotations.
Open Scope nat_scope.

(** ** Long edges *)
Section Edges.
Variable M : mgr.
Hypothesis HI : index_order M.
Variable T rv : nat.
Variables rt re : add.
Let root := AN rv rt re.
Hypothesis Hroot : aok M 0 root.
Hypothesis Hvars : forall i, In i (avars root) -> i < T.

Lemma short_gaps n : In n (asubs root) ->
  (forall m, In m (asubs n) -> short T rv rt re m) <-> Forall (fun k => k < 64) (gaps T (el T rv rt re n) n).
Proof.
  induction n as [q|v t IHt e IHe]; intro Hn; cbn [gaps].
  - split; [constructor|]. intros _ m [<-|[]]. exact I.
  - destruct (el_child M HI T rv rt re Hroot Hvars _ v t e eq_refl Hn) as (E1 & E2 & _).
    destruct (asubs_children root v t e Hn) as [It Ie]. rewrite E1 in IHt. rewrite E2 in IHe.
    specialize (IHt It). specialize (IHe Ie).
    change (met T t) with (alevel t T). change (met T e) with (alevel e T).
    split.
    + intro H. destruct (H (AN v t e) (asubs_refl _)) as [S1 S2].
      constructor; [exact S1|]. constructor; [exact S2|]. apply Forall_app. split.
      * apply IHt. intros m Hm. apply H. cbn [asubs]. right. apply in_or_app. auto.
      * apply IHe. intros m Hm. apply H. cbn [asubs]. right. apply in_or_app. auto.
    + intros H m Hm. inversion H as [|? ? S1 H']; subst. inversion H' as [|? ? S2 H'']; subst.
      apply Forall_app in H''. destruct H'' as [F1 F2]. cbn [asubs] in Hm. destruct Hm as [<-|Hm].
      * split; assumption.
      * apply in_app_or in Hm. destruct Hm as [Hm|Hm]; [apply (proj2 IHt F1 m Hm)|apply (proj2 IHe F2 m Hm)].
Qed.
Lemma el_root : el T rv rt re root = 0.
Proof. unfold el. fold root. now rewrite (proj2 (add_eqb_spec root root) eq_refl). Qed.
Lemma long_edge_short : ~ long_edge T root <-> forall m, In m (asubs root) -> short T rv rt re m.
Proof.
  rewrite (short_gaps root (asubs_refl _)), el_root, Forall_forall. unfold long_edge. split.
  - intros H k Hk. destruct (Nat.lt_ge_cases k 64); auto. exfalso. apply H. eauto.
  - intros H (k & Hk & L). specialize (H k Hk). lia.
Qed.
End Edges.

Lemma gaps_le T A : forall l k, In k (gaps T l A) -> (forall i, In i (avars A) -> i < T) -> k < T \/ k = 0.
Proof.
  induction A as [q|v x IHx y IHy]; intros l k Hk Hv; [destruct Hk|]. cbn [gaps] in Hk.
  assert (B : forall z, (z = x \/ z = y) -> met T z <= T).
  { intros z Hz. destruct z as [q|w t e]; cbn [met]; auto. apply Nat.lt_le_incl, Hv. right. apply in_or_app.
    destruct Hz as [<-|<-]; [left|right]; now left. }
  destruct Hk as [<-|[<-|Hk]].
  - pose proof (B x (or_introl eq_refl)). lia.
  - pose proof (B y (or_intror eq_refl)). lia.
  - apply in_app_or in Hk. destruct Hk as [Hk|Hk]; [apply (IHx _ _ Hk)|apply (IHy _ _ Hk)];
      intros i Hi; apply Hv; right; apply in_or_app; auto.
Qed.

Lemma depth_level A t : depth A t -> t = add_term_level A.
Proof. intro H. exact (first_unused_unique _ _ _ H (add_term_level_first A)). Qed.

Lemma short_64 A t : depth A t -> t <= 64 -> ~ long_edge t A.
Proof.
  intros (_ & H & _) Ht (k & Hk & L). destruct (gaps_le t A 0 k Hk H); lia.
Qed.

(** ** The histogram *)
Lemma leaf_hist pc q r : (forall v c, In (v, c) r <-> In (Leaf v) (asubs (Leaf q)) /\ c = aget (Leaf v) pc) ->
  NoDup (map fst r) -> r = [(q, aget (Leaf q) pc)].
Proof.
  intros H N. assert (Q1 : forall v c, In (v, c) r -> v = q /\ c = aget (Leaf q) pc).
  { intros v c Hi. apply H in Hi. destruct Hi as [[E|[]] ->]. injection E as ->. auto. }
  destruct r as [|[v c] [|[v' c'] r]].
  - exfalso. destruct (proj2 (H q (aget (Leaf q) pc))). split; [now left|auto].
  - destruct (Q1 v c) as [-> ->]; [now left|reflexivity].
  - destruct (Q1 v c) as [-> _]; [now left|]. destruct (Q1 v' c') as [-> _]; [right; now left|].
    inversion N as [|? ? Nn _]. exfalso. apply Nn. now left.
Qed.

Lemma histogram_wide M A t : index_order M -> aok M 0 A -> depth A t ->
  (long_edge t A -> add_terminal_values A = UB)
  /\ (~ long_edge t A -> exists r, add_terminal_values A = Ok r /\ NoDup (map fst r)
       /\ (forall v, In v (map fst r) <-> exists a, aev A a = v)
       /\ (avars A <> [] -> forall v c, In (v, c) r ->
             c = (Z.of_nat (count_inputs t (fun a => Qeq_bool (aev A a) v)) mod 2 ^ 64)%Z)
       /\ (forall q, A = Leaf q -> r = [(q, 1%Z)])).
Proof.
  intros HI Hok Ht. rewrite (depth_level A t Ht) in *. clear t Ht. set (T := add_term_level A).
  assert (HV : forall i, In i (avars A) -> i < T) by (intros i Hi; now apply add_term_level_lt).
  unfold add_terminal_values. fold T.
  destruct A as [q|v x y].
  - split; [intros (k & [] & _)|]. intros _. cbn [count_paths bind].
    destruct (terminals_spec (Leaf q) [(Leaf q, 1%Z)]) as (r & R & H & N).
    pose proof (leaf_hist _ q r H N) as ->. unfold aget, alookup in *. cbn [find fst snd] in *.
    rewrite (proj2 (add_eqb_spec (Leaf q) (Leaf q)) eq_refl) in *. cbn [snd] in *.
    exists [(q, 1%Z)]. split; [exact R|]. split; [exact N|]. split; [|split].
    + intro v. cbn [map fst In aev]. split; [intros [<-|[]]; exists (fun _ => false); reflexivity|intros [a <-]; auto].
    + intros []. reflexivity.
    + intros q' E. injection E as ->. reflexivity.
  - pose proof (long_edge_short M HI T v x y Hok HV) as LS.
    destruct (count_paths_spec M HI T v x y Hok HV) as [(pc & R & Sh & C)|(R & n & Hn & F)]; rewrite R; cbn [bind].
    + split; [intro L; exfalso; apply (proj2 LS Sh L)|]. intros _.
      destruct (terminals_spec (AN v x y) pc) as (r & R' & H & N). exists r. split; [exact R'|]. split; [exact N|].
      assert (VV : forall u, In u (map fst r) <-> exists a, aev (AN v x y) a = u).
      { intro u. split.
        + intro Hu. apply in_map_iff in Hu. destruct Hu as ([u' c] & E & Hi). cbn in E. subst u'. apply H in Hi.
          destruct Hi as [Hi _]. eapply leaf_attained; eauto.
        + intros (a & <-). apply in_map_iff. exists (aev (AN v x y) a, aget (Leaf (aev (AN v x y) a)) pc). split; auto.
          apply H. split; auto. apply value_leaf. }
      split; [exact VV|]. split; [|discriminate].
      intros _ u c Hi. assert (Hu : In u (map fst r)) by (apply in_map_iff; exists (u, c); auto).
      apply H in Hi. destruct Hi as [_ ->]. destruct (C u) as (z & Ez & ->). f_equal.
      rewrite count_inputs_sum in Ez. unfold Qeq in Ez. cbn [Qnum Qden inject_Z] in Ez.
      assert (z = Z.of_nat (count_inputs T (fun a => q_eqb (aev (AN v x y) a) u))) as -> by lia.
      f_equal. unfold count_inputs. f_equal. apply filter_ext. intro l. symmetry.
      apply Qeq_bool_red; [eapply aev_red; eauto|]. apply VV in Hu. destruct Hu as [a <-]. eapply aev_red; eauto.
    + split; [reflexivity|]. intro L. exfalso. apply F. exact (proj1 LS L n Hn).
Qed.

Lemma hist_sum M A t (r : list (Q * Z)) : index_order M -> aok M 0 A -> avars A <> [] -> (forall i, In i (avars A) -> i < t) -> NoDup (map fst r) ->
  (forall v, In v (map fst r) <-> exists a, aev A a = v) ->
  fold_right Z.add 0%Z (map (fun v => Z.of_nat (count_inputs t (fun a => Qeq_bool (aev A a) v))) (map fst r)) = pow2 t.
Proof.
  intros HI Hok Hne HV N V. rewrite <- (all_inputs_length t).
  rewrite <- (histogram_sum (aev A) (all_inputs t) (map fst r) N) by (intros l _; apply V; eauto).
  f_equal. apply map_ext_in. intros v Hv. f_equal. unfold count_inputs. f_equal. apply filter_ext. intro l.
  apply Qeq_bool_red; [eapply aev_red; eauto|]. apply V in Hv. destruct Hv as [a <-]. eapply aev_red; eauto.
Qed.

(** ** Maxima *)
Lemma values_wide M A : index_order M -> aok M 0 A ->
  add_terminal_values A = UB \/ exists r, add_terminal_values A = Ok r /\ forall v, In v (map fst r) <-> exists a, aev A a = v.
Proof.
  intros HI Hok. pose proof (add_term_level_first A) as D. destruct (histogram_wide M A _ HI Hok D) as [H1 H2].
  destruct (add_terminal_values A) as [r| | |] eqn:E; auto.
  - right. destruct H2 as (r' & R & _ & V & _); [intro L; specialize (H1 L); discriminate|]. injection R as <-. eauto.
  - exfalso. destruct H2 as (r' & R & _); [intro L; specialize (H1 L); discriminate|discriminate].
  - exfalso. destruct H2 as (r' & R & _); [intro L; specialize (H1 L); discriminate|discriminate].
Qed.

Lemma wide_cases M A t : index_order M -> aok M 0 A -> depth A t ->
  (long_edge t A /\ add_terminal_values A = UB)
  \/ (~ long_edge t A /\ exists r, add_terminal_values A = Ok r /\ forall v, In v (map fst r) <-> exists a, aev A a = v).
Proof.
  intros HI Hok D. destruct (histogram_wide M A t HI Hok D) as [H1 H2].
  destruct (values_wide M A HI Hok) as [U|(r & R & V)].
  - left. split; auto.
    destruct (Forall_Exists_dec (fun k => k < 64) (fun k => lt_dec k 64) (gaps t 0 A)) as [F|F].
    + exfalso. destruct H2 as (r & R & _); [|congruence]. intros (k & Hk & L). rewrite Forall_forall in F. specialize (F k Hk). lia.
    + apply Exists_exists in F. destruct F as (k & Hk & L). exists k. split; auto. lia.
  - right. split; [intro L; rewrite (H1 L) in R; discriminate|eauto].
Qed.

Lemma wce_add_wide M f g r : index_order M -> wfs M f -> wfs M g ->
  (r = TwosComplement -> f <> [] /\ g <> []) -> length f <= 256 -> length g <= 256 ->
  exists A, absolute_difference_add M f g r = Ok A /\ forall t, depth A t ->
    (long_edge t A -> worst_case_error_add M f g r = UB)
    /\ (~ long_edge t A -> exists m, worst_case_error_add M f g r = Ok m /\ is_max (fun a => dist (value r f a) (value r g a)) m).
Proof.
  intros HI Wf Wg Hr Lf Lg. unfold worst_case_error_add.
  destruct (absdiff_add_spec M f g r Hr) as (A & EA0 & HA & VA & EA). exists A. split; [exact EA0|].
  rewrite EA0. cbn [bind]. intros t D.
  destruct (wide_cases M A t HI (HA Wf Wg) D) as [[L U]|[L (h & R & V)]].
  { rewrite U. split; [reflexivity|contradiction]. }
  split; [contradiction|]. intros _. rewrite R. cbn [bind].
  assert (HB : forall a, (0 <= dist (value r f a) (value r g a) < 2 ^ 256)%Z).
  { intro a. pose proof (value_dist_lt r f g a Hr). pose proof (pow2_256 (Nat.max (length f) (length g)) ltac:(lia)). lia. }
  assert (EV : forall a, to_u256 (aev A a) = dist (value r f a) (value r g a)) by (intro; apply to_u256_int; auto).
  destruct (fold_max_spec h) with (m := 0%Z) as (L1 & L2 & L3).
  { intros v Hv. apply V in Hv. destruct Hv as (a & <-). eauto. }
  cbv zeta in *. set (x := fold_left _ h 0%Z) in *. exists x. split; [reflexivity|].
  assert (HU : forall a, (dist (value r f a) (value r g a) <= x)%Z) by (intro a; rewrite <- EV; apply L2, V; eauto).
  split; [|exact HU]. destruct L3 as [L3|(v & Hv & L3)].
  - exists (fun _ => false). specialize (HU (fun _ => false)). specialize (HB (fun _ => false)). lia.
  - apply V in Hv. destruct Hv as (a & <-). exists a. rewrite L3. symmetry. apply EV.
Qed.

Lemma wcbf_add_wide M f g : index_order M -> wfs M f -> wfs M g -> length f = length g -> length f <= 64 ->
  exists A, xor_difference_add M f g = Ok A /\ forall t, depth A t ->
    (long_edge t A -> worst_case_bit_flip_error_add M f g = UB)
    /\ (~ long_edge t A -> exists m, worst_case_bit_flip_error_add M f g = Ok m /\ is_max (hamming f g) m).
Proof.
  intros HI Wf Wg L H64. unfold worst_case_bit_flip_error_add.
  destruct (xor_difference_add_full M f g L) as (A & EA0 & HA & EA). destruct (HA Wf Wg) as [OA VA]. exists A. split; [exact EA0|].
  rewrite EA0. cbn [bind]. intros t D.
  destruct (wide_cases M A t HI OA D) as [[Lo U]|[Lo (r & R & V)]].
  { rewrite U. split; [reflexivity|contradiction]. }
  split; [contradiction|]. intros _. rewrite R. cbn [bind].
  assert (EV : forall a, popcount (Z.quot (Qnum (aev A a)) (Zpos (Qden (aev A a)))) = hamming f g a).
  { intro a. rewrite (quot_int _ _ (EA a)). symmetry. now apply hamming_lxor. }
  destruct (max_popcount_spec (Z.of_nat (length f)) r) with (m := 0%Z) as (x & -> & L1 & L2 & L3); [lia| |].
  - intros v Hv. apply V in Hv. destruct Hv as (a & <-). exists (Z.lxor (uval f a) (uval g a)). split; [apply EA|]. split.
    + split; [apply lxor_nonneg; apply uval_range|]. pose proof (lxor_lt_pow2 f g a L). pose proof (pow2_64 _ H64). lia.
    + rewrite <- hamming_lxor by auto. apply hamming_range.
  - exists x. split; [auto|].
    assert (HU : forall a, (hamming f g a <= x)%Z) by (intro a; rewrite <- EV; apply L2, V; eauto).
    split; [|exact HU]. destruct L3 as [->|(v & Hv & ->)].
    + exists (fun _ => false). specialize (HU (fun _ => false)). pose proof (hamming_range f g (fun _ => false)). lia.
    + apply V in Hv. destruct Hv as (a & <-). exists a. symmetry. apply EV.
Qed.

Lemma wcre_add_wide M n f g r : index_order M -> wfs M f -> wfs M g -> below n f -> below n g ->
  (r = TwosComplement -> f <> [] /\ g <> []) ->
  exists A, relative_add M f g r = Ok A /\ forall t, depth A t ->
    (long_edge t A -> wcre_add M f g r = UB)
    /\ (~ long_edge t A -> exists q, wcre_add M f g r = Ok q /\ is_maxQ (fun a => rel (value r f a) (value r g a)) q).
Proof.
  intros HM Wf Wg Bf Bg Hr. unfold wcre_add.
  destruct (relative_add_spec M n f g r Wf Wg Bf Bg Hr) as (A & EA0 & OA & VA & SA). exists A. split; [exact EA0|].
  rewrite EA0. cbn [bind]. intros t D.
  destruct (wide_cases M A t HM OA D) as [[L U]|[L (tv & R & HV)]].
  { rewrite U. split; [reflexivity|contradiction]. }
  split; [contradiction|]. intros _. rewrite R. cbn [bind].
  eexists. split; [reflexivity|]. destruct (fold_qmax tv 0%Q) as (H1 & H2 & H3). cbv zeta in *.
  set (x := fold_left _ tv 0%Q) in *. split.
  - destruct H3 as [H3|H3].
    + exists (fun _ => false). apply Qle_antisym.
      * rewrite <- SA. apply H2. apply HV. eauto.
      * rewrite H3. apply rel_nonneg.
    + apply HV in H3. destruct H3 as (a & <-). exists a. now rewrite SA.
  - intro a. rewrite <- SA. apply H2. apply HV. eauto.
Qed.

(** ** 64-bit totals *)
Lemma mod_sum t : 64 <= t -> forall l : list Z, fold_right Z.add 0%Z l = pow2 t ->
  (fold_right Z.add 0 (map (fun c => c mod 2 ^ 64) l) mod 2 ^ 64 = 0)%Z.
Proof.
  intros Ht l H. transitivity (fold_right Z.add 0%Z l mod 2 ^ 64)%Z.
  - clear H. induction l as [|c l IH]; [reflexivity|]. cbn [map fold_right].
    rewrite Z.add_mod, IH, Z.mod_mod by discriminate. symmetry. apply Z.add_mod. discriminate.
  - rewrite H. apply Z.mod_divide; [discriminate|]. exists (pow2 (t - 64)).
    change (2 ^ 64)%Z with (pow2 64). rewrite <- pow2_add. f_equal. lia.
Qed.

Lemma total_wide M A i : index_order M -> aok M 0 A -> In i (avars A) -> 63 <= i ->
  add_terminal_values A = UB \/ exists r, add_terminal_values A = Ok r /\ (tsum r mod 2 ^ 64 = 0)%Z.
Proof.
  intros HI Hok Hi L. pose proof (add_term_level_first A) as D. set (t := add_term_level A) in *.
  assert (Ht : 64 <= t) by (destruct D as (_ & D & _); specialize (D i Hi); lia).
  destruct (histogram_wide M A t HI Hok D) as [H1 H2].
  destruct (values_wide M A HI Hok) as [U|(r & R & _)]; [auto|]. right.
  destruct H2 as (r' & R' & N & V & C & _); [intro F; rewrite (H1 F) in R; discriminate|].
  rewrite R in R'. injection R' as <-. exists r. split; [exact R|].
  assert (Hne : avars A <> []) by (intro E; rewrite E in Hi; destruct Hi).
  destruct D as (_ & D & _). pose proof (hist_sum M A t r HI Hok Hne D N V) as S. apply (mod_sum t Ht) in S.
  rewrite !map_map in S. assert (E : tsum r = fold_right Z.add 0%Z (map (fun p => Z.of_nat (count_inputs t (fun a => Qeq_bool (aev A a) (fst p))) mod 2 ^ 64)%Z r)).
  { unfold tsum. f_equal. apply map_ext_in. intros [v c] Hv. cbn [fst snd]. now apply C. }
  rewrite E. exact S.
Qed.

Lemma nonzero_total r : forall nz tot, (0 <= tot < 2 ^ 64)%Z -> snd (nonzero_sums r nz tot) = ((tot + tsum r) mod 2 ^ 64)%Z.
Proof.
  induction r as [|[v c] r IH]; intros nz tot H; cbn [nonzero_sums].
  - unfold tsum. cbn [map fold_right snd]. rewrite Z.add_0_r, Z.mod_small; auto.
  - rewrite IH by (apply Z.mod_pos_bound; reflexivity). unfold u64, tsum. cbn [map fold_right snd].
    rewrite Z.add_mod_idemp_l by discriminate. f_equal. lia.
Qed.
Lemma popcount_total r : forall b tot, (0 <= tot < 2 ^ 64)%Z ->
  popcount_sums r b tot = UB \/ exists s, popcount_sums r b tot = Ok (s, (tot + tsum r) mod 2 ^ 64)%Z.
Proof.
  induction r as [|[v c] r IH]; intros b tot H; cbn [popcount_sums].
  - right. exists b. unfold tsum. cbn [map fold_right snd]. rewrite Z.add_0_r, Z.mod_small; auto.
  - unfold popcountll. destruct (_ && _); [|auto]. cbn [bind].
    destruct (IH (u64 (b + popcount (Z.quot (Qnum v) (Zpos (Qden v))) * c)) (u64 (tot + c))) as [U|[s U]]; [apply Z.mod_pos_bound; reflexivity|auto|].
    right. exists s. rewrite U. unfold u64, tsum. cbn [map fold_right snd]. rewrite Z.add_mod_idemp_l by discriminate.
    do 3 f_equal. lia.
Qed.

Lemma lxor_depends M f g A i : xor_difference_add M f g = Ok A -> (forall a, (aev A a == inject_Z (Z.lxor (uval f a) (uval g a)))%Q) ->
  (exists a b, (forall j, j <> i -> a j = b j) /\ Z.lxor (uval f a) (uval g a) <> Z.lxor (uval f b) (uval g b)) -> In i (avars A).
Proof.
  intros _ EA (a & b & Hab & Hd). destruct (in_dec Nat.eq_dec i (avars A)) as [H|H]; auto. exfalso. apply Hd.
  assert (E : aev A a = aev A b) by (apply aev_ext; intros j Hj; apply Hab; intros ->; contradiction).
  pose proof (EA a) as E1. pose proof (EA b) as E2. rewrite E, E2 in E1. unfold Qeq in E1. cbn in E1. lia.
Qed.

Lemma no_total_rate M f g i : index_order M -> wfs M f -> wfs M g -> length f = length g -> 63 <= i ->
  (exists a b, (forall j, j <> i -> a j = b j) /\ Z.lxor (uval f a) (uval g a) <> Z.lxor (uval f b) (uval g b)) ->
  (error_rate_add M f g = UB \/ error_rate_add M f g = Ok NonFin)
  /\ (average_bit_flip_error_add M f g = UB \/ average_bit_flip_error_add M f g = Ok NonFin).
Proof.
  intros HI Wf Wg L Hi Hd. unfold error_rate_add, average_bit_flip_error_add.
  destruct (xor_difference_add_full M f g L) as (A & EA0 & HA & EA). destruct (HA Wf Wg) as [OA VA].
  pose proof (lxor_depends M f g A i EA0 EA Hd) as Hin. rewrite EA0. cbn [bind].
  destruct (total_wide M A i HI OA Hin Hi) as [U|(r & R & S)]; [rewrite U; auto|]. rewrite R. cbn [bind].
  assert (Z0 : fdiv 0 (inject_Z 0) = NonFin) by reflexivity.
  split.
  - right. pose proof (nonzero_total r 0 0 ltac:(split; [lia|reflexivity])) as N. destruct (nonzero_sums r 0 0) as [nz tot].
    cbn [snd] in N. rewrite Z.add_0_l, S in N. rewrite N. reflexivity.
  - destruct (popcount_total r 0 0 ltac:(split; [lia|reflexivity])) as [U|[s U]]; rewrite U; cbn [bind]; auto.
    right. rewrite Z.add_0_l, S. reflexivity.
Qed.

(** counts from 2^64 on are reduced: a wrong average *)
Definition wide_f : list bdd :=
  let M := id_mgr 65 in [bor M (band M (bvar 1) (bvar 64)) (band M (bnot (bvar 1)) (bor M (bvar 63) (bvar 64)))].
Lemma wide_wf : wfs (id_mgr 65) wide_f.
Proof. unfold wide_f. repeat apply Forall_cons; auto with wf. Qed.
Lemma wide_below : below 65 wide_f.
Proof.
  unfold below, wide_f. repeat apply Forall_cons; [|constructor].
  apply dep_vars. intros i Hi. apply Nat.ltb_lt. revert i Hi. apply forallb_forall. vm_compute. reflexivity.
Qed.
Lemma average_wide_bad : exists (M : mgr) (f g : list bdd) (n : nat) (q : Q),
  index_order M /\ Forall (wf M) f /\ Forall (wf M) g /\ below n f /\ below n g /\ length f = length g /\ n = 65
  /\ average_case_error_add M f g BaseTwo = Ok (Fin q)
  /\ ~ (q == average n (fun a => inject_Z (dist (uval f a) (uval g a))))%Q.
Proof.
  exists (id_mgr 65), wide_f, [bzero], 65, (inject_Z (2 ^ 62) / inject_Z (2 ^ 64))%Q.
  assert (W0 : wfs (id_mgr 65) [bzero]) by (repeat apply Forall_cons; auto with wf).
  assert (B0 : below 65 [bzero]) by (unfold below; repeat apply Forall_cons; [intros a b _; reflexivity|constructor]).
  split; [intro i; reflexivity|]. split; [exact wide_wf|]. split; [exact W0|]. split; [exact wide_below|]. split; [exact B0|].
  split; [reflexivity|]. split; [reflexivity|]. split; [vm_compute; reflexivity|].
  destruct (ace_spec (id_mgr 65) 65 wide_f [bzero] BaseTwo wide_wf W0 wide_below B0) as (q & R & E); [discriminate|cbn; lia|].
  cbn [wrapped] in E. rewrite <- E.
  assert (C : match average_case_error (id_mgr 65) wide_f [bzero] BaseTwo with Ok (Fin q) => Qeq_bool q (5 # 8) | _ => false end = true)
    by (vm_compute; reflexivity).
  rewrite R in C. apply Qeq_bool_iff in C. rewrite C. intro F. vm_compute in F. discriminate.
Qed.

Lemma average_add_64 M n f g r : index_order M -> wfs M f -> wfs M g -> below n f -> below n g -> n <= 64 ->
  (r = TwosComplement -> f <> [] /\ g <> []) ->
  (Nat.max (length f) (length g) + n <= 256 ->
     exists q, average_case_error_add M f g r = Ok (Fin q)
       /\ (q == average n (fun a => inject_Z (dist (value r f a) (value r g a))))%Q)
  /\ (2 * Nat.max (length f) (length g) + n <= 256 ->
     exists q, mean_squared_error_add M f g r = Ok (Fin q)
       /\ (q == average n (fun a => inject_Z (dist (value r f a) (value r g a) * dist (value r f a) (value r g a))))%Q)
  /\ (exists q, acre_add M f g r = Ok (Fin q)
       /\ (q == average n (fun a => rel (value r f a) (value r g a)))%Q).
Proof.
  intros HI Wf Wg Bf Bg Hn Hr. split; [|split].
  - now apply ace_add_full.
  - now apply mse_add_64.
  - now apply acre_add_64.
Qed.
