(** The metrics of functions whose outputs are split into a low and a high part. *)
From Coq Require Import List Bool Arith ZArith QArith Qabs Lia Lqa.
From Verif Require Import Res Cudd CuddFacts Spec SpecFacts Helpers HelpersFacts Counting Metrics MetricsFacts MetricsFacts2 MetricsFacts3 MetricsFacts4 LawFacts.
Import ListNotations.
Open Scope Z_scope.

Lemma hamming_app f g f' g' a : length f = length g -> hamming (f ++ f') (g ++ g') a = hamming f g a + hamming f' g' a.
Proof.
  revert g. induction f as [|x f IH]; intros [|y g] L; try discriminate; [reflexivity|]. injection L as L.
  cbn [app hamming]. rewrite IH by auto. lia.
Qed.
Lemma differ_app f g f' g' a : length f = length g -> differ (f ++ f') (g ++ g') a = differ f g a || differ f' g' a.
Proof.
  revert g. induction f as [|x f IH]; intros [|y g] L; try discriminate; [reflexivity|]. injection L as L.
  cbn [app differ]. rewrite IH by auto. now rewrite orb_assoc.
Qed.
Lemma below_app n f g : below n f -> below n g -> below n (f ++ g).
Proof. intros. apply Forall_app. auto. Qed.
Lemma hamming_nonneg f a : forall g, 0 <= hamming f g a.
Proof. induction f as [|x f IH]; intros [|y g]; cbn [hamming]; try lia. specialize (IH g). destruct (xorb _ _); cbn [Z.b2z]; lia. Qed.

Section Parts.
Variables (M : mgr) (f g f' g' : list bdd).
Hypotheses (Wf : wfs M f) (Wg : wfs M g) (Wf' : wfs M f') (Wg' : wfs M g') (L : length f = length g) (L' : length f' = length g').

Lemma parts_wf : wfs M (f ++ f') /\ wfs M (g ++ g').
Proof. split; apply Forall_app; auto. Qed.
Lemma parts_length : length (f ++ f') = length (g ++ g').
Proof. rewrite !app_length. lia. Qed.

Lemma parts_error_rate n : below n f -> below n g -> below n f' -> below n g' ->
  exists q l h, error_rate M (f ++ f') (g ++ g') = Ok q /\ error_rate M f g = Ok l /\ error_rate M f' g' = Ok h
    /\ (l <= q /\ h <= q /\ q <= l + h)%Q.
Proof.
  intros Bf Bg Bf' Bg'. destruct parts_wf as [W1 W2].
  destruct (error_rate_full M n (f ++ f') (g ++ g')) as [H _]; auto using below_app. destruct (H parts_length) as (q & Eq & Vq & _).
  destruct (error_rate_full M n f g) as [H1 _]; auto. destruct (H1 L) as (l & El & Vl & _).
  destruct (error_rate_full M n f' g') as [H2 _]; auto. destruct (H2 L') as (h & Eh & Vh & _).
  exists q, l, h. do 3 (split; [assumption|]). rewrite Vq, Vl, Vh.
  repeat split; [apply average_le|apply average_le|rewrite <- average_plus; apply average_le];
    intro a; rewrite (differ_app _ _ _ _ _ L); destruct (differ f g a), (differ f' g' a); cbn; lra.
Qed.
Lemma parts_average_flips n : below n f -> below n g -> below n f' -> below n g' ->
  exists q l h, average_bit_flip_error M (f ++ f') (g ++ g') = Ok q /\ average_bit_flip_error M f g = Ok l
    /\ average_bit_flip_error M f' g' = Ok h /\ (q == l + h)%Q.
Proof.
  intros Bf Bg Bf' Bg'. destruct parts_wf as [W1 W2].
  destruct (average_bit_flip_full M n (f ++ f') (g ++ g')) as [H _]; auto using below_app. destruct (H parts_length) as (q & Eq & Vq).
  destruct (average_bit_flip_full M n f g) as [H1 _]; auto. destruct (H1 L) as (l & El & Vl).
  destruct (average_bit_flip_full M n f' g') as [H2 _]; auto. destruct (H2 L') as (h & Eh & Vh).
  exists q, l, h. do 3 (split; [assumption|]). rewrite Vq, Vl, Vh, <- average_plus. apply average_ext. intro a.
  rewrite (hamming_app _ _ _ _ _ L), inject_Z_plus. reflexivity.
Qed.
Lemma parts_worst_flips : (Z.of_nat (length f + length f') < 2 ^ 32) ->
  exists q l h, worst_case_bit_flip_error M (f ++ f') (g ++ g') = Ok q /\ worst_case_bit_flip_error M f g = Ok l
    /\ worst_case_bit_flip_error M f' g' = Ok h /\ l <= q /\ h <= q /\ q <= l + h.
Proof.
  intros B. destruct parts_wf as [W1 W2].
  destruct (worst_case_bit_flip_full M 0 (f ++ f') (g ++ g')) as [H _]; auto using parts_length.
  destruct H as (q & Eq & (a & Aq) & Uq); [rewrite app_length; lia|].
  destruct (worst_case_bit_flip_full M 0 f g) as [H1 _]; auto. destruct H1 as (l & El & (b & Al) & Ul); [lia|].
  destruct (worst_case_bit_flip_full M 0 f' g') as [H2 _]; auto. destruct H2 as (h & Eh & (c & Ah) & Uh); [lia|].
  exists q, l, h. do 3 (split; [assumption|]). repeat split.
  - specialize (Uq b). rewrite (hamming_app _ _ _ _ _ L) in Uq. pose proof (hamming_nonneg f' b g'). lia.
  - specialize (Uq c). rewrite (hamming_app _ _ _ _ _ L) in Uq. pose proof (hamming_nonneg f c g). lia.
  - rewrite (hamming_app _ _ _ _ _ L) in Aq. specialize (Ul a). specialize (Uh a). lia.
Qed.

Lemma parts_dist a : let k := 2 ^ Z.of_nat (length f) in
  k * dist (uval f' a) (uval g' a) - dist (uval f a) (uval g a) <= dist (uval (f ++ f') a) (uval (g ++ g') a)
  /\ dist (uval f a) (uval g a) - k * dist (uval f' a) (uval g' a) <= dist (uval (f ++ f') a) (uval (g ++ g') a)
  /\ dist (uval (f ++ f') a) (uval (g ++ g') a) <= dist (uval f a) (uval g a) + k * dist (uval f' a) (uval g' a).
Proof.
  intro k. rewrite !uval_app, <- L. unfold pow2. fold k. assert (0 < k) by (apply Z.pow_pos_nonneg; lia).
  unfold dist. set (d := uval f a - uval g a). set (e := uval f' a - uval g' a).
  replace (uval f a + k * uval f' a - (uval g a + k * uval g' a)) with (d + k * e) by (subst d e; ring).
  assert (K : k * Z.abs e = Z.abs (k * e)) by (rewrite Z.abs_mul, (Z.abs_eq k); lia). rewrite K. lia.
Qed.
Lemma parts_worst : (length f + length f' <= 256)%nat ->
  let k := 2 ^ Z.of_nat (length f) in
  exists q l h, worst_case_error M (f ++ f') (g ++ g') BaseTwo = Ok q /\ worst_case_error M f g BaseTwo = Ok l
    /\ worst_case_error M f' g' BaseTwo = Ok h /\ k * h - l <= q /\ l - k * h <= q /\ q <= l + k * h.
Proof.
  intros B k. destruct parts_wf as [W1 W2].
  destruct (wce_base_full M (f ++ f') (g ++ g') f) as (q & Eq & [(a & Aq) Uq] & _); auto; try (rewrite app_length; lia); try lia.
  destruct (wce_base_full M f g f) as (l & El & [(b & Al) Ul] & _); auto; try lia.
  destruct (wce_base_full M f' g' f') as (h & Eh & [(c & Ah) Uh] & _); auto; try lia.
  assert (P : 0 < k) by (apply Z.pow_pos_nonneg; lia).
  exists q, l, h. do 3 (split; [assumption|]). split; [|split].
  - specialize (Uq c). specialize (Ul c). pose proof (parts_dist c) as T. cbv zeta beta in *. fold k in T. rewrite Ah in T. lia.
  - specialize (Uq b). specialize (Uh b). pose proof (parts_dist b) as T. cbv zeta beta in *. fold k in T. rewrite Al in T. nia.
  - rewrite <- Aq. pose proof (parts_dist a) as T. cbv zeta beta in *. fold k in T. specialize (Ul a). specialize (Uh a). nia.
Qed.
Lemma parts_average n : below n f -> below n g -> below n f' -> below n g' -> (length f + length f' + n < 256)%nat ->
  let k := inject_Z (2 ^ Z.of_nat (length f)) in
  exists q l h, average_case_error M (f ++ f') (g ++ g') BaseTwo = Ok (Fin q) /\ average_case_error M f g BaseTwo = Ok (Fin l)
    /\ average_case_error M f' g' BaseTwo = Ok (Fin h) /\ (k * h - l <= q /\ l - k * h <= q /\ q <= l + k * h)%Q.
Proof.
  intros Bf Bg Bf' Bg' B k. destruct parts_wf as [W1 W2].
  destruct (ace_spec M n (f ++ f') (g ++ g') BaseTwo) as (q & Eq & Vq); auto using below_app; try discriminate;
    [rewrite !app_length; lia|].
  destruct (ace_spec M n f g BaseTwo) as (l & El & Vl); auto; try discriminate; [lia|].
  destruct (ace_spec M n f' g' BaseTwo) as (h & Eh & Vh); auto; try discriminate; [lia|].
  exists q, l, h. do 3 (split; [assumption|]).
  assert (K : (k * h == average n (fun a => k * inject_Z (wrapped BaseTwo f' g' a)))%Q) by (rewrite Vh; symmetry; apply average_scale).
  assert (A : (k * h <= l + q)%Q).
  { rewrite K, Vl, Vq, <- average_plus. apply average_le. intro a. unfold k. rewrite <- inject_Z_mult, <- inject_Z_plus, <- Zle_Qle.
    pose proof (parts_dist a) as T. cbv zeta in T. cbn [wrapped]. lia. }
  assert (A' : (l <= k * h + q)%Q).
  { rewrite K, Vl, Vq, <- average_plus. apply average_le. intro a. unfold k. rewrite <- inject_Z_mult, <- inject_Z_plus, <- Zle_Qle.
    pose proof (parts_dist a) as T. cbv zeta in T. cbn [wrapped]. lia. }
  assert (C : (q <= l + k * h)%Q).
  { rewrite K, Vl, Vq, <- average_plus. apply average_le. intro a. unfold k. rewrite <- inject_Z_mult, <- inject_Z_plus, <- Zle_Qle.
    pose proof (parts_dist a) as T. cbv zeta in T. cbn [wrapped]. lia. }
  repeat split; lra.
Qed.
End Parts.
