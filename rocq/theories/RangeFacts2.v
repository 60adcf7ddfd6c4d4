(** The relative error metrics of operators applied to a larger range of levels *)
From Coq Require Import List Bool Arith ZArith QArith Qround Lia Lqa.
From Verif Require Import Res Cudd CuddFacts Spec SpecFacts SpecBounds SpecOperators Helpers HelpersFacts Counting Metrics MetricsFacts MetricsFacts2 MetricsFacts3 MetricsFacts4 RelMetrics RelFacts RelFacts2 RelFacts7 RelFacts3 RelFacts4 BoundsFacts Operators ExperimentsFacts RangeFacts.
Import ListNotations.
Open Scope nat_scope.

Lemma range_dist M ls le ls' le' k op op' f g h : ls' <= ls -> ls <= le -> le <= le' -> k < 6 ->
  nth_error (the_operators M ls le) k = Some op -> nth_error (the_operators M ls' le') k = Some op' ->
  Forall2 (fun x y => op x = Ok y) f g -> Forall2 (fun x y => op' x = Ok y) f h ->
  forall a, (dist (uval f a) (uval g a) <= dist (uval f a) (uval h a))%Z.
Proof.
  intros L1 L2 L3 K Hop Hop' HG HH a.
  pose proof (fun x => range_chain M ls le ls' le' k op op' x L1 L2 L3 Hop Hop') as C.
  assert (K' : In k [0; 1; 4] \/ In k [2; 3; 5]) by (cbn [In]; lia). unfold dist. destruct K' as [K'|K'].
  - assert (T : three (fun x y z => forall a, (ev z a = true -> ev y a = true) /\ (ev y a = true -> ev x a = true)) f g h).
    { apply (three_of _ op op' f g h (fun _ => True)); auto; [|apply Forall_forall; auto]. intros x _.
      destruct (C x) as (r & r' & A1 & A2 & A3 & _). exists r, r'. auto. }
    assert (H1 : Forall2 (fun x y => forall a, ev y a = true -> ev x a = true) f g).
    { apply (three_first _ f g h). revert T. apply three_impl. intros x y z H b. apply H. }
    assert (H2 : Forall2 (fun x y => forall a, ev y a = true -> ev x a = true) g h).
    { apply (three_second _ f g h). revert T. apply three_impl. intros x y z H' b. apply H'. }
    pose proof (uval_anti f g a H1). pose proof (uval_anti g h a H2). lia.
  - assert (T : three (fun x y z => forall a, (ev x a = true -> ev y a = true) /\ (ev y a = true -> ev z a = true)) f g h).
    { apply (three_of _ op op' f g h (fun _ => True)); auto; [|apply Forall_forall; auto]. intros x _.
      destruct (C x) as (r & r' & A1 & A2 & _ & A3). exists r, r'. auto. }
    assert (H1 : Forall2 (fun x y => forall a, ev x a = true -> ev y a = true) f g).
    { apply (three_first _ f g h). revert T. apply three_impl. intros x y z H b. apply H. }
    assert (H2 : Forall2 (fun x y => forall a, ev x a = true -> ev y a = true) g h).
    { apply (three_second _ f g h). revert T. apply three_impl. intros x y z H' b. apply H'. }
    pose proof (uval_mono f g a H1). pose proof (uval_mono g h a H2). lia.
Qed.

Lemma F2_length {A B} {R : A -> B -> Prop} {l m} : Forall2 R l m -> length l = length m.
Proof. induction 1; cbn; congruence. Qed.
Lemma maxQ_mono (F G : asg -> Q) p q : (forall a, F a <= G a)%Q -> is_maxQ F p -> is_maxQ G q -> (p <= q)%Q.
Proof. intros H [(a & E) _] [_ U]. rewrite <- E. eapply Qle_trans; [apply H|apply U]. Qed.
Lemma quot_mono x y c : (x <= y)%Z -> (0 <= c)%Q -> (inject_Z x / c <= inject_Z y / c)%Q.
Proof. intros H C. unfold Qdiv. apply Qmult_le_compat_r; [now apply injZ_le|]. now apply Qinv_le_0_compat. Qed.

Lemma range_relative M n ls le ls' le' k op op' f g h e : wfs M f -> below n f -> f <> [] -> length f + n + e + 3 <= 256 ->
  ls' <= ls -> ls <= le -> le <= le' -> k < 6 ->
  nth_error (the_operators M ls le) k = Some op -> nth_error (the_operators M ls' le') k = Some op' ->
  Forall2 (fun x y => op x = Ok y) f g -> Forall2 (fun x y => op' x = Ok y) f h ->
  (exists lo hi lo' hi', wcre_bounds M f g BaseTwo = Ok (lo, hi) /\ wcre_bounds M f h BaseTwo = Ok (lo', hi')
     /\ (lo <= lo')%Q /\ (hi <= hi')%Q)
  /\ (exists lo hi lo' hi', acre_bounds M f g BaseTwo = Ok (Fin lo, Fin hi) /\ acre_bounds M f h BaseTwo = Ok (Fin lo', Fin hi')
     /\ (lo <= lo')%Q /\ (hi <= hi')%Q)
  /\ (exists q q', wcre_symbolic_division M f g e BaseTwo = Ok q /\ wcre_symbolic_division M f h e BaseTwo = Ok q' /\ (q <= q')%Q)
  /\ (exists q q', acre_symbolic_division M f g e BaseTwo = Ok (Fin q) /\ acre_symbolic_division M f h e BaseTwo = Ok (Fin q')
     /\ (q <= q')%Q)
  /\ (index_order M -> n <= 63 ->
     (exists q q', wcre_add M f g BaseTwo = Ok q /\ wcre_add M f h BaseTwo = Ok q' /\ (q <= q')%Q)
     /\ (exists q q', acre_add M f g BaseTwo = Ok (Fin q) /\ acre_add M f h BaseTwo = Ok (Fin q') /\ (q <= q')%Q)
     /\ (2 * length f + n <= 256 -> exists q q', mean_squared_error_add M f g BaseTwo = Ok (Fin q)
           /\ mean_squared_error_add M f h BaseTwo = Ok (Fin q') /\ (q <= q')%Q)).
Proof.
  intros W B Hf L L1 L2 L3 K Hop Hop' HG HH.
  destruct (ops_good M n ls le k op f g W B Hop HG) as [Wg Bg]. destruct (ops_good M n ls' le' k op' f h W B Hop' HH) as [Wh Bh].
  pose proof (range_dist M ls le ls' le' k op op' f g h L1 L2 L3 K Hop Hop' HG HH) as D.
  pose proof (F2_length HG) as LG. pose proof (F2_length HH) as LH.
  assert (DR : forall a, (rel (uval f a) (uval g a) <= rel (uval f a) (uval h a))%Q).
  { intro a. unfold rel. apply quot_mono; [apply D|]. apply injZ_nonneg. lia. }
  assert (DW : forall a, (wrel BaseTwo f g a <= wrel BaseTwo f h a)%Q).
  { intro a. unfold wrel. apply quot_mono; [cbn [wrapped]; apply D|]. apply injZ_nonneg. lia. }
  assert (DL : forall a, (low_rel BaseTwo f g a <= low_rel BaseTwo f h a)%Q).
  { intro a. unfold low_rel. apply quot_mono; [cbn [wrapped]; apply D|]. rewrite <- ones_den by lia. apply Qlt_le_weak, pm1_pos. lia. }
  assert (DH : forall a, (high_rel BaseTwo f g a <= high_rel BaseTwo f h a)%Q).
  { intro a. unfold high_rel. apply quot_mono; [cbn [wrapped]; apply D|]. rewrite <- below_den by lia. apply injZ_nonneg.
    pose proof (pow2_pos (Z.to_nat (Z.log2 (Z.max 1 (Z.abs (value BaseTwo f a)))))). lia. }
  assert (PE : (0 < inject_Z (2 ^ Z.of_nat e))%Q) by (apply injZ_pos, Z.pow_pos_nonneg; lia).
  assert (DF : forall a, (Qfloor (wrel BaseTwo f g a * inject_Z (2 ^ Z.of_nat e)) <= Qfloor (wrel BaseTwo f h a * inject_Z (2 ^ Z.of_nat e)))%Z).
  { intro a. apply Qfloor_resp_le. apply Qmult_le_compat_r; [apply DW|lra]. }
  split; [|split; [|split; [|split]]].
  - destruct (wcre_bounds_exact M n f g BaseTwo) as (lo & hi & E & M1 & M2); auto; try discriminate; try lia.
    destruct (wcre_bounds_exact M n f h BaseTwo) as (lo' & hi' & E' & M1' & M2'); auto; try discriminate; try lia.
    exists lo, hi, lo', hi'. repeat split; auto; [exact (maxQ_mono _ _ _ _ DL M1 M1')|exact (maxQ_mono _ _ _ _ DH M2 M2')].
  - destruct (acre_bounds_exact M n f g BaseTwo) as (lo & hi & E & M1 & M2); auto; try discriminate; try lia.
    destruct (acre_bounds_exact M n f h BaseTwo) as (lo' & hi' & E' & M1' & M2'); auto; try discriminate; try lia.
    exists lo, hi, lo', hi'. repeat split; auto; [rewrite M1, M1'|rewrite M2, M2']; now apply average_le.
  - destruct (wcre_division_exact M n f g e BaseTwo) as (m & E & M1); auto; try discriminate; try lia.
    destruct (wcre_division_exact M n f h e BaseTwo) as (m' & E' & M1'); auto; try discriminate; try lia.
    eexists. eexists. split; [exact E|]. split; [exact E'|]. apply quot_mono; [|lra].
    destruct M1 as [(a & <-) _]. destruct M1' as [_ U]. specialize (U a). specialize (DF a). lia.
  - destruct (acre_division_exact M n f g e BaseTwo) as (q & E & V); auto; try discriminate; try lia.
    destruct (acre_division_exact M n f h e BaseTwo) as (q' & E' & V'); auto; try discriminate; try lia.
    exists q, q'. repeat split; auto. rewrite V, V'. unfold Qdiv. apply Qmult_le_compat_r; [|apply Qinv_le_0_compat; lra].
    apply average_le. intro a. apply injZ_le, DF.
  - intros IO N. split; [|split].
    + destruct (wcre_add_spec M n f g BaseTwo IO W Wg B Bg N) as (q & E & V); [discriminate|].
      destruct (wcre_add_spec M n f h BaseTwo IO W Wh B Bh N) as (q' & E' & V'); [discriminate|].
      exists q, q'. repeat split; auto. exact (maxQ_mono _ _ _ _ DR V V').
    + destruct (acre_add_spec M n f g BaseTwo IO W Wg B Bg N) as (q & E & V); [discriminate|].
      destruct (acre_add_spec M n f h BaseTwo IO W Wh B Bh N) as (q' & E' & V'); [discriminate|].
      exists q, q'. repeat split; auto. rewrite V, V'. apply average_le. apply DR.
    + intro L'. destruct (mse_add_full M n f g BaseTwo IO W Wg B Bg N) as (q & E & V); [discriminate|lia|].
      destruct (mse_add_full M n f h BaseTwo IO W Wh B Bh N) as (q' & E' & V'); [discriminate|lia|].
      exists q, q'. repeat split; auto. rewrite V, V'. apply average_le. intro a. apply injZ_le. cbn [value]. specialize (D a).
      assert (0 <= dist (uval f a) (uval g a))%Z by (unfold dist; lia). apply Z.mul_le_mono_nonneg; lia.
Qed.
