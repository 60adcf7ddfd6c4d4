(** How much of the average value of a vector the child replacing operators lose *)
From Coq Require Import List Bool Arith ZArith QArith Lia Lqa.
From Verif Require Import Res Cudd CuddFacts Spec SpecFacts Helpers HelpersFacts HelpersFacts2 Counting Metrics MetricsFacts4 Operators OperatorFacts OperatorFacts2 OperatorFacts4
  MinimizeFacts3 Examples ExperimentsFacts SizeFacts HalfFacts.
Import ListNotations.
Open Scope nat_scope.

Definition av (n : nat) (f : list bdd) : Q := average n (fun a => inject_Z (uval f a)).
Lemma b2q_b2z b : b2q b = inject_Z (Z.b2z b). Proof. now destruct b. Qed.
Lemma av_cons n b f : (av n (b :: f) == density n b + 2 * av n f)%Q.
Proof.
  unfold av, density. rewrite <- average_scale, <- average_plus. apply average_ext. intro a. cbn [uval]. rewrite inject_Z_plus, inject_Z_mult, b2q_b2z. reflexivity.
Qed.
Lemma av_nil n : (av n [] == 0)%Q. Proof. unfold av. cbn [uval]. apply (average_const n (inject_Z 0)). Qed.
Lemma av_scale n K f g : Forall2 (fun b r => (density n b <= K * density n r)%Q) f g -> (av n f <= K * av n g)%Q.
Proof.
  induction 1 as [|b r f g H _ IH]; [rewrite !av_nil; lra|]. rewrite !av_cons. lra.
Qed.
Definition full (f : list bdd) : Q := inject_Z (2 ^ Z.of_nat (length f) - 1).
Lemma full_cons b f : (full (b :: f) == 1 + 2 * full f)%Q.
Proof.
  unfold full. cbn [length]. rewrite Nat2Z.inj_succ, Z.pow_succ_r by lia. replace (2 * 2 ^ Z.of_nat (length f) - 1)%Z with (1 + 2 * (2 ^ Z.of_nat (length f) - 1))%Z by lia.
  now rewrite inject_Z_plus, inject_Z_mult.
Qed.
Lemma av_scale_up n K f g : Forall2 (fun b r => (1 - density n b <= K * (1 - density n r))%Q) f g -> (full f - av n f <= K * (full g - av n g))%Q.
Proof.
  induction 1 as [|b r f g H _ IH]; [unfold full; cbn [length]; rewrite !av_nil; change (inject_Z (2 ^ Z.of_nat 0 - 1)) with 0%Q; lra|].
  rewrite !av_cons, !full_cons. lra.
Qed.
Lemma ace_down M n f g : Forall (wf M) f -> Forall (wf M) g -> below n f -> below n g -> length g = length f -> length f + n < 256 ->
  Forall2 (fun x y => forall a, ev x a = true -> ev y a = true) g f ->
  exists q, average_case_error M f g BaseTwo = Ok (Fin q) /\ (q == av n f - av n g)%Q.
Proof.
  intros Wf Wg Bf Bg L H S. destruct (ace_spec M n f g BaseTwo Wf Wg Bf Bg ltac:(discriminate) ltac:(rewrite L, Nat.max_id; exact H)) as (q & E & V).
  exists q. split; [exact E|]. rewrite V. assert (G : (average n (fun a => inject_Z (wrapped BaseTwo f g a)) + av n g == av n f)%Q); [|lra].
  unfold av. rewrite <- average_plus. apply average_ext. intro a. rewrite <- inject_Z_plus. cbn [wrapped]. pose proof (uval_mono g f a S). unfold dist. apply inject_Z_injective. lia.
Qed.
Lemma ace_up M n f g : Forall (wf M) f -> Forall (wf M) g -> below n f -> below n g -> length g = length f -> length f + n < 256 ->
  Forall2 (fun x y => forall a, ev x a = true -> ev y a = true) f g ->
  exists q, average_case_error M f g BaseTwo = Ok (Fin q) /\ (q == av n g - av n f)%Q.
Proof.
  intros Wf Wg Bf Bg L H S. destruct (ace_spec M n f g BaseTwo Wf Wg Bf Bg ltac:(discriminate) ltac:(rewrite L, Nat.max_id; exact H)) as (q & E & V).
  exists q. split; [exact E|]. rewrite V. assert (G : (average n (fun a => inject_Z (wrapped BaseTwo f g a)) + av n f == av n g)%Q); [|lra].
  unfold av. rewrite <- average_plus. apply average_ext. intro a. rewrite <- inject_Z_plus. cbn [wrapped]. pose proof (uval_mono f g a S). unfold dist. apply inject_Z_injective. lia.
Qed.
Lemma op_list (op : bdd -> res bdd) (P : bdd -> bdd -> Prop) f : (forall b, In b f -> exists r, op b = Ok r /\ P b r) ->
  exists g, map op f = map Ok g /\ length g = length f /\ Forall2 P f g.
Proof.
  induction f as [|b f IH]; intro H; [exists []; auto|]. destruct (H b (or_introl eq_refl)) as (r & E & R).
  destruct IH as (g & E2 & L & F). { intros x Hx. apply H. now right. }
  exists (r :: g). cbn [map length]. rewrite E, E2, L. auto.
Qed.
Lemma forall2_split (P Q : bdd -> bdd -> Prop) f g : Forall2 (fun x y => P x y /\ Q x y) f g -> Forall2 P f g /\ Forall2 Q f g.
Proof. induction 1 as [|x y f g [A B] _ [I J]]; auto. Qed.
Lemma forall2_right (P : bdd -> Prop) f g : Forall2 (fun _ y : bdd => P y) f g -> Forall P g.
Proof. induction 1; auto. Qed.
Lemma forall2_flip (P : bdd -> bdd -> Prop) f g : Forall2 P f g -> Forall2 (fun x y => P y x) g f.
Proof. induction 1; auto. Qed.

Lemma loss M n f ls le : index_order M -> Forall (wf M) f -> below n f -> ls <= le -> length f + n < 256 ->
  let K := inject_Z (2 ^ Z.of_nat (le - ls + 1)) in
  (exists g q, map (fun b => subset_light_child M b ls le) f = map Ok g /\ average_case_error M f g BaseTwo = Ok (Fin q)
     /\ (K * q <= (K - 1) * average n (fun a => inject_Z (uval f a)))%Q)
  /\ (exists g q, map (fun b => superset_heavy_child M b ls le) f = map Ok g /\ average_case_error M f g BaseTwo = Ok (Fin q)
     /\ (K * q <= (K - 1) * average n (fun a => inject_Z (2 ^ Z.of_nat (length f) - 1 - uval f a)))%Q).
Proof.
  intros HI Wf Bf HL HS K.
  assert (W : forall b, In b f -> wf M b /\ depends_below n b) by (intros b Hb; unfold below in Bf; rewrite Forall_forall in Wf, Bf; auto).
  split.
  - destruct (op_list (fun b => subset_light_child M b ls le)
      (fun b r => wf M r /\ depends_below n r /\ (forall a, ev r a = true -> ev b a = true) /\ (density n b <= K * density n r)%Q) f) as (g & E & L & F).
    { intros b Hb. destruct (W b Hb) as [Wb Db]. destruct (range_loss M n b ls le HI Wb Db HL) as ((r & E & R) & _). exists r. split; [exact E|].
      destruct (subset_ops M b ls le Wb) as ((r' & E' & Wr & Sr) & _). rewrite E in E'. injection E' as <-. split; [exact Wr|]. split; [|auto].
      unfold subset_light_child in E. rewrite round_any_pure in E. injection E as <-. apply rc_dep. now apply (depends_below_vars M). }
    apply forall2_split in F. destruct F as [F1 F]. apply forall2_split in F. destruct F as [F2 F]. apply forall2_split in F. destruct F as [F3 F4].
    apply forall2_right in F1. apply forall2_right in F2. apply forall2_flip in F3. apply av_scale in F4.
    destruct (ace_down M n f g Wf F1 Bf F2 L HS F3) as (q & EQ & V). exists g, q. split; [exact E|]. split; [exact EQ|]. rewrite V. fold (av n f). lra.
  - destruct (op_list (fun b => superset_heavy_child M b ls le)
      (fun b r => wf M r /\ depends_below n r /\ (forall a, ev b a = true -> ev r a = true) /\ (1 - density n b <= K * (1 - density n r))%Q) f) as (g & E & L & F).
    { intros b Hb. destruct (W b Hb) as [Wb Db]. destruct (range_loss M n b ls le HI Wb Db HL) as (_ & (r & E & R)). exists r. split; [exact E|].
      destruct (superset_ops M b ls le Wb) as (_ & (r' & E' & Wr & Sr) & _). rewrite E in E'. injection E' as <-. split; [exact Wr|]. split; [|auto].
      unfold superset_heavy_child in E. rewrite round_any_pure in E. injection E as <-. apply rc_dep. now apply (depends_below_vars M). }
    apply forall2_split in F. destruct F as [F1 F]. apply forall2_split in F. destruct F as [F2 F]. apply forall2_split in F. destruct F as [F3 F4].
    apply forall2_right in F1. apply forall2_right in F2. apply av_scale_up in F4.
    destruct (ace_up M n f g Wf F1 Bf F2 L HS F3) as (q & EQ & V). exists g, q. split; [exact E|]. split; [exact EQ|]. rewrite V.
    assert (X : (average n (fun a => inject_Z (2 ^ Z.of_nat (length f) - 1 - uval f a)) == full f - av n f)%Q).
    { assert (Y : (average n (fun a => inject_Z (2 ^ Z.of_nat (length f) - 1 - uval f a)) + av n f == full f)%Q); [|lra].
      unfold av. rewrite <- average_plus, <- (average_const n (full f)). apply average_ext. intro a. unfold full. rewrite <- inject_Z_plus. apply inject_Z_injective. lia. }
    rewrite X. assert (FE : full g = full f) by (unfold full; now rewrite L). rewrite FE in F4. lra.
Qed.
Lemma av_single n b : (av n [b] == density n b)%Q. Proof. rewrite av_cons, av_nil. lra. Qed.
Lemma loss_sharp M n ls le : index_order M -> ls <= le -> S le < n -> n < 255 ->
  let K := inject_Z (2 ^ Z.of_nat (le - ls + 1)) in let f := xor_bdd M n in
  exists g q, subset_light_child M f ls le = Ok g /\ average_case_error M [f] [g] BaseTwo = Ok (Fin q)
    /\ (K * q == (K - 1) * average n (fun a => inject_Z (uval [f] a)))%Q.
Proof.
  intros HI HL HN H K f. destruct (parity_ops M n ls le HI HL HN) as (_ & P & _). destruct (P subset_light_child (or_introl eq_refl)) as (g & E & D). fold f in E, D.
  assert (Ef : f = (negb (Nat.odd n), parity_node 0 n)) by now apply xor_bdd_node.
  assert (W : wf M f) by (rewrite Ef; now apply parity_ok).
  assert (B : depends_below n f) by (rewrite Ef; apply vars_depends_below; cbn [snd]; intros i Hi; apply parity_vars in Hi; lia).
  destruct (subset_ops M f ls le W) as ((g' & E' & Wg & Sg) & _). rewrite E in E'. injection E' as <-.
  assert (Bg : depends_below n g) by (unfold subset_light_child in E; rewrite round_any_pure in E; injection E as <-; apply rc_dep; now apply (depends_below_vars M)).
  destruct (ace_down M n [f] [g]) as (q & EQ & V); [now repeat constructor..|reflexivity|cbn [length]; lia|now repeat constructor|].
  exists g, q. split; [exact E|]. split; [exact EQ|]. rewrite V. fold (av n [f]). rewrite !av_single. fold K in D. lra.
Qed.
