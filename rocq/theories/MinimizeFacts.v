(** Proofs about the bucket minimisation: index conversions, invariants of the search. *)
From Coq Require Import List Bool Arith ZArith QArith Lia Lqa.
From Verif Require Import Res Cudd CuddFacts Spec SpecFacts Helpers Metrics Examples AdderFacts Minimize.
Import ListNotations.
Open Scope nat_scope.

(** ** vectors *)
Lemma vget_iff {A} (l : list A) i x : vget l i = Ok x <-> nth_error l i = Some x.
Proof. unfold vget. destruct (nth_error l i); split; intro H; inversion H; auto. Qed.
Lemma vget_ok {A} (l : list A) i : i < length l -> exists x, vget l i = Ok x /\ nth_error l i = Some x.
Proof. intro H. unfold vget. destruct (nth_error l i) eqn:E; eauto. apply nth_error_None in E. lia. Qed.
Lemma vset_ok {A} (l : list A) : forall i x, i < length l -> exists l', vset l i x = Ok l'.
Proof.
  induction l as [|y l IH]; intros i x H; cbn [length] in H; [lia|]. destruct i as [|i]; cbn [vset]; eauto.
  destruct (IH i x) as (l' & E); [lia|]. rewrite E. cbn [bind]. eauto.
Qed.
Lemma vset_spec {A} (l : list A) : forall i x l', vset l i x = Ok l' ->
  length l' = length l /\ i < length l /\ forall j, nth_error l' j = if j =? i then Some x else nth_error l j.
Proof.
  induction l as [|y l IH]; intros i x l' H; cbn [vset] in H; [discriminate|]. destruct i as [|i].
  - injection H as <-. cbn [length]. split; auto. split; [lia|]. intros [|j]; reflexivity.
  - destruct (vset l i x) as [l1| | |] eqn:E; cbn [bind] in H; try discriminate. injection H as <-.
    destruct (IH i x l1 E) as (L & Hi & N). cbn [length]. split; [lia|]. split; [lia|].
    intros [|j]; cbn [nth_error Nat.eqb]; auto.
Qed.
Lemma vset_mid {A} (pre : list A) y rest x : vset (pre ++ y :: rest) (length pre) x = Ok (pre ++ x :: rest).
Proof. induction pre as [|z pre IH]; cbn [app length vset]; auto. rewrite IH. reflexivity. Qed.
Lemma for_each_pc {S} (I : S -> Prop) (body : nat -> S -> res S) l : forall st st',
  (forall i st st', In i l -> I st -> body i st = Ok st' -> I st') -> I st -> for_each l st body = Ok st' -> I st'.
Proof.
  induction l as [|i l IH]; intros st st' Hs H0 H; cbn [for_each] in H; [injection H as <-; auto|].
  destruct (body i st) as [s1| | |] eqn:E; cbn [bind] in H; try discriminate.
  apply (IH s1); auto; [|apply (Hs i st); [left|..]; auto]. intros j s s' Hj. apply Hs. now right.
Qed.
Lemma for_each_total {S} (I : S -> Prop) (body : nat -> S -> res S) l : forall st,
  (forall i st, In i l -> I st -> exists st', body i st = Ok st' /\ I st') -> I st -> exists st', for_each l st body = Ok st' /\ I st'.
Proof.
  induction l as [|i l IH]; intros st Hs H0; cbn [for_each]; [eauto|].
  destruct (Hs i st) as (s1 & E & H1); [now left|auto|]. rewrite E. cbn [bind]. apply IH; auto. intros j s Hj. apply Hs. now right.
Qed.

(** ** index conversions *)
Open Scope Z_scope.
Fixpoint flat (index bounds : list Z) (acc : Z) : Z :=
  match index, bounds with
  | x :: index', b :: bounds' => flat index' bounds' (acc * b + x)
  | _, _ => acc
  end.
Lemma volume_pos bounds : Forall (fun b => 0 < b) bounds -> 0 < volume bounds.
Proof. induction 1; cbn [volume fold_right]; [lia|]. fold (volume l). nia. Qed.
Lemma in_box_pos bounds index : in_box bounds index -> Forall (fun b => 0 < b) bounds.
Proof. induction 1; constructor; auto. lia. Qed.
Lemma in_box_length bounds index : in_box bounds index -> length index = length bounds.
Proof. induction 1; cbn [length]; auto. Qed.
Lemma flat_acc bounds : forall index acc, length index = length bounds ->
  flat index bounds acc = acc * volume bounds + flat index bounds 0.
Proof.
  induction bounds as [|b bs IH]; intros [|x xs] acc L; cbn [length] in L; try discriminate; cbn [flat volume fold_right]; [lia|].
  fold (volume bs). rewrite IH, (IH xs (0 * b + x)) by lia. ring.
Qed.
Lemma flat_range bounds index : in_box bounds index -> 0 <= flat index bounds 0 < volume bounds.
Proof.
  induction 1 as [|x b xs bs H HB IH]; cbn [flat volume fold_right]; [lia|]. fold (volume bs).
  rewrite flat_acc by (eapply in_box_length; eauto). nia.
Qed.
Lemma reduce_flat bounds index : in_box bounds index -> forall acc, 0 <= acc -> (acc + 1) * volume bounds <= 2 ^ 64 ->
  reduce_loop index bounds acc = Ok (flat index bounds acc).
Proof.
  induction 1 as [|x b xs bs H HB IH]; intros acc Ha HV; cbn [reduce_loop flat]; auto.
  cbn [volume fold_right] in HV. fold (volume bs) in HV. pose proof (volume_pos bs (in_box_pos _ _ HB)).
  assert (HV' : (acc * b + x + 1) * volume bs <= 2 ^ 64) by nia.
  assert (acc * b + x < 2 ^ 64) by nia. assert (0 <= acc * b) by nia.
  unfold u64. rewrite (Z.mod_small (acc * b)), Z.mod_small by lia. apply IH; lia.
Qed.
Lemma create_flat bounds index : in_box bounds index -> forall acc rest r, 0 <= acc ->
  create_loop (rev bounds ++ rest) (flat index bounds acc) r = create_loop rest acc (index ++ r).
Proof.
  induction 1 as [|x b xs bs H HB IH]; intros acc rest r Ha; cbn [rev flat app]; auto.
  rewrite <- app_assoc. cbn [app]. rewrite IH by nia. cbn [create_loop].
  assert (b =? 0 = false) as -> by (apply Z.eqb_neq; lia).
  rewrite Z.add_comm, Z.div_add, Z.mod_add, Z.div_small, Z.mod_small by lia. reflexivity.
Qed.
Lemma flat_onto bounds : Forall (fun b => 0 < b) bounds -> forall k, 0 <= k < volume bounds ->
  exists index, in_box bounds index /\ flat index bounds 0 = k.
Proof.
  induction 1 as [|b bs H HB IH]; intros k Hk; cbn [volume fold_right] in Hk.
  - exists []. split; [constructor|]. cbn [flat]. lia.
  - fold (volume bs) in Hk. pose proof (volume_pos bs HB) as V.
    destruct (IH (k mod volume bs)) as (xs & B & E); [apply Z.mod_pos_bound; lia|].
    exists (k / volume bs :: xs). split.
    + constructor; auto. split; [apply Z.div_pos; lia|apply Z.div_lt_upper_bound; lia].
    + cbn [flat]. rewrite flat_acc by (eapply in_box_length; eauto). rewrite E.
      pose proof (Z.div_mod k (volume bs)). lia.
Qed.
Lemma flat_mono bounds : forall x y acc acc', in_box bounds x -> in_box bounds y -> below_all x y -> acc <= acc' ->
  flat x bounds acc <= flat y bounds acc'.
Proof.
  induction bounds as [|b bs IH]; intros x y acc acc' Hx Hy L A; inversion Hx; subst; inversion Hy; subst; cbn [flat]; auto.
  inversion L; subst. apply IH; auto. nia.
Qed.
Lemma flat_inj bounds x y : in_box bounds x -> in_box bounds y -> flat x bounds 0 = flat y bounds 0 -> x = y.
Proof.
  intros Hx Hy E. pose proof (create_flat _ _ Hx 0 [] [] (Z.le_refl 0)) as C1.
  pose proof (create_flat _ _ Hy 0 [] [] (Z.le_refl 0)) as C2. rewrite E, C2 in C1. cbn [create_loop] in C1.
  rewrite !app_nil_r in C1. now injection C1.
Qed.

Lemma reduce_ok bounds index : in_box bounds index -> volume bounds <= 2 ^ 64 ->
  reduce_multi_dim_index index bounds = Ok (flat index bounds 0).
Proof. intros H V. apply reduce_flat; auto; lia. Qed.
Lemma create_ok bounds index : in_box bounds index -> create_multi_dim_index (flat index bounds 0) bounds = Ok index.
Proof.
  intro H. unfold create_multi_dim_index. rewrite <- (app_nil_r (rev bounds)), create_flat by (auto; lia).
  cbn [create_loop]. now rewrite app_nil_r.
Qed.

Lemma index_to_flat bounds index : in_box bounds index -> volume bounds <= 2 ^ 64 ->
  exists k, reduce_multi_dim_index index bounds = Ok k /\ 0 <= k < volume bounds /\ create_multi_dim_index k bounds = Ok index.
Proof.
  intros H V. exists (flat index bounds 0). split; [now apply reduce_ok|]. split; [now apply flat_range|now apply create_ok].
Qed.
Lemma flat_to_index bounds k : Forall (fun b => 0 < b) bounds -> volume bounds <= 2 ^ 64 -> 0 <= k < volume bounds ->
  exists index, create_multi_dim_index k bounds = Ok index /\ in_box bounds index /\ reduce_multi_dim_index index bounds = Ok k.
Proof.
  intros P V H. destruct (flat_onto bounds P k H) as (index & B & <-). exists index.
  split; [now apply create_ok|]. split; auto. now apply reduce_ok.
Qed.
Lemma index_monotone bounds x y j k : in_box bounds x -> in_box bounds y -> volume bounds <= 2 ^ 64 ->
  reduce_multi_dim_index x bounds = Ok j -> reduce_multi_dim_index y bounds = Ok k ->
  below_all x y -> j <= k /\ (x <> y -> j < k).
Proof.
  intros Hx Hy V. rewrite !reduce_ok by auto. intros [= <-] [= <-] L. pose proof (flat_mono bounds x y 0 0 Hx Hy L (Z.le_refl 0)).
  split; auto. intro N. assert (flat x bounds 0 <> flat y bounds 0) by (intro; apply N; eapply flat_inj; eauto). lia.
Qed.
Lemma create_zero bounds : In 0 bounds -> forall k, create_multi_dim_index k bounds = UB.
Proof.
  intro H. unfold create_multi_dim_index. apply in_rev in H. generalize (@nil Z). induction (rev bounds) as [|b l IH]; [destruct H|].
  intros r k. cbn [create_loop]. destruct (b =? 0) eqn:E; auto. apply Z.eqb_neq in E. destruct H as [H|H]; [congruence|]. now apply IH.
Qed.
Lemma total_volume bounds : Forall (fun b => 0 < b) bounds -> volume bounds < 2 ^ 64 -> forall acc, 0 < acc -> acc * volume bounds < 2 ^ 64 ->
  fold_left (fun x y => u64 (x * y)) bounds acc = acc * volume bounds.
Proof.
  induction 1 as [|b bs H HB IH]; intros V acc Ha HV; cbn [fold_left volume fold_right] in *; [lia|]. fold (volume bs) in *.
  pose proof (volume_pos bs HB). unfold u64 at 2. assert (acc * b < 2 ^ 64) by nia. rewrite Z.mod_small by nia.
  rewrite IH; nia.
Qed.
Close Scope Z_scope.
