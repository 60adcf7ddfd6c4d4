(** round_best_bdd on several outputs, one level: at most twice the fewest flipped bits *)
From Coq Require Import List Bool Arith ZArith QArith Lia Lqa.
From Verif Require Import Res Cudd CuddFacts Spec SpecFacts Helpers HelpersFacts HelpersFacts2 Counting Metrics MetricsFacts MetricsFacts2 Operators OperatorFacts OperatorFacts2 OperatorFacts4
  LossFacts LossFacts2 RoundVectorFacts MinimizeFacts3.
Import ListNotations.
Open Scope nat_scope.

Lemma hamming_twice n f : forall (P : bdd -> bdd -> Prop) g h, Forall2 P f h ->
  Forall2 (fun b r => forall k, P b k -> (disagreement n (ev b) (ev r) <= 2 * disagreement n (ev b) (ev k))%Q) f g ->
  (average n (fun a => inject_Z (hamming f g a)) <= 2 * average n (fun a => inject_Z (hamming f h a)))%Q.
Proof.
  induction f as [|b f IH]; intros P g h Q H.
  - cbn [hamming]. assert (E : (0 <= average n (fun a => inject_Z 0))%Q); [|lra]. 
    apply average_nonneg. intro. change (0 <= 0)%Q. lra.
  - inversion H as [|b' r f' g' D F]; subst. inversion Q as [|b' k f' h' Pk Q']; subst.
    rewrite !hamming_cons. rewrite Qmult_plus_distr_r. apply Qplus_le_compat; [exact (D k Pk)|]. exact (IH P g' h' Q' F).
Qed.
Lemma forall2_impl (P Q : bdd -> bdd -> Prop) f g : (forall x y, P x y -> Q x y) -> Forall2 P f g -> Forall2 Q f g.
Proof. intro H. induction 1; constructor; auto. Qed.
Lemma best_flips M n f level : Forall (wf M) f -> below n f ->
  exists g, map (fun b => round_best M b level level) f = map Ok g
    /\ forall h, Forall (wf M) h -> below n h -> Forall2 (fun b k => at_range level level child_const b (ev k)) f h ->
       exists q q', average_bit_flip_error M f g = Ok q /\ average_bit_flip_error M f h = Ok q' /\ (q <= 2 * q')%Q.
Proof.
  intros Wf Bf.
  assert (W : forall b, In b f -> wf M b /\ depends_below n b) by (intros b Hb; unfold below in Bf; rewrite Forall_forall in Wf, Bf; auto).
  destruct (op_list (fun b => round_best M b level level)
    (fun b r => wf M r /\ depends_below n r /\ (forall h, at_range level level child_const b h -> (disagreement n (ev b) (ev r) <= 2 * disagreement n (ev b) h)%Q)) f) as (g & E & L & F).
  { intros b Hb. destruct (W b Hb) as [Wb Db]. destruct (best_partial M n b level Wb Db) as (r & E & A & B & _). exists r. split; [exact E|]. split; [exact A|]. split; [|exact B].
    rewrite round_best_pure in E. injection E as <-. apply rb_dep. now apply (depends_below_vars M). }
  apply forall2_split in F. destruct F as [F1 F]. apply forall2_split in F. destruct F as [F2 F]. apply forall2_right in F1. apply forall2_right in F2.
  exists g. split; [exact E|]. intros h Wh Bh A.
  assert (Lh : length f = length h) by (clear - A; induction A; cbn [length]; auto).
  destruct (average_bit_flip_spec M n f g Wf F1 Bf F2 (eq_sym L)) as (q & EQ & V). destruct (average_bit_flip_spec M n f h Wf Wh Bf Bh Lh) as (q' & EQ' & V').
  exists q, q'. split; [exact EQ|]. split; [exact EQ'|]. rewrite V, V'. apply (hamming_twice n f _ g h A).
  revert F. apply forall2_impl. intros x y D k. apply D.
Qed.
Lemma hamming_repeat n b r m : (average n (fun a => inject_Z (hamming (repeat b m) (repeat r m) a)) == inject_Z (Z.of_nat m) * disagreement n (ev b) (ev r))%Q.
Proof.
  induction m as [|m IH]; [cbn [repeat hamming]; rewrite average_const; change (inject_Z (Z.of_nat 0)) with 0%Q; change (inject_Z 0) with 0%Q; ring|].
  cbn [repeat]. rewrite hamming_cons, IH, Nat2Z.inj_succ. unfold Z.succ. rewrite inject_Z_plus. change (avb n (fun a => xorb (ev b a) (ev r a))) with (disagreement n (ev b) (ev r)). ring.
Qed.
Lemma forall_repeat (P : bdd -> Prop) b m : P b -> Forall P (repeat b m).
Proof. intro H. induction m; cbn [repeat]; auto. Qed.
Lemma best_flips_attained m : 1 <= m -> exists M f g h level q q', index_order M /\ Forall (wf M) f /\ length f = m
  /\ map (fun b => round_best M b level level) f = map Ok g
  /\ Forall (wf M) h /\ Forall2 (fun b k => at_range level level child_const b (ev k)) f h
  /\ average_bit_flip_error M f g = Ok q /\ average_bit_flip_error M f h = Ok q' /\ (0 < q' /\ q == 2 * q')%Q.
Proof.
  intro Hm. pose (M := id_mgr 2). pose (b := bxor M (bvar 0) (bvar 1)). pose (k := band M (bnot (bvar 0)) (bvar 1)).
  assert (Hb : wf M b) by (unfold b; auto with wf). assert (Hk : wf M k) by (unfold k; auto with wf).
  assert (Db : depends_below 2 b) by (apply vars_depends_below; vm_compute; intuition lia).
  assert (Dk : depends_below 2 k) by (apply vars_depends_below; vm_compute; intuition lia).
  assert (Dz : depends_below 2 bzero) by (intros ? ? _; reflexivity).
  assert (Hz : wf M bzero) by exact I.
  assert (L : forall x y : bdd, length (repeat x m) = length (repeat y m)) by (intros; now rewrite !repeat_length).
  destruct (average_bit_flip_spec M 2 (repeat b m) (repeat bzero m)) as (q & EQ & V); try apply forall_repeat; auto.
  destruct (average_bit_flip_spec M 2 (repeat b m) (repeat k m)) as (q' & EQ' & V'); try apply forall_repeat; auto.
  rewrite hamming_repeat in V, V'.
  assert (V1 : (disagreement 2 (ev b) (ev bzero) == 1 # 2)%Q) by (vm_compute; reflexivity).
  assert (V2 : (disagreement 2 (ev b) (ev k) == 1 # 4)%Q) by (vm_compute; reflexivity).
  rewrite V1 in V. rewrite V2 in V'.
  exists M, (repeat b m), (repeat bzero m), (repeat k m), 0, q, q'. split; [intro; reflexivity|]. split; [now apply forall_repeat|]. split; [apply repeat_length|].
  split. { assert (R : round_best M b 0 0 = Ok bzero) by (vm_compute; reflexivity). clear - R. induction m as [|m IH]; [reflexivity|]. cbn [repeat map]. now rewrite R, IH. }
  split; [now apply forall_repeat|]. split.
  { assert (A : at_range 0 0 child_const b (ev k)).
    { change b with (true, Nd 0 (Nd 1 One true One) true (Nd 1 One true One)).
      eapply ar_in; [lia|apply ar_after; [lia|lia|intro; reflexivity]|apply ar_after; [lia|lia|intro; reflexivity]|].
      exists false. left. intro a. vm_compute; destruct (a 0), (a 1); reflexivity. }
    clear - A. induction m; cbn [repeat]; auto. }
  split; [exact EQ|]. split; [exact EQ'|]. assert (P : (0 < inject_Z (Z.of_nat m))%Q) by (change 0%Q with (inject_Z 0); rewrite <- Zlt_Qlt; lia). split; lra.
Qed.
