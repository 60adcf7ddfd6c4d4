(** How often random_satisfying_input returns a wrong input *)
From Coq Require Import List Bool Arith ZArith QArith Qabs Lia Lqa.
From Verif Require Import Res Cudd CuddFacts Spec SpecFacts SpecExact SpecSampling SpecFloat SpecProduct Helpers HelpersFacts2 Counting CountFacts ExactFacts SamplingFacts.
Import ListNotations.
Open Scope nat_scope.

Fixpoint no_zero (ps : list bool) (l : list Z) : bool :=
  match ps, l with
  | p :: ps, d :: l => negb (p && (d =? 0)%Z) && no_zero ps l
  | _, _ => true
  end.
Lemma no_zero_iff ps : forall l, length l = length ps ->
  (no_zero ps l = false <-> exists i, i < length ps /\ nth i ps false = true /\ nth i l 1%Z = 0%Z).
Proof.
  induction ps as [|p ps IH]; intros [|d l] H; try discriminate; cbn [no_zero].
  - split; [discriminate|]. intros (i & Hi & _). cbn in Hi. lia.
  - injection H as H. rewrite andb_false_iff, (IH l H), negb_false_iff, andb_true_iff, Z.eqb_eq. split.
    + intros [[-> ->]|(i & H1 & H2 & H3)]; [exists 0; cbn; repeat split; auto; lia|exists (S i); cbn; repeat split; auto; lia].
    + intros ([|i] & H1 & H2 & H3); cbn in *; [left; auto|right; exists i; repeat split; auto; lia].
Qed.
Lemma sum_const (c : Q) n s : (sumQ (map (fun _ : nat => c) (seq s n)) == inject_Z (Z.of_nat n) * c)%Q.
Proof.
  revert s. induction n as [|n IH]; intro s; cbn [seq map]; [rewrite sumQ_nil; ring|].
  rewrite sumQ_cons, IH, Nat2Z.inj_succ. unfold Z.succ. rewrite inject_Z_plus. ring.
Qed.
Definition share (r : nat) : Q := (inject_Z (Z.of_nat r) / inject_Z (Z.of_nat (S r)))%Q.
Lemma no_zero_mean r ps : (expectation r (length ps) (fun l => b2q (no_zero ps l)) == qpow (share r) (length (filter (fun p => p) ps)))%Q.
Proof.
  induction ps as [|p ps IH]; [rewrite exp_0; reflexivity|]. cbn [length]. rewrite exp_S. cbn [no_zero].
  pose proof (R_pos r) as RP. assert (HR : inject_Z (Z.of_nat (S r)) == inject_Z (Z.of_nat r) + 1) by (rewrite Nat2Z.inj_succ; unfold Z.succ; now rewrite inject_Z_plus).
  destruct p; cbn [filter length].
  - change (seq 0 (S r)) with (0 :: seq 1 r). cbn [map]. rewrite sumQ_cons.
    rewrite (exp_ext r _ (fun l => b2q (negb (true && (Z.of_nat 0 =? 0)%Z) && no_zero ps l)) (fun _ => 0%Q)) by reflexivity. rewrite exp_const.
    rewrite (sumQ_map_ext_in _ (fun _ => qpow (share r) (length (filter (fun p => p) ps)))).
    + rewrite sum_const. cbn [qpow]. unfold share at 2. field. lra.
    + intros d Hd. apply in_seq in Hd. rewrite <- IH. apply exp_ext. intro l. assert ((Z.of_nat d =? 0)%Z = false) as -> by (apply Z.eqb_neq; lia). reflexivity.
  - rewrite (sumQ_map_ext_in _ (fun _ => qpow (share r) (length (filter (fun p => p) ps)))).
    + rewrite sum_const. field. lra.
    + intros d _. rewrite <- IH. apply exp_ext. intro l. reflexivity.
Qed.
Lemma filter_map_count (p : nat -> bool) l : length (filter (fun b => b) (map p l)) = length (filter p l).
Proof. induction l as [|x l IH]; [reflexivity|]. cbn [map filter]. destruct (p x); cbn [length]; auto. Qed.
Definition wrong_input (r : nat) (f : bdd) (T : nat) (l : list Z) : bool :=
  match random_satisfying_input (Z.of_nat r) f (count_minterms f) T l with Ok x => negb (ev f (asg_ints x)) | _ => true end.
Lemma wrong_at_most M r f T : index_order M -> 0 < r -> wf M f -> depends_below T f -> (exists a, ev f a = true) ->
  (probability r T (wrong_input r f T) <= 1 - qpow (inject_Z (Z.of_nat r) / inject_Z (Z.of_nat (S r))) T)%Q.
Proof.
  intros HI Hr W D Sat. fold (share r). set (ps := map (fun _ => true) (seq 0 T)).
  assert (L : length ps = T) by (unfold ps; now rewrite map_length, seq_length).
  assert (C : length (filter (fun p => p) ps) = T).
  { unfold ps. rewrite filter_map_count. rewrite <- (seq_length T 0) at 2. f_equal. generalize (seq 0 T). intro l. induction l; cbn; congruence. }
  pose proof (no_zero_mean r ps) as Z0. rewrite L, C in Z0. rewrite <- Z0. unfold probability.
  apply Qle_trans with (expectation r T (fun l => 1 - b2q (no_zero ps l))%Q); [|rewrite exp_minus, exp_const; lra].
  apply exp_le_in. intros l [HL HF]. unfold wrong_input.
  destruct (random_satisfying_input_exact M (Z.of_nat r) f T l HI ltac:(lia) W Sat D HL HF) as (x & -> & _ & _ & E).
  destruct (no_zero ps l) eqn:N; [|destruct (ev f (asg_ints x)); cbn; lra].
  assert (X : ev f (asg_ints x) = true); [|rewrite X; cbn; lra].
  destruct (ev f (asg_ints x)) eqn:X; auto. exfalso. apply E in X. destruct X as (i & Hi & H0 & _).
  assert (no_zero ps l = false); [|congruence]. apply no_zero_iff; [lia|]. exists i. rewrite L. repeat split; auto.
  unfold ps. assert (IN : In (nth i (map (fun _ : nat => true) (seq 0 T)) false) (map (fun _ : nat => true) (seq 0 T))) by (apply nth_In; now rewrite map_length, seq_length).
  apply in_map_iff in IN as (_ & IN & _). now rewrite <- IN.
Qed.
Lemma product_sat T s f : product T s f -> exists a, ev f a = true.
Proof. intro H. exists (fun i => match s i with Some b => b | None => false end). apply H. intros i b _ E. now rewrite E. Qed.
Lemma product_below T s f : product T s f -> depends_below T f.
Proof.
  intros H a b E. apply eq_true_iff_eq. rewrite (H a), (H b). split; intros X i c Hi Hc; specialize (X i c Hi Hc); specialize (E i Hi); congruence.
Qed.
Lemma wrong_product M r f T s : index_order M -> 0 < r -> wf M f -> product T s f ->
  (probability r T (wrong_input r f T) == 1 - qpow (inject_Z (Z.of_nat r) / inject_Z (Z.of_nat (S r))) (negative_literals T s))%Q.
Proof.
  intros HI Hr W HP. fold (share r). set (ps := map (negative_literal s) (seq 0 T)).
  assert (L : length ps = T) by (unfold ps; now rewrite map_length, seq_length).
  assert (C : length (filter (fun p => p) ps) = negative_literals T s) by (unfold ps; now rewrite filter_map_count).
  assert (NT : forall i, i < T -> nth i ps false = negative_literal s i).
  { intros i Hi. unfold ps. rewrite nth_indep with (d' := negative_literal s 0) by (rewrite map_length, seq_length; auto). now rewrite map_nth, seq_nth. }
  pose proof (no_zero_mean r ps) as Z0. rewrite L, C in Z0. rewrite <- Z0. unfold probability.
  transitivity (expectation r T (fun l => 1 - b2q (no_zero ps l))%Q); [|rewrite exp_minus, exp_const; reflexivity].
  apply exp_ext_in. intros l [HL HF]. unfold wrong_input.
  destruct (random_satisfying_input_exact M (Z.of_nat r) f T l HI ltac:(lia) W (product_sat T s f HP) (product_below T s f HP) HL HF) as (x & -> & HX & _ & E).
  assert (X : ev f (asg_ints x) = no_zero ps l); [|rewrite X; destruct (no_zero ps l); reflexivity].
  change (fun i => (nth i x 0 =? 1)%Z) with (asg_ints x) in E.
  destruct (no_zero ps l) eqn:N.
  - destruct (ev f (asg_ints x)) eqn:X; auto. destruct (proj1 E eq_refl) as (i & Hi & H0 & (a & A1 & A2) & A3).
    exfalso. assert (no_zero ps l = false); [|congruence]. apply no_zero_iff; [lia|]. exists i. rewrite L. split; auto. split; auto.
    rewrite NT by auto. unfold negative_literal. destruct (s i) as [[]|] eqn:SI; auto; exfalso.
    + pose proof (proj1 (HP a) A2 i true Hi SI) as Y. specialize (A3 a A1 Y). congruence.
    + set (a' := fun j => if j =? i then true else a j). assert (Y : ev f a' = false).
      { apply A3; [intros j Hj; unfold a'; destruct (Nat.eqb_spec j i); [lia|]; now apply A1|unfold a'; now rewrite Nat.eqb_refl]. }
      assert (ev f a' = true); [|congruence]. apply HP. intros j b Hj Hb. unfold a'. destruct (Nat.eqb_spec j i); [congruence|].
      exact (proj1 (HP a) A2 j b Hj Hb).
  - destruct (ev f (asg_ints x)) eqn:X; auto. apply no_zero_iff in N; [|lia]. destruct N as (i & Hi & H1 & H2). rewrite L in Hi. rewrite NT in H1 by auto.
    assert (true = false); [|discriminate]. apply E. exists i. split; auto. split; auto. unfold negative_literal in H1.
    destruct (s i) as [[]|] eqn:SI; try discriminate. split; [exists (asg_ints x); split; auto; intros j _; reflexivity|].
    intros a _ Ha. destruct (ev f a) eqn:Y; auto. pose proof (proj1 (HP a) Y i false Hi SI). congruence.
Qed.
