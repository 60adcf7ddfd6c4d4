(** Child replacement on the parity function: exactly half is lost per level *)
From Coq Require Import List Bool Arith ZArith QArith Lia Lqa.
From Verif Require Import Res Cudd CuddFacts Spec SpecFacts SpecFloat SpecOperators Helpers HelpersFacts HelpersFacts2 Counting Operators OperatorFacts OperatorFacts2 OperatorFacts4
  Examples GateFacts SizeFacts Ieee NearFacts NearFacts3.
Import ListNotations.
Open Scope nat_scope.

Lemma avb_flip N c x : (avb N (ev (negb c, x)) == 1 - avb N (ev (c, x)))%Q.
Proof.
  rewrite <- avb_neg. apply avb_ext. intro a. unfold ev. cbn [fst snd]. now destruct c, (evn x a).
Qed.
Section Parity.
Variable M : mgr.
Variable w : bdd -> Q.
Variables ls le N : nat.
Variable rh : bool.
Lemma parity_half (HI : index_order M) m j c : 1 <= m -> j + m <= N -> (avb N (ev (c, parity_node j m)) == 1 # 2)%Q.
Proof.
  intros Hm HN. destruct m as [|m]; [lia|]. cbn [parity_node].
  assert (Hok : okn M j (parity_node j (S m))) by (apply parity_ok; auto).
  assert (HV : forall i, In i (varsn (parity_node j (S m))) -> i < N) by (intros i Hi; apply parity_vars in Hi; lia).
  cbn [parity_node] in Hok, HV. rewrite (avb_nd M N j _ _ _ _ c Hok HV). rewrite xorb_true_r, avb_flip. lra.
Qed.
Lemma parity_loss (HI : index_order M) (HL : ls <= le) sub m : forall j c, 1 <= m -> j + m <= N -> S le < j + m ->
  (Q2 (left_levels ls le j) * keep sub (avb N (ev (rc M w ls le rh sub (parity_node j m) c))) == 1 # 2)%Q.
Proof.
  induction m as [|m IH]; intros j c Hm HN HE; [lia|].
  assert (Hok : okn M j (parity_node j (S m))) by (apply parity_ok; auto).
  pose proof (parity_half HI (S m) j c Hm HN) as EH.
  cbn [parity_node] in *. pose proof (okn_top_notin _ _ _ _ _ _ Hok) as [Nt Ne].
  assert (Lv : j < N) by lia.
  pose proof (fun a b => rc_notin M w ls le rh sub (parity_node (S j) m) j b a c Nt) as It'.
  pose proof (fun a b => rc_notin M w ls le rh sub (parity_node (S j) m) j b a (xorb c true) Ne) as Ie'.
  assert (KH : forall x y z, (z == (1#2) * (x + y))%Q -> (keep sub z == (1#2) * (keep sub x + keep sub y))%Q)
    by (intros x y z Hz; destruct sub; cbn [keep]; lra).
  cbn [rc]. destruct (j <? ls) eqn:E1.
  - apply Nat.ltb_lt in E1. pose proof (KH _ _ _ (rc_avb_ite M N j _ _ _ _ (fun a => eq_refl) (fun a => eq_refl) Lv It' Ie')) as ER. rewrite ER.
    pose proof (IH (S j) c ltac:(lia) ltac:(lia) ltac:(lia)) as A. pose proof (IH (S j) (xorb c true) ltac:(lia) ltac:(lia) ltac:(lia)) as B.
    replace (left_levels ls le (S j)) with (left_levels ls le j) in A, B by (unfold left_levels; lia). rewrite <- A in B at 1. 
    set (q := Q2 (left_levels ls le j)) in *. clearbody q. nra.
  - apply Nat.ltb_ge in E1. destruct (j <=? le) eqn:E2.
    + apply Nat.leb_le in E2. replace (left_levels ls le j) with (S (left_levels ls le (S j))) by (unfold left_levels; lia).
      pose proof (IH (S j) c ltac:(lia) ltac:(lia) ltac:(lia)) as A. pose proof (IH (S j) (xorb c true) ltac:(lia) ltac:(lia) ltac:(lia)) as B.
      rewrite Q2_S. set (q := Q2 (left_levels ls le (S j))) in *. clearbody q.
      pose proof (KH _ _ _ (rc_avb_ite M N j _ _ _ _ (fun a => ev_repl sub a) (fun a => eq_refl) Lv (fun a b => eq_refl) Ie')) as ER1.
      pose proof (KH _ _ _ (rc_avb_ite M N j _ _ _ _ (fun a => eq_refl) (fun a => ev_repl sub a) Lv It' (fun a b => eq_refl))) as ER2.
      assert (K0 : (keep sub (avb N (fun _ => negb sub)) == 0)%Q) by (destruct sub; cbn [keep negb]; rewrite avb_const; reflexivity).
      rewrite K0 in ER1, ER2. destruct (Bool.eqb rh _); [rewrite ER1|rewrite ER2]; nra.
    + apply Nat.leb_gt in E2. replace (left_levels ls le j) with 0 by (unfold left_levels; lia). change (Q2 0) with 1%Q.
      destruct sub; cbn [keep]; rewrite EH; reflexivity.
Qed.
End Parity.

Lemma parity_ops M n ls le : index_order M -> ls <= le -> S le < n ->
  let k := Z.of_nat (le - ls + 1) in
  (density n (xor_bdd M n) == 1 # 2)%Q
  /\ (forall op, In op [subset_light_child; subset_heavy_child; round_down] ->
      exists r, op M (xor_bdd M n) ls le = Ok r /\ (density n (xor_bdd M n) == inject_Z (2 ^ k) * density n r)%Q)
  /\ (forall op, In op [superset_light_child; superset_heavy_child; round_up] ->
      exists r, op M (xor_bdd M n) ls le = Ok r /\ (1 - density n (xor_bdd M n) == inject_Z (2 ^ k) * (1 - density n r))%Q)
  /\ (forall op, In op [subset_light_child_d; subset_heavy_child_d] ->
      exists r, op M (xor_bdd M n) ls le = Ok r /\ (density n (xor_bdd M n) == inject_Z (2 ^ k) * density n r)%Q)
  /\ (forall op, In op [superset_light_child_d; superset_heavy_child_d] ->
      exists r, op M (xor_bdd M n) ls le = Ok r /\ (1 - density n (xor_bdd M n) == inject_Z (2 ^ k) * (1 - density n r))%Q).
Proof.
  intros HI HL Hn k. rewrite (xor_bdd_node M n HI). set (c := negb (Nat.odd n)). set (f := (c, parity_node 0 n)).
  assert (H0 : (density n f == 1 # 2)%Q) by (apply (parity_half M n HI n 0 c); lia).
  assert (W : wf M f) by now apply parity_ok.
  assert (B : depends_below n f) by (apply vars_depends_below; cbn [snd]; intros i Hi; apply parity_vars in Hi; lia).
  assert (EL : left_levels ls le 0 = le - ls + 1) by (unfold left_levels; lia).
  assert (S1 : forall w rh, (density n f == inject_Z (2 ^ k) * density n (rc M w ls le rh true (snd f) (fst f)))%Q).
  { intros w rh. pose proof (parity_loss M w ls le n rh HI HL true n 0 c ltac:(lia) ltac:(lia) ltac:(lia)) as H. rewrite EL in H. rewrite H0. symmetry. exact H. }
  assert (S2 : forall w rh, (1 - density n f == inject_Z (2 ^ k) * (1 - density n (rc M w ls le rh false (snd f) (fst f))))%Q).
  { intros w rh. pose proof (parity_loss M w ls le n rh HI HL false n 0 c ltac:(lia) ltac:(lia) ltac:(lia)) as H. rewrite EL in H. rewrite H0. symmetry. exact H. }
  split; [exact H0|]. split; [|split; [|split]]; intros op Hop; cbn [In] in Hop.
  - destruct Hop as [<-|[<-|[<-|[]]]]; unfold subset_light_child, subset_heavy_child; rewrite ?round_any_pure, ?round_down_pure; eexists; (split; [reflexivity|apply S1]).
  - destruct Hop as [<-|[<-|[<-|[]]]]; unfold superset_light_child, superset_heavy_child; rewrite ?round_any_pure, ?round_up_pure; eexists; (split; [reflexivity|apply S2]).
  - destruct Hop as [<-|[<-|[]]]; unfold subset_light_child_d, subset_heavy_child_d.
    + destruct (any_d_pure M f n ls le false true W B) as (w & E & _). rewrite E. eexists. split; [reflexivity|apply S1].
    + destruct (any_d_pure M f n ls le true true W B) as (w & E & _). rewrite E. eexists. split; [reflexivity|apply S1].
  - destruct Hop as [<-|[<-|[]]]; unfold superset_light_child_d, superset_heavy_child_d.
    + destruct (any_d_pure M f n ls le false false W B) as (w & E & _). rewrite E. eexists. split; [reflexivity|apply S2].
    + destruct (any_d_pure M f n ls le true false W B) as (w & E & _). rewrite E. eexists. split; [reflexivity|apply S2].
Qed.
