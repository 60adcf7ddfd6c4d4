(** The value of a constant ADD as an unsigned int *)
From Coq Require Import List Bool Arith ZArith QArith Qround Lia Lqa.
From Verif Require Import Res Cudd Counting.
Open Scope nat_scope.

Lemma quot_floor q : (0 <= q)%Q -> Z.quot (Qnum q) (Zpos (Qden q)) = Qfloor q.
Proof.
  intro H. assert (0 <= Qnum q)%Z. { unfold Qle in H. cbn in H. lia. }
  destruct q as [n d]. cbn [Qnum Qden Qfloor] in *. apply Z.quot_div_nonneg; lia.
Qed.
Lemma quot_opp q : Z.quot (Qnum q) (Zpos (Qden q)) = (- Z.quot (Qnum (- q)) (Zpos (Qden (- q))))%Z.
Proof. destruct q as [n d]. cbn [Qnum Qden Qopp]. rewrite Z.quot_opp_l by lia. lia. Qed.
Lemma const_value : (forall v t e, const_ADD_value (AN v t e) = Ok 0%Z)
  /\ (forall q, (0 <= q < inject_Z (2 ^ 32))%Q -> exists z, const_ADD_value (Leaf q) = Ok z /\ (inject_Z z <= q < inject_Z z + 1)%Q)
  /\ (forall q, (- (1) < q < 0)%Q -> const_ADD_value (Leaf q) = Ok 0%Z)
  /\ (forall q, (q <= - (1) \/ inject_Z (2 ^ 32) <= q)%Q -> const_ADD_value (Leaf q) = UB).
Proof.
  split; [reflexivity|]. split; [|split]; intros q H; unfold const_ADD_value; cbv zeta.
  - rewrite quot_floor by lra. pose proof (Qfloor_le q) as F1. pose proof (Qlt_floor q) as F2. rewrite inject_Z_plus in F2.
    assert (0 <= Qfloor q < 2 ^ 32)%Z.
    { split; [change 0%Z with (Qfloor 0); apply Qfloor_resp_le; lra|]. rewrite Zlt_Qlt. lra. }
    assert ((-1 <? Qfloor q)%Z && (Qfloor q <? 2 ^ 32)%Z = true) as -> by (apply andb_true_iff; rewrite !Z.ltb_lt; lia).
    exists (Qfloor q). split; [reflexivity|]. change (inject_Z 1) with 1%Q in F2. lra.
  - rewrite quot_opp, quot_floor by lra.
    assert (Qfloor (- q) = 0%Z) as ->; [|reflexivity].
    pose proof (Qfloor_le (- q)) as F1. pose proof (Qlt_floor (- q)) as F2. rewrite inject_Z_plus in F2. change (inject_Z 1) with 1%Q in F2.
    assert (Qfloor (- q) < 1)%Z by (rewrite Zlt_Qlt; change (inject_Z 1) with 1%Q; lra).
    assert (-1 < Qfloor (- q))%Z by (rewrite Zlt_Qlt; change (inject_Z (-1)) with (- (1))%Q; lra). lia.
  - destruct H as [H|H].
    + rewrite quot_opp, quot_floor by lra.
      assert (1 <= Qfloor (- q))%Z by (change 1%Z with (Qfloor 1) at 1; apply Qfloor_resp_le; lra).
      destruct (Z.ltb_spec (-1) (- Qfloor (- q))); [lia|reflexivity].
    + assert (0 <= q)%Q by (apply Qle_trans with (2 := H); discriminate). rewrite quot_floor by auto.
      assert (2 ^ 32 <= Qfloor q)%Z by (rewrite <- (Qfloor_Z (2 ^ 32)); apply Qfloor_resp_le; auto).
      destruct (Z.ltb_spec (Qfloor q) (2 ^ 32)); [lia|]. rewrite andb_false_r. reflexivity.
Qed.
