(** Proofs: the operations on doubles of the model are those of the standard library *)
From Coq Require Import List Bool Arith ZArith QArith Qabs Qround Lia Lqa Floats.SpecFloat.
From Verif Require Import Float FloatFacts RoundedAverageFacts Ieee IeeeFacts IeeeFacts5 IeeeFacts9 SpecIeee IeeeStd.
Open Scope Q_scope.

Lemma same_refl x : same_double x x. Proof. destruct x; cbn; auto. reflexivity. Qed.
Lemma same_sym x y : same_double x y -> same_double y x.
Proof. destruct x, y; cbn; auto; intro H; now symmetry. Qed.
Lemma same_trans x y z : same_double x y -> same_double y z -> same_double x z.
Proof. destruct x, y, z; cbn; intros; try contradiction; auto; congruence || lra. Qed.
Lemma dneg_same x y : same_double x y -> same_double (dneg x) (dneg y).
Proof. destruct x, y; cbn; intros; try contradiction; auto; congruence || lra. Qed.
Lemma to_double_zero x : x == 0 -> to_double x = DFin 0.
Proof.
  intro E. unfold to_double. replace (Qeq_bool x 0) with true by (symmetry; now apply Qeq_bool_iff). cbn [negb andb].
  destruct x as [a b]. assert (a = 0%Z) as -> by (unfold Qeq in E; cbn in E; lia). unfold round_float. cbn [Qnum]. reflexivity.
Qed.
Lemma to_double_proper x y : x == y -> same_double (to_double x) (to_double y).
Proof.
  assert (K : forall x y, 0 < x -> x == y -> to_double x = to_double y).
  { clear. intros x y P E. rewrite !to_double_pos by lra. cbv zeta. unfold unit_exponent. rewrite (exponent_proper x y P E).
    set (u := Z.max (binary_exponent y - 52) (-1074)). rewrite (half_even_proper (x / 2 ^ u) (y / 2 ^ u)) by (rewrite E; reflexivity). reflexivity. }
  intro E. destruct (Q_dec x 0) as [[L|L]|L].
  - apply same_trans with (dneg (to_double (- x))).
    + apply same_trans with (to_double (- - x)); [|apply to_double_neg; lra]. destruct x as [[|a|a] b]; try (vm_compute in L; discriminate L). apply same_refl.
    + rewrite (K (- x) (- y)) by lra. apply same_sym. apply same_trans with (to_double (- - y)); [|apply to_double_neg; lra].
      destruct y as [[|c|c] d]; try (exfalso; clear -L E; unfold Qlt, Qeq in *; cbn in *; lia). apply same_refl.
  - rewrite (K x y L E). apply same_refl.
  - rewrite !to_double_zero by lra. reflexivity.
Qed.

Definition vfin (s : bool) (m : positive) (e : Z) : Q := inject_Z (if s then Zneg m else Zpos m) * 2 ^ e.
Lemma vfin_pos m e : 0 < vfin false m e.
Proof. unfold vfin. pose proof (p2_pos e). assert (0 < inject_Z (Zpos m)) by reflexivity. nra. Qed.
Lemma vfin_neg m e : vfin true m e == - vfin false m e.
Proof. unfold vfin. change (Zneg m) with (- Zpos m)%Z. rewrite inject_Z_opp. ring. Qed.
Lemma vfin_sign s m e : vfin s m e == if s then - vfin false m e else vfin false m e.
Proof. destruct s; [apply vfin_neg|reflexivity]. Qed.
Lemma holds_exact m e : holds (shr_record_of_loc (Zpos m) loc_Exact) (vfin false m e / 2 ^ e).
Proof.
  split; [cbn; lia|]. exists 0. cbn [shr_record_of_loc shr_m shr_r shr_s]. split; [|split; [lra|split; [lra|split; intro H; [discriminate H|lra]]]].
  unfold vfin. pose proof (p2_pos e). field. lra.
Qed.
Lemma rounded s m e : (e <= fexp 53 1024 (Zpos (digits2_pos m) + e))%Z ->
  same_double (double_value (binary_round_aux 53 1024 s (Zpos m) e loc_Exact)) (to_double (vfin s m e)).
Proof.
  intro H. eapply same_trans; [apply (round_aux (vfin false m e) s (Zpos m) e loc_Exact); [apply vfin_pos|apply holds_exact|lia|exact H]|].
  apply to_double_proper. symmetry. apply vfin_sign.
Qed.
Lemma shift_digits m d : digits2_pos (shift_pos d m) = (digits2_pos m + d)%positive.
Proof.
  assert (H : Zdigits2 (Zpos (shift_pos d m)) = (Zpos (digits2_pos m) + Zpos d)%Z); [|cbn [Zdigits2] in H; lia].
  pose proof (digits_pos m) as D. apply digits_unique; [lia|]. rewrite shift_pos_correct, Zpower_pos_nat. change (Zpower_nat 2 (Pos.to_nat d)) with (Zpower_nat 2 (Pos.to_nat d)).
  rewrite Zpower_nat_Z, positive_nat_Z. replace (Zpos (digits2_pos m) + Zpos d - 1)%Z with (Zpos d + (Zpos (digits2_pos m) - 1))%Z by lia.
  rewrite (Z.add_comm (Zpos (digits2_pos m)) (Zpos d)), !Z.pow_add_r by lia. pose proof (Z.pow_pos_nonneg 2 (Zpos d) ltac:(lia) ltac:(lia)). nia.
Qed.
Lemma shift_value s m d e : vfin s (shift_pos d m) e == vfin s m (e + Zpos d).
Proof.
  assert (K : vfin false (shift_pos d m) e == vfin false m (e + Zpos d)).
  { unfold vfin. rewrite shift_pos_correct, Zpower_pos_nat, Zpower_nat_Z, positive_nat_Z, inject_Z_mult, <- (p2_inj (Zpos d)) by lia. rewrite p2_add. ring. }
  destruct s; [rewrite !vfin_neg, K; reflexivity|exact K].
Qed.
Lemma rounded2 s m e : same_double (double_value (binary_round 53 1024 s m e)) (to_double (vfin s m e)).
Proof.
  unfold binary_round, shl_align. rewrite fexp_val. destruct (Z.max (Zpos (digits2_pos m) + e - 53) (-1074) - e)%Z as [|d|d] eqn:E.
  - apply rounded. rewrite fexp_val. lia.
  - apply rounded. rewrite fexp_val. lia.
  - eapply same_trans; [apply rounded|].
    + rewrite shift_digits, fexp_val. lia.
    + apply to_double_proper. rewrite shift_value. replace (Z.max (Zpos (digits2_pos m) + e - 53) (-1074) + Zpos d)%Z with e by lia. reflexivity.
Qed.
Lemma valid_parts s m e : is_double (S754_finite s m e) ->
  (Zpos (digits2_pos m) <= 53 /\ -1074 <= e <= 971 /\ (e = -1074 \/ Zpos (digits2_pos m) = 53))%Z.
Proof.
  unfold is_double, valid_binary, bounded, canonical_mantissa. intro H. apply andb_prop in H as [H1 H2]. apply Zeq_bool_eq in H1. apply Z.leb_le in H2.
  rewrite fexp_val in H1. lia.
Qed.
Lemma keeps s m e : is_double (S754_finite s m e) -> same_double (to_double (vfin s m e)) (DFin (vfin s m e)).
Proof.
  intro V. pose proof (valid_parts s m e V) as (D & E & F). eapply same_trans; [apply same_sym, rounded; rewrite fexp_val; lia|].
  assert (Z0 : forall l, shr_fexp 53 1024 (Zpos m) e l = (shr_record_of_loc (Zpos m) l, e)).
  { intro l. unfold shr_fexp. cbn [Zdigits2]. rewrite fexp_val. replace (Z.max (Zpos (digits2_pos m) + e - 53) (-1074) - e)%Z with 0%Z by lia. reflexivity. }
  unfold binary_round_aux. rewrite Z0. cbn [shr_record_of_loc shr_m loc_of_shr_record round_nearest_even]. rewrite Z0. cbn [shr_record_of_loc shr_m].
  replace (Zle_bool e (1024 - 53)) with true by (symmetry; apply Z.leb_le; lia). cbn [double_value same_double]. reflexivity.
Qed.

(** ** the operations *)
Lemma opp_ok x : same_double (double_value (SFopp x)) (dneg (double_value x)).
Proof.
  destruct x as [s|s| |s m e]; cbn [SFopp double_value dneg same_double]; auto; [reflexivity|]. fold (vfin (negb s) m e) (vfin s m e).
  destruct s; cbn [negb]; rewrite vfin_neg; ring.
Qed.
Lemma opp_double x : is_double x -> is_double (SFopp x). Proof. destruct x; auto. Qed.
Lemma align_value m e z : (z <= e)%Z -> inject_Z (Zpos (fst (shl_align m e z))) * 2 ^ z == vfin false m e.
Proof.
  intro H. unfold shl_align. destruct (z - e)%Z as [|d|d] eqn:E; cbn [fst].
  - replace z with e by lia. reflexivity.
  - lia.
  - fold (vfin false (shift_pos d m) z). rewrite shift_value. replace (z + Zpos d)%Z with e by lia. reflexivity.
Qed.
Lemma dadd_same a b c d : same_double a b -> same_double c d -> same_double (dadd a c) (dadd b d).
Proof.
  destruct a, b; cbn [same_double]; intro H; try contradiction; destruct c, d; cbn [same_double]; intro H'; try contradiction; cbn [dadd]; subst; try apply same_refl.
  apply to_double_proper. now rewrite H, H'.
Qed.
Lemma add_ok x y : is_double x -> is_double y -> same_double (double_value (SFadd 53 1024 x y)) (dadd (double_value x) (double_value y)).
Proof.
  intros Vx Vy. destruct x as [s|s| |s m e], y as [s'|s'| |s' m' e']; cbn [SFadd double_value dadd]; try exact I; try apply same_refl.
  - rewrite to_double_zero by reflexivity. destruct (Bool.eqb s s'); reflexivity.
  - fold (vfin s' m' e'). eapply same_trans; [apply same_sym, keeps, Vy|]. apply to_double_proper. ring.
  - destruct (Bool.eqb s s'); reflexivity.
  - fold (vfin s m e). eapply same_trans; [apply same_sym, keeps, Vx|]. apply to_double_proper. ring.
  - fold (vfin s m e) (vfin s' m' e'). set (z := Z.min e e').
    set (A := cond_Zopp s (Zpos (fst (shl_align m e z)))). set (B := cond_Zopp s' (Zpos (fst (shl_align m' e' z)))).
    assert (EA : inject_Z A * 2 ^ z == vfin s m e).
    { unfold A. pose proof (align_value m e z ltac:(lia)) as V. destruct s; cbn [cond_Zopp]; [rewrite inject_Z_opp, vfin_neg, <- V; ring|exact V]. }
    assert (EB : inject_Z B * 2 ^ z == vfin s' m' e').
    { unfold B. pose proof (align_value m' e' z ltac:(lia)) as V. destruct s'; cbn [cond_Zopp]; [rewrite inject_Z_opp, vfin_neg, <- V; ring|exact V]. }
    assert (E : inject_Z (A + B) * 2 ^ z == vfin s m e + vfin s' m' e') by (rewrite inject_Z_plus, <- EA, <- EB; ring).
    unfold binary_normalize. destruct (A + B)%Z as [|p|p].
    + rewrite to_double_zero; [reflexivity|]. rewrite <- E. change (inject_Z 0) with 0. ring.
    + eapply same_trans; [apply rounded2|]. apply to_double_proper. exact E.
    + eapply same_trans; [apply rounded2|]. apply to_double_proper. exact E.
Qed.
Lemma sub_is_add x y : SFsub 53 1024 x y = SFadd 53 1024 x (SFopp y).
Proof.
  destruct x as [s|s| |s m e], y as [s'|s'| |s' m' e']; cbn [SFsub SFadd SFopp]; try reflexivity.
  f_equal. unfold Z.sub. f_equal. destruct s'; cbn [cond_Zopp negb]; [now rewrite Z.opp_involutive|reflexivity].
Qed.
Lemma sub_ok x y : is_double x -> is_double y -> same_double (double_value (SFsub 53 1024 x y)) (dsub (double_value x) (double_value y)).
Proof.
  intros Vx Vy. rewrite sub_is_add. eapply same_trans; [apply add_ok; auto using opp_double|]. unfold dsub. apply dadd_same; [apply same_refl|apply opp_ok].
Qed.
Lemma negative_lt a : negative a = true <-> a < 0.
Proof. unfold negative. rewrite Z.ltb_lt. destruct a as [a b]. unfold Qlt. cbn. lia. Qed.
Lemma negative_vfin s m e : negative (vfin s m e) = s.
Proof.
  pose proof (vfin_pos m e) as P. pose proof (vfin_sign s m e) as E. apply eq_true_iff_eq. rewrite negative_lt, E. destruct s; split; intro; try lra; auto; discriminate.
Qed.
Lemma vfin_nz s m e : Qeq_bool (vfin s m e) 0 = false.
Proof. apply not_true_is_false. rewrite Qeq_bool_iff, vfin_sign. pose proof (vfin_pos m e). destruct s; lra. Qed.
Lemma vfin_mul s m e s' m' e' : vfin s m e * vfin s' m' e' == vfin (xorb s s') (m * m') (e + e').
Proof.
  assert (E : vfin false m e * vfin false m' e' == vfin false (m * m') (e + e')).
  { unfold vfin. rewrite Pos2Z.inj_mul, inject_Z_mult, p2_add. ring. }
  destruct s, s'; cbn [xorb]; rewrite ?vfin_neg, <- E; ring.
Qed.
Lemma mul_ok x y : is_double x -> is_double y -> same_double (double_value (SFmul 53 1024 x y)) (dmul (double_value x) (double_value y)).
Proof.
  intros Vx Vy. destruct x as [s|s| |s m e], y as [s'|s'| |s' m' e']; cbn [SFmul double_value dmul]; try exact I; try apply same_refl;
    try (rewrite to_double_zero by (reflexivity || ring); apply same_refl).
  - fold (vfin s' m' e'). rewrite vfin_nz, negative_vfin. reflexivity.
  - fold (vfin s m e). rewrite vfin_nz, negative_vfin, xorb_comm. reflexivity.
  - fold (vfin s m e) (vfin s' m' e'). eapply same_trans; [apply rounded|apply to_double_proper; symmetry; apply vfin_mul].
    apply valid_parts in Vx. apply valid_parts in Vy. rewrite fexp_val. pose proof (digits_pos m) as D. pose proof (digits_pos m') as D'.
    assert (L : (Zpos (digits2_pos m) + Zpos (digits2_pos m') - 1 <= Zpos (digits2_pos (m * m')))%Z).
    { pose proof (digits_pos (m * m')) as DD. apply Z.nlt_ge. intro G. rewrite Pos2Z.inj_mul in DD.
      pose proof (Z.pow_le_mono_r 2 (Zpos (digits2_pos (m * m'))) ((Zpos (digits2_pos m) - 1) + (Zpos (digits2_pos m') - 1)) ltac:(lia) ltac:(lia)) as Q1.
      rewrite Z.pow_add_r in Q1 by lia. pose proof (Z.pow_pos_nonneg 2 (Zpos (digits2_pos m) - 1) ltac:(lia) ltac:(lia)).
      pose proof (Z.pow_pos_nonneg 2 (Zpos (digits2_pos m') - 1) ltac:(lia) ltac:(lia)). nia. }
    lia.
Qed.

(** ** division *)
Lemma location_ok n k q : (0 < n)%Z -> (0 <= k < n)%Z -> (0 <= q)%Z -> holds (shr_record_of_loc q (new_location n k)) (inject_Z q + inject_Z k / inject_Z n).
Proof.
  intros Hn Hk Hq. assert (Pn : 0 < inject_Z n) by (change 0 with (inject_Z 0); rewrite <- Zlt_Qlt; exact Hn).
  set (f := inject_Z k / inject_Z n). assert (Ef : f * inject_Z n == inject_Z k) by (unfold f; field; lra).
  assert (K0 : 0 <= inject_Z k) by (change 0 with (inject_Z 0); rewrite <- Zle_Qle; lia). assert (K1 : inject_Z k < inject_Z n) by (rewrite <- Zlt_Qlt; lia).
  assert (F0 : 0 <= f) by (unfold f; apply Qle_shift_div_l; lra). assert (F1 : f < 1) by (unfold f; apply Qlt_shift_div_r; lra).
  assert (T : forall c, (2 * k ?= n)%Z = c -> match c with Lt => f < 1 # 2 | Eq => f == 1 # 2 | Gt => (1 # 2) < f end).
  { intros c E. destruct c.
    - apply Z.compare_eq in E. assert (X : inject_Z n == 2 * inject_Z k) by (rewrite <- E, inject_Z_mult; reflexivity). apply Qle_antisym; unfold f; [apply Qle_shift_div_r|apply Qle_shift_div_l]; lra.
    - apply Z.compare_lt_iff in E. assert (X : 2 * inject_Z k < inject_Z n) by (change 2 with (inject_Z 2); rewrite <- inject_Z_mult, <- Zlt_Qlt; exact E). unfold f; apply Qlt_shift_div_r; lra.
    - apply Z.compare_gt_iff in E. assert (X : inject_Z n < 2 * inject_Z k) by (change 2 with (inject_Z 2); rewrite <- inject_Z_mult, <- Zlt_Qlt; exact E). unfold f; apply Qlt_shift_div_l; lra. }
  assert (Z0 : k <> 0%Z -> 0 < f).
  { intro N. unfold f. apply Qlt_shift_div_l; [exact Pn|]. rewrite Qmult_0_l. change 0 with (inject_Z 0). rewrite <- Zlt_Qlt. lia. }
  assert (G : new_location n k = if Zeq_bool k 0 then loc_Exact else loc_Inexact (2 * k ?= n)%Z).
  { unfold new_location, new_location_even, new_location_odd. destruct (Z.even n) eqn:E; [reflexivity|]. destruct (Zeq_bool k 0); [reflexivity|]. f_equal.
    assert (O : n <> (2 * k)%Z) by (intros ->; rewrite Z.even_mul in E; discriminate E).
    assert (O' : (2 * k + 1 <= n -> 2 * k < n)%Z) by lia.
    destruct (Z.compare_spec (2 * k + 1) n), (Z.compare_spec (2 * k) n); auto; lia. }
  rewrite G. pose proof (Zeq_bool_if k 0) as B. destruct (Zeq_bool k 0).
  - subst k. split; [exact Hq|]. exists 0. cbn [shr_record_of_loc shr_m shr_r shr_s]. split; [assert (f == 0) by (unfold f; change (inject_Z 0) with 0; unfold Qdiv; ring); lra|].
    split; [lra|]. split; [lra|]. split; [discriminate|lra].
  - specialize (Z0 B). destruct (2 * k ?= n)%Z eqn:E; specialize (T _ eq_refl); cbv beta iota in T; clearbody f; cbn [shr_record_of_loc]; (split; [exact Hq|]); cbn [shr_m shr_r shr_s].
    + exists 0. split; [lra|]. split; [lra|]. split; [lra|]. split; [discriminate|lra].
    + exists f. split; [lra|]. split; [lra|]. split; [lra|]. split; [lra|reflexivity].
    + exists (f - (1 # 2)). split; [lra|]. split; [lra|]. split; [lra|]. split; [lra|reflexivity].
Qed.
Lemma div_finite s m e s' m' e' : is_double (S754_finite s m e) -> is_double (S754_finite s' m' e') ->
  same_double (double_value (SFdiv 53 1024 (S754_finite s m e) (S754_finite s' m' e'))) (to_double (vfin s m e / vfin s' m' e')).
Proof.
  intros Vx Vy. cbn [SFdiv]. unfold SFdiv_core_binary. cbn [Zdigits2].
  set (d := Zpos (digits2_pos m)). set (d' := Zpos (digits2_pos m')). set (z := Z.min (fexp 53 1024 (d + e - (d' + e'))) (e - e')).
  assert (Hz : (z <= e - e')%Z) by (unfold z; lia). assert (Hf : (z <= fexp 53 1024 (d + e - (d' + e')))%Z) by (unfold z; lia). clearbody z.
  set (k := (e - e' - z)%Z). assert (Hk : (0 <= k)%Z) by (unfold k; lia).
  assert (Em : match k with Zpos _ => Z.shiftl (Zpos m) k | Z0 => Zpos m | Zneg _ => 0%Z end = (Zpos m * 2 ^ k)%Z).
  { destruct k as [|p|p] eqn:E; [lia|apply Z.shiftl_mul_pow2; lia|lia]. }
  rewrite Em. pose proof (Z_div_mod (Zpos m * 2 ^ k) (Zpos m') ltac:(lia)) as DM. destruct (Z.div_eucl (Zpos m * 2 ^ k) (Zpos m')) as [q r]. destruct DM as [DM Hr].
  pose proof (Z.pow_pos_nonneg 2 k ltac:(lia) Hk) as P2. assert (Hq : (0 <= q)%Z) by nia.
  set (X := vfin false m e / vfin false m' e'). pose proof (vfin_pos m e) as PX. pose proof (vfin_pos m' e') as PY.
  assert (P : 0 < X) by (unfold X; apply Qlt_shift_div_l; lra).
  assert (EX : X / 2 ^ z == inject_Z q + inject_Z r / inject_Z (Zpos m')).
  { assert (Pm : 0 < inject_Z (Zpos m')) by reflexivity. pose proof (p2_pos z) as Pz. pose proof (p2_pos e') as Pe'.
    assert (E1 : inject_Z (Zpos m) * 2 ^ k == inject_Z (Zpos m') * inject_Z q + inject_Z r).
    { rewrite (p2_inj k Hk), <- inject_Z_mult, DM, inject_Z_plus, inject_Z_mult. reflexivity. }
    assert (E2 : 2 ^ e == 2 ^ k * 2 ^ e' * 2 ^ z) by (rewrite <- !p2_add; unfold k; replace (e - e' - z + e' + z)%Z with e by lia; reflexivity).
    unfold X, vfin. rewrite E2. transitivity (inject_Z (Zpos m) * 2 ^ k / inject_Z (Zpos m')); [field; split; [lra|split; lra]|]. rewrite E1. field. lra. }
  apply same_trans with (to_double (if xorb s s' then - X else X)).
  - apply round_aux; auto.
    + eapply holds_proper; [symmetry; exact EX|]. apply location_ok; lia.
    + rewrite fexp_val in *. destruct (Z_le_gt_dec z (-1074)) as [L|L]; [lia|]. assert (Z1 : (z <= d + e - (d' + e') - 53)%Z) by lia.
      assert (Z2 : (52 + d' <= d - 1 + k)%Z) by (unfold k; lia). pose proof (digits_pos m) as D. pose proof (digits_pos m') as D'. fold d in D. fold d' in D'.
      assert (Q52 : (2 ^ 52 <= q)%Z).
      { apply Z.nlt_ge. intro G. assert (A : (Zpos m * 2 ^ k < Zpos m' * 2 ^ 52)%Z) by nia.
        assert (B : (2 ^ (d - 1) * 2 ^ k <= Zpos m * 2 ^ k)%Z) by (apply Z.mul_le_mono_nonneg_r; lia).
        assert (C : (Zpos m' * 2 ^ 52 <= 2 ^ d' * 2 ^ 52)%Z) by (apply Z.mul_le_mono_nonneg_r; lia).
        rewrite <- Z.pow_add_r in B by lia. rewrite <- Z.pow_add_r in C by lia. pose proof (Z.pow_le_mono_r 2 (d' + 52) (d - 1 + k) ltac:(lia) ltac:(lia)). lia. }
      destruct (digits_Z q ltac:(lia)) as [Dq Pq]. assert (53 <= Zdigits2 q)%Z; [|lia]. apply Z.nlt_ge. intro G.
      pose proof (Z.pow_le_mono_r 2 (Zdigits2 q) 52 ltac:(lia) ltac:(lia)). lia.
  - apply to_double_proper. unfold X. destruct s, s'; cbn [xorb]; rewrite ?vfin_neg; field; lra.
Qed.
Lemma div_ok x y : is_double x -> is_double y -> y <> S754_zero true -> same_double (double_value (SFdiv 53 1024 x y)) (ddiv (double_value x) (double_value y)).
Proof.
  intros Vx Vy N. destruct x as [s|s| |s m e], y as [s'|s'| |s' m' e']; try (cbn [SFdiv double_value ddiv]; exact I || apply same_refl).
  - cbn [SFdiv double_value ddiv]. fold (vfin s' m' e'). rewrite vfin_nz. rewrite to_double_zero; [reflexivity|]. unfold Qdiv. ring.
  - cbn [SFdiv double_value ddiv]. destruct s'; [contradiction N; reflexivity|]. cbn. now rewrite xorb_false_r.
  - cbn [SFdiv double_value ddiv]. fold (vfin s' m' e'). rewrite negative_vfin. reflexivity.
  - cbn [SFdiv double_value ddiv]. fold (vfin s m e). destruct s'; [contradiction N; reflexivity|]. rewrite vfin_nz, negative_vfin, xorb_false_r. reflexivity.
  - cbn [double_value ddiv]. fold (vfin s m e) (vfin s' m' e'). rewrite vfin_nz. now apply div_finite.
Qed.

(** ** comparison *)
Lemma compare_pos s m e s' m' e' : is_double (S754_finite s m e) -> is_double (S754_finite s' m' e') ->
  (vfin false m e ?= vfin false m' e') = match Z.compare e e' with Lt => Lt | Gt => Gt | Eq => Pos.compare_cont Eq m m' end.
Proof.
  assert (K : forall s m e s' m' e', is_double (S754_finite s m e) -> is_double (S754_finite s' m' e') -> (e < e')%Z -> vfin false m e < vfin false m' e').
  { clear. intros s m e s' m' e' Vx Vy L. apply valid_parts in Vx. apply valid_parts in Vy. pose proof (digits_pos m) as D. pose proof (digits_pos m') as D'.
    replace (Zpos (digits2_pos m')) with 53%Z in D' by lia.
    pose proof (Z.pow_le_mono_r 2 (Zpos (digits2_pos m)) 53 ltac:(lia) ltac:(lia)). unfold vfin.
    assert (E : 2 ^ e' == 2 ^ (e' - e - 1) * (2 * 2 ^ e)).
    { rewrite <- p2_succ, <- p2_add. replace (e' - e - 1 + (e + 1))%Z with e' by lia. reflexivity. }
    pose proof (p2_pos e) as Pe. assert (P1 : 1 <= 2 ^ (e' - e - 1)) by (change 1 with (2 ^ 0) at 1; apply p2_mono; lia). rewrite E.
    assert (A : inject_Z (Zpos m) < inject_Z (2 ^ 53)) by (rewrite <- Zlt_Qlt; lia). assert (B : inject_Z (2 ^ 52) <= inject_Z (Zpos m')) by (rewrite <- Zle_Qle; lia).
    change (inject_Z (2 ^ 53)) with (2 * inject_Z (2 ^ 52)) in A. assert (C : 0 < inject_Z (2 ^ 52)) by reflexivity.
    set (u := 2 ^ e) in *. set (t := 2 ^ (e' - e - 1)) in *. set (c := inject_Z (2 ^ 52)) in *. set (a := inject_Z (Zpos m)) in *. set (b := inject_Z (Zpos m')) in *. clearbody u t c a b.
    apply Qlt_le_trans with (2 * c * u); [apply Qmult_lt_r; lra|]. apply Qle_trans with (b * (2 * u)); [nra|].
    rewrite !(Qmult_comm b). apply Qmult_le_compat_r; [nra|lra]. }
  intros Vx Vy. destruct (Z.compare_spec e e') as [E|E|E].
  - subst e'. change (Pos.compare_cont Eq m m') with (Zpos m ?= Zpos m')%Z. pose proof (p2_pos e) as Pe. unfold vfin.
    destruct (Z.compare_spec (Zpos m) (Zpos m')) as [G|G|G].
    + rewrite G. now apply Qeq_alt.
    + apply Qlt_alt. apply Qmult_lt_r; [exact Pe|]. rewrite <- Zlt_Qlt. exact G.
    + apply Qgt_alt. apply Qmult_lt_r; [exact Pe|]. rewrite <- Zlt_Qlt. exact G.
  - apply Qlt_alt. eapply K; eauto.
  - apply Qgt_alt. eapply K; eauto.
Qed.
Lemma Qle_compare a b : Qle_bool a b = match a ?= b with Gt => false | _ => true end.
Proof.
  apply eq_true_iff_eq. rewrite Qle_bool_iff. destruct (Qcompare_spec a b) as [E|E|E]; split; intro; auto; try discriminate; lra.
Qed.
Lemma leb_ok x y : is_double x -> is_double y -> SFleb x y = dleb (double_value x) (double_value y).
Proof.
  intros Vx Vy. unfold SFleb. destruct x as [s|s| |s m e], y as [s'|s'| |s' m' e']; cbn [SFcompare double_value dleb];
    try reflexivity; try (destruct s; reflexivity); try (destruct s'; reflexivity); try (destruct s, s'; reflexivity).
  - fold (vfin s' m' e'). pose proof (vfin_pos m' e') as P. pose proof (vfin_neg m' e') as E. symmetry. destruct s'; [apply not_true_is_false|]; rewrite Qle_bool_iff; lra.
  - fold (vfin s m e). pose proof (vfin_pos m e) as P. pose proof (vfin_neg m e) as E. symmetry. destruct s; [|apply not_true_is_false]; rewrite Qle_bool_iff; lra.
  - fold (vfin s m e) (vfin s' m' e'). pose proof (vfin_pos m e) as P. pose proof (vfin_neg m e) as E. pose proof (vfin_pos m' e') as P'. pose proof (vfin_neg m' e') as E'.
    destruct s, s'.
    + assert (X : Qle_bool (vfin true m e) (vfin true m' e') = Qle_bool (vfin false m' e') (vfin false m e)) by (apply eq_true_iff_eq; rewrite !Qle_bool_iff; lra).
      rewrite X, Qle_compare, (compare_pos _ _ _ _ _ _ Vy Vx), (Z.compare_antisym e e'). destruct (e ?= e')%Z; cbn [CompOpp]; auto.
      change (Pos.compare_cont Eq m' m) with (m' ?= m)%positive. change (Pos.compare_cont Eq m m') with (m ?= m')%positive. rewrite (Pos.compare_antisym m' m). destruct (m' ?= m)%positive; reflexivity.
    + symmetry. rewrite Qle_bool_iff. lra.
    + symmetry. apply not_true_is_false. rewrite Qle_bool_iff. lra.
    + rewrite Qle_compare, (compare_pos _ _ _ _ _ _ Vx Vy). destruct (Z.compare e e'); reflexivity || destruct (Pos.compare_cont Eq m m'); reflexivity.
Qed.
Lemma gtb_ok x y : is_double x -> is_double y -> SFltb y x = dgtb (double_value x) (double_value y).
Proof.
  intros Vx Vy. pose proof (leb_ok x y Vx Vy) as L. unfold dgtb. rewrite <- L. unfold SFleb, SFltb.
  assert (A : SFcompare y x = match SFcompare x y with Some c => Some (CompOpp c) | None => None end).
  { clear. destruct x as [s|s| |s m e], y as [s'|s'| |s' m' e']; cbn [SFcompare]; try reflexivity; try (destruct s; reflexivity); try (destruct s'; reflexivity); try (destruct s, s'; reflexivity).
    f_equal. rewrite (Z.compare_antisym e e'). change (Pos.compare_cont Eq m' m) with (m' ?= m)%positive. change (Pos.compare_cont Eq m m') with (m ?= m')%positive.
    rewrite (Pos.compare_antisym m m'). destruct s, s'; try reflexivity; destruct (e ?= e')%Z; cbn [CompOpp]; auto. }
  rewrite A. destruct x as [s|s| |s m e], y as [s'|s'| |s' m' e']; cbn [SFcompare double_value]; try reflexivity;
    match goal with |- context [CompOpp ?c] => destruct c; reflexivity | _ => idtac end.
Qed.
