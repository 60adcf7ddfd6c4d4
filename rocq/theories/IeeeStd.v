(** Proofs: the doubles of the model are those of the standard library *)
From Coq Require Import List Bool Arith ZArith QArith Qabs Qround Lia Lqa Floats.SpecFloat.
From Verif Require Import Float FloatFacts RoundedAverageFacts Ieee IeeeFacts IeeeFacts5 IeeeFacts9 SpecIeee.
Open Scope Q_scope.

(** ** the shift register *)
Definition holds (r : shr_record) (y : Q) : Prop :=
  (0 <= shr_m r)%Z /\ exists f, y == inject_Z (shr_m r) + (if shr_r r then 1 # 2 else 0) + f /\ 0 <= f /\ f < 1 # 2 /\ (shr_s r = true <-> 0 < f).
Lemma holds_proper r x y : x == y -> holds r x -> holds r y.
Proof. intros E (H & f & F & G). split; [exact H|]. exists f. split; [rewrite <- E; exact F|exact G]. Qed.
Lemma shr_1_ok r y : holds r y -> holds (shr_1 r) (y / 2).
Proof.
  destruct r as [m r s]. unfold holds. cbn [shr_m shr_r shr_s]. intros (Hm & f & E & F0 & F1 & S).
  assert (G : 0 <= (if r then 1 # 2 else 0) + f /\ (if r then 1 # 2 else 0) + f < 1 /\ (r || s = true <-> 0 < (if r then 1 # 2 else 0) + f)).
  { destruct r; cbn [orb]; (split; [lra|]); (split; [lra|]); split; intro H; try lra; try reflexivity; [apply S in H; lra|apply S; lra]. }
  set (g := (if r then 1 # 2 else 0) + f) in *. destruct G as (G0 & G1 & GS).
  assert (E' : y == inject_Z m + g) by (rewrite E; unfold g; ring).
  assert (K : forall m' b, m = (2 * m' + (if b : bool then 1 else 0))%Z -> (0 <= m')%Z /\
    exists f0, y / 2 == inject_Z m' + (if b then 1 # 2 else 0) + f0 /\ 0 <= f0 /\ f0 < 1 # 2 /\ (r || s = true <-> 0 < f0)).
  { intros m' b ->. split; [destruct b; lia|]. exists (g / 2). split.
    - rewrite E', inject_Z_plus, inject_Z_mult. change (inject_Z 2) with 2. destruct b; [change (inject_Z 1) with 1|change (inject_Z 0) with 0]; field.
    - unfold Qdiv. change (/ 2) with (1 # 2). split; [lra|]. split; [lra|]. rewrite GS. split; lra. }
  destruct m as [|[p|p|]|p]; cbn [shr_1 shr_m shr_r shr_s]; [apply (K 0%Z false); reflexivity|apply (K (Zpos p) true); lia|apply (K (Zpos p) false); lia|apply (K 0%Z true); reflexivity|lia].
Qed.
Lemma iter_ok p : forall r y, holds r y -> holds (iter_pos shr_1 p r) (y / 2 ^ Zpos p).
Proof.
  induction p as [p IH|p IH|]; intros r y H; cbn [iter_pos].
  - eapply holds_proper; [|apply IH, IH, shr_1_ok, H]. replace (Zpos p~1) with (Zpos p + Zpos p + 1)%Z by lia. rewrite !p2_add. change (2 ^ 1) with 2.
    pose proof (p2_pos (Zpos p)). field. lra.
  - eapply holds_proper; [|apply IH, IH, H]. replace (Zpos p~0) with (Zpos p + Zpos p)%Z by lia. rewrite !p2_add. pose proof (p2_pos (Zpos p)). field. lra.
  - eapply holds_proper; [|apply shr_1_ok, H]. reflexivity.
Qed.
Lemma even_ok r y : holds r y -> round_nearest_even (shr_m r) (loc_of_shr_record r) = round_half_even y.
Proof.
  destruct r as [m r s]. intros (Hm & f & E & F0 & F1 & S). cbn [shr_m shr_r shr_s] in *.
  assert (Fl : Qfloor y = m).
  { assert (A : inject_Z m <= y) by (destruct r; lra). assert (B : y < inject_Z (m + 1)) by (rewrite inject_Z_plus; change (inject_Z 1) with 1; destruct r; lra).
    pose proof (Qfloor_le y) as L. pose proof (Qlt_floor y) as U. assert (X : inject_Z m < inject_Z (Qfloor y + 1)) by lra. assert (Y : inject_Z (Qfloor y) < inject_Z (m + 1)) by lra.
    rewrite <- Zlt_Qlt in X, Y. lia. }
  unfold round_half_even. rewrite Fl. set (d := y - inject_Z m).
  assert (D : d == (if r then 1 # 2 else 0) + f) by (unfold d; rewrite E; ring).
  destruct r, s; cbn [loc_of_shr_record round_nearest_even].
  - assert (P : 0 < f) by now apply S. replace (Qle_bool (1 # 2) d) with true by (symmetry; apply Qle_bool_iff; lra).
    replace (Qle_bool d (1 # 2)) with false; [reflexivity|]. symmetry. apply not_true_is_false. rewrite Qle_bool_iff. lra.
  - assert (P : ~ 0 < f) by (intro K; apply S in K; discriminate). replace (Qle_bool (1 # 2) d) with true by (symmetry; apply Qle_bool_iff; lra).
    replace (Qle_bool d (1 # 2)) with true by (symmetry; apply Qle_bool_iff; lra). reflexivity.
  - replace (Qle_bool (1 # 2) d) with false; [reflexivity|]. symmetry. apply not_true_is_false. rewrite Qle_bool_iff. lra.
  - replace (Qle_bool (1 # 2) d) with false; [reflexivity|]. symmetry. apply not_true_is_false. rewrite Qle_bool_iff. lra.
Qed.

(** ** number of digits *)
Lemma digits_pos p : (2 ^ (Zpos (digits2_pos p) - 1) <= Zpos p < 2 ^ Zpos (digits2_pos p))%Z.
Proof.
  induction p as [p IH|p IH|]; cbn [digits2_pos]; [| |split; reflexivity || lia];
    rewrite Pos2Z.inj_succ; replace (Z.succ (Zpos (digits2_pos p)) - 1)%Z with (Z.succ (Zpos (digits2_pos p) - 1)) by lia;
    rewrite !Z.pow_succ_r by lia; lia.
Qed.
Lemma digits_Z m : (0 < m)%Z -> (2 ^ (Zdigits2 m - 1) <= m < 2 ^ Zdigits2 m)%Z /\ (0 < Zdigits2 m)%Z.
Proof. destruct m as [|p|p]; intro H; try lia. split; [apply digits_pos|reflexivity]. Qed.
Lemma digits_le m k : (0 <= m < 2 ^ k)%Z -> (0 <= k)%Z -> (Zdigits2 m <= k)%Z.
Proof.
  intros H K. destruct (Z.eq_dec m 0) as [->|N]; [exact K|]. destruct (digits_Z m ltac:(lia)) as [D P]. apply Z.nlt_ge. intro L.
  pose proof (Z.pow_le_mono_r 2 k (Zdigits2 m - 1) ltac:(lia) ltac:(lia)). lia.
Qed.
Lemma digits_unique m d : (0 < d)%Z -> (2 ^ (d - 1) <= m < 2 ^ d)%Z -> Zdigits2 m = d.
Proof.
  intros Hd H. assert (P : (0 < m)%Z) by (pose proof (Z.pow_pos_nonneg 2 (d - 1) ltac:(lia) ltac:(lia)); lia). destruct (digits_Z m P) as [D PD].
  destruct (Z.lt_trichotomy (Zdigits2 m) d) as [L|[L|L]]; auto; exfalso.
  - pose proof (Z.pow_le_mono_r 2 (Zdigits2 m) (d - 1) ltac:(lia) ltac:(lia)). lia.
  - pose proof (Z.pow_le_mono_r 2 d (Zdigits2 m - 1) ltac:(lia) ltac:(lia)). lia.
Qed.

(** ** rounding in the model *)
Definition unit_exponent (x : Q) : Z := Z.max (binary_exponent x - 52) (-1074).
Lemma to_double_pos x : 0 < x -> let M := round_half_even (x / 2 ^ unit_exponent x) in
  to_double x = if Qle_bool (2 ^ 1024) (inject_Z M * 2 ^ unit_exponent x) then DInf false else DFin (inject_Z M * 2 ^ unit_exponent x).
Proof.
  intros P M. unfold to_double.
  assert (Z0 : Qeq_bool x 0 = false) by (apply not_true_is_false; rewrite Qeq_bool_iff; lra). rewrite Z0. cbn [negb andb].
  rewrite (exponent_proper (Qabs x) x); [|rewrite Qabs_pos; lra|apply Qabs_pos; lra].
  assert (R : (if (binary_exponent x <? -1022)%Z then inject_Z (round_half_even (x / 2 ^ (-1074))) * 2 ^ (-1074) else round_float 53 x) = inject_Z M * 2 ^ unit_exponent x).
  { unfold M, unit_exponent. destruct (Z.ltb_spec (binary_exponent x) (-1022)) as [L|L].
    - rewrite Z.max_r by lia. reflexivity.
    - rewrite Z.max_l by lia. unfold round_float. destruct x as [[|a|a] b]; try (vm_compute in P; discriminate P). unfold round_pos. reflexivity. }
  rewrite R. destruct (Qle_bool (2 ^ 1024) _) eqn:E; [reflexivity|].
  assert (N : 0 <= inject_Z M * 2 ^ unit_exponent x).
  { apply Qmult_le_0_compat; [|pose proof (p2_pos (unit_exponent x)); lra]. change 0 with (inject_Z 0). rewrite <- Zle_Qle. unfold M. apply rhe_lower.
    change (inject_Z 0) with 0. pose proof (p2_pos (unit_exponent x)). apply Qle_shift_div_l; lra. }
  set (v := inject_Z M * 2 ^ unit_exponent x) in *. pose proof (p2_pos 1024) as PB. set (B := 2 ^ 1024) in *. clearbody B v.
  replace (Qle_bool v (- B)) with false; [reflexivity|]. symmetry. apply not_true_is_false. rewrite Qle_bool_iff. lra.
Qed.
Lemma rhe_opp x : round_half_even (- x) = (- round_half_even x)%Z.
Proof.
  pose proof (Qfloor_le x) as L. pose proof (Qlt_floor x) as U. rewrite inject_Z_plus in U. change (inject_Z 1) with 1 in U.
  assert (FU : forall y z, inject_Z z <= y -> y < inject_Z z + 1 -> Qfloor y = z).
  { clear. intros y z A B. pose proof (Qfloor_le y) as L. pose proof (Qlt_floor y) as U. rewrite inject_Z_plus in U. change (inject_Z 1) with 1 in U.
    assert (X : inject_Z z < inject_Z (Qfloor y + 1)) by (rewrite inject_Z_plus; change (inject_Z 1) with 1; lra).
    assert (Y : inject_Z (Qfloor y) < inject_Z (z + 1)) by (rewrite inject_Z_plus; change (inject_Z 1) with 1; lra). rewrite <- Zlt_Qlt in X, Y. lia. }
  unfold round_half_even. set (z := Qfloor x) in *. clearbody z.
  destruct (Qeq_dec x (inject_Z z)) as [E|E].
  - rewrite (FU (- x) (- z)%Z) by (rewrite inject_Z_opp; lra). rewrite inject_Z_opp.
    replace (Qle_bool (1 # 2) (- x - - inject_Z z)) with false by (symmetry; apply not_true_is_false; rewrite Qle_bool_iff; lra).
    replace (Qle_bool (1 # 2) (x - inject_Z z)) with false by (symmetry; apply not_true_is_false; rewrite Qle_bool_iff; lra). reflexivity.
  - assert (L' : inject_Z z < x) by (apply Qle_lteq in L; destruct L as [L|L]; [exact L|symmetry in L; contradiction]).
    rewrite (FU (- x) (- z - 1)%Z) by (unfold Z.sub; rewrite inject_Z_plus, inject_Z_opp; change (inject_Z (Z.opp 1)) with (-1); lra).
    unfold Z.sub. rewrite inject_Z_plus, inject_Z_opp. change (inject_Z (Z.opp 1)) with (-1).
    assert (B1 : Qle_bool (1 # 2) (- x - (- inject_Z z + -1)) = Qle_bool (x - inject_Z z) (1 # 2)) by (apply eq_true_iff_eq; rewrite !Qle_bool_iff; lra).
    assert (B2 : Qle_bool (- x - (- inject_Z z + -1)) (1 # 2) = Qle_bool (1 # 2) (x - inject_Z z)) by (apply eq_true_iff_eq; rewrite !Qle_bool_iff; lra).
    rewrite B1, B2. assert (T : Qle_bool (x - inject_Z z) (1 # 2) = true \/ Qle_bool (1 # 2) (x - inject_Z z) = true) by (rewrite !Qle_bool_iff; lra).
    destruct (Qle_bool (x - inject_Z z) (1 # 2)), (Qle_bool (1 # 2) (x - inject_Z z)); cbn [negb]; try (destruct T; discriminate); try lia.
    rewrite Z.even_add, Z.even_opp. destruct (Z.even z); cbn; lia.
Qed.
Lemma to_double_neg x : 0 < x -> same_double (to_double (- x)) (dneg (to_double x)).
Proof.
  intro P. unfold to_double.
  assert (Z0 : Qeq_bool x 0 = false) by (apply not_true_is_false; rewrite Qeq_bool_iff; lra). assert (Z1 : Qeq_bool (- x) 0 = false) by (apply not_true_is_false; rewrite Qeq_bool_iff; lra).
  rewrite Z0, Z1. cbn [negb andb]. rewrite (exponent_proper (Qabs (- x)) (Qabs x)); [|rewrite Qabs_opp, Qabs_pos; lra|apply Qabs_opp].
  set (r := if (binary_exponent (Qabs x) <? -1022)%Z then inject_Z (round_half_even (x / 2 ^ (-1074))) * 2 ^ (-1074) else round_float 53 x).
  set (r' := if (binary_exponent (Qabs x) <? -1022)%Z then inject_Z (round_half_even (- x / 2 ^ (-1074))) * 2 ^ (-1074) else round_float 53 (- x)).
  assert (E : r' == - r).
  { unfold r, r'. destruct (binary_exponent (Qabs x) <? -1022)%Z.
    - rewrite (half_even_proper (- x / 2 ^ (-1074)) (- (x / 2 ^ (-1074)))) by (unfold Qdiv; ring). rewrite rhe_opp, inject_Z_opp. ring.
    - unfold round_float. destruct x as [[|a|a] b]; try (vm_compute in P; discriminate P). cbn [Qnum Qopp Z.opp]. reflexivity. }
  pose proof (p2_pos 1024) as PB. set (B := 2 ^ 1024) in *. clearbody B r r'.
  destruct (Qle_bool B r) eqn:E1, (Qle_bool r (- B)) eqn:E2, (Qle_bool B r') eqn:E3, (Qle_bool r' (- B)) eqn:E4;
    rewrite ?Qle_bool_iff in *; try (exfalso; lra); cbn [dneg same_double]; auto; try lra;
    repeat match goal with H : Qle_bool ?a ?b = false |- _ => assert (~ a <= b) by (rewrite <- Qle_bool_iff, H; discriminate); clear H end; lra.
Qed.

(** ** rounding in the standard library *)
Lemma fexp_val e : fexp 53 1024 e = Z.max (e - 53) (-1074).
Proof. reflexivity. Qed.
Lemma shr_ok r e n y : holds r (y / 2 ^ e) -> (0 <= n)%Z -> exists r', shr r e n = (r', (e + n)%Z) /\ holds r' (y / 2 ^ (e + n)).
Proof.
  intros H N. destruct n as [|p|p]; [|exists (iter_pos shr_1 p r); split; [reflexivity|]|lia].
  - exists r. cbn [shr]. rewrite Z.add_0_r. auto.
  - eapply holds_proper; [|apply iter_ok, H]. rewrite p2_add. pose proof (p2_pos (Zpos p)). pose proof (p2_pos e). field. lra.
Qed.
Lemma round_aux x s m e l : 0 < x -> holds (shr_record_of_loc m l) (x / 2 ^ e) -> (0 <= m)%Z -> (e <= fexp 53 1024 (Zdigits2 m + e))%Z ->
  same_double (double_value (binary_round_aux 53 1024 s m e l)) (to_double (if s then - x else x)).
Proof.
  intros P H Hm He. unfold binary_round_aux, shr_fexp at 1.
  assert (Em : shr_m (shr_record_of_loc m l) = m) by (destruct l as [|[]]; reflexivity).
  assert (Bx : inject_Z m * 2 ^ e <= x /\ x < (inject_Z m + 1) * 2 ^ e).
  { destruct H as (_ & f & E & F0 & F1 & _). rewrite Em in E. pose proof (p2_pos e) as Pe.
    assert (X : x == (inject_Z m + (if shr_r (shr_record_of_loc m l) then 1 # 2 else 0) + f) * 2 ^ e) by (rewrite <- E; field; lra).
    destruct (shr_r _); split; rewrite X; try (apply Qmult_le_compat_r; lra); apply Qmult_lt_r; lra. }
  assert (U : fexp 53 1024 (Zdigits2 m + e) = unit_exponent x).
  { rewrite fexp_val in *. unfold unit_exponent. destruct (Z.eq_dec m 0) as [->|N].
    - change (Zdigits2 0) with 0%Z in *. rewrite Z.add_0_l in *. assert (e <= -1074)%Z by lia.
      destruct (binary_exponent_spec x P) as [B1 _].
      assert (binary_exponent x < e)%Z; [|lia]. apply Z.nle_gt. intro G. pose proof (p2_mono _ _ G). change (inject_Z 0) with 0 in Bx. lra.
    - destruct (digits_Z m ltac:(lia)) as [D PD]. set (d := Zdigits2 m) in *.
      replace (binary_exponent x) with (d - 1 + e)%Z; [f_equal; lia|]. symmetry. pose proof (p2_pos e) as Pe. apply exponent_unique; auto.
      + rewrite p2_add, p2_inj by lia. apply Qle_trans with (inject_Z m * 2 ^ e); [|apply Bx]. apply Qmult_le_compat_r; [rewrite <- Zle_Qle; lia|lra].
      + replace (d - 1 + e + 1)%Z with (d + e)%Z by lia. rewrite p2_add, p2_inj by lia. apply Qlt_le_trans with ((inject_Z m + 1) * 2 ^ e); [apply Bx|].
        apply Qmult_le_compat_r; [|lra]. change 1 with (inject_Z 1). rewrite <- inject_Z_plus, <- Zle_Qle. lia. }
  destruct (shr_ok _ e (fexp 53 1024 (Zdigits2 m + e) - e) x H ltac:(lia)) as (r' & -> & H'). rewrite U in *.
  replace (e + (unit_exponent x - e))%Z with (unit_exponent x) in * by lia. rewrite (even_ok _ _ H').
  pose proof (to_double_pos x P) as TD. cbv zeta in TD. set (u := unit_exponent x) in *. set (M := round_half_even (x / 2 ^ u)) in *.
  pose proof (p2_pos u) as Pu.
  assert (M0 : (0 <= M)%Z) by (apply rhe_lower; change (inject_Z 0) with 0; apply Qle_shift_div_l; lra).
  destruct (binary_exponent_spec x P) as [B1 B2].
  assert (M1 : (M <= 2 ^ 53)%Z).
  { apply rhe_upper. apply Qle_shift_div_r; auto. rewrite <- (p2_inj 53) by lia. rewrite <- p2_add. apply Qle_trans with (2 ^ (binary_exponent x + 1)); [lra|]. apply p2_mono. unfold u, unit_exponent. lia. }
  assert (M2 : (-1074 < u -> 2 ^ 52 <= M)%Z).
  { intro G. apply rhe_lower. apply Qle_shift_div_l; auto. rewrite <- (p2_inj 52) by lia. rewrite <- p2_add. apply Qle_trans with (2 ^ binary_exponent x); [|lra]. apply p2_mono. unfold u, unit_exponent in *. lia. }
  assert (U0 : (-1074 <= u)%Z) by (unfold u, unit_exponent; lia). clearbody u M. clear H H' Bx U He Em Hm B1 B2.
  assert (S2 : exists m'' e'', shr_fexp 53 1024 M u loc_Exact = ({| shr_m := m''; shr_r := false; shr_s := false |}, e'') /\ (0 <= m'' < 2 ^ 53)%Z /\ (m'' = 0%Z <-> M = 0%Z)
    /\ inject_Z m'' * 2 ^ e'' == inject_Z M * 2 ^ u /\ (971 < e'' -> 2 ^ 52 <= m'')%Z).
  { unfold shr_fexp. cbn [shr_record_of_loc]. destruct (Z.eq_dec M (2 ^ 53)) as [F|F].
    - subst M. exists (2 ^ 52)%Z, (u + 1)%Z. change (Zdigits2 (2 ^ 53)) with 54%Z. rewrite fexp_val. replace (Z.max (54 + u - 53) (-1074) - u)%Z with 1%Z by lia.
      split; [reflexivity|]. split; [lia|]. split; [lia|]. split; [|lia]. rewrite p2_add. change (2 ^ 1) with 2. change (inject_Z (2 ^ 53)) with (inject_Z (2 ^ 52) * 2). ring.
    - exists M, u. assert (D : (Zdigits2 M <= 53)%Z) by (apply digits_le; lia). rewrite fexp_val.
      assert (N : (Z.max (Zdigits2 M + u - 53) (-1074) - u <= 0)%Z) by lia. set (n := (Z.max (Zdigits2 M + u - 53) (-1074) - u)%Z) in *.
      split; [destruct n; [reflexivity|lia|reflexivity]|]. split; [lia|]. split; [tauto|]. split; [reflexivity|]. intro. apply M2. lia. }
  destruct S2 as (m'' & e'' & -> & R & Z0 & V & T). cbn [shr_m].
  assert (OV : Qle_bool (2 ^ 1024) (inject_Z M * 2 ^ u) = negb (Zle_bool e'' (1024 - 53))).
  { apply eq_true_iff_eq. rewrite negb_true_iff, Z.leb_gt, Qle_bool_iff, <- V. change (1024 - 53)%Z with 971%Z. split.
    - intro G. apply Z.nle_gt. intro L. assert (X : inject_Z m'' * 2 ^ e'' < 2 ^ 1024); [|lra].
      assert (E24 : 2 ^ 1024 == inject_Z (2 ^ 53) * 2 ^ 971) by (rewrite <- (p2_inj 53) by lia; rewrite <- p2_add; reflexivity). rewrite E24. pose proof (p2_mono _ _ L). pose proof (p2_pos e''). pose proof (p2_pos 971).
      set (a := 2 ^ e'') in *. set (b := 2 ^ 971) in *. clearbody a b. apply Qle_lt_trans with (inject_Z m'' * b).
      + rewrite !(Qmult_comm (inject_Z m'')). apply Qmult_le_compat_r; [lra|]. change 0 with (inject_Z 0). rewrite <- Zle_Qle. lia.
      + apply Qmult_lt_r; [lra|]. rewrite <- Zlt_Qlt. lia.
    - intro G. specialize (T G). assert (E24 : 2 ^ 1024 == inject_Z (2 ^ 52) * 2 ^ 972) by (rewrite <- (p2_inj 52) by lia; rewrite <- p2_add; reflexivity). rewrite E24. pose proof (p2_mono 972 e'' ltac:(lia)). pose proof (p2_pos 972).
      set (a := 2 ^ e'') in *. set (b := 2 ^ 972) in *. clearbody a b. apply Qle_trans with (inject_Z m'' * b).
      + apply Qmult_le_compat_r; [rewrite <- Zle_Qle; lia|lra].
      + rewrite !(Qmult_comm (inject_Z m'')). apply Qmult_le_compat_r; [lra|]. change 0 with (inject_Z 0). rewrite <- Zle_Qle. lia. }
  rewrite OV in TD.
  assert (G : same_double (double_value (match m'' with Z0 => S754_zero s | Zpos m0 => if Zle_bool e'' (1024 - 53) then S754_finite s m0 e'' else S754_infinity s | Zneg _ => S754_nan end))
    (if s then dneg (to_double x) else to_double x)).
  { rewrite TD. destruct m'' as [|m0|m0]; [|destruct (Zle_bool e'' (1024 - 53)) eqn:L; cbn [negb]|lia].
    - assert (M = 0%Z) by tauto. subst M. assert (L : Zle_bool e'' (1024 - 53) = true). { apply Z.leb_le. apply Z.nlt_ge. intro K. specialize (T K). lia. }
      rewrite L. cbn [negb]. destruct s; cbn [dneg double_value same_double]; change (inject_Z 0) with 0; ring.
    - destruct s; cbn [dneg double_value same_double]; rewrite <- V; [|reflexivity]. change (Zneg m0) with (- Zpos m0)%Z. rewrite inject_Z_opp. ring.
    - destruct s; reflexivity. }
  destruct s; [|exact G].
  pose proof (to_double_neg x P) as TN. destruct (double_value _) as [a|a|], (dneg (to_double x)) as [b|b|], (to_double (- x)) as [c|c|]; cbn [same_double] in *; auto; try contradiction; try congruence; lra.
Qed.
