(** The text of a number is determined by the format *)
From Coq Require Import Ascii String List Bool Arith ZArith QArith Qabs Qpower Qround Lia Lqa.
From Verif Require Import Float SpecFloat FloatFacts Benchmark SpecBenchmark BenchmarkFacts4 Printing SpecPrinting PrintingFacts PrintingFacts2.
Import ListNotations.
Open Scope nat_scope.
Open Scope string_scope.

(** ** Digits are unique *)
Lemma digit_inj c c' d : digit_of c = Some d -> digit_of c' = Some d -> c = c'.
Proof.
  unfold digit_of. destruct (_ && _)%N; [|discriminate]. destruct (_ && _)%N; [|discriminate]. intros [= H] [= H'].
  assert (E : N_of_ascii c = N_of_ascii c') by lia. apply (f_equal ascii_of_N) in E. now rewrite !ascii_N_embedding in E.
Qed.
Lemma digits_same : forall s s' v v' z, (0 <= v)%Z -> (0 <= v')%Z -> String.length s = String.length s' ->
  read_digits s v = Some z -> read_digits s' v' = Some z -> v = v' /\ s = s'.
Proof.
  induction s as [|c s IH]; intros s' v v' z Hv Hv' L H H'; destruct s' as [|c' s']; try discriminate L.
  - cbn in H, H'. injection H as ->. injection H' as ->. auto.
  - cbn [read_digits] in H, H'. destruct (digit_of c) as [d|] eqn:D; [|discriminate]. destruct (digit_of c') as [d'|] eqn:D'; [|discriminate].
    pose proof (digit_range _ _ D). pose proof (digit_range _ _ D'). injection L as L. destruct (IH s' (10 * v + d)%Z (10 * v' + d')%Z z ltac:(lia) ltac:(lia) L H H') as [E ->].
    assert (v = v' /\ d = d') as [-> ->] by lia. split; auto. now rewrite (digit_inj _ _ _ D D').
Qed.
Lemma decimal_length s z : decimal s z -> (z = 0 /\ s = "0")%Z \/ (0 < z /\ 10 ^ (len s - 1) <= z < 10 ^ len s)%Z.
Proof.
  intros (H0 & H & Hz). destruct s as [|c s]; [contradiction|]. pose proof (digits_bounds _ _ _ (Z.le_refl 0) H) as B. cbn [read_digits] in H.
  destruct (digit_of c) as [d|] eqn:D; [|discriminate]. pose proof (digit_range _ _ D) as R. destruct (Z.eq_dec d 0) as [->|N].
  - assert (c = "0"%char) as -> by (apply (digit_inj _ _ 0); auto). rewrite (Hz s eq_refl) in *. cbn in H. injection H as <-. now left.
  - right. apply digits_bounds in H; [|lia]. replace (len (String c s) - 1)%Z with (len s) by (cbn [String.length]; lia).
    assert (0 < 10 ^ len s)%Z by (apply Z.pow_pos_nonneg; lia). nia.
Qed.
Lemma decimal_unique s s' z : decimal s z -> decimal s' z -> s = s'.
Proof.
  intros D D'. destruct (decimal_length _ _ D) as [(Z0 & E)|(P & B)], (decimal_length _ _ D') as [(Z0' & E')|(P' & B')]; try lia; [congruence|].
  assert (len s - 1 < len s')%Z by (apply (Z.pow_lt_mono_r_iff 10); lia). assert (len s' - 1 < len s)%Z by (apply (Z.pow_lt_mono_r_iff 10); lia).
  destruct D as (_ & D & _), D' as (_ & D' & _). apply (digits_same s s' 0 0 z); auto; lia.
Qed.
Lemma last_cases s : s = "" \/ exists t c, s = t ++ String c "".
Proof.
  induction s as [|c s [->|(t & c' & ->)]]; auto; right; [exists "", c|exists (String c t), c']; reflexivity.
Qed.
Lemma last_digit b y : b <> "" -> read_digits b 0 = Some y -> (forall t, b <> t ++ "0") -> (y mod 10 <> 0)%Z.
Proof.
  intros N H Z. destruct (last_cases b) as [->|(t & c & ->)]; [contradiction|]. apply read_split in H. destruct H as (x & d & _ & H & ->).
  cbn [read_digits] in H. destruct (digit_of c) as [d'|] eqn:D; [|discriminate]. injection H as <-. pose proof (digit_range _ _ D) as R.
  change (len (String c "")) with 1%Z. rewrite Z.pow_1_r. intro M. assert (d' = 0)%Z by (rewrite Z.add_comm, Z.mod_add in M by lia; rewrite Z.mod_small in M; lia). subst d'.
  apply (Z t). f_equal. f_equal. now apply (digit_inj _ _ 0).
Qed.

(** ** Numbers without exponent *)
Definition join (a b : string) : string := match b with EmptyString => a | _ => a ++ "." ++ b end.
Definition tidy (b : string) : Prop := forall t, b <> t ++ "0".
Lemma fixed_join s q : fixed_form s q <-> exists a z b y, decimal a z /\ s = join a b /\ read_digits b 0 = Some y /\ tidy b /\ (q == inject_Z z + inject_Z y / 10 ^ len b)%Q.
Proof.
  split.
  - intros (a & z & D & [(-> & E)|(b & y & -> & N & R & T & E)]).
    + exists a, z, "", 0%Z. split; auto. split; auto. split; auto. split; [intros [|c t]; discriminate|]. rewrite E. change (inject_Z 0) with 0%Q. unfold Qdiv. ring.
    + exists a, z, b, y. split; auto. split; [destruct b; [contradiction|reflexivity]|auto].
  - intros (a & z & b & y & D & -> & R & T & E). exists a, z. split; auto. destruct b as [|c b].
    + left. split; auto. cbn in R. injection R as <-. rewrite E. change (inject_Z 0) with 0%Q. unfold Qdiv. ring.
    + right. exists (String c b), y. split; auto. split; [discriminate|auto].
Qed.
Lemma fraction_range b y : read_digits b 0 = Some y -> (0 <= inject_Z y / 10 ^ len b)%Q /\ (inject_Z y / 10 ^ len b < 1)%Q.
Proof.
  intro R. pose proof (digits_bounds _ _ _ (Z.le_refl 0) R) as B. pose proof (p10_pos (len b)) as P. split.
  - apply Qle_shift_div_l; auto. rewrite Qmult_0_l. change 0%Q with (inject_Z 0). rewrite <- Zle_Qle. lia.
  - apply Qlt_shift_div_r; auto. rewrite Qmult_1_l, p10_inj, <- Zlt_Qlt by lia. lia.
Qed.
Lemma same_fraction b b' y y' : read_digits b 0 = Some y -> read_digits b' 0 = Some y' -> tidy b -> tidy b' ->
  (inject_Z y / 10 ^ len b == inject_Z y' / 10 ^ len b')%Q -> (len b <= len b')%Z -> b = b'.
Proof.
  intros R R' T T' E L. assert (EZ : (y * 10 ^ (len b' - len b) = y')%Z).
  { apply inject_Z_injective. rewrite inject_Z_mult, <- p10_inj by lia. pose proof (p10_pos (len b)). pose proof (p10_pos (len b')).
    assert (E' : (inject_Z y' == inject_Z y / 10 ^ len b * 10 ^ len b')%Q) by (rewrite E; field; lra). rewrite E'. replace (len b') with (len b + (len b' - len b))%Z at 2 by lia.
    rewrite p10_add. field. lra. }
  destruct (Z.eq_dec (len b) (len b')) as [EL|NL].
  - rewrite EL, Z.sub_diag, Z.pow_0_r, Z.mul_1_r in EZ. subst y'. apply (digits_same b b' 0 0 y); auto; lia.
  - exfalso. apply (last_digit b' y'); auto.
    + destruct b'; [cbn [String.length] in *; lia|discriminate].
    + rewrite <- EZ. replace (len b' - len b)%Z with (1 + (len b' - len b - 1))%Z by lia. rewrite Z.pow_add_r, Z.pow_1_r by lia.
      rewrite Z.mul_assoc, (Z.mul_comm y), <- Z.mul_assoc, Z.mul_comm. apply Z.mod_mul. lia.
Qed.
Lemma fixed_unique s s' q q' : (q == q')%Q -> fixed_form s q -> fixed_form s' q' -> s = s'.
Proof.
  intros EQ F F'. apply fixed_join in F, F'. destruct F as (a & z & b & y & D & -> & R & T & E), F' as (a' & z' & b' & y' & D' & -> & R' & T' & E').
  destruct (fraction_range _ _ R) as [B1 B2], (fraction_range _ _ R') as [B1' B2'].
  assert (ZE : z = z'). { assert (A : (inject_Z z < inject_Z (z' + 1))%Q) by (rewrite inject_Z_plus; change (inject_Z 1) with 1%Q; lra).
    assert (A' : (inject_Z z' < inject_Z (z + 1))%Q) by (rewrite inject_Z_plus; change (inject_Z 1) with 1%Q; lra). rewrite <- Zlt_Qlt in A, A'. lia. }
  subst z'. rewrite (decimal_unique _ _ _ D D'). f_equal. assert (EF : (inject_Z y / 10 ^ len b == inject_Z y' / 10 ^ len b')%Q) by lra.
  destruct (Z.le_gt_cases (len b) (len b')); [|symmetry]; [apply (same_fraction b b' y y')|apply (same_fraction b' b y' y)]; auto; try lia. now symmetry.
Qed.
Lemma exponent_unique s s' e : exponent_form s e -> exponent_form s' e -> s = s'.
Proof. intros (d & D & ->) (d' & D' & ->). now rewrite (decimal_unique _ _ _ D D'). Qed.
Lemma scale_unique m m' e e' : (1 <= m)%Q -> (m < 10)%Q -> (1 <= m')%Q -> (m' < 10)%Q -> (m * 10 ^ e == m' * 10 ^ e')%Q -> (e <= e')%Z -> e = e'.
Proof.
  intros A B A' B' E L. destruct (Z.eq_dec e e') as [|N]; auto. exfalso. pose proof (p10_mono (e + 1) e' ltac:(lia)) as P. rewrite p10_succ in P. pose proof (p10_pos e). nra.
Qed.
Lemma positive_unique s s' q q' : (q == q')%Q -> positive_form s q -> positive_form s' q' -> s = s'.
Proof.
  intros EQ [(A & B & F)|(R & a & m & b & e & -> & M1 & M2 & E & F & X)] [(A' & B' & F')|(R' & a' & m' & b' & e' & -> & M1' & M2' & E' & F' & X')]; try (exfalso; lra).
  - exact (fixed_unique _ _ _ _ EQ F F').
  - assert (EE : (m * 10 ^ e == m' * 10 ^ e')%Q) by now rewrite <- E, <- E'.
    assert (e = e') as ->. { destruct (Z.le_gt_cases e e'); [apply (scale_unique m m')|symmetry; apply (scale_unique m' m)]; auto; try lia. now symmetry. }
    assert (EM : (m == m')%Q). { pose proof (p10_pos e') as P. apply (Qmult_inj_r _ _ (10 ^ e')); [lra|exact EE]. }
    now rewrite (fixed_unique _ _ _ _ EM F F'), (exponent_unique _ _ _ X X').
Qed.
Lemma printed_unique s s' q q' : (q == q')%Q -> printed_form s q -> printed_form s' q' -> s = s'.
Proof.
  intros EQ [(A & ->)|[(A & F)|(A & t & -> & F)]] [(A' & ->)|[(A' & F')|(A' & t' & -> & F')]]; try (exfalso; lra); auto.
  - exact (positive_unique _ _ _ _ EQ F F').
  - f_equal. apply (positive_unique t t' (- q) (- q')); auto. now rewrite EQ.
Qed.

(** ** The printed text has the format *)
Lemma strip_tidy b : tidy (without_zeros b).
Proof.
  induction b as [|c b IH]; [intros [|? ?]; discriminate|]. cbn [without_zeros]. destruct (without_zeros b) as [|c' s'].
  - destruct (Ascii.eqb_spec c "0") as [->|N]; [intros [|? ?]; discriminate|]. intros [|x [|? ?]] E; try discriminate. cbn in E. injection E as E. contradiction.
  - intros [|x t] E; [discriminate|]. cbn [String.append] in E. injection E as E1 E2. exact (IH t E2).
Qed.
Lemma fraction_form a b x y : decimal a x -> read_digits b 0 = Some y -> fixed_form (with_fraction a b) (inject_Z x + inject_Z y / 10 ^ len b).
Proof.
  intros D R. destruct (strip_read b y R) as (y' & R' & E). apply fixed_join. exists a, x, (without_zeros b), y'.
  split; auto. split; [unfold with_fraction, join; now destruct (without_zeros b)|]. split; auto. split; [apply strip_tidy|]. now rewrite E.
Qed.
Lemma fixed_compat s q q' : (q == q')%Q -> fixed_form s q -> fixed_form s q'.
Proof. intros E F. apply fixed_join in F. apply fixed_join. destruct F as (a & z & b & y & D & S1 & R & T & V). exists a, z, b, y. rewrite <- E. auto. Qed.
Lemma exponent_ok x : exponent_form (put_exponent x) x.
Proof.
  exists (to_string (Z.to_N (Z.abs x))). split; [|reflexivity]. pose proof (to_string_decimal (Z.to_N (Z.abs x))) as D. now rewrite Z2N.id in D by lia.
Qed.
Lemma form_ok q : (0 < q)%Q -> positive_form (put_positive q) (six_value q).
Proof.
  intro Hq. destruct (six_digits_spec q Hq) as (Hm & _). unfold six_value, put_positive. destruct (six_digits q) as [m x]. cbn [fst] in Hm.
  set (ds := to_string (Z.to_N m)). pose proof (to_string_decimal (Z.to_N m)) as D. fold ds in D. rewrite Z2N.id in D by lia.
  assert (L : String.length ds = 6).
  { destruct (decimal_length _ _ D) as [(? & _)|(_ & L2)]; [lia|].
    assert (len ds - 1 < 6)%Z by (apply (Z.pow_lt_mono_r_iff 10); lia). assert (5 < len ds)%Z by (apply (Z.pow_lt_mono_r_iff 10); lia). lia. }
  assert (SP : forall k, 1 <= k <= 6 -> exists a b y z, substring 0 k ds = a /\ substring k (6 - k) ds = b /\ decimal a y /\ String.length b = 6 - k
     /\ read_digits b 0 = Some z /\ m = (y * 10 ^ len b + z)%Z).
  { intros k Hk. destruct (sub_split k ds ltac:(lia)) as [E1 E2]. rewrite L in E1. destruct D as (D0 & R & DZ). rewrite <- E1 in R. apply read_split in R. destruct R as (y & z & R1 & R2 & R3).
    exists (substring 0 k ds), (substring k (6 - k) ds), y, z. split; auto. split; auto. split.
    - split; [destruct (substring 0 k ds); [cbn in E2; lia|discriminate]|]. split; auto. intros s' ES. exfalso. rewrite ES in E1. cbn [String.append] in E1.
      pose proof (DZ _ (eq_sym E1)) as K. rewrite K in E1. rewrite <- E1 in L. discriminate L.
    - split; [|auto]. apply (f_equal (fun s => len s)) in E1. rewrite app_len in E1. lia. }
  assert (V1 : (10 ^ x <= inject_Z m * 10 ^ (x - 5))%Q).
  { replace x with (5 + (x - 5))%Z at 1 by lia. rewrite p10_add, p10_inj by lia. apply Qmult_le_compat_r; [rewrite <- Zle_Qle; lia|apply Qlt_le_weak, p10_pos]. }
  assert (V2 : (inject_Z m * 10 ^ (x - 5) < 10 ^ (x + 1))%Q).
  { replace (x + 1)%Z with (6 + (x - 5))%Z at 1 by lia. rewrite p10_add, (p10_inj 6) by lia. apply Qmult_lt_compat_r; [apply p10_pos|rewrite <- Zlt_Qlt; lia]. }
  destruct ((-4 <=? x) && (x <? 6))%Z eqn:EX.
  - apply andb_prop in EX. destruct EX as [X1 X2]. apply Z.leb_le in X1. apply Z.ltb_lt in X2. left.
    pose proof (p10_mono (-4) x X1) as P1. pose proof (p10_mono (x + 1) 6 ltac:(lia)) as P2. change (10 ^ (-4))%Q with (1 # 10000)%Q in P1. change (10 ^ 6)%Q with 1000000%Q in P2.
    split; [lra|]. split; [lra|]. destruct (Z.leb_spec 0 x) as [X0|X0].
    + destruct (SP (Z.to_nat (x + 1)) ltac:(lia)) as (a & b & y & z & -> & -> & Da & Lb & Rz & EM). refine (fixed_compat _ _ _ _ (fraction_form a b y z Da Rz)).
      rewrite EM. assert (LB : len b = (5 - x)%Z) by lia. rewrite LB, inject_Z_plus, inject_Z_mult, <- p10_inj by lia. replace (x - 5)%Z with (- (5 - x))%Z by lia.
      rewrite Qpower_opp. pose proof (p10_pos (5 - x)). field. lra.
    + refine (fixed_compat _ _ _ _ (fraction_form "0" _ 0%Z m _ _)); [|split; [discriminate|split; [reflexivity|now intros s' [= <-]]]|rewrite read_app, read_zeros; exact (proj1 (proj2 D))].
      rewrite app_len, len_zeros, L.
      replace (Z.of_nat (Z.to_nat (- x - 1)) + Z.of_nat 6)%Z with (5 - x)%Z by lia. replace (x - 5)%Z with (- (5 - x))%Z by lia. rewrite Qpower_opp. change (inject_Z 0) with 0%Q. unfold Qdiv. ring.
  - right. split.
    { apply andb_false_iff in EX. destruct EX as [X|X]; [left|right].
      - apply Z.leb_gt in X. pose proof (p10_mono (x + 1) (-4) ltac:(lia)) as P. change (10 ^ (-4))%Q with (1 # 10000)%Q in P. lra.
      - apply Z.ltb_ge in X. pose proof (p10_mono 6 x X) as P. change (10 ^ 6)%Q with 1000000%Q in P. lra. }
    destruct (SP 1 ltac:(lia)) as (a & b & y & z & -> & E5 & Da & Lb & Rz & EM). change (6 - 1) with 5 in E5. rewrite E5.
    assert (LB : len b = 5%Z) by lia. assert (EV : (inject_Z m * 10 ^ (x - 5) == (inject_Z y + inject_Z z / 10 ^ len b) * 10 ^ x)%Q).
    { rewrite EM, LB, inject_Z_plus, inject_Z_mult, <- p10_inj by lia. replace (x - 5)%Z with (x + Z.opp 5)%Z by lia. rewrite p10_add, Qpower_opp. pose proof (p10_pos 5). field. }
    exists (with_fraction a b), (inject_Z y + inject_Z z / 10 ^ len b)%Q, (put_exponent x), x. pose proof (p10_pos x) as PX. rewrite p10_succ in V2.
    split; [reflexivity|]. split; [rewrite EV in V1; nra|]. split; [rewrite EV in V2; nra|]. split; [exact EV|]. split; [now apply fraction_form|apply exponent_ok].
Qed.

(** ** Rounding *)
Lemma round_even_tie x : (Qabs (x - inject_Z (round_half_even x)) < 1 # 2)%Q \/ Z.even (round_half_even x) = true.
Proof.
  unfold round_half_even. pose proof (Qfloor_le x) as L. pose proof (Qlt_floor x) as U. rewrite inject_Z_plus in U. change (inject_Z 1) with 1%Q in U.
  set (n := Qfloor x) in *. clearbody n. pose proof (Qle_bool_iff (1 # 2) (x - inject_Z n)) as B1. pose proof (Qle_bool_iff (x - inject_Z n) (1 # 2)) as B2.
  destruct (Qle_bool (1 # 2) (x - inject_Z n)); cbn [negb].
  - destruct (Qle_bool (x - inject_Z n) (1 # 2)); cbn [negb].
    + right. destruct (Z.even n) eqn:E; auto. rewrite Z.even_add, E. reflexivity.
    + left. rewrite inject_Z_plus. change (inject_Z 1) with 1%Q. assert (~ (x - inject_Z n <= 1 # 2)%Q) by (intro K; apply B2 in K; discriminate). rewrite Qabs_neg by lra. lra.
  - left. assert (~ ((1 # 2) <= x - inject_Z n)%Q) by (intro K; apply B1 in K; discriminate). rewrite Qabs_pos by lra. lra.
Qed.
Lemma two_nearest q r r' : nearest_six_digits q r -> nearest_six_digits q r' -> (r < r')%Q ->
  (q == (1 # 2) * (r + r'))%Q /\ forall x, six_digit_number x -> ~ (r < x /\ x < r')%Q.
Proof.
  intros [S1 N] [S1' N'] L. pose proof (N _ S1') as A. pose proof (N' _ S1) as A'.
  assert (E : (q == (1 # 2) * (r + r'))%Q).
  { destruct (Qlt_le_dec q r) as [C|C]; [rewrite (Qabs_neg (q - r)), (Qabs_neg (q - r')) in A' by lra; lra|].
    destruct (Qlt_le_dec q r') as [C'|C']; [|rewrite (Qabs_pos (q - r)), (Qabs_pos (q - r')) in A by lra; lra].
    rewrite (Qabs_pos (q - r)), (Qabs_neg (q - r')) in A, A' by lra. lra. }
  split; auto. intros x Sx [B1 B2]. pose proof (N _ Sx) as K. rewrite (Qabs_pos (q - r)) in K by lra.
  destruct (Qlt_le_dec q x) as [C|C]; [rewrite (Qabs_neg (q - x)) in K by lra|rewrite (Qabs_pos (q - x)) in K by lra]; lra.
Qed.
Lemma even_six_opp r : even_six r -> even_six (- r).
Proof. intros (m & e & B & E & V). exists (- m)%Z, e. split; [lia|]. split; [now rewrite Z.even_opp|]. rewrite V, inject_Z_opp. ring. Qed.
Lemma six_opp x : six_digit_number x -> six_digit_number (- x).
Proof. intros (m & e & B & V). exists (- m)%Z, e. split; [lia|]. rewrite V, inject_Z_opp. ring. Qed.
Lemma even_neighbours r r' : (0 < r)%Q -> (r < r')%Q -> even_six r -> even_six r' -> exists x, six_digit_number x /\ (r < x)%Q /\ (x < r')%Q.
Proof.
  intros P L (m & e & B & E & V) (m' & e' & B' & E' & V'). pose proof (p10_pos e) as Pe. pose proof (p10_pos e') as Pe'.
  assert (M : (0 < m)%Z). { destruct (Z.lt_ge_cases 0 m); auto. exfalso. assert (inject_Z m <= 0)%Q by (change 0%Q with (inject_Z 0); rewrite <- Zle_Qle; lia). nra. }
  assert (M' : (0 < m')%Z). { destruct (Z.lt_ge_cases 0 m'); auto. exfalso. assert (inject_Z m' <= 0)%Q by (change 0%Q with (inject_Z 0); rewrite <- Zle_Qle; lia). nra. }
  assert (H6 : (m <> 999999)%Z) by (intros ->; discriminate E). change (10 ^ 5)%Z with 100000%Z in *. change (10 ^ 6)%Z with 1000000%Z in *.
  exists (inject_Z (m + 1) * 10 ^ e)%Q. split; [exists (m + 1)%Z, e; split; [change (10 ^ 6)%Z with 1000000%Z; lia|reflexivity]|]. split.
  - rewrite V. apply Qmult_lt_compat_r; auto. rewrite <- Zlt_Qlt. lia.
  - destruct (Z.lt_trichotomy e e') as [H|[H|H]].
    + apply (Qlt_le_trans _ (inject_Z 1000000 * 10 ^ e)); [apply Qmult_lt_compat_r; auto; rewrite <- Zlt_Qlt; lia|].
      pose proof (p10_mono (e + 1) e' ltac:(lia)) as K. rewrite p10_succ in K. rewrite V'. assert (K' : (inject_Z 100000 <= inject_Z m')%Q) by (rewrite <- Zle_Qle; lia).
      change (inject_Z 1000000) with (1000000)%Q. change (inject_Z 100000) with (100000)%Q in K'. nra.
    + subst e'. rewrite V'. apply Qmult_lt_compat_r; auto. rewrite V, V' in L. apply Qmult_lt_r in L; auto. rewrite <- Zlt_Qlt in *.
      assert (m + 1 <> m')%Z; [|lia]. intros <-. rewrite Z.even_add, E in E'. discriminate.
    + exfalso. pose proof (p10_mono (e' + 1) e ltac:(lia)) as K. rewrite p10_succ in K. rewrite V, V' in L. assert (K1 : (inject_Z 100000 <= inject_Z m)%Q) by (rewrite <- Zle_Qle; lia).
      assert (K2 : (inject_Z m' < inject_Z 1000000)%Q) by (rewrite <- Zlt_Qlt; lia). change (inject_Z 1000000) with (1000000)%Q in K2. change (inject_Z 100000) with (100000)%Q in K1. nra.
Qed.
Lemma even_nonzero r : even_six r -> ~ (r == 0)%Q.
Proof.
  intros (m & e & B & _ & V) Z. rewrite V in Z. pose proof (p10_pos e). apply Qmult_integral in Z. destruct Z as [Z|Z]; [|lra].
  assert (ZM : m = 0%Z) by (apply inject_Z_injective; exact Z). subst m. cbn in B. lia.
Qed.
Lemma rounded_le q r r' : rounded_to_six q r -> rounded_to_six q r' -> (r <= r')%Q -> (r == r')%Q.
Proof.
  intros [N T] [N' T'] L. destruct (T _ N') as [E|E]; auto. destruct (T' _ N) as [E'|E']; [now symmetry|]. apply Qle_lteq in L. destruct L as [L|L]; auto. exfalso.
  destruct (two_nearest _ _ _ N N' L) as [_ NB]. pose proof (even_nonzero _ E). pose proof (even_nonzero _ E').
  destruct (Qlt_le_dec 0 r) as [P|P]; [|destruct (Qlt_le_dec 0 r') as [P'|P']].
  - destruct (even_neighbours _ _ P L E E') as (x & S1 & B). now apply (NB x).
  - apply (NB 0%Q); [exists 0%Z, 0%Z; split; reflexivity|]. split; lra.
  - destruct (even_neighbours (- r') (- r)) as (x & S1 & B1 & B2); [lra|lra|now apply even_six_opp|now apply even_six_opp|]. apply (NB (- x)%Q); [now apply six_opp|]. split; lra.
Qed.
Lemma rounded_unique q r r' : rounded_to_six q r -> rounded_to_six q r' -> (r == r')%Q.
Proof. intros R R'. destruct (Qlt_le_dec r r') as [L|L]; [apply (rounded_le q); auto; lra|symmetry; now apply (rounded_le q)]. Qed.
Lemma six_rounded q : (0 < q)%Q -> rounded_to_six q (six_value q).
Proof.
  intro Hq. split; [now apply six_nearest|]. intros r' N'. pose proof (six_nearest q Hq) as N. destruct (decimal_exponent_spec q Hq) as [E1 E2].
  destruct (six_digits_spec q Hq) as (Hm & _). unfold six_value in *. unfold six_digits in *. set (E := decimal_exponent q) in *. clearbody E.
  pose proof (p10_pos (E - 5)) as Pu. set (k := round_half_even (q / 10 ^ (E - 5))) in *.
  destruct (round_even_tie (q / 10 ^ (E - 5))) as [C|C]; fold k in C.
  - left. set (v := (let (m, x) := if (k =? 10 ^ 6)%Z then ((10 ^ 5)%Z, (E + 1)%Z) else (k, E) in inject_Z m * 10 ^ (x - 5))%Q) in *.
    assert (V : (v == inject_Z k * 10 ^ (E - 5))%Q).
    { unfold v. destruct (Z.eqb_spec k (10 ^ 6)) as [K|K]; [|reflexivity]. rewrite K. replace (E + 1 - 5)%Z with (E - 5 + 1)%Z by lia. rewrite p10_succ.
      change (inject_Z (10 ^ 6)) with 1000000%Q. change (inject_Z (10 ^ 5)) with 100000%Q. ring. }
    clearbody v. set (u := (10 ^ (E - 5))%Q) in *. assert (D : (Qabs (q - v) < (1 # 2) * u)%Q).
    { setoid_replace (q - v)%Q with ((q / u - inject_Z k) * u)%Q by (rewrite V; field; lra). rewrite Qabs_Qmult, (Qabs_pos u) by lra. apply Qmult_lt_compat_r; auto. }
    assert (D' : (Qabs (q - r') < (1 # 2) * u)%Q) by (eapply Qle_lt_trans; [apply (proj2 N' v (proj1 N))|exact D]).
    destruct (proj1 N') as (m' & e' & B' & V'). apply Qabs_Qlt_condition in D, D'. destruct (Z.le_gt_cases (E - 5) e') as [He|He].
    + assert (Y : (r' == inject_Z (m' * 10 ^ (e' - (E - 5))) * u)%Q).
      { rewrite V', inject_Z_mult, <- p10_inj by lia. unfold u. rewrite <- Qmult_assoc, <- p10_add. replace (e' - (E - 5) + (E - 5))%Z with e' by lia. reflexivity. }
      set (k' := (m' * 10 ^ (e' - (E - 5)))%Z) in *. clearbody k'. rewrite V, Y in *.
      assert (KK : k = k'); [|now rewrite KK].
      assert (A : (inject_Z k < inject_Z (k' + 1))%Q) by (rewrite inject_Z_plus; change (inject_Z 1) with 1%Q; nra).
      assert (A' : (inject_Z k' < inject_Z (k + 1))%Q) by (rewrite inject_Z_plus; change (inject_Z 1) with 1%Q; nra). rewrite <- Zlt_Qlt in A, A'. lia.
    + exfalso. assert (LR : (r' < 10 ^ E)%Q).
      { apply (Qlt_le_trans _ (inject_Z (10 ^ 6) * 10 ^ e')); [rewrite V'; apply Qmult_lt_compat_r; [apply p10_pos|rewrite <- Zlt_Qlt; lia]|]. rewrite <- p10_inj, <- p10_add by lia. apply p10_mono. lia. }
      assert (SE : six_digit_number (10 ^ E)) by (exists 1%Z, E; split; [reflexivity|change (inject_Z 1) with 1%Q; ring]).
      pose proof (proj2 N' _ SE) as K. rewrite !Qabs_pos in K by lra. lra.
  - right. destruct (Z.eqb_spec k (10 ^ 6)) as [K|K]; cbn [fst] in Hm.
    + exists (10 ^ 5)%Z, (E + 1 - 5)%Z. split; [cbn; lia|]. split; reflexivity.
    + exists k, (E - 5)%Z. split; [lia|]. split; [exact C|reflexivity].
Qed.
Lemma nearest_opp q r : nearest_six_digits q r -> nearest_six_digits (- q) (- r).
Proof.
  intros [S1 N]. split; [now apply six_opp|]. intros x Sx. specialize (N (- x)%Q (six_opp _ Sx)).
  setoid_replace (- q - - r)%Q with (- (q - r))%Q by ring. setoid_replace (- q - x)%Q with (- (q - - x))%Q by ring. now rewrite !Qabs_opp.
Qed.
Lemma rounded_opp q r : rounded_to_six q r -> rounded_to_six (- q) (- r).
Proof.
  intros [N T]. split; [now apply nearest_opp|]. intros r' N'. apply nearest_opp in N'.
  assert (N2 : nearest_six_digits q (- r')) by (refine (nearest_compat _ _ _ _ _ (Qeq_refl _) N'); ring).
  destruct (T _ N2) as [E|E]; [left; rewrite E; ring|right; now apply even_six_opp].
Qed.
Lemma rounded_compat q q' r : (q == q')%Q -> rounded_to_six q r -> rounded_to_six q' r.
Proof.
  intros E [N T]. split; [exact (nearest_compat _ _ _ _ E (Qeq_refl _) N)|]. intros r' N'. apply T. exact (nearest_compat _ _ _ _ (Qeq_sym _ _ E) (Qeq_refl _) N').
Qed.
Lemma put_double_form q : exists r, rounded_to_six q r /\ printed_form (put_double q) r.
Proof.
  pose proof (Qred_correct q) as EQ. destruct (put_double_value q) as [(E & T)|[(E & V & T)|(E & V & T)]]; rewrite T.
  - exists 0%Q. split; [|left; split; reflexivity]. assert (S0 : six_digit_number 0) by (exists 0%Z, 0%Z; split; reflexivity).
    split; [split; auto; intros x _; rewrite E; apply Qabs_nonneg|]. intros r' [_ N]. left. specialize (N 0%Q S0). rewrite E in N. change (Qabs (0 - 0)) with 0%Q in N.
    pose proof (Qle_Qabs (0 - r')). pose proof (Qle_Qabs (- (0 - r'))) as N2. rewrite Qabs_opp in N2. lra.
  - assert (P : (0 < Qred q)%Q) by now rewrite EQ. exists (six_value (Qred q)). split; [exact (rounded_compat _ _ _ EQ (six_rounded _ P))|].
    right. left. split; [now apply six_value_pos|now apply form_ok].
  - assert (P : (0 < - Qred q)%Q) by (rewrite EQ; lra). exists (- six_value (- Qred q))%Q. split.
    + refine (rounded_compat _ _ _ _ (rounded_opp _ _ (six_rounded _ P))). rewrite EQ. ring.
    + right. right. pose proof (six_value_pos _ P). split; [lra|]. exists (put_positive (- Qred q)). split; auto.
      pose proof (form_ok _ P) as F. destruct F as [(A & B & F)|(R & a & m & b & e & S1 & M1 & M2 & V' & F)].
      * left. split; [lra|]. split; [lra|]. refine (fixed_compat _ _ _ _ F). ring.
      * right. split; [destruct R; [left|right]; lra|]. exists a, m, b, e. split; auto. split; auto. split; auto. split; auto. rewrite <- V'. ring.
Qed.
Lemma put_double_text q s : put_double q = s <-> exists r, rounded_to_six q r /\ printed_form s r.
Proof.
  split; [intros <-; apply put_double_form|]. intros (r & R & F). destruct (put_double_form q) as (r' & R' & F').
  exact (printed_unique _ _ _ _ (rounded_unique _ _ _ R' R) F' F).
Qed.
