(** Printed numbers read back *)
From Coq Require Import Ascii String List Bool Arith ZArith QArith Qabs Qpower Qround Lia Lqa.
From Verif Require Import Float FloatFacts Benchmark SpecBenchmark BenchmarkFacts4 Printing SpecPrinting PrintingFacts.
Import ListNotations.
Open Scope nat_scope.
Open Scope string_scope.

Notation len s := (Z.of_nat (String.length s)).
Lemma app_len a b : len (a ++ b) = (len a + len b)%Z.
Proof. induction a as [|c a IH]; [reflexivity|]. cbn [String.append String.length]. lia. Qed.
Lemma app_assoc_s (a b c : string) : (a ++ b) ++ c = a ++ (b ++ c).
Proof. induction a as [|x a IH]; [reflexivity|]. cbn [String.append]. now rewrite IH. Qed.
Lemma app_nil_s (a : string) : a ++ "" = a.
Proof. induction a as [|x a IH]; [reflexivity|]. cbn [String.append]. now rewrite IH. Qed.

(** ** Characters *)
Fixpoint lacks (sep : ascii) (s : string) : Prop := match s with EmptyString => True | String c s' => c <> sep /\ lacks sep s' end.
Lemma lacks_app sep a b : lacks sep a -> lacks sep b -> lacks sep (a ++ b).
Proof. induction a as [|c a IH]; [auto|]. cbn [String.append lacks]. intros [H1 H2] H. auto. Qed.
Lemma cut_lacks sep s : lacks sep s -> cut sep s = (s, None).
Proof. induction s as [|c s IH]; [reflexivity|]. intros [H1 H2]. cbn [cut]. destruct (Ascii.eqb_spec c sep); [contradiction|]. now rewrite IH. Qed.
Lemma cut_at sep a b : lacks sep a -> cut sep (a ++ String sep b) = (a, Some b).
Proof.
  induction a as [|c a IH]; intro H; cbn [String.append cut]; [now rewrite Ascii.eqb_refl|]. destruct H as [H1 H2].
  destruct (Ascii.eqb_spec c sep); [contradiction|]. now rewrite IH.
Qed.
Lemma lacks_digits sep s : digit_of sep = None -> forall v z, read_digits s v = Some z -> lacks sep s.
Proof.
  intro D. induction s as [|c s IH]; intros v z H; [exact I|]. cbn [read_digits] in H. destruct (digit_of c) as [d|] eqn:E; [|discriminate].
  split; [intros ->; congruence|]. now apply IH in H.
Qed.

(** ** Digits *)
Lemma read_app a b : forall v, read_digits (a ++ b) v = match read_digits a v with Some x => read_digits b x | None => None end.
Proof.
  induction a as [|c a IH]; intro v; [reflexivity|]. cbn [String.append read_digits]. destruct (digit_of c); auto.
Qed.
Lemma read_shift b : forall v, read_digits b v = match read_digits b 0 with Some y => Some (v * 10 ^ len b + y)%Z | None => None end.
Proof.
  induction b as [|c b IH]; intro v; [cbn; f_equal; lia|]. cbn [read_digits]. destruct (digit_of c) as [d|]; [|reflexivity].
  rewrite (IH (10 * v + d)%Z), (IH (10 * 0 + d)%Z). destruct (read_digits b 0); [|reflexivity]. f_equal. rewrite len_S. ring.
Qed.
Lemma read_split a b z : read_digits (a ++ b) 0 = Some z ->
  exists x y, read_digits a 0 = Some x /\ read_digits b 0 = Some y /\ z = (x * 10 ^ len b + y)%Z.
Proof.
  rewrite read_app. destruct (read_digits a 0) as [x|]; [|discriminate]. rewrite read_shift. destruct (read_digits b 0) as [y|]; [|discriminate].
  intros [= <-]. eauto.
Qed.
Lemma read_zeros k : read_digits (zeros k) 0 = Some 0%Z.
Proof. induction k as [|k IH]; [reflexivity|]. exact IH. Qed.
Lemma len_zeros k : len (zeros k) = Z.of_nat k.
Proof. induction k as [|k IH]; [reflexivity|]. cbn [zeros String.length]. lia. Qed.
Lemma strip s : exists k, s = without_zeros s ++ zeros k.
Proof.
  induction s as [|c s [k IH]]; [now exists 0%nat|]. cbn [without_zeros]. destruct (without_zeros s) as [|c' s'].
  - destruct (Ascii.eqb_spec c "0") as [->|H].
    + exists (S k). cbn [String.append zeros] in *. now rewrite IH at 1.
    + exists k. cbn [String.append] in *. now rewrite IH at 1.
  - exists k. rewrite IH at 1. reflexivity.
Qed.
Lemma strip_read b y : read_digits b 0 = Some y -> exists y', read_digits (without_zeros b) 0 = Some y'
  /\ (inject_Z y' / 10 ^ len (without_zeros b) == inject_Z y / 10 ^ len b)%Q.
Proof.
  destruct (strip b) as [k E]. intro H. rewrite E in H at 1. apply read_split in H. destruct H as (x & w & H1 & H2 & ->). rewrite read_zeros in H2. injection H2 as <-.
  exists x. split; auto. rewrite E at 2. rewrite app_len, len_zeros, p10_add. rewrite Z.add_0_r, inject_Z_mult, <- p10_inj by lia.
  pose proof (p10_pos (len (without_zeros b))). pose proof (p10_pos (Z.of_nat k)). field. split; lra.
Qed.
Lemma sub_split : forall k s, k <= String.length s -> substring 0 k s ++ substring k (String.length s - k) s = s /\ String.length (substring 0 k s) = k.
Proof.
  induction k as [|k IH]; intros s H.
  - split; [|now destruct s]. rewrite Nat.sub_0_r. replace (substring 0 0 s) with "" by now destruct s. cbn [String.append].
    clear. induction s as [|c s IH]; [reflexivity|]. cbn [String.length substring]. now rewrite IH.
  - destruct s as [|c s]; [cbn in H; lia|]. cbn [String.length] in H. destruct (IH s ltac:(lia)) as [E1 E2]. cbn [substring String.append String.length].
    rewrite Nat.sub_succ. split; [now rewrite E1|now rewrite E2].
Qed.

(** ** Fixed and scientific notation *)
Lemma fixed_reads a b x y : a <> "" -> read_digits a 0 = Some x -> read_digits b 0 = Some y ->
  (exists r, read_fixed (with_fraction a b) = Some r /\ (r == inject_Z x + inject_Z y / 10 ^ len b)%Q)
  /\ forall sep, digit_of sep = None -> sep <> "."%char -> lacks sep (with_fraction a b).
Proof.
  intros Ha Hx Hy. destruct (strip_read b y Hy) as (y' & Hy' & E). unfold with_fraction. destruct (without_zeros b) as [|c s] eqn:Eb.
  - split; [|intros sep D _; exact (lacks_digits sep a D _ _ Hx)]. exists (inject_Z x). unfold read_fixed. rewrite cut_lacks by (exact (lacks_digits "." a eq_refl _ _ Hx)).
    unfold read_natural. destruct a as [|c a]; [contradiction|]. rewrite Hx. split; [reflexivity|]. cbn [read_digits] in Hy'. injection Hy' as <-. rewrite <- E. change (inject_Z 0) with 0%Q. unfold Qdiv. ring.
  - rewrite <- Eb in *. assert (Nb : without_zeros b <> "") by now rewrite Eb. split.
    + exists (inject_Z x + inject_Z y' / 10 ^ len (without_zeros b))%Q. unfold read_fixed. change (a ++ "." ++ without_zeros b) with (a ++ String "." (without_zeros b)). rewrite cut_at by (exact (lacks_digits "." a eq_refl _ _ Hx)).
      unfold read_natural. destruct a as [|ca a]; [contradiction|]. rewrite Hx. destruct (without_zeros b) as [|cb b']; [contradiction|]. rewrite Hy'.
      split; [reflexivity|]. now rewrite E.
    + intros sep D P. apply lacks_app; [exact (lacks_digits sep a D _ _ Hx)|]. split; [congruence|]. exact (lacks_digits sep _ D _ _ Hy').
Qed.
Lemma read_to_string n : read_natural (to_string n) = Some (Z.of_N n) /\ read_digits (to_string n) 0 = Some (Z.of_N n).
Proof. destruct (to_string_decimal n) as (H0 & H & _). unfold read_natural. destruct (to_string n); [contradiction|auto]. Qed.
Lemma exponent_reads x : read_exponent (put_exponent x) = Some x /\ forall sep, digit_of sep = None -> sep <> "+"%char -> sep <> "-"%char -> lacks sep (put_exponent x).
Proof.
  unfold put_exponent. assert (R : read_natural ((if (Z.abs x <? 10)%Z then "0" else "") ++ to_string (Z.to_N (Z.abs x))) = Some (Z.abs x)
    /\ read_digits ((if (Z.abs x <? 10)%Z then "0" else "") ++ to_string (Z.to_N (Z.abs x))) 0 = Some (Z.abs x)).
  { destruct (read_to_string (Z.to_N (Z.abs x))) as [R1 R2]. rewrite Z2N.id in R1, R2 by lia. destruct (Z.abs x <? 10)%Z; [|auto]. cbn [String.append read_natural].
    split; exact R2. }
  destruct R as [R R']. split.
  - destruct (Z.ltb_spec x 0); cbn [String.append read_exponent]; [change (Ascii.eqb "-" "+") with false; change (Ascii.eqb "-" "-") with true|change (Ascii.eqb "+" "+") with true]; cbv iota; rewrite R; cbn [option_map]; f_equal; lia.
  - intros sep D P N. apply lacks_app; [destruct (x <? 0)%Z; split; try exact I; congruence|]. exact (lacks_digits sep _ D _ _ R').
Qed.
Lemma positive_reads q : (0 < q)%Q -> (exists r, read_unsigned (put_positive q) = Some r /\ (r == six_value q)%Q)
  /\ (forall sep, digit_of sep = None -> ~ In sep ["."; "e"; "+"; "-"]%char -> lacks sep (put_positive q))
  /\ (exists c s d, put_positive q = String c s /\ digit_of c = Some d).
Proof.
  intro Hq. destruct (six_digits_spec q Hq) as (Hm & _). unfold six_value, put_positive. destruct (six_digits q) as [m x]. cbn [fst] in Hm.
  set (ds := to_string (Z.to_N m)). destruct (read_to_string (Z.to_N m)) as [_ R]. fold ds in R. rewrite Z2N.id in R by lia.
  assert (L : String.length ds = 6).
  { pose proof (number_of_digits_spec (Z.to_N m) ltac:(lia)) as (L1 & L2). unfold number_of_digits in *. fold ds in L1, L2. rewrite Z2N.id in L2 by lia.
    assert (len ds - 1 < 6)%Z by (apply (Z.pow_lt_mono_r_iff 10); lia). assert (5 < len ds)%Z by (apply (Z.pow_lt_mono_r_iff 10); lia). lia. }
  assert (SP : forall k, 1 <= k <= 6 -> exists a b y z, substring 0 k ds = a /\ substring k (6 - k) ds = b /\ a <> "" /\ String.length b = 6 - k
     /\ read_digits a 0 = Some y /\ read_digits b 0 = Some z /\ m = (y * 10 ^ len b + z)%Z).
  { intros k Hk. destruct (sub_split k ds ltac:(lia)) as [E1 E2]. rewrite L in E1. rewrite <- E1 in R. apply read_split in R. destruct R as (y & z & R1 & R2 & R3).
    exists (substring 0 k ds), (substring k (6 - k) ds), y, z. split; auto. split; auto. split; [destruct (substring 0 k ds); [cbn in E2; lia|discriminate]|].
    split; [|auto]. apply (f_equal (fun s => len s)) in E1. rewrite app_len in E1. lia. }
  assert (HD : forall a b y, a <> "" -> read_digits a 0 = Some y -> exists c s d, with_fraction a b = String c s /\ digit_of c = Some d).
  { intros a b y Ha Hy. destruct a as [|c a]; [contradiction|]. cbn [read_digits] in Hy. destruct (digit_of c) as [d|] eqn:E; [|discriminate].
    unfold with_fraction. destruct (without_zeros b); [exists c, a, d; auto|]. cbn [String.append]. eauto. }
  destruct ((-4 <=? x) && (x <? 6))%Z eqn:EX.
  - apply andb_prop in EX. destruct EX as [X1 X2]. apply Z.leb_le in X1. apply Z.ltb_lt in X2. 
    assert (G : forall a b y z, a <> "" -> read_digits a 0 = Some y -> read_digits b 0 = Some z ->
      (inject_Z y + inject_Z z / 10 ^ len b == inject_Z m * 10 ^ (x - 5))%Q ->
      (exists r, read_unsigned (with_fraction a b) = Some r /\ (r == inject_Z m * 10 ^ (x - 5))%Q)
      /\ (forall sep, digit_of sep = None -> ~ In sep ["."; "e"; "+"; "-"]%char -> lacks sep (with_fraction a b))
      /\ (exists c s d, with_fraction a b = String c s /\ digit_of c = Some d)).
    { intros a b y z Ha Ry Rz EV. destruct (fixed_reads a b y z Ha Ry Rz) as [(r & E1 & E2) Lk]. split; [|split].
      - exists r. unfold read_unsigned. rewrite cut_lacks by (apply Lk; [reflexivity|discriminate]). split; auto. now rewrite E2.
      - intros sep D N. apply Lk; auto. intros ->. apply N. now left.
      - now apply (HD a b y). }
    destruct (Z.leb_spec 0 x) as [X0|X0].
    + destruct (SP (Z.to_nat (x + 1)) ltac:(lia)) as (a & b & y & z & -> & -> & Ha & Lb & Ry & Rz & EM). apply (G a b y z); auto.
      rewrite EM. assert (LB : len b = (5 - x)%Z) by lia. rewrite LB, inject_Z_plus, inject_Z_mult, <- p10_inj by lia. replace (x - 5)%Z with (- (5 - x))%Z by lia.
      rewrite Qpower_opp. pose proof (p10_pos (5 - x)). field. lra.
    + apply (G "0" _ 0%Z m); [discriminate|reflexivity|rewrite read_app, read_zeros; exact R|]. rewrite app_len, len_zeros, L.
      replace (Z.of_nat (Z.to_nat (- x - 1)) + Z.of_nat 6)%Z with (5 - x)%Z by lia. replace (x - 5)%Z with (- (5 - x))%Z by lia. rewrite Qpower_opp. change (inject_Z 0) with 0%Q. unfold Qdiv. ring.
  - destruct (SP 1 ltac:(lia)) as (a & b & y & z & -> & E5 & Ha & Lb & Ry & Rz & EM). change (6 - 1) with 5 in E5. rewrite E5.
    destruct (fixed_reads a b y z Ha Ry Rz) as [(r & E1 & E2) Lk]. destruct (exponent_reads x) as [EE LE]. split; [|split].
    + exists (r * 10 ^ x)%Q. unfold read_unsigned. change ("e" ++ put_exponent x) with (String "e" (put_exponent x)). rewrite cut_at by (apply Lk; [reflexivity|discriminate]).
      rewrite E1, EE. split; [reflexivity|]. rewrite E2, EM. assert (LB : len b = 5%Z) by lia. rewrite LB, inject_Z_plus, inject_Z_mult, <- p10_inj by lia.
      replace (x - 5)%Z with (x + Z.opp 5)%Z by lia. rewrite p10_add, Qpower_opp. pose proof (p10_pos 5). field.
    + intros sep D N. apply lacks_app; [apply Lk; auto; intros ->; apply N; now left|]. split; [intros <-; apply N; right; now left|]. apply LE; auto; intros ->; apply N; cbn; auto.
    + destruct (HD a b y Ha Ry) as (c & s & d & E & D). rewrite E. cbn [String.append]. eauto.
Qed.

(** ** The printed number *)
Lemma nearest_unique_order q q' r r' : nearest_six_digits q r -> nearest_six_digits q' r' -> (q < q' -> r <= r')%Q.
Proof.
  intros [S1 N1] [S2 N2] H. apply Qnot_lt_le. intro L. specialize (N1 r' S2). specialize (N2 r S1).
  assert (A : (q - r' <= Qabs (q - r') /\ r' - q <= Qabs (q - r') /\ q - r <= Qabs (q - r) /\ r - q <= Qabs (q - r)
     /\ q' - r' <= Qabs (q' - r') /\ r' - q' <= Qabs (q' - r') /\ q' - r <= Qabs (q' - r) /\ r - q' <= Qabs (q' - r))%Q).
  { repeat split; try apply Qle_Qabs; match goal with |- (?a - ?b <= Qabs (?b - ?a))%Q => setoid_replace (a - b)%Q with (- (b - a))%Q by ring; rewrite <- Qabs_opp; apply Qle_Qabs end. }
  destruct (Qlt_le_dec q r') as [C1|C1], (Qlt_le_dec q' r) as [C2|C2].
  - rewrite (Qabs_neg (q - r')) in * by lra. rewrite (Qabs_neg (q - r)) in * by lra. lra.
  - rewrite (Qabs_neg (q - r')) in * by lra. rewrite (Qabs_neg (q - r)) in * by lra. lra.
  - rewrite (Qabs_pos (q - r')) in * by lra. rewrite (Qabs_neg (q' - r)) in * by lra. rewrite (Qabs_neg (q - r)) in * by lra. rewrite (Qabs_pos (q' - r')) in * by lra. lra.
  - rewrite (Qabs_pos (q' - r')) in * by lra. rewrite (Qabs_pos (q' - r)) in * by lra. lra.
Qed.
Lemma nearest_compat q q' r r' : (q == q' -> r == r' -> nearest_six_digits q r -> nearest_six_digits q' r')%Q.
Proof.
  intros E E' [(m & e & Hm & S1) N]. split; [exists m, e; split; auto; now rewrite <- E'|]. intros x Hx. rewrite <- E, <- E'. auto.
Qed.
Lemma put_double_eq q q' : (q == q')%Q -> put_double q = put_double q'.
Proof. intro H. unfold put_double. now rewrite (Qred_complete _ _ H). Qed.
Lemma six_nearest q : (0 < q)%Q -> nearest_six_digits q (six_value q).
Proof.
  intro H. destruct (six_digits_spec q H) as (Hm & _ & N). split; [|intros x (m & e & Hm' & E); rewrite E; auto].
  unfold six_value. destruct (six_digits q) as [m x]. cbn [fst] in Hm. exists m, (x - 5)%Z. split; [lia|reflexivity].
Qed.
Lemma digit_not_minus c d : digit_of c = Some d -> Ascii.eqb c "-" = false.
Proof. intro H. destruct (Ascii.eqb_spec c "-"); auto. subst. discriminate. Qed.
Lemma put_double_spec q : exists r, reads_as (put_double q) r /\ nearest_six_digits q r /\ (Qabs (q - r) <= (5 # 1000000) * Qabs q)%Q
  /\ forall sep, digit_of sep = None -> ~ In sep ["."; "e"; "+"; "-"]%char -> lacks sep (put_double q).
Proof.
  unfold put_double. pose proof (Qred_correct q) as E. destruct (Qred q) as [a d]. cbn [Qnum]. destruct a as [|a|a].
  - exists 0%Q. assert (Q0 : (q == 0)%Q) by (rewrite <- E; reflexivity). split; [|split; [|split]].
    + exists 0%Q. split; reflexivity.
    + split; [exists 0%Z, 0%Z; split; [reflexivity|reflexivity]|]. intros x _. setoid_replace (q - 0)%Q with 0%Q by (rewrite Q0; ring). apply Qabs_nonneg.
    + rewrite Q0. discriminate.
    + intros sep D _. split; [intros <-; discriminate|exact I].
  - assert (P : (0 < Zpos a # d)%Q) by reflexivity. destruct (positive_reads _ P) as ((r & E1 & E2) & Lk & (c & s & dd & E3 & D)).
    exists (six_value (Zpos a # d)). split; [|split; [|split]].
    + exists r. split; auto. rewrite E3 in *. unfold read_number. rewrite (digit_not_minus _ _ D). exact E1.
    + exact (nearest_compat _ _ _ _ E (Qeq_refl _) (six_nearest _ P)).
    + destruct (six_digits_spec _ P) as (_ & B & _). assert (Pq : (0 < q)%Q) by now rewrite <- E. rewrite (Qabs_pos q) by now apply Qlt_le_weak. generalize dependent (six_value (Zpos a # d)). intros v _ B. rewrite E in B. exact B.
    + exact Lk.
  - set (p := (- (Zneg a # d))%Q). assert (P : (0 < p)%Q) by reflexivity. destruct (positive_reads _ P) as ((r & E1 & E2) & Lk & _).
    exists (- six_value p)%Q. assert (EP : (q == - p)%Q) by (unfold p; rewrite <- E; ring). split; [|split; [|split]].
    + exists (- r)%Q. split; [cbn [String.append read_number]; change (Ascii.eqb "-" "-") with true; cbv iota; rewrite E1; reflexivity|now rewrite E2].
    + destruct (six_nearest _ P) as [(m & e & Hm & S1) N]. split.
      * exists (- m)%Z, e. split; [lia|]. rewrite S1, inject_Z_opp. ring.
      * intros x (m' & e' & Hm' & Hx). specialize (N (- x)%Q). assert (N' : six_digit_number (- x)) by (exists (- m')%Z, e'; split; [lia|]; rewrite Hx, inject_Z_opp; ring). specialize (N N').
        setoid_replace (q - - six_value p)%Q with (- (p - six_value p))%Q by (rewrite EP; ring). setoid_replace (q - x)%Q with (- (p - - x))%Q by (rewrite EP; ring). now rewrite !Qabs_opp.
    + destruct (six_digits_spec _ P) as (_ & B & _). setoid_replace (q - - six_value p)%Q with (- (p - six_value p))%Q by (rewrite EP; ring).
      rewrite EP, !Qabs_opp. rewrite (Qabs_pos p) by now apply Qlt_le_weak. exact B.
    + intros sep D N. split; [intros <-; apply N; cbn; auto|]. now apply Lk.
Qed.

(** ** Printing what was printed *)
Lemma six_digits_unique q m x : (10 ^ 5 <= m < 10 ^ 6)%Z -> (q == inject_Z m * 10 ^ (x - 5))%Q -> six_digits q = (m, x).
Proof.
  intros Hm E. pose proof (p10_pos (x - 5)) as P.
  assert (A : (10 ^ x == inject_Z (10 ^ 5) * 10 ^ (x - 5))%Q) by (rewrite <- p10_inj, <- p10_add by lia; replace (5 + (x - 5))%Z with x by lia; reflexivity).
  assert (B : (10 ^ (x + 1) == inject_Z (10 ^ 6) * 10 ^ (x - 5))%Q) by (rewrite <- p10_inj, <- p10_add by lia; replace (6 + (x - 5))%Z with (x + 1)%Z by lia; reflexivity).
  assert (L : (10 ^ x <= q)%Q) by (rewrite A, E; apply Qmult_le_compat_r; [rewrite <- Zle_Qle; lia|lra]).
  assert (U : (q < 10 ^ (x + 1))%Q) by (rewrite B, E; apply Qmult_lt_compat_r; [lra|rewrite <- Zlt_Qlt; lia]).
  assert (Pq : (0 < q)%Q) by (pose proof (p10_pos x); lra).
  assert (D : decimal_exponent q = x).
  { destruct (decimal_exponent_spec q Pq) as [D1 D2]. set (e := decimal_exponent q) in *. clearbody e.
    destruct (Z.lt_trichotomy e x) as [H|[H|H]]; auto; exfalso.
    - pose proof (p10_mono (e + 1) x ltac:(lia)). lra.
    - pose proof (p10_mono (x + 1) e ltac:(lia)). lra. }
  unfold six_digits. rewrite D.
  assert (Y : (q / 10 ^ (x - 5) == inject_Z m)%Q) by (rewrite E; field; lra).
  assert (R : round_half_even (q / 10 ^ (x - 5)) = m).
  { pose proof (round_near (q / 10 ^ (x - 5)) m) as N. set (k := round_half_even (q / 10 ^ (x - 5))) in *. clearbody k. rewrite Y in N.
    setoid_replace (inject_Z m - inject_Z m)%Q with 0%Q in N by ring. change (Qabs 0) with 0%Q in N.
    apply inject_Z_injective. pose proof (Qle_Qabs (inject_Z m - inject_Z k)). pose proof (Qle_Qabs (- (inject_Z m - inject_Z k))) as N2. rewrite Qabs_opp in N2. lra. }
  rewrite R. destruct (Z.eqb_spec m (10 ^ 6)); [lia|reflexivity].
Qed.
Lemma put_positive_eq q q' : six_digits q = six_digits q' -> put_positive q = put_positive q'.
Proof. intro H. unfold put_positive. now rewrite H. Qed.
Lemma six_value_pos q : (0 < q)%Q -> (0 < six_value q)%Q.
Proof.
  intro H. destruct (six_digits_spec q H) as (Hm & _). unfold six_value. destruct (six_digits q) as [m x]. cbn [fst] in Hm.
  pose proof (p10_pos (x - 5)). assert (0 < inject_Z m)%Q by (change 0%Q with (inject_Z 0); rewrite <- Zlt_Qlt; lia). nra.
Qed.
Lemma six_again q r : (0 < q -> r == six_value q -> six_digits r = six_digits q)%Q.
Proof.
  intros H E. destruct (six_digits_spec q H) as (Hm & _). unfold six_value in E. destruct (six_digits q) as [m x]. cbn [fst] in Hm. now apply six_digits_unique.
Qed.
Lemma reads_as_unique s r r' : reads_as s r -> reads_as s r' -> (r == r')%Q.
Proof. intros (x & E & H) (x' & E' & H'). rewrite E in E'. injection E' as <-. now rewrite <- H, <- H'. Qed.
Lemma put_double_value q : ((q == 0 /\ put_double q = "0") \/ (0 < q /\ reads_as (put_double q) (six_value (Qred q)) /\ put_double q = put_positive (Qred q))
  \/ (q < 0 /\ reads_as (put_double q) (- six_value (- Qred q)) /\ put_double q = "-" ++ put_positive (- Qred q)%Q))%Q.
Proof.
  unfold put_double. pose proof (Qred_correct q) as E. destruct (Qred q) as [a d]. cbn [Qnum]. destruct a as [|a|a].
  - left. split; auto. rewrite <- E. reflexivity.
  - right. left. assert (P : (0 < Zpos a # d)%Q) by reflexivity. destruct (positive_reads _ P) as ((r & E1 & E2) & Lk & (c & s & dd & E3 & D)).
    split; [now rewrite <- E|]. split; auto. exists r. split; auto. rewrite E3 in *. unfold read_number. rewrite (digit_not_minus _ _ D). exact E1.
  - right. right. set (p := (- (Zneg a # d))%Q). assert (P : (0 < p)%Q) by reflexivity. destruct (positive_reads _ P) as ((r & E1 & E2) & Lk & _).
    split; [now rewrite <- E|]. split; auto. exists (- r)%Q. split; [cbn [String.append read_number]; change (Ascii.eqb "-" "-") with true; cbv iota; rewrite E1; reflexivity|now rewrite E2].
Qed.
Lemma put_double_again q r : reads_as (put_double q) r -> put_double r = put_double q.
Proof.
  intro H. pose proof (Qred_correct q) as EQ. destruct (put_double_value q) as [(E & T)|[(E & V & T)|(E & V & T)]].
  - rewrite T in *. assert (R : (r == 0)%Q) by (apply (reads_as_unique "0"); auto; exists 0%Q; split; reflexivity). rewrite (put_double_eq _ _ R). reflexivity.
  - pose proof (reads_as_unique _ _ _ H V) as R. assert (P : (0 < Qred q)%Q) by now rewrite EQ. pose proof (six_value_pos _ P) as PV.
    pose proof (Qred_correct r) as ER. destruct (put_double_value r) as [(E' & _)|[(E' & _ & T')|(E' & _)]]; try (exfalso; lra).
    rewrite T, T'. apply put_positive_eq, six_again; auto. now rewrite ER.
  - pose proof (reads_as_unique _ _ _ H V) as R. assert (P : (0 < - Qred q)%Q) by (rewrite EQ; lra). pose proof (six_value_pos _ P) as PV.
    pose proof (Qred_correct r) as ER. destruct (put_double_value r) as [(E' & _)|[(E' & _)|(E' & _ & T')]]; try (exfalso; lra).
    rewrite T, T'. f_equal. apply put_positive_eq, six_again; auto. rewrite ER, R. ring.
Qed.
Lemma put_double_ok q : exists r, reads_as (put_double q) r /\ nearest_six_digits q r /\ (Qabs (q - r) <= (5 # 1000000) * Qabs q)%Q.
Proof. destruct (put_double_spec q) as (r & H1 & H2 & H3 & _). eauto. Qed.
Lemma put_double_exact q : six_digit_number q -> reads_as (put_double q) q.
Proof.
  intro H. destruct (put_double_spec q) as (r & (x & E & R) & [_ N] & _). specialize (N q H). setoid_replace (q - q)%Q with 0%Q in N by ring. change (Qabs 0) with 0%Q in N.
  exists x. split; auto. rewrite R. pose proof (Qle_Qabs (q - r)). pose proof (Qle_Qabs (- (q - r))) as N2. rewrite Qabs_opp in N2. lra.
Qed.
Lemma put_double_monotone q q' r r' : (q <= q')%Q -> reads_as (put_double q) r -> reads_as (put_double q') r' -> (r <= r')%Q.
Proof.
  intros H R R'. apply Qle_lteq in H. destruct H as [H|H].
  - destruct (put_double_spec q) as (s & S1 & N1 & _), (put_double_spec q') as (s' & S1' & N1' & _).
    rewrite (reads_as_unique _ _ _ R S1), (reads_as_unique _ _ _ R' S1'). exact (nearest_unique_order _ _ _ _ N1 N1' H).
  - rewrite (put_double_eq _ _ H) in R. rewrite (reads_as_unique _ _ _ R R'). apply Qle_refl.
Qed.
Lemma put_double_same q q' r : reads_as (put_double q) r -> (reads_as (put_double q') r <-> put_double q' = put_double q).
Proof.
  intro H. split; intro K; [|now rewrite K]. rewrite <- (put_double_again _ _ H). symmetry. now apply put_double_again.
Qed.
