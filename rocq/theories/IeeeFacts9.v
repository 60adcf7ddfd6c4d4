(** error_rate_efficient_sampling in doubles of limited range: the range is not noticeable when all rates and their sum are doubles *)
From Coq Require Import List Bool Arith ZArith QArith Qabs Qround Lia Lqa Permutation Sorted.
From Verif Require Import Res Cudd CuddFacts Spec SpecFacts SpecFloat Float FloatFacts Helpers HelpersFacts HelpersFacts2 Counting AddFacts CountFacts PathFacts
  Metrics MetricsFacts MetricsFacts2 MetricsFacts3 MetricsFacts4 RelMetrics RelFacts RelFacts2 RelFacts3 RelFacts4
  Rounded RoundedFacts RoundedFacts2 RoundedAdd RoundedMinimizeFacts2 RoundedAverageFacts RoundedRel RoundedRelFacts RoundedRelFacts4 RoundedRelFacts5
  Ieee IeeeFacts IeeeFacts2 Ieee2 IeeeFacts8 SpecEfficient.
Import ListNotations.
Open Scope nat_scope.

(** ** Rounding depends on the value only *)
Lemma exponent_unique q e : (0 < q)%Q -> (2 ^ e <= q)%Q -> (q < 2 ^ (e + 1))%Q -> binary_exponent q = e.
Proof.
  intros P L U. destruct (binary_exponent_spec q P) as [L' U'].
  destruct (Z.lt_trichotomy (binary_exponent q) e) as [H|[H|H]]; auto; exfalso.
  - pose proof (p2_mono (binary_exponent q + 1) e ltac:(lia)). lra.
  - pose proof (p2_mono (e + 1) (binary_exponent q) ltac:(lia)). lra.
Qed.
Lemma exponent_proper x y : (0 < x)%Q -> (x == y)%Q -> binary_exponent x = binary_exponent y.
Proof.
  intros P E. assert (Py : (0 < y)%Q) by lra. destruct (binary_exponent_spec y Py) as [L U].
  apply exponent_unique; auto; rewrite E; auto.
Qed.
Lemma Qle_bool_proper a b c d : (a == b)%Q -> (c == d)%Q -> Qle_bool a c = Qle_bool b d.
Proof. intros E1 E2. apply eq_true_iff_eq. rewrite !Qle_bool_iff, E1, E2. tauto. Qed.
Lemma half_even_proper x y : (x == y)%Q -> round_half_even x = round_half_even y.
Proof.
  intro E. unfold round_half_even. rewrite (Qfloor_comp x y E).
  rewrite (Qle_bool_proper (1 # 2) (1 # 2) (x - inject_Z (Qfloor y)) (y - inject_Z (Qfloor y))) by (reflexivity || rewrite E; reflexivity).
  rewrite (Qle_bool_proper (x - inject_Z (Qfloor y)) (y - inject_Z (Qfloor y)) (1 # 2) (1 # 2)) by (reflexivity || rewrite E; reflexivity).
  reflexivity.
Qed.
Lemma round_pos_proper p x y : (0 < x)%Q -> (x == y)%Q -> round_pos p x = round_pos p y.
Proof.
  intros P E. unfold round_pos. rewrite (exponent_proper x y P E). f_equal. f_equal. apply half_even_proper. rewrite E. reflexivity.
Qed.
Lemma r53_proper x y : (0 <= x)%Q -> (x == y)%Q -> round_float 53 x = round_float 53 y.
Proof.
  intros P E. unfold round_float. destruct x as [a b], y as [c d]. cbn [Qnum].
  unfold Qeq, Qle in *. cbn [Qnum Qden] in *. destruct a as [|a|a]; destruct c as [|c|c]; try reflexivity; try lia.
  apply round_pos_proper; [reflexivity|exact E].
Qed.

(** ** Numbers well inside the range *)
Definition mid (a : Z) (x : Q) : Prop := (0 <= x <= 2 ^ a)%Q /\ ((x == 0)%Q \/ (2 ^ (- a) <= x)%Q).
Lemma to_double_mid a x : mid a x -> (a <= 1000)%Z -> to_double x = DFin (r53 x).
Proof.
  intros ((P0 & Pa) & L) Ha. destruct (Qeq_bool x 0) eqn:E0.
  - apply Qeq_bool_iff in E0. apply (to_double_grid 0 0); [|lia|lia]. split; [exists 0%Z; rewrite E0; reflexivity|]. rewrite E0. split; vm_compute; discriminate.
  - apply Qeq_bool_neq in E0. destruct L as [L|L]; [contradiction|]. unfold to_double.
    assert (Px : (0 < x)%Q) by (pose proof (p2_pos (- a)); lra).
    assert (S1 : negb (Qeq_bool x 0) && (binary_exponent (Qabs x) <? -1022)%Z = false).
    { apply andb_false_iff. right. apply Z.ltb_ge. rewrite (exponent_proper (Qabs x) x); [|rewrite Qabs_pos; auto|apply Qabs_pos; auto].
      pose proof (exponent_low (- a) x Px L). lia. }
    rewrite S1. assert (U : (r53 x <= 2 ^ a)%Q) by (apply r53_le; [exact (float_p2 53 ltac:(lia) a)|exact Pa]).
    assert (L0 : (0 <= r53 x)%Q) by (apply r53_ge; [exact float_0|exact P0]).
    pose proof (p2_lt a 1024 ltac:(lia)) as K. pose proof (p2_pos 1024) as P. set (B := (2 ^ 1024)%Q) in *. clearbody B.
    assert (T1 : Qle_bool B (r53 x) = false) by (apply not_true_is_false; rewrite Qle_bool_iff; lra).
    assert (T2 : Qle_bool (r53 x) (- B) = false) by (apply not_true_is_false; rewrite Qle_bool_iff; lra).
    now rewrite T1, T2.
Qed.
Lemma mid_eq a x y : (x == y)%Q -> mid a x -> mid a y.
Proof. intros E ((A & B) & C). split; [split; rewrite <- E; auto|]. destruct C as [C|C]; [left|right]; rewrite <- E; auto. Qed.
Lemma mid_round a x : mid a x -> mid a (r53 x).
Proof.
  intros ((P0 & Pa) & L). split; [split; [apply r53_ge; [exact float_0|auto]|apply r53_le; [exact (float_p2 53 ltac:(lia) a)|auto]]|].
  destruct L as [L|L]; [left|right; apply r53_ge; [exact (float_p2 53 ltac:(lia) _)|auto]].
  assert (0 <= r53 x)%Q by (apply r53_ge; [exact float_0|auto]). assert (r53 x <= 0)%Q by (apply r53_le; [exact float_0|lra]). lra.
Qed.
Lemma mid_mono a b x : (a <= b)%Z -> mid a x -> mid b x.
Proof.
  intros H ((P0 & Pa) & L). pose proof (p2_mono a b H). pose proof (p2_mono (- b) (- a) ltac:(lia)).
  split; [lra|]. destruct L; [left; auto|right; lra].
Qed.
Lemma mid_mul a b x y : mid a x -> mid b y -> mid (a + b) (x * y).
Proof.
  intros ((P0 & Pa) & L) ((Q0 & Qb) & L'). split.
  - split; [nra|]. rewrite p2_add. pose proof (p2_pos a). pose proof (p2_pos b). nra.
  - destruct L as [L|L]; [left; rewrite L; ring|]. destruct L' as [L'|L']; [left; rewrite L'; ring|right].
    replace (- (a + b))%Z with (- a + - b)%Z by lia. rewrite p2_add. pose proof (p2_pos (- a)). pose proof (p2_pos (- b)). nra.
Qed.
Lemma mid_inv b y : mid b y -> ~ (y == 0)%Q -> mid b (/ y).
Proof.
  intros ((P0 & Pb) & L) N. destruct L as [L|L]; [contradiction|]. pose proof (p2_pos (- b)) as Pm. pose proof (p2_pos b) as Pp. assert (Py : (0 < y)%Q) by lra.
  assert (E : (2 ^ b * 2 ^ (- b) == 1)%Q) by (rewrite <- p2_add, Z.add_opp_diag_r; reflexivity).
  pose proof (Qinv_lt_0_compat y Py) as Pi. assert (EI : (y * / y == 1)%Q) by (apply Qmult_inv_r; auto).
  split; [split; [lra|]|right]; nra.
Qed.
Lemma mid_div a b x y : mid a x -> mid b y -> ~ (y == 0)%Q -> mid (a + b) (x / y).
Proof. intros H1 H2 N. unfold Qdiv. apply mid_mul; auto. now apply mid_inv. Qed.
Lemma mid_int a z : (0 <= z <= 2 ^ a)%Z -> (0 <= a)%Z -> mid a (inject_Z z).
Proof.
  intros H Ha. split.
  - rewrite (p2_inj a Ha). change 0%Q with (inject_Z 0). rewrite <- !Zle_Qle. exact H.
  - destruct (Z.eq_dec z 0) as [->|N]; [left; reflexivity|right]. apply Qle_trans with 1%Q; [exact (p2_mono (- a) 0 ltac:(lia))|].
    change 1%Q with (inject_Z 1). rewrite <- Zle_Qle. lia.
Qed.
Lemma mid_grid T c x : (Z.of_nat c * 2 ^ Z.of_nat T <= 2 ^ 53)%Z -> T <= 53 -> RoundedRelFacts4.grid T c x -> mid 53 x.
Proof.
  intros H HT (z & Hz & E). assert (P : (0 < 2 ^ (- Z.of_nat T))%Q) by apply p2_pos. assert (L1 : (2 ^ (- Z.of_nat T) <= 1)%Q) by exact (p2_mono (- Z.of_nat T) 0 ltac:(lia)).
  assert (Z0 : (0 <= inject_Z z)%Q) by (change 0%Q with (inject_Z 0); rewrite <- Zle_Qle; lia).
  assert (Z1 : (inject_Z z <= 2 ^ 53)%Q) by (rewrite (p2_inj 53) by lia; rewrite <- Zle_Qle; lia).
  apply (mid_eq 53 (inject_Z z * 2 ^ (- Z.of_nat T)) x); [symmetry; exact E|]. split; [split; nra|].
  destruct (Z.eq_dec z 0) as [->|N]; [left; change (inject_Z 0) with 0%Q; ring|right].
  assert (1 <= inject_Z z)%Q by (change 1%Q with (inject_Z 1); rewrite <- Zle_Qle; lia).
  pose proof (p2_mono (- (53)) (- Z.of_nat T) ltac:(lia)). nra.
Qed.

(** ** The loop *)
Definition lift (p : nat * Q) : nat * dbl := (fst p, DFin (snd p)).
Definition rmap {A B} (h : A -> B) (r : res A) : res B := match r with Ok x => Ok (h x) | UB => UB | Throw => Throw | Abort => Abort end.
Lemma good_loop_ext p1 p2 draws diff previous T : (forall pos, p1 diff (map draws (seq pos T)) = p2 diff (map draws (seq pos T))) ->
  forall n pos g, good_loop p1 draws diff previous T n pos g = good_loop p2 draws diff previous T n pos g.
Proof.
  intro H. induction n as [|n IH]; intros pos g; cbn [good_loop]; [reflexivity|]. rewrite H. destruct (p2 diff _); cbn [bind]; try reflexivity.
  destruct (any_one previous a); cbn [bind]; auto.
Qed.
Section Loop.
Variables (M : mgr) (rm : Z) (draws : nat -> Z) (d : list bdd) (samples : Z).
Let T := read_size M.
Hypothesis Wd : wfs M d.
Hypothesis Bd : below T d.
Hypothesis HT : (Z.of_nat (length d) * 2 ^ Z.of_nat T <= 2 ^ 53)%Z.
Hypothesis Hd : 1 <= length d.
Hypothesis Hrm : (0 < rm <= 2 ^ 53)%Z.
Hypothesis Hdr : forall i, (0 <= draws i <= rm)%Z.
Hypothesis Hs : (1 <= samples < 2 ^ 31)%Z.
Lemma T53 : T <= 53.
Proof.
  destruct (Nat.le_gt_cases T 53) as [|G]; auto. exfalso. assert (2 ^ 54 <= 2 ^ Z.of_nat T)%Z by (apply Z.pow_le_mono_r; lia). nia.
Qed.
Lemma sampler_same k pos : k < length d -> random_sampler_d rm T (nth k d bzero) (map draws (seq pos T)) = random_sampler_fl r53 rm T (nth k d bzero) (map draws (seq pos T)).
Proof.
  intro Hk. unfold random_sampler_d, random_sampler_fl. apply (random_input_d_same M T); auto.
  - pose proof (proj1 (Forall_forall _ _) Wd) as F. apply F, nth_In, Hk.
  - pose proof (proj1 (Forall_forall _ _) Bd) as F. apply F, nth_In, Hk.
  - pose proof T53. lia.
  - apply Forall_forall. intros x Hx. apply in_map_iff in Hx. destruct Hx as (i & <- & _). apply Hdr.
Qed.
Variables first maximum_rate : Q.
Hypothesis Hw : mid 53 (maximum_rate - first).
Lemma loop_same : forall rest previous pos r c, Forall (valid d) rest -> wfs M previous -> below T previous ->
  mid 200 r -> (r <= inject_Z (Z.of_nat c))%Q -> c + length rest <= length d ->
  efficient_loop_d rm draws d T samples (DFin first) (DFin maximum_rate) (map lift rest) previous pos (DFin r)
  = rmap DFin (efficient_loop_fl r53 rm draws d T samples first maximum_rate rest previous pos r).
Proof.
  induction rest as [|[k rate] rest IH]; intros previous pos r c V Wp Bp Mr Hr Hc; [reflexivity|].
  cbn [map lift efficient_loop_d efficient_loop_fl fst snd]. inversion V as [|? ? V1 V2]; subst. clear V.
  destruct (valid_get M d Wd Bd _ V1) as (G & Wk & Bk). cbn [fst] in G, Wk, Bk. rewrite G. cbn [bind].
  assert (Hk : k < length d) by (destruct V1 as [V1 _]; exact V1).
  pose proof (valid_grid M d Wd Bd _ V1) as Gr. cbn [snd] in Gr.
  assert (Mrate : mid 53 rate) by (apply (mid_grid T (length d)); [exact HT|exact T53|apply (grid_mono T 1); auto]).
  assert (Ms : mid 31 (inject_Z samples)) by (apply mid_int; lia).
  assert (Es : (r53 (inject_Z samples) == inject_Z samples)%Q) by (apply (proj1 double_rounding); apply (float_int 53 samples); lia).
  cbn [length] in Hc.
  assert (X1 : dmul (to_double (inject_Z samples)) (DFin rate) = DFin (r53 (inject_Z samples * rate))).
  { rewrite (to_double_mid 31 _ Ms) by lia. cbn [dmul].
    assert (Mp : mid (31 + 53) (r53 (inject_Z samples) * rate)) by (apply mid_mul; [apply mid_round|]; auto).
    rewrite (to_double_mid _ _ Mp) by lia. f_equal. apply r53_proper; [apply Mp|rewrite Es; reflexivity]. }
  assert (X2 : dsub (DFin maximum_rate) (DFin first) = DFin (r53 (maximum_rate - first))) by (unfold dsub; cbn [dneg dadd]; apply (to_double_mid 53); [exact Hw|lia]).
  rewrite X1, X2. clear X1 X2. set (num := r53 (inject_Z samples * rate)). set (W' := r53 (maximum_rate - first)).
  assert (Mnum : mid 84 num) by (apply mid_round; apply (mid_mul 31 53); auto).
  assert (MW : mid 53 W') by (apply mid_round; exact Hw).
  unfold fdiv_fl, fdiv. cbn [ddiv]. destruct (Qeq_bool W' 0) eqn:E0; [destruct (Qeq_bool num 0); reflexivity|].
  apply Qeq_bool_neq in E0. pose proof (mid_div _ _ _ _ Mnum MW E0) as Mq. rewrite (to_double_mid _ _ Mq) by lia.
  cbv zeta. set (q := r53 (num / W')). set (n := Z.quot (Qnum q) (Zpos (Qden q))).
  assert (N0 : (0 <= n)%Z).
  { apply mid_round in Mq. fold q in Mq. destruct Mq as ((Q0 & _) & _). apply Z.quot_pos; [|lia]. unfold Qle in Q0. cbn in Q0. lia. }
  destruct ((- 2 ^ 63 <=? n)%Z && (n <? 2 ^ 63)%Z); cbn [require_ bind]; [|reflexivity].
  assert (Wp' : wfs M (previous ++ [nth k d bzero])) by (apply Forall_app; auto).
  assert (Bp' : below T (previous ++ [nth k d bzero])) by (apply Forall_app; auto).
  destruct (Z.eqb_spec n 0) as [En|En]; [apply (IH _ _ _ c); auto; lia|].
  destruct (Z.ltb_spec n (2 ^ 31)) as [Hn|Hn]; cbn [require_ bind]; [|reflexivity].
  rewrite (good_loop_ext _ (random_sampler_fl r53 rm T) draws (nth k d bzero) previous T (fun p => sampler_same k p Hk)).
  destruct (good_loop_spec M T (random_sampler_fl r53 rm T) draws (nth k d bzero) previous (random_sampler_fl_total r53 rm T) Wp Bp (Z.to_nat n) pos 0) as (g & -> & Hg).
  cbn [bind]. rewrite Z2Nat.id in Hg by lia.
  assert (Mg : mid 31 (inject_Z g)) by (apply mid_int; lia). assert (Mn : mid 31 (inject_Z n)) by (apply mid_int; lia).
  assert (Nn : ~ (inject_Z n == 0)%Q) by (intro E; apply En; apply inject_Z_injective; exact E).
  assert (Eg : (r53 (inject_Z g) == inject_Z g)%Q) by (apply (proj1 double_rounding); apply (float_int 53 g); lia).
  assert (Enn : (r53 (inject_Z n) == inject_Z n)%Q) by (apply (proj1 double_rounding); apply (float_int 53 n); lia).
  assert (X3 : ddiv (to_double (inject_Z g)) (to_double (inject_Z n)) = DFin (r53 (inject_Z g / inject_Z n))).
  { rewrite (to_double_mid 31 _ Mg), (to_double_mid 31 _ Mn) by lia. cbn [ddiv].
    destruct (Qeq_bool (r53 (inject_Z n)) 0) eqn:E1; [exfalso; apply Qeq_bool_iff in E1; apply Nn; rewrite <- Enn; exact E1|].
    assert (Mp : mid (31 + 31) (r53 (inject_Z g) / r53 (inject_Z n))).
    { apply mid_div; [now apply mid_round|now apply mid_round|]. rewrite Enn. exact Nn. }
    rewrite (to_double_mid _ _ Mp) by lia. f_equal. apply r53_proper; [apply Mp|rewrite Eg, Enn; reflexivity]. }
  rewrite X3. set (gf := r53 (inject_Z g / inject_Z n)).
  assert (Mgf : mid 62 gf) by (apply mid_round; apply (mid_div 31 31); auto).
  cbn [dmul]. pose proof (mid_mul _ _ _ _ Mrate Mgf) as Mt. rewrite (to_double_mid _ _ Mt) by lia. set (t := r53 (rate * gf)).
  assert (Mt' : mid 115 t) by (apply mid_round; exact Mt).
  assert (G1 : (gf <= 1)%Q).
  { apply r53_le; [apply (float_int 53 1); lia|]. apply div_le_iff; [apply injZ_pos; lia|]. rewrite Qmult_1_l. apply (proj2 (injZ_le _ _)). lia. }
  assert (R1 : (rate <= 1)%Q) by (destruct V1 as [_ V1]; cbn [snd] in V1; rewrite V1; apply frac_le_1).
  assert (T1 : (t <= 1)%Q).
  { apply r53_le; [apply (float_int 53 1); lia|]. destruct Mrate as ((R0 & _) & _). destruct Mgf as ((G0 & _) & _). nra. }
  assert (C53 : (Z.of_nat (S c) <= 2 ^ 53)%Z).
  { assert (1 <= 2 ^ Z.of_nat T)%Z by (apply (Z.pow_le_mono_r 2 0); lia). nia. }
  assert (Hsum : (r + t <= inject_Z (Z.of_nat (S c)))%Q) by (rewrite Nat2Z.inj_succ, <- Z.add_1_r, inject_Z_plus; change (inject_Z 1) with 1%Q; lra).
  assert (Msum : mid 200 (r + t)).
  { destruct Mr as ((A & B) & C). destruct Mt' as ((A' & B') & C'). split; [split; [lra|]|].
    - apply Qle_trans with (2 ^ 53)%Q; [|exact (p2_mono 53 200 ltac:(lia))]. eapply Qle_trans; [exact Hsum|]. rewrite (p2_inj 53) by lia. rewrite <- Zle_Qle. exact C53.
    - pose proof (p2_mono (- (200)) (- (115)) ltac:(lia)). destruct C as [C|C]; [|right; lra]. destruct C' as [C'|C']; [left; lra|right; lra]. }
  cbn [dadd]. rewrite (to_double_mid 200 _ Msum) by lia.
  apply (IH _ _ _ (S c)); auto; [now apply mid_round| |lia].
  apply r53_le; [|exact Hsum]. apply (float_int 53). lia.
Qed.
End Loop.
(** ** The whole function *)
Definition unlift (p : nat * dbl) : nat * Q := (fst p, match snd p with DFin q => q | _ => 0%Q end).
Definition sort_of (sort : list (nat * dbl) -> list (nat * dbl)) (l : list (nat * Q)) : list (nat * Q) := map unlift (sort (map lift l)).
Lemma unlift_lift l : map unlift (map lift l) = l.
Proof. rewrite map_map. rewrite <- (map_id l) at 2. apply map_ext. intros [k q]. reflexivity. Qed.
Lemma lifted_finite l : Forall (fun p => finite_double (snd p)) (map lift l).
Proof. apply Forall_forall. intros p H. apply in_map_iff in H. destruct H as (x & <- & _). eexists. reflexivity. Qed.
Lemma lift_unlift l : Forall (fun p => finite_double (snd p)) l -> map lift (map unlift l) = l.
Proof.
  rewrite map_map. induction 1 as [|[k x] l (q & Hq) _ IH]; [reflexivity|]. cbn [map]. rewrite IH. cbn [snd] in Hq. subst x. reflexivity.
Qed.
Lemma sort_of_lift sort l : sorts_doubles sort -> sort (map lift l) = map lift (sort_of sort l).
Proof.
  intro H. unfold sort_of. symmetry. apply lift_unlift. destruct (H (map lift l)) as [P _]. eapply Permutation_Forall; [exact P|apply lifted_finite].
Qed.
Lemma sort_of_down sort : sorts_doubles sort -> sorts_down (sort_of sort).
Proof.
  intros H l. destruct (H (map lift l)) as [P O]. specialize (O (lifted_finite l)). split.
  - unfold sort_of. rewrite <- (unlift_lift l) at 1. apply Permutation_map. exact P.
  - rewrite (sort_of_lift sort l H) in O. clear P. induction (sort_of sort l) as [|p s IH]; [constructor|]. cbn [map] in O. inversion_clear O as [|? ? O1 O2].
    constructor; [apply IH; exact O1|]. apply Forall_forall. intros x Hx. rewrite Forall_forall in O2. specialize (O2 (lift x) (in_map lift _ _ Hx)).
    cbn [lift snd dleb] in O2. now apply Qle_bool_iff.
Qed.
Section Whole.
Variables (M : mgr) (d : list bdd).
Let T := read_size M.
Hypothesis Wd : wfs M d.
Hypothesis Bd : below T d.
Hypothesis HT : (Z.of_nat (length d) * 2 ^ Z.of_nat T <= 2 ^ 53)%Z.
Hypothesis Hd : 1 <= length d.
Hypothesis H1 : 1 <= T.
Lemma activations_same count : counts_exactly M count -> activations_d count d T = map lift (activations_fl r53 d T).
Proof.
  intro C. pose proof (T53 M d HT Hd) as H53. fold T in H53. unfold activations_d, activations_fl. rewrite combine_seq, !map_map. apply map_ext_in. intros i Hi. apply in_seq in Hi.
  unfold lift. cbn [fst snd]. rewrite Nat.sub_0_r. set (b := nth i d bzero). f_equal.
  assert (Hb : In b d) by (apply nth_In; lia).
  pose proof (proj1 (Forall_forall _ _) Wd b Hb) as Wb. pose proof (proj1 (Forall_forall _ _) Bd b Hb) as Bb.
  pose proof (height_below M T b Wb Bb) as Hh.
  rewrite (as_int_levels T) by lia. destruct (C b Wb Bb) as (c & Ec & Hc). fold T in Ec, Hc. rewrite Ec.
  rewrite <- (frac_average M T b Wb Bb) in Hc.
  unfold levels_minus_one. rewrite Z.mod_small by lia. unfold dpow2. destruct (Z.leb_spec 1024 (Z.of_nat T - 1)); [lia|].
  replace (Z.of_nat T - 1)%Z with (Z.of_nat (T - 1)) by lia. replace (Z.of_nat T - 1)%Z with (Z.of_nat (T - 1)) in Hc by lia. fold (pow2 (T - 1)) in Hc |- *. cbn [ddiv].
  assert (Pp : (0 < inject_Z (pow2 (T - 1)))%Q) by (apply injZ_pos; unfold pow2; apply Z.pow_pos_nonneg; lia).
  destruct (Qeq_bool (inject_Z (pow2 (T - 1))) 0) eqn:E; [apply Qeq_bool_iff in E; lra|].
  assert (Ef : (frac b == CountMinterm_fl r53 b (T - 1) / inject_Z (pow2 (T - 1)))%Q).
  { rewrite <- (CountMinterm_ratio b (T - 1)). unfold Qdiv. apply Qmult_comp; [|reflexivity].
    symmetry. apply (CountMinterm_fl_exact 53 r53 (proj1 double_rounding)). lia. }
  assert (Ec' : (c / inject_Z (pow2 (T - 1)) == frac b)%Q) by (rewrite Hc; field; lra).
  assert (Mx : mid 53 (c / inject_Z (pow2 (T - 1)))).
  { apply (mid_eq 53 (frac b)); [now symmetry|]. apply (mid_grid T (length d)); auto; apply (grid_mono T 1); auto; now apply (grid_frac T M). }
  rewrite (to_double_mid 53 _ Mx) by lia. f_equal. apply r53_proper; [apply Mx|]. rewrite Ec'. exact Ef.
Qed.
Lemma fold_same l : Forall (valid d) l -> forall c s s', (s == s')%Q -> RoundedRelFacts4.grid T c s' -> c + length l <= length d ->
  fold_left (fun s p => dadd s (snd p)) (map lift l) (DFin s) = DFin (fold_left (fun s p => r53 (s + snd p))%Q l s).
Proof.
  pose proof (T53 M d HT Hd) as H53. fold T in H53.
  induction 1 as [|p l V _ IH]; intros c s s' E G L; [reflexivity|]. cbn [map fold_left lift snd dadd]. cbn [length] in L.
  pose proof (valid_grid M d Wd Bd p V) as Gp. assert (G' : RoundedRelFacts4.grid T (c + 1) (s' + snd p)) by now apply RoundedRelFacts4.grid_plus.
  assert (Mx : mid 53 (s + snd p)) by (apply (mid_eq 53 (s' + snd p)); [rewrite E; reflexivity|]; apply (mid_grid T (length d)); auto; apply (grid_mono T (c + 1)); auto; lia).
  rewrite (to_double_mid 53 _ Mx) by lia. apply (IH (c + 1) _ (s' + snd p)%Q); [|exact G'|lia].
  apply (keeps_eq r53 r53_near); [rewrite E; reflexivity|]. apply (small_float M d HT (c + 1)); [lia|exact G'].
Qed.
End Whole.
Lemma efficient_same count M sort rm draws f g samples : counts_exactly M count -> sorts_doubles sort -> wfs M f -> wfs M g ->
  below (read_size M) f -> below (read_size M) g -> length f = length g -> 1 <= read_size M ->
  (Z.of_nat (length f) * 2 ^ Z.of_nat (read_size M) <= 2 ^ 53)%Z -> (1 <= samples < 2 ^ 31)%Z ->
  (0 < rm <= 2 ^ 53)%Z -> (forall i, 0 <= draws i <= rm)%Z -> f <> [] ->
  error_rate_efficient_sampling_d count M sort rm draws f g samples
  = rmap DFin (error_rate_efficient_sampling_fl r53 M (sort_of sort) rm draws f g samples).
Proof.
  intros C HS Wf Wg Bf Bg HL HT1 HT Hs Hrm Hdr Hne. pose proof (sort_of_down sort HS) as HS'.
  assert (L1 : 1 <= length f) by (destruct f; [congruence|cbn; lia]).
  destruct (full_parts_fl r53 r53_near M (sort_of sort) f g HS' HL Wf Wg Bf Bg Hne HT)
    as (d & k & first & rest & Ed & Ld & Wd & Bd & _ & Es & V & _ & _ & _ & _ & _ & G1 & G2 & LR).
  unfold error_rate_efficient_sampling_d, error_rate_efficient_sampling_fl. rewrite Ed. cbn [bind]. cbv zeta.
  assert (HT' : (Z.of_nat (length d) * 2 ^ Z.of_nat (read_size M) <= 2 ^ 53)%Z) by now rewrite Ld.
  assert (Hd1 : 1 <= length d) by lia. pose proof (T53 M d HT' Hd1) as H53.
  rewrite (activations_same M d Wd Bd HT' Hd1 HT1 count C). rewrite (sort_of_lift sort _ HS), Es. cbn [map]. cbn [lift fst snd].
  destruct (activations_fl_spec r53 r53_near M d Wd Bd HT' Hd1) as [VA FA].
  assert (LA : length (activations_fl r53 d (read_size M)) = length d) by (rewrite <- (map_length fst), FA; apply seq_length).
  rewrite (fold_same M d Wd Bd HT' Hd1 HT1 _ VA 0 0%Q 0%Q) by (reflexivity || apply grid_zero || lia).
  set (mx := fold_left _ _ 0%Q).
  inversion_clear V as [|? ? V1 V2].
  destruct (valid_get M d Wd Bd _ V1) as (Gk & Wk & Bk). cbn [fst] in Gk, Wk, Bk. rewrite Gk. cbn [bind].
  assert (Emx : (mx - first == rates rest)%Q).
  { unfold mx. rewrite (fold_rates_fl r53 r53_near M d Wd Bd HT' _ VA 0 0%Q 0%Q) by (reflexivity || apply grid_zero || lia).
    assert (P : Permutation (activations_fl r53 d (read_size M)) ((k, first) :: rest)) by (rewrite <- Es; apply HS').
    unfold rates. rewrite (sumQ_perm _ _ (Permutation_map snd P)). cbn [map snd]. rewrite sumQ_cons. lra. }
  rewrite (loop_same M rm draws d samples Wd Bd HT' Hd1 Hrm Hdr Hs first mx) with (c := 1).
  - destruct (efficient_loop_fl _ _ _ _ _ _ _ _ _ _ _ _) as [r| | |]; cbn [rmap bind]; try reflexivity.
    unfold dgtb. cbn [dleb]. destruct (Qle_bool 1 r); reflexivity.
  - apply (mid_eq 53 (rates rest)); [symmetry; exact Emx|]. apply (mid_grid (read_size M) (length d)); auto.
  - exact V2.
  - constructor; auto.
  - constructor; auto.
  - apply (mid_mono 53); [lia|]. apply (mid_grid (read_size M) (length d)); auto. apply (grid_mono _ 1); auto.
  - destruct V1 as [_ V1]. cbn [snd] in V1. rewrite V1. apply frac_le_1.
  - lia.
Qed.
Lemma efficient_range_d count M sort rm draws f g samples : counts_exactly M count -> sorts_doubles sort -> wfs M f -> wfs M g ->
  below (read_size M) f -> below (read_size M) g -> length f = length g ->
  let n := read_size M in
  1 <= n -> (Z.of_nat (length f) * 2 ^ Z.of_nat n <= 2 ^ 53)%Z -> (1 <= samples < 2 ^ 31)%Z -> (0 < rm <= 2 ^ 53)%Z -> (forall i, 0 <= draws i <= rm)%Z ->
  (length f = 1 -> exists q, error_rate_efficient_sampling_d count M sort rm draws f g samples = Ok (DFin q) /\ (q == output_rate n f g 0)%Q)
  /\ ((exists i j, i < length f /\ j < length f /\ i <> j /\ (exists a, wrong f g i a = true) /\ (exists a, wrong f g j a = true)) ->
      exists q, error_rate_efficient_sampling_d count M sort rm draws f g samples = Ok (DFin q)
        /\ (forall i, i < length f -> (output_rate n f g i <= q)%Q) /\ (q <= 1)%Q
        /\ (q <= sumQ (map (output_rate n f g) (seq 0 (length f))))%Q)
  /\ (length f <> 1 -> ~ (exists i j, i < length f /\ j < length f /\ i <> j /\ (exists a, wrong f g i a = true) /\ (exists a, wrong f g j a = true)) ->
      error_rate_efficient_sampling_d count M sort rm draws f g samples = UB).
Proof.
  intros C HS Wf Wg Bf Bg HL n Hn HT Hs Hrm Hdr.
  destruct (efficient_sampling_fl_ok r53 M (sort_of sort) rm draws f g samples r53_near (sort_of_down sort HS) Wf Wg Bf Bg HL HT Hs) as (A & B & D).
  assert (E : f <> [] -> error_rate_efficient_sampling_d count M sort rm draws f g samples = rmap DFin (error_rate_efficient_sampling_fl r53 M (sort_of sort) rm draws f g samples))
    by (intro; now apply efficient_same).
  split; [|split].
  - intro H1. destruct (A H1) as (q & Eq & Hq). exists q. rewrite E, Eq by (intro; subst; discriminate). auto.
  - intro H2. destruct (B H2) as (q & Eq & Hq). exists q. rewrite E, Eq; [auto|]. intro; subst. destruct H2 as (i & j & Hi & _). cbn in Hi. lia.
  - intros H1 H2. destruct f as [|b f'].
    + destruct g; [|discriminate]. unfold error_rate_efficient_sampling_d, differences. cbn.
      destruct (HS []) as [P _]. apply Permutation_nil in P. rewrite P. reflexivity.
    + rewrite E by discriminate. rewrite (D H1 H2). reflexivity.
Qed.
Lemma efficient_exact_d count M sort rm draws f g samples : counts_exactly M count -> sorts_doubles sort -> index_order M -> wfs M f -> wfs M g ->
  below (read_size M) f -> below (read_size M) g -> length f = length g ->
  let n := read_size M in
  1 <= n -> (Z.of_nat (length f) * 2 ^ Z.of_nat n <= 2 ^ 53)%Z -> (1 <= samples < 2 ^ 31)%Z -> (rm <= 2 ^ 53)%Z -> (forall i, 0 < draws i <= rm)%Z ->
  (exists i j, i < length f /\ j < length f /\ i <> j /\ (exists a, wrong f g i a = true) /\ (exists a, wrong f g j a = true)) ->
  ((exists j, j < length f /\ forall i a, i < length f -> wrong f g i a = true -> wrong f g j a = true)
   \/ ((forall i j a, i < length f -> j < length f -> i <> j -> wrong f g i a = true -> wrong f g j a = false)
       /\ forall i, i < length f -> (output_rate n f g i == 0)%Q
            \/ (sumQ (map (output_rate n f g) (seq 0 (length f))) <= inject_Z samples * output_rate n f g i)%Q)) ->
  exists q, error_rate_efficient_sampling_d count M sort rm draws f g samples = Ok (DFin q)
    /\ (q == average n (fun a => b2q (differ f g a)))%Q.
Proof.
  intros C HS HX Wf Wg Bf Bg HL n Hn HT Hs Hrm Hdr H2 H3.
  destruct (efficient_sampling_fl_exact r53 M (sort_of sort) rm draws f g samples r53_near (sort_of_down sort HS) HX Wf Wg Bf Bg HL HT Hs Hdr H2 H3) as (q & Eq & Hq).
  exists q. split; auto. rewrite (efficient_same count M sort rm draws f g samples); auto.
  - fold n. rewrite Eq. reflexivity.
  - pose proof (Hdr 0). lia.
  - intro i. pose proof (Hdr i). lia.
  - intro; subst. destruct H2 as (i & j & Hi & _). cbn in Hi. lia.
Qed.
(** the count of the model, rounded after every operation, is exact up to 53 variables *)
Lemma rounded_counts_exactly M : 1 <= read_size M <= 53 -> counts_exactly M (fun b k => DFin (CountMinterm_fl r53 b (Z.to_nat k))).
Proof.
  intros Hn b Wb Bb. eexists. split; [reflexivity|]. pose proof (height_below M _ b Wb Bb) as Hh.
  replace (Z.to_nat (Z.of_nat (read_size M) - 1)) with (read_size M - 1) by lia.
  rewrite <- (frac_average M _ b Wb Bb). replace (Z.of_nat (read_size M) - 1)%Z with (Z.of_nat (read_size M - 1)) by lia. fold (pow2 (read_size M - 1)).
  rewrite (CountMinterm_fl_exact 53 r53 (proj1 double_rounding)) by lia.
  rewrite <- (CountMinterm_ratio b (read_size M - 1)). field. pose proof (pow2Q_nz (read_size M - 1)). auto.
Qed.
(** an insertion sort that satisfies [sorts_doubles] *)
Fixpoint insert_down (p : nat * dbl) (s : list (nat * dbl)) : list (nat * dbl) :=
  match s with [] => [p] | q :: s' => if dleb (snd q) (snd p) then p :: s else q :: insert_down p s' end.
Definition insertion_down (l : list (nat * dbl)) : list (nat * dbl) := fold_right insert_down [] l.
Lemma insert_perm p s : Permutation (p :: s) (insert_down p s).
Proof.
  induction s as [|q s IH]; [auto|]. cbn. destruct (dleb (snd q) (snd p)); auto.
  apply (perm_trans (l' := q :: p :: s)); [constructor|]. now constructor.
Qed.
Lemma insert_sorted p s : finite_double (snd p) -> Forall (fun q => finite_double (snd q)) s ->
  StronglySorted (fun p q => dleb (snd q) (snd p) = true) s -> StronglySorted (fun p q => dleb (snd q) (snd p) = true) (insert_down p s).
Proof.
  intros (x & Hx) F H. induction H as [|q s H IH HF]; [cbn; repeat constructor|]. inversion_clear F as [|? ? (y & Hy) F']. cbn [insert_down]. destruct (dleb (snd q) (snd p)) eqn:E.
  - constructor; [now constructor|]. constructor; auto. rewrite Forall_forall in HF, F' |- *. intros r Hr. specialize (HF r Hr). destruct (F' r Hr) as (z & Hz).
    rewrite Hx, Hy, Hz in *. cbn [dleb] in *. apply Qle_bool_iff in E, HF. apply Qle_bool_iff. lra.
  - constructor; [auto|]. apply (Permutation_Forall (insert_perm p s)). constructor; auto. rewrite Hx, Hy in *. cbn [dleb] in *.
    apply Qle_bool_iff. destruct (Qlt_le_dec x y) as [L|L]; [lra|]. apply Qle_bool_iff in L. congruence.
Qed.
Lemma insertion_sorts : sorts_doubles insertion_down.
Proof.
  assert (P : forall l, Permutation l (insertion_down l)).
  { induction l as [|p l IH]; [constructor|]. cbn. eapply perm_trans; [|apply insert_perm]. now constructor. }
  intro l. split; [apply P|]. induction 1 as [|p l H F IH]; [constructor|]. cbn. apply insert_sorted; auto. apply (Permutation_Forall (P l)). exact F.
Qed.
