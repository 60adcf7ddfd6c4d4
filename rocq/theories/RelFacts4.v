(** Facts about error_rate_sampling and error_rate_efficient_sampling *)
From Coq Require Import List Bool Arith ZArith QArith Qround Lia Lqa Permutation Sorted.
From Verif Require Import Res Cudd CuddFacts Spec SpecFacts Helpers HelpersFacts HelpersFacts2 Counting AddFacts CountFacts PathFacts Metrics MetricsFacts MetricsFacts2 MetricsFacts3 MetricsFacts4 RelMetrics RelFacts RelFacts2 RelFacts3.
Import ListNotations.
Open Scope nat_scope.

Lemma any_one_spec M T l input : wfs M l -> below T l -> length input = T ->
  any_one l input = Ok (existsb (fun b => ev b (asg_ints input)) l).
Proof.
  intros W B HL. assert (C : forall i, vars_in l i -> i < length input) by (intros i Hi; rewrite HL; apply (below_vars M T l i); auto).
  clear W B. induction l as [|b l IH]; cbn [any_one existsb]; [reflexivity|].
  destruct (Eval_spec b input) as (x & E & E1).
  { intros i Hi. apply C. exists b. split; [now left|auto]. }
  rewrite E. cbn [bind]. rewrite E1. destruct (ev b (asg_ints input)); [reflexivity|]. apply IH.
  intros i (b' & Hb & Hi). apply C. exists b'. split; [now right|auto].
Qed.

Lemma differences_spec M n f g : length f = length g -> wfs M f -> wfs M g -> below n f -> below n g ->
  exists d, differences M f g = Ok d /\ length d = length f /\ wfs M d /\ below n d
    /\ (forall i a, i < length f -> ev (nth i d bzero) a = wrong f g i a)
    /\ forall a, existsb (fun b => ev b a) d = differ f g a.
Proof.
  intros HL Wf Wg Bf Bg. unfold differences. rewrite (proj2 (Nat.eqb_eq _ _) HL). cbn [assert_ bind].
  destruct (xor_vec_spec M f g HL) as (d & E & Ld & Wd & Nd). rewrite E. exists d. split; [reflexivity|].
  split; [auto|]. split; [auto|]. split; [|split; [exact Nd|]].
  - apply Forall_forall. intros b Hb. destruct (In_nth d b bzero Hb) as (i & Hi & <-). intros a a' Ha.
    rewrite !Nd by lia. rewrite Ld in Hi. unfold below in Bf, Bg. rewrite Forall_forall in Bf, Bg.
    f_equal; [apply Bf|apply Bg]; auto; apply nth_In; lia.
  - intro a. clear - E Ld HL. revert g d E Ld HL. induction f as [|x f IH]; intros [|y g] d E Ld HL; cbn in HL; try discriminate.
    + cbn [xor_vec] in E. injection E as <-. reflexivity.
    + cbn [xor_vec] in E. destruct (xor_vec M f g) as [d'| | |] eqn:E'; cbn [bind] in E; try discriminate.
      injection E as <-. cbn [existsb differ]. rewrite ev_xor. f_equal. cbn in Ld. apply IH; auto.
Qed.

Lemma differences_abort M f g : length f <> length g -> differences M f g = Abort.
Proof. intro H. unfold differences. apply Nat.eqb_neq in H. now rewrite H. Qed.

(** ** error_rate_sampling *)
Lemma sampling_loop_spec M T d draws : wfs M d -> below T d -> forall n pos e,
  exists e', sampling_loop d draws T n pos e = Ok e' /\ (e <= e' <= e + Z.of_nat n)%Z
    /\ ((forall a, existsb (fun b => ev b a) d = false) -> e' = e)
    /\ ((forall a, existsb (fun b => ev b a) d = true) -> e' = (e + Z.of_nat n)%Z).
Proof.
  intros W B. induction n as [|n IH]; intros pos e; cbn [sampling_loop].
  - exists e. repeat split; auto; lia.
  - rewrite (any_one_spec M T) by (auto; now rewrite map_length, seq_length). cbn [bind].
    set (a := asg_ints _).
    destruct (IH (pos + T) (if existsb (fun b => ev b a) d then e + 1 else e)%Z) as (e' & -> & H1 & H2 & H3).
    exists e'. split; auto. split; [destruct (existsb _ d); lia|]. split; intro H.
    + specialize (H2 H). rewrite H in H2. auto.
    + specialize (H3 H). rewrite H in H3. lia.
Qed.

Lemma error_rate_sampling_spec M draws f g samples : length f = length g -> wfs M f -> wfs M g ->
  below (read_size M) f -> below (read_size M) g -> (1 <= samples < 2 ^ 31)%Z ->
  exists q, error_rate_sampling M draws f g samples = Ok (Fin q) /\ (0 <= q <= 1)%Q
    /\ ((forall a, differ f g a = false) -> (q == 0)%Q) /\ ((forall a, differ f g a = true) -> (q == 1)%Q).
Proof.
  intros HL Wf Wg Bf Bg Hs. unfold error_rate_sampling.
  destruct (differences_spec M _ f g HL Wf Wg Bf Bg) as (d & -> & Ld & Wd & Bd & Nd & Ed). cbn [bind].
  assert (E : (samples <? 2 ^ 31)%Z = true) by (apply Z.ltb_lt; lia). rewrite E. cbn [require_ bind].
  destruct (sampling_loop_spec M _ d draws Wd Bd (Z.to_nat samples) 0 0) as (e & -> & H1 & H2 & H3). cbn [bind].
  rewrite Z2Nat.id in * by lia. assert (P : (0 < inject_Z samples)%Q) by (apply injZ_pos; lia).
  unfold fdiv. destruct (Qeq_bool (inject_Z samples) 0) eqn:E0; [apply Qeq_bool_iff in E0; lra|].
  eexists. split; [reflexivity|]. split; [split|split].
  - apply le_div_iff; auto. rewrite Qmult_0_l. apply injZ_nonneg. lia.
  - apply div_le_iff; auto. rewrite Qmult_1_l. apply (proj2 (injZ_le _ _)). lia.
  - intro H. rewrite H2 by (intro a; now rewrite Ed). field. lra.
  - intro H. rewrite H3 by (intro a; now rewrite Ed). rewrite Z.add_0_l. field. lra.
Qed.

Lemma error_rate_sampling_other M draws f g samples :
  (length f <> length g -> error_rate_sampling M draws f g samples = Abort)
  /\ (length f = length g -> (2 ^ 31 <= samples)%Z -> error_rate_sampling M draws f g samples = UB).
Proof.
  unfold error_rate_sampling. split.
  - intro H. now rewrite differences_abort.
  - intros H Hs. unfold differences. rewrite (proj2 (Nat.eqb_eq _ _) H). cbn [assert_ bind].
    destruct (xor_vec_spec M f g H) as (d & -> & _). cbn [bind].
    assert (E : (samples <? 2 ^ 31)%Z = false) by (apply Z.ltb_ge; lia). now rewrite E.
Qed.

(** ** error_rate_efficient_sampling *)
Lemma good_loop_spec M T pick draws diff previous : total_sampler T pick -> wfs M previous -> below T previous -> forall n pos g,
  exists g', good_loop pick draws diff previous T n pos g = Ok g' /\ (g <= g' <= g + Z.of_nat n)%Z.
Proof.
  intros HP W B. induction n as [|n IH]; intros pos g; cbn [good_loop].
  - exists g. split; auto. lia.
  - destruct (HP diff (map draws (seq pos T))) as (l & -> & Ll & _).
    { now rewrite map_length, seq_length. }
    cbn [bind]. rewrite (any_one_spec M T) by auto. cbn [bind].
    set (b := existsb _ previous). destruct (IH (pos + T) (if b then g else g + 1)%Z) as (g' & -> & H).
    exists g'. split; auto. destruct b; lia.
Qed.

Lemma good_loop_exact M T rm pick draws diff previous v : wfs M previous -> below T previous -> sound_sampler M T rm pick ->
  (forall i, 0 < draws i <= rm)%Z -> wf M diff -> depends_below T diff -> (exists a, ev diff a = true) ->
  (forall a, ev diff a = true -> existsb (fun b => ev b a) previous = v) -> forall n pos g,
  good_loop pick draws diff previous T n pos g = Ok (if v then g else g + Z.of_nat n)%Z.
Proof.
  intros W B HP Hd Wd Bd He Hv. induction n as [|n IH]; intros pos g; cbn [good_loop].
  - destruct v; f_equal; lia.
  - destruct (HP diff (map draws (seq pos T))) as (l & -> & Ll & _ & Hl); auto.
    { now rewrite map_length, seq_length. }
    { apply Forall_forall. intros x Hx. apply in_map_iff in Hx. destruct Hx as (i & <- & _). auto. }
    cbn [bind]. rewrite (any_one_spec M T) by auto. cbn [bind]. rewrite (Hv _ Hl), IH. destruct v; f_equal; lia.
Qed.

Definition rates (l : list (nat * Q)) : Q := sumQ (map snd l).

Lemma quot_floor q : (0 <= q)%Q -> (0 <= Z.quot (Qnum q) (Zpos (Qden q)))%Z /\ (inject_Z (Z.quot (Qnum q) (Zpos (Qden q))) <= q)%Q
  /\ (q < inject_Z (Z.quot (Qnum q) (Zpos (Qden q))) + 1)%Q.
Proof.
  intro H. assert (N : (0 <= Qnum q)%Z) by (unfold Qle in H; cbn in H; lia).
  assert (E : Z.quot (Qnum q) (Zpos (Qden q)) = Qfloor q).
  { rewrite Z.quot_div_nonneg by lia. destruct q as [n d]. reflexivity. }
  rewrite E. split; [|split].
  - rewrite <- E. apply Z.quot_pos; lia.
  - apply Qfloor_le.
  - pose proof (Qlt_floor q) as L. rewrite inject_Z_plus in L. exact L.
Qed.

Section Efficient.
Variable M : mgr.
Variables (rm : Z) (draws : nat -> Z) (d : list bdd) (samples : Z).
Let T := read_size M.
Hypothesis Wd : wfs M d.
Hypothesis Bd : below T d.
Hypothesis Hs : (1 <= samples < 2 ^ 31)%Z.

Definition valid (p : nat * Q) : Prop := fst p < length d /\ (snd p == frac (nth (fst p) d bzero))%Q.

Lemma valid_nonneg p : valid p -> (0 <= snd p)%Q.
Proof. intros [_ H]. rewrite H. apply frac_ge_0. Qed.
Lemma valid_get p : valid p -> vget d (fst p) = Ok (nth (fst p) d bzero) /\ wf M (nth (fst p) d bzero) /\ depends_below T (nth (fst p) d bzero).
Proof.
  intros [H _]. split; [now apply vget_nth|]. unfold below in Bd. rewrite Forall_forall in Wd, Bd. split; [apply Wd|apply Bd]; now apply nth_In.
Qed.
Lemma rates_nonneg l : Forall valid l -> (0 <= rates l)%Q.
Proof.
  unfold rates. induction 1 as [|p l H F IH]; cbn [map]; [rewrite sumQ_nil; lra|]. rewrite sumQ_cons. apply valid_nonneg in H. lra.
Qed.
Lemma rates_cons p l : rates (p :: l) = (snd p + rates l)%Q.
Proof. reflexivity. Qed.

Lemma rates_le p l : Forall valid l -> In p l -> (snd p <= rates l)%Q.
Proof.
  induction 1 as [|x l H F IH]; intros Hi; [contradiction|]. rewrite rates_cons.
  pose proof (rates_nonneg l F). pose proof (valid_nonneg x H). destruct Hi as [->|Hi]; [lra|]. specialize (IH Hi). lra.
Qed.

Variables (first maximum_rate : Q).
Let W := (maximum_rate - first)%Q.

(** the number of samples for one output *)
Lemma index_samples_spec rate : (0 < W)%Q -> (0 <= rate <= W)%Q ->
  exists q, fdiv (inject_Z samples * rate) (maximum_rate - first) = Fin q
    /\ let k := Z.quot (Qnum q) (Zpos (Qden q)) in
       (0 <= k < 2 ^ 31)%Z /\ (k = 0%Z -> (inject_Z samples * rate < W)%Q)
       /\ ((rate == 0)%Q -> k = 0%Z).
Proof.
  intros HW Hr. unfold fdiv. fold W. destruct (Qeq_bool W 0) eqn:E; [apply Qeq_bool_iff in E; lra|].
  eexists. split; [reflexivity|]. set (q := (inject_Z samples * rate / W)%Q).
  assert (P : (0 < inject_Z samples)%Q) by (apply injZ_pos; lia).
  assert (Q0 : (0 <= q)%Q) by (apply le_div_iff; auto; rewrite Qmult_0_l; apply Qmult_le_0_compat; lra).
  assert (Q1 : (q <= inject_Z samples)%Q).
  { apply div_le_iff; auto. apply Qmult_le_l'; lra. }
  destruct (quot_floor q Q0) as (K0 & K1 & K2). cbv zeta. set (k := Z.quot _ _) in *.
  assert (k <= samples)%Z by (apply (proj1 (injZ_le _ _)); lra).
  repeat split; try lia.
  - intro E0. rewrite E0 in K2. change (inject_Z 0) with 0%Q in K2.
    destruct (Qlt_le_dec (inject_Z samples * rate) W) as [|L]; auto. exfalso.
    assert (1 <= q)%Q by (apply le_div_iff; auto; lra). lra.
  - intro E0. assert (q == 0)%Q by (unfold q; rewrite E0; field; lra). assert (inject_Z k <= inject_Z 0)%Q by (change (inject_Z 0) with 0%Q; lra).
    apply (proj1 (injZ_le _ _)) in H1. lia.
Qed.

Lemma efficient_loop_spec : (0 < W)%Q -> forall rest previous pos r, Forall valid rest ->
  Forall (fun p => snd p <= W)%Q rest -> wfs M previous -> below T previous ->
  exists r', efficient_loop rm draws d T samples first maximum_rate rest previous pos r = Ok r'
    /\ (r <= r' <= r + rates rest)%Q.
Proof.
  intro HW. induction rest as [|[k rate] rest IH]; intros previous pos r V L Wp Bp; cbn [efficient_loop].
  - exists r. split; auto. unfold rates. cbn [map]. rewrite sumQ_nil. lra.
  - inversion V as [|? ? V1 V2]; inversion L as [|? ? L1 L2]; subst.
    destruct (valid_get _ V1) as (G & Wk & Bk). cbn [fst] in G, Wk, Bk. rewrite G. cbn [bind].
    pose proof (valid_nonneg _ V1) as R0. cbn [snd] in R0, L1. rewrite rates_cons. cbn [snd].
    destruct (index_samples_spec rate HW (conj R0 L1)) as (q & -> & K). cbv zeta in K. set (n := Z.quot _ _) in *.
    assert (E1 : (- 2 ^ 63 <=? n)%Z = true) by (apply Z.leb_le; lia).
    assert (E2 : (n <? 2 ^ 63)%Z = true) by (apply Z.ltb_lt; lia). rewrite E1, E2. cbn [andb require_ bind].
    assert (Wp' : wfs M (previous ++ [nth k d bzero])) by (apply Forall_app; auto).
    assert (Bp' : below T (previous ++ [nth k d bzero])) by (apply Forall_app; auto).
    destruct (Z.eqb_spec n 0) as [En|En].
    + destruct (IH (previous ++ [nth k d bzero]) pos r V2 L2 Wp' Bp') as (r' & -> & H). exists r'. split; auto. lra.
    + assert (E3 : (n <? 2 ^ 31)%Z = true) by (apply Z.ltb_lt; lia). rewrite E3. cbn [require_ bind].
      destruct (good_loop_spec M T (random_sampler rm T) draws (nth k d bzero) previous (random_sampler_total rm T) Wp Bp (Z.to_nat n) pos 0) as (g & -> & Hg). cbn [bind].
      rewrite Z2Nat.id in Hg by lia. cbv zeta.
      set (gf := (inject_Z g / inject_Z n)%Q). assert (Pn : (0 < inject_Z n)%Q) by (apply injZ_pos; lia).
      assert (G0 : (0 <= gf)%Q) by (apply le_div_iff; auto; rewrite Qmult_0_l; apply injZ_nonneg; lia).
      assert (G1 : (gf <= 1)%Q) by (apply div_le_iff; auto; rewrite Qmult_1_l; apply (proj2 (injZ_le _ _)); lia).
      destruct (IH (previous ++ [nth k d bzero]) (pos + Z.to_nat n * T) (r + rate * gf)%Q V2 L2 Wp' Bp') as (r' & -> & H).
      exists r'. split; auto. assert (0 <= rate * gf)%Q by (apply Qmult_le_0_compat; auto).
      assert (rate * gf <= rate * 1)%Q by (apply Qmult_le_l'; auto). lra.
Qed.

Lemma efficient_loop_exact v : (0 < W)%Q -> index_order M -> (forall i, 0 < draws i <= rm)%Z ->
  forall rest previous pos r, Forall valid rest ->
  Forall (fun p => snd p <= W)%Q rest -> wfs M previous -> below T previous ->
  Forall (fun p => (snd p == 0)%Q \/ (W <= inject_Z samples * snd p)%Q) rest ->
  (forall pre p post, rest = pre ++ p :: post -> forall a, ev (nth (fst p) d bzero) a = true ->
     existsb (fun b => ev b a) (previous ++ map (fun p => nth (fst p) d bzero) pre) = v) ->
  exists r', efficient_loop rm draws d T samples first maximum_rate rest previous pos r = Ok r'
    /\ (r' == if v then r else r + rates rest)%Q.
Proof.
  intros HW HX Hd. induction rest as [|[k rate] rest IH]; intros previous pos r V L Wp Bp Hk Hv; cbn [efficient_loop].
  - exists r. split; auto. unfold rates. cbn [map]. rewrite sumQ_nil. destruct v; lra.
  - inversion V as [|? ? V1 V2]; inversion L as [|? ? L1 L2]; inversion Hk as [|? ? K1 K2]; subst.
    destruct (valid_get _ V1) as (G & Wk & Bk). cbn [fst] in G, Wk, Bk. rewrite G. cbn [bind].
    pose proof (valid_nonneg _ V1) as R0. cbn [snd] in R0, L1, K1. rewrite rates_cons. cbn [snd].
    destruct (index_samples_spec rate HW (conj R0 L1)) as (q & -> & K). cbv zeta in K. set (n := Z.quot _ _) in *.
    assert (E1 : (- 2 ^ 63 <=? n)%Z = true) by (apply Z.leb_le; lia).
    assert (E2 : (n <? 2 ^ 63)%Z = true) by (apply Z.ltb_lt; lia). rewrite E1, E2. cbn [andb require_ bind].
    assert (Wp' : wfs M (previous ++ [nth k d bzero])) by (apply Forall_app; auto).
    assert (Bp' : below T (previous ++ [nth k d bzero])) by (apply Forall_app; auto).
    assert (Hv' : forall pre p post, rest = pre ++ p :: post -> forall a, ev (nth (fst p) d bzero) a = true ->
      existsb (fun b => ev b a) ((previous ++ [nth k d bzero]) ++ map (fun p => nth (fst p) d bzero) pre) = v).
    { intros pre p post E a Ha. rewrite <- app_assoc. apply (Hv ((k, rate) :: pre) p post); auto. now rewrite E. }
    destruct (Z.eqb_spec n 0) as [En|En].
    + destruct (IH (previous ++ [nth k d bzero]) pos r V2 L2 Wp' Bp' K2 Hv') as (r' & -> & H). exists r'. split; auto.
      destruct K as (_ & K3 & _). specialize (K3 En). destruct K1 as [K1|K1]; [|lra]. rewrite H. destruct v; lra.
    + assert (E3 : (n <? 2 ^ 31)%Z = true) by (apply Z.ltb_lt; lia). rewrite E3. cbn [require_ bind].
      assert (S : exists a, ev (nth k d bzero) a = true).
      { destruct (is_zero (nth k d bzero)) eqn:Ez; [|now apply (is_zero_false M)].
        exfalso. apply En. apply K. destruct V1 as [_ V1]. cbn [fst snd] in V1. rewrite V1.
        apply (frac_zero_iff M); auto. apply (canonical M); auto with wf. intro a. rewrite (is_zero_sem M) in Ez by auto. rewrite Ez. reflexivity. }
      rewrite (good_loop_exact M T rm (random_sampler rm T) draws (nth k d bzero) previous v Wp Bp (random_sampler_sound M rm T HX ltac:(specialize (Hd 0); lia)) Hd Wk Bk S); [|intros a Ha; rewrite <- (app_nil_r previous); apply (Hv [] (k, rate) rest); auto].
      cbn [bind]. cbv zeta. rewrite Z.add_0_l, Z2Nat.id by lia.
      assert (Pn : (0 < inject_Z n)%Q) by (apply injZ_pos; lia).
      destruct (IH (previous ++ [nth k d bzero]) (pos + Z.to_nat n * T) (r + rate * (inject_Z (if v then 0%Z else n) / inject_Z n))%Q V2 L2 Wp' Bp' K2 Hv') as (r' & E & H).
      rewrite E. exists r'. split; auto. rewrite H. destruct v; field; lra.
Qed.
End Efficient.

Lemma sumQ_perm l l' : Permutation l l' -> (sumQ l == sumQ l')%Q.
Proof.
  induction 1; rewrite ?sumQ_cons; try lra. 
Qed.

Lemma fold_rates l : forall s, (fold_left (fun s p => s + snd p) l s == s + rates l)%Q.
Proof.
  induction l as [|p l IH]; intro s; cbn [fold_left]; [unfold rates; cbn [map]; rewrite sumQ_nil; lra|].
  rewrite IH, rates_cons. lra.
Qed.

Lemma combine_seq d : forall s, combine (seq s (length d)) d = map (fun i => (i, nth (i - s) d bzero)) (seq s (length d)).
Proof.
  induction d as [|b d IH]; intro s; cbn [length seq combine map]; [reflexivity|]. rewrite Nat.sub_diag. cbn [nth]. f_equal.
  rewrite IH. apply map_ext_in. intros i Hi. apply in_seq in Hi. replace (i - s) with (S (i - S s)) by lia. reflexivity.
Qed.

(** what the sorted activations look like *)
Lemma activations_spec d T : 
  Forall (valid d) (activations_of d T) /\ map fst (activations_of d T) = seq 0 (length d).
Proof.
  unfold activations_of. rewrite combine_seq, map_map. cbn [fst snd]. split.
  - apply Forall_forall. intros p Hp. apply in_map_iff in Hp. destruct Hp as (i & <- & Hi). apply in_seq in Hi.
    unfold valid. cbn [fst snd]. split; [lia|]. rewrite Nat.sub_0_r. apply CountMinterm_ratio.
  - rewrite map_map. cbn [fst]. apply map_id.
Qed.

Section Sorted.
Variables (sort : list (nat * Q) -> list (nat * Q)) (d : list bdd) (acts : list (nat * Q)).
Hypothesis HS : sorts_down sort.
Hypothesis HV : Forall (valid d) acts /\ map fst acts = seq 0 (length d).

Lemma sorted_spec : d <> [] -> exists k first rest, sort acts = (k, first) :: rest
  /\ Forall (valid d) ((k, first) :: rest) /\ Permutation (seq 0 (length d)) (k :: map fst rest)
  /\ (forall p, In p rest -> snd p <= first)%Q
  /\ (rates acts == first + rates rest)%Q.
Proof.
  intro Hd. destruct (HS acts) as [HP HO]. destruct HV as [V F].
  destruct (sort acts) as [|[k first] rest] eqn:E.
  - exfalso. apply Permutation_sym, Permutation_nil in HP. rewrite HP in F. destruct d; [auto|discriminate].
  - exists k, first, rest. split; auto. split; [|split; [|split]].
    + apply Forall_forall. intros p Hp. rewrite Forall_forall in V. apply V. apply Permutation_sym in HP. now apply (Permutation_in _ HP).
    + rewrite <- F. change (k :: map fst rest) with (map fst ((k, first) :: rest)). now apply Permutation_map.
    + intros p Hp. inversion HO as [|? ? _ HF]; subst. rewrite Forall_forall in HF. apply (HF p Hp).
    + unfold rates. rewrite (sumQ_perm _ _ (Permutation_map snd HP)). cbn [map snd]. rewrite sumQ_cons. lra.
Qed.
End Sorted.

Lemma min_one x : (Qle_bool 1 x = true /\ (1 <= x)%Q) \/ (Qle_bool 1 x = false /\ (x < 1)%Q).
Proof.
  destruct (Qle_bool 1 x) eqn:E; [left; apply Qle_bool_iff in E; auto|right]. split; auto.
  destruct (Qlt_le_dec x 1) as [|L]; auto. apply Qle_bool_iff in L. congruence.
Qed.

Lemma rates_pos_iff d rest : Forall (valid d) rest -> ((0 < rates rest)%Q <-> exists p, In p rest /\ (0 < snd p)%Q).
Proof.
  induction 1 as [|p rest H F IH].
  - unfold rates. cbn [map]. rewrite sumQ_nil. split; [lra|]. intros (p & [] & _).
  - rewrite rates_cons. pose proof (valid_nonneg d p H) as N. pose proof (rates_nonneg d rest F). split.
    + intro L. destruct (Qlt_le_dec 0 (snd p)) as [Lp|Lp]; [exists p; split; [now left|auto]|].
      assert (L' : (0 < rates rest)%Q) by lra. apply (proj1 IH) in L'. destruct L' as (p' & Hp & L'). exists p'. split; [now right|auto].
    + intros (p' & [->|Hp] & L); [lra|]. assert (0 < rates rest)%Q by (apply (proj2 IH); eauto). lra.
Qed.

Section Full.
Variables (M : mgr) (sort : list (nat * Q) -> list (nat * Q)) (f g : list bdd).
Hypothesis HS : sorts_down sort.
Hypothesis HL : length f = length g.
Hypothesis Wf : wfs M f.
Hypothesis Wg : wfs M g.
Let T := read_size M.
Hypothesis Bf : below T f.
Hypothesis Bg : below T g.
Hypothesis Hne : f <> [].

Let rate := output_rate T f g.
Definition total_rate (n : nat) (f g : list bdd) : Q := sumQ (map (output_rate n f g) (seq 0 (length f))).

Lemma full_parts_of (acts : list bdd -> list (nat * Q)) :
  (forall d, length d = length f -> wfs M d -> below T d -> Forall (valid d) (acts d) /\ map fst (acts d) = seq 0 (length d)) -> exists d k first rest,
  differences M f g = Ok d /\ length d = length f /\ wfs M d /\ below T d
  /\ (forall i a, i < length f -> ev (nth i d bzero) a = wrong f g i a)
  /\ (forall a, existsb (fun b => ev b a) d = differ f g a)
  /\ sort (acts d) = (k, first) :: rest
  /\ Forall (valid d) ((k, first) :: rest) /\ Permutation (seq 0 (length f)) (k :: map fst rest)
  /\ (forall p, In p rest -> snd p <= first)%Q
  /\ (rates (acts d) == first + rates rest)%Q
  /\ (forall p, In p ((k, first) :: rest) -> fst p < length f /\ (snd p == rate (fst p))%Q)
  /\ (first + rates rest == total_rate T f g)%Q.
Proof.
  intro HA. destruct (differences_spec M _ f g HL Wf Wg Bf Bg) as (d & Ed & Ld & Wd & Bd & Nd & Dd).
  assert (Hd : d <> []) by (intro E; subst; destruct f; [congruence|discriminate]).
  destruct (sorted_spec sort d (acts d) HS (HA d Ld Wd Bd) Hd) as (k & first & rest & E & V & P & O & W).
  assert (R : forall p, In p ((k, first) :: rest) -> fst p < length f /\ (snd p == rate (fst p))%Q).
  { intros p Hp. rewrite Forall_forall in V. destruct (V p Hp) as [V1 V2]. split; [lia|]. rewrite V2.
    unfold below in Bd. rewrite Forall_forall in Wd, Bd. unfold rate, output_rate.
    rewrite (frac_average M T) by (first [apply Wd|apply Bd]; now apply nth_In).
    apply average_ext. intro a. rewrite Nd by lia. reflexivity. }
  exists d, k, first, rest. rewrite <- Ld. repeat (split; [auto; fail|]).
  split; [rewrite Ld; auto|]. repeat (split; [auto; fail|]).
  split; [rewrite Ld; auto|].
  change (first + rates rest)%Q with (rates ((k, first) :: rest)).
  unfold total_rate. rewrite <- Ld.
  rewrite (sumQ_perm _ _ (Permutation_map (output_rate T f g) P)). fold rate.
  change (k :: map fst rest) with (map fst ((k, first) :: rest)). rewrite map_map. unfold rates.
  apply sumQ_map_ext. intros p Hp. apply R. exact Hp.
Qed.

Lemma full_parts : exists d k first rest,
  differences M f g = Ok d /\ length d = length f /\ wfs M d /\ below T d
  /\ (forall i a, i < length f -> ev (nth i d bzero) a = wrong f g i a)
  /\ (forall a, existsb (fun b => ev b a) d = differ f g a)
  /\ sort (activations_of d T) = (k, first) :: rest
  /\ Forall (valid d) ((k, first) :: rest) /\ Permutation (seq 0 (length f)) (k :: map fst rest)
  /\ (forall p, In p rest -> snd p <= first)%Q
  /\ (fold_left (fun s p => s + snd p) (activations_of d T) 0 - first == rates rest)%Q
  /\ (forall p, In p ((k, first) :: rest) -> fst p < length f /\ (snd p == rate (fst p))%Q)
  /\ (first + rates rest == total_rate T f g)%Q.
Proof.
  destruct (full_parts_of (fun d => activations_of d T)) as (d & k & first & rest & Ed & Ld & Wd & Bd & Nd & Dd & E & V & P & O & W & R & Tt).
  { intros d _ _ _. apply activations_spec. }
  exists d, k, first, rest. repeat (split; [assumption|]). split; [|auto]. rewrite fold_rates, W. lra.
Qed.

Lemma efficient_single rm draws samples : length f = 1 ->
  exists q, error_rate_efficient_sampling M sort rm draws f g samples = Ok q /\ (q == rate 0)%Q.
Proof.
  intro H1. destruct full_parts as (d & k & first & rest & Ed & Ld & Wd & Bd & Nd & Dd & E & V & P & O & W & R & Tt).
  unfold error_rate_efficient_sampling. rewrite Ed. cbn [bind]. fold T. cbv zeta. rewrite E.
  inversion V as [|? ? V1 V2]; subst. rewrite (proj1 (valid_get M d Wd Bd _ V1) : vget d k = _). cbn [bind].
  assert (rest = []).
  { apply Permutation_length in P. rewrite seq_length in P. cbn [length] in P. rewrite map_length in P. destruct rest; [auto|cbn in P; lia]. }
  subst rest. cbn [efficient_loop bind].
  destruct (R (k, first)) as [R1 R2]; [now left|]. cbn [fst snd] in R1, R2. assert (k = 0) by lia. subst k.
  destruct V1 as [_ V1]. cbn [fst snd] in V1. pose proof (frac_le_1 (nth 0 d bzero)).
  destruct (min_one first) as [[-> L]|[-> L]]; eexists; (split; [reflexivity|]); lra.
Qed.

Lemma rate_pos i : i < length f -> ((0 < rate i)%Q <-> exists a, wrong f g i a = true).
Proof.
  intro Hi. assert (N : (0 <= rate i)%Q) by (apply average_nonneg; intro a; unfold b2q; destruct (wrong f g i a); lra).
  assert (HD : dep_belowQ T (fun a => b2q (wrong f g i a))).
  { intros a b H. unfold wrong. unfold below in Bf, Bg. rewrite Forall_forall in Bf, Bg.
    rewrite (Bf (nth i f bzero) ltac:(apply nth_In; lia) a b H), (Bg (nth i g bzero) ltac:(apply nth_In; lia) a b H). reflexivity. }
  pose proof (average_zero_iff T (fun a => b2q (wrong f g i a)) HD ltac:(intro a; unfold b2q; destruct (wrong f g i a); lra)) as Z.
  fold (output_rate T f g i) in Z. fold (rate i) in Z. split.
  - intro L. 
    destruct (differences_spec M _ f g HL Wf Wg Bf Bg) as (d & Ed & Ld & Wd & Bd & Nd & Dd).
    unfold below in Bd. rewrite Forall_forall in Wd, Bd.
    assert (Hin : In (nth i d bzero) d) by (apply nth_In; lia).
    destruct (is_zero (nth i d bzero)) eqn:Ez.
    + rewrite (is_zero_sem M) in Ez by auto. exfalso. assert (rate i == 0)%Q; [|lra]. apply (proj2 Z). intro a. rewrite <- Nd, Ez by auto. reflexivity.
    + apply (is_zero_false M) in Ez; auto. destruct Ez as [a Ha]. exists a. now rewrite <- Nd.
  - intros (a & Ha). destruct (Qlt_le_dec 0 (rate i)) as [|L]; auto. assert (E : (rate i == 0)%Q) by lra.
    apply (proj1 Z) with (a := a) in E. rewrite Ha in E. cbn [b2q] in E. lra.
Qed.

(** more than one output, of which at least two are wrong somewhere *)
Definition two_wrong (f g : list bdd) : Prop :=
  exists i j, i < length f /\ j < length f /\ i <> j /\ (exists a, wrong f g i a = true) /\ (exists a, wrong f g j a = true).

Lemma rest_pos d k first rest : Forall (valid d) ((k, first) :: rest) -> Permutation (seq 0 (length f)) (k :: map fst rest) ->
  (forall p, In p rest -> snd p <= first)%Q ->
  (forall p, In p ((k, first) :: rest) -> fst p < length f /\ (snd p == rate (fst p))%Q) ->
  ((0 < rates rest)%Q <-> two_wrong f g).
Proof.
  intros V P O R. inversion V as [|? ? V1 V2]; subst. rewrite (rates_pos_iff d rest V2).
  assert (ND : NoDup (k :: map fst rest)) by (apply (Permutation_NoDup P), seq_NoDup). inversion ND as [|? ? N1 N2]; subst.
  split.
  - intros (p & Hp & L). exists k, (fst p). destruct (R (k, first)) as [Rk1 Rk2]; [now left|]. destruct (R p) as [Rp1 Rp2]; [now right|].
    cbn [fst snd] in Rk1, Rk2. specialize (O p Hp). split; [auto|]. split; [auto|]. split.
    { intro E. apply N1. rewrite E. now apply in_map. }
    split; [apply (proj1 (rate_pos k Rk1))|apply (proj1 (rate_pos (fst p) Rp1))]; lra.
  - intros (i & j & Hi & Hj & Hij & Ai & Aj).
    assert (X : exists l, l < length f /\ l <> k /\ exists a, wrong f g l a = true).
    { destruct (Nat.eq_dec i k) as [->|]; [exists j; auto|exists i; auto]. }
    destruct X as (l & Hl & Hlk & Al). assert (In l (map fst rest)).
    { assert (I : In l (k :: map fst rest)) by (apply (Permutation_in _ P), in_seq; lia). destruct I; [congruence|auto]. }
    apply in_map_iff in H. destruct H as (p & <- & Hp). exists p. split; auto. destruct (R p) as [_ ->]; [now right|].
    now apply rate_pos.
Qed.

Lemma efficient_range rm draws samples : (1 <= samples < 2 ^ 31)%Z -> two_wrong f g ->
  exists q, error_rate_efficient_sampling M sort rm draws f g samples = Ok q
    /\ (forall i, i < length f -> (rate i <= q)%Q) /\ (q <= 1)%Q /\ (q <= total_rate T f g)%Q.
Proof.
  intros Hs H2. destruct full_parts as (d & k & first & rest & Ed & Ld & Wd & Bd & Nd & Dd & E & V & P & O & W & R & Tt).
  assert (PW := proj2 (rest_pos d k first rest V P O R) H2).
  unfold error_rate_efficient_sampling. rewrite Ed. cbn [bind]. fold T. cbv zeta. rewrite E.
  inversion V as [|? ? V1 V2]; subst. destruct (valid_get M d Wd Bd _ V1) as (G & Wk & Bk). cbn [fst] in G. rewrite G. cbn [bind].
  set (mr := fold_left _ _ _) in *. cbn [fst] in Wk, Bk.
  destruct (efficient_loop_spec M rm draws d samples Wd Bd Hs first mr ltac:(lra) rest [nth k d bzero] 0 first V2)
    as (r & Er & Hr).
  { apply Forall_forall. intros p Hp. rewrite W. apply (rates_le d); auto. }
  { auto. } { constructor; auto. }
  fold T in Er. rewrite Er. cbn [bind].
  assert (L : forall i, i < length f -> (rate i <= first)%Q).
  { intros i Hi. assert (I : In i (k :: map fst rest)) by (apply (Permutation_in _ P), in_seq; lia).
    change (k :: map fst rest) with (map fst ((k, first) :: rest)) in I. apply in_map_iff in I. destruct I as (p & <- & Hp).
    destruct (R p Hp) as [_ <-]. destruct Hp as [<-|Hp]; [apply Qle_refl|auto]. }
  assert (L1 : (first <= 1)%Q). { destruct V1 as [_ V1]. cbn [snd] in V1. rewrite V1. apply frac_le_1. }
  destruct (min_one r) as [[-> Lr]|[-> Lr]]; eexists; (split; [reflexivity|]).
  - split; [intros i Hi; specialize (L i Hi); lra|]. split; lra.
  - split; [intros i Hi; specialize (L i Hi); lra|]. split; lra.
Qed.

Lemma efficient_ub rm draws samples : 2 <= length f -> ~ two_wrong f g ->
  error_rate_efficient_sampling M sort rm draws f g samples = UB.
Proof.
  intros H2 HN. destruct full_parts as (d & k & first & rest & Ed & Ld & Wd & Bd & Nd & Dd & E & V & P & O & W & R & Tt).
  pose proof (rest_pos d k first rest V P O R) as PW.
  unfold error_rate_efficient_sampling. rewrite Ed. cbn [bind]. fold T. cbv zeta. rewrite E.
  inversion V as [|? ? V1 V2]; subst. rewrite (proj1 (valid_get M d Wd Bd _ V1) : vget d k = _). cbn [bind fst].
  destruct rest as [|[k2 r2] rest].
  { apply Permutation_length in P. rewrite seq_length in P. cbn in P. lia. }
  cbn [efficient_loop]. inversion V2 as [|? ? V3 V4]; subst. rewrite (proj1 (valid_get M d Wd Bd _ V3) : vget d k2 = _). cbn [bind].
  unfold fdiv. assert (E0 : Qeq_bool (fold_left (fun s p => s + snd p) (activations_of d T) 0 - first)%Q 0%Q = true).
  { apply Qeq_bool_iff. rewrite W. pose proof (rates_nonneg d _ V2). destruct (Qlt_le_dec 0 (rates ((k2, r2) :: rest))); [tauto|lra]. }
  rewrite E0. reflexivity.
Qed.

Lemma prefix_first k first rest pre p post : rest = pre ++ p :: post ->
  Permutation (seq 0 (length f)) (k :: map fst rest) ->
  forall q, In q ((k, first : Q) :: pre) -> fst q <> fst p.
Proof.
  intros -> P q Hq E. assert (ND : NoDup (k :: map fst (pre ++ p :: post))) by (apply (Permutation_NoDup P), seq_NoDup).
  change (k :: map fst (pre ++ p :: post)) with (map fst ((k, first) :: pre ++ p :: post)) in ND.
  change ((k, first) :: pre ++ p :: post) with (((k, first) :: pre) ++ p :: post) in ND.
  rewrite map_app in ND. cbn [map] in ND. apply NoDup_remove_2 in ND. apply ND. apply in_or_app. left. rewrite <- E. change (fst (k, first) :: map fst pre) with (map fst ((k, first) :: pre)). now apply in_map.
Qed.

Lemma disjoint_total :
  (forall i j a, i < length f -> j < length f -> i <> j -> wrong f g i a = true -> wrong f g j a = false) ->
  (total_rate T f g == average T (fun a => b2q (differ f g a)))%Q.
Proof.
  intro HD. destruct (differences_spec M _ f g HL Wf Wg Bf Bg) as (d & Ed & Ld & Wd & Bd & Nd & Dd).
  unfold total_rate, output_rate.
  assert (SUM : forall l, NoDup l -> (forall i, In i l -> i < length f) ->
    (sumQ (map (fun i => average T (fun a => b2q (wrong f g i a))) l) == average T (fun a => b2q (existsb (fun i => wrong f g i a) l)))%Q).
  { induction l as [|i l IH]; intros Nl Hl; cbn [map existsb]; [rewrite sumQ_nil; cbn [b2q]; now rewrite average_const|].
    inversion Nl; subst. rewrite sumQ_cons, IH; auto; [|intros j Hj; apply Hl; now right]. rewrite <- average_plus. apply average_ext.
    intro a. destruct (wrong f g i a) eqn:Wi; cbn [orb b2q]; [|lra].
    destruct (existsb (fun i0 => wrong f g i0 a) l) eqn:X; [|cbn [b2q]; lra]. exfalso. apply existsb_exists in X.
    destruct X as (j & Hj & Ej). rewrite (HD i j a) in Ej; auto; [discriminate|apply Hl; now left|apply Hl; now right|]. intro; subst; contradiction. }
  rewrite SUM; [|apply seq_NoDup|intros i Hi; apply in_seq in Hi; lia].
  apply average_ext. intro a. rewrite <- Dd.
  match goal with |- (b2q ?x == b2q ?y)%Q => assert (EX : x = y); [|rewrite EX; reflexivity] end. apply eq_true_iff_eq. rewrite !existsb_exists. split.
  - intros (i & Hi & Ei). apply in_seq in Hi. exists (nth i d bzero). split; [apply nth_In; lia|]. now rewrite Nd by lia.
  - intros (b & Hb & Eb). destruct (In_nth d b bzero Hb) as (i & Hi & <-). exists i. split; [apply in_seq; lia|]. now rewrite <- Nd by lia.
Qed.

Lemma nested_max j k : j < length f -> k < length f -> (rate j <= rate k)%Q ->
  (forall i a, i < length f -> wrong f g i a = true -> wrong f g j a = true) ->
  (forall i a, i < length f -> wrong f g i a = true -> wrong f g k a = true)
  /\ (rate k == average T (fun a => b2q (differ f g a)))%Q.
Proof.
  intros Hj Rk1 Lj HD. destruct (differences_spec M _ f g HL Wf Wg Bf Bg) as (d & Ed & Ld & Wd & Bd & Nd & Dd).
  assert (HDk : forall i a, i < length f -> wrong f g i a = true -> wrong f g k a = true).
  { intros i a Hi Ha. apply HD in Ha; auto. destruct (wrong f g k a) eqn:Ek; auto. exfalso.
    assert (Z : (average T (fun a => b2q (wrong f g j a) + (-1) * b2q (wrong f g k a)) == 0)%Q).
    { apply Qle_antisym.
      - rewrite average_plus, average_scale. fold (output_rate T f g j) (output_rate T f g k). fold (rate j) (rate k). lra.
      - apply average_nonneg. intro b. specialize (HD k b Rk1). destruct (wrong f g k b); [rewrite HD by auto; cbn [b2q]; lra|].
        destruct (wrong f g j b); cbn [b2q]; lra. }
    assert (DB : forall i, i < length f -> forall a b, (forall x, x < T -> a x = b x) -> wrong f g i a = wrong f g i b).
    { intros x Hx a' b' Hab. unfold wrong. unfold below in Bf, Bg. rewrite Forall_forall in Bf, Bg.
      rewrite (Bf (nth x f bzero) ltac:(apply nth_In; lia) a' b' Hab), (Bg (nth x g bzero) ltac:(apply nth_In; lia) a' b' Hab). reflexivity. }
    apply average_zero_iff with (a := a) in Z.
    - rewrite Ha, Ek in Z. cbn [b2q] in Z. lra.
    - intros a' b' Hab. rewrite (DB j Hj a' b' Hab), (DB k Rk1 a' b' Hab). reflexivity.
    - intro b. specialize (HD k b Rk1). destruct (wrong f g k b); [rewrite HD by auto; cbn [b2q]; lra|].
      destruct (wrong f g j b); cbn [b2q]; lra. }
  split; [exact HDk|]. unfold rate, output_rate. apply average_ext. intro a. rewrite <- Dd.
  match goal with |- (b2q ?x == b2q ?y)%Q => assert (EX : x = y); [|rewrite EX; reflexivity] end. apply eq_true_iff_eq.
  rewrite existsb_exists. split.
  - intro Hk. exists (nth k d bzero). split; [apply nth_In; lia|]. now rewrite Nd by lia.
  - intros (b & Hb & Eb). destruct (In_nth d b bzero Hb) as (i & Hi & <-). rewrite Nd in Eb by lia. apply (HDk i a); auto; lia.
Qed.

(** no input makes two outputs wrong and every output gets a sample: exact *)
Lemma efficient_disjoint rm draws samples : index_order M -> (forall i, 0 < draws i <= rm)%Z ->
  (1 <= samples < 2 ^ 31)%Z -> two_wrong f g ->
  (forall i j a, i < length f -> j < length f -> i <> j -> wrong f g i a = true -> wrong f g j a = false) ->
  (forall i, i < length f -> (rate i == 0)%Q \/ (total_rate T f g <= inject_Z samples * rate i)%Q) ->
  exists q, error_rate_efficient_sampling M sort rm draws f g samples = Ok q
    /\ (q == average T (fun a => b2q (differ f g a)))%Q.
Proof.
  intros HX Hdr Hs H2 HD HK. destruct full_parts as (d & k & first & rest & Ed & Ld & Wd & Bd & Nd & Dd & E & V & P & O & W & R & Tt).
  assert (PW := proj2 (rest_pos d k first rest V P O R) H2).
  unfold error_rate_efficient_sampling. rewrite Ed. cbn [bind]. fold T. cbv zeta. rewrite E.
  inversion V as [|? ? V1 V2]; subst. destruct (valid_get M d Wd Bd _ V1) as (G & Wk & Bk). cbn [fst] in G. rewrite G. cbn [bind].
  set (mr := fold_left _ _ _) in *. cbn [fst] in Wk, Bk.
  pose proof (valid_nonneg d _ V1) as F0. cbn [snd] in F0.
  destruct (efficient_loop_exact M rm draws d samples Wd Bd Hs first mr false ltac:(lra) HX Hdr rest [nth k d bzero] 0 first V2)
    as (r & Er & Hr).
  { apply Forall_forall. intros p Hp. rewrite W. apply (rates_le d); auto. }
  { auto. } { constructor; auto. }
  { apply Forall_forall. intros p Hp. destruct (R p) as [R1 R2]; [now right|]. destruct (HK _ R1) as [K|K]; [left; lra|right].
    rewrite W, R2. lra. }
  { intros pre p post Erest a Ha. destruct (R p) as [R1 _]. { right. rewrite Erest. apply in_or_app. right. now left. }
    rewrite Nd in Ha by auto.
    change ([nth k d bzero] ++ map (fun p => nth (fst p) d bzero) pre) with (map (fun p : nat * Q => nth (fst p) d bzero) ((k, first) :: pre)).
    destruct (existsb _ _) eqn:X; auto. exfalso. apply existsb_exists in X. destruct X as (b & Hb & Eb).
    apply in_map_iff in Hb. destruct Hb as (q & <- & Hq).
    assert (Rq : fst q < length f). { apply R. destruct Hq as [<-|Hq]; [now left|]. right. rewrite Erest. apply in_or_app. now left. }
    rewrite Nd in Eb by auto. rewrite (HD (fst p) (fst q) a) in Eb; auto; [discriminate|].
    intro Ee. apply (prefix_first k first rest pre p post Erest P q Hq). auto. }
  fold T in Er. rewrite Er. cbn [bind].
  assert (ER : (r == average T (fun a => b2q (differ f g a)))%Q) by (rewrite Hr, Tt; now apply disjoint_total).
  assert (LE : (average T (fun a => b2q (differ f g a)) <= 1)%Q).
  { rewrite <- (average_const T 1). apply average_le. intro a. destruct (differ f g a); cbn [b2q]; lra. }
  destruct (min_one r) as [[-> Lr]|[-> Lr]]; eexists; (split; [reflexivity|]); lra.
Qed.

(** one output is wrong whenever any output is: exact *)
Lemma efficient_nested rm draws samples j : index_order M -> (forall i, 0 < draws i <= rm)%Z ->
  (1 <= samples < 2 ^ 31)%Z -> two_wrong f g -> j < length f ->
  (forall i a, i < length f -> wrong f g i a = true -> wrong f g j a = true) ->
  exists q, error_rate_efficient_sampling M sort rm draws f g samples = Ok q
    /\ (q == average T (fun a => b2q (differ f g a)))%Q.
Proof.
  intros HX Hdr Hs H2 Hj HD. destruct full_parts as (d & k & first & rest & Ed & Ld & Wd & Bd & Nd & Dd & E & V & P & O & W & R & Tt).
  assert (PW := proj2 (rest_pos d k first rest V P O R) H2).
  unfold error_rate_efficient_sampling. rewrite Ed. cbn [bind]. fold T. cbv zeta. rewrite E.
  inversion V as [|? ? V1 V2]; subst. destruct (valid_get M d Wd Bd _ V1) as (G & Wk & Bk). cbn [fst] in G. rewrite G. cbn [bind].
  set (mr := fold_left _ _ _) in *. cbn [fst] in Wk, Bk.
  pose proof (valid_nonneg d _ V1) as F0. cbn [snd] in F0.
  destruct (R (k, first)) as [Rk1 Rk2]; [now left|]. cbn [fst snd] in Rk1, Rk2.
  (* the first output is as good as j *)
  assert (Lj : (rate j <= rate k)%Q).
  { rewrite <- Rk2. assert (I : In j (k :: map fst rest)) by (apply (Permutation_in _ P), in_seq; lia).
    change (k :: map fst rest) with (map fst ((k, first) :: rest)) in I. apply in_map_iff in I. destruct I as (p & Ep & Hp).
    destruct (R p Hp) as [_ Rp]. rewrite Ep in Rp. rewrite <- Rp. destruct Hp as [<-|Hp]; [apply Qle_refl|auto]. }
  destruct (nested_max j k Hj Rk1 Lj HD) as [HDk RK].
  (* no further input is found: bounded above by a loop in which nothing is added *)
  assert (LOOP : forall l previous pos r, Forall (valid d) l -> Forall (fun p => snd p <= mr - first)%Q l ->
     wfs M previous -> below T previous -> (exists b, In b previous /\ forall a, ev b a = wrong f g k a) ->
     exists r', efficient_loop rm draws d T samples first mr l previous pos r = Ok r' /\ (r' == r)%Q).
  { induction l as [|[k2 r2] l IH]; intros previous pos r Vl Ll Wp Bp Hp; cbn [efficient_loop]; [exists r; split; [auto|reflexivity]|].
    inversion Vl as [|? ? V3 V4]; inversion Ll as [|? ? L3 L4]; subst. destruct (valid_get M d Wd Bd _ V3) as (G2 & Wk2 & Bk2).
    cbn [fst] in G2, Wk2, Bk2. rewrite G2. cbn [bind]. pose proof (valid_nonneg d _ V3) as R0. cbn [snd] in R0, L3.
    destruct (index_samples_spec M samples Hs first mr r2 ltac:(lra) (conj R0 L3)) as (q & -> & K). cbv zeta in K. set (n := Z.quot _ _) in *.
    assert (E1 : (- 2 ^ 63 <=? n)%Z = true) by (apply Z.leb_le; lia).
    assert (E2 : (n <? 2 ^ 63)%Z = true) by (apply Z.ltb_lt; lia). rewrite E1, E2. cbn [andb require_ bind].
    assert (Wp' : wfs M (previous ++ [nth k2 d bzero])) by (apply Forall_app; auto).
    assert (Bp' : below T (previous ++ [nth k2 d bzero])) by (apply Forall_app; split; auto).
    assert (Hp' : exists b, In b (previous ++ [nth k2 d bzero]) /\ forall a, ev b a = wrong f g k a).
    { destruct Hp as (b & Hb & Eb). exists b. split; auto. apply in_or_app. now left. }
    destruct (Z.eqb_spec n 0) as [En|En]; [apply IH; auto|].
    assert (E3 : (n <? 2 ^ 31)%Z = true) by (apply Z.ltb_lt; lia). rewrite E3. cbn [require_ bind].
    assert (S : exists a, ev (nth k2 d bzero) a = true).
    { destruct (is_zero (nth k2 d bzero)) eqn:Ez; [|now apply (is_zero_false M)].
      exfalso. apply En. apply K. destruct V3 as [_ V3]. cbn [fst snd] in V3. rewrite V3.
      apply (frac_zero_iff M); auto. apply (canonical M); auto with wf. intro a. rewrite (is_zero_sem M) in Ez by auto. rewrite Ez. reflexivity. }
    rewrite (good_loop_exact M T rm (random_sampler rm T) draws (nth k2 d bzero) previous true Wp Bp (random_sampler_sound M rm T HX ltac:(specialize (Hdr 0); lia)) Hdr Wk2 Bk2 S).
    2:{ intros a Ha. destruct Hp as (b & Hb & Eb). apply existsb_exists. exists b. split; auto. rewrite Eb.
        destruct V3 as [V3 _]. cbn [fst] in V3. rewrite Nd in Ha by lia. apply (HDk k2 a); auto; lia. }
    cbn [bind]. cbv zeta.
    destruct (IH (previous ++ [nth k2 d bzero]) (pos + Z.to_nat n * T) (r + r2 * (inject_Z 0 / inject_Z n))%Q V4 L4 Wp' Bp' Hp') as (r' & -> & Hr).
    exists r'. split; auto. rewrite Hr. assert (0 < inject_Z n)%Q by (apply injZ_pos; lia). change (inject_Z 0) with 0%Q. field. lra. }
  destruct (LOOP rest [nth k d bzero] 0 first V2) as (r & Er & Hr).
  { apply Forall_forall. intros p Hp. rewrite W. apply (rates_le d); auto. }
  { auto. } { constructor; auto. }
  { exists (nth k d bzero). split; [now left|]. intro a. now apply Nd. }
  fold T in Er. rewrite Er. cbn [bind].
  assert (ER : (r == average T (fun a => b2q (differ f g a)))%Q) by (rewrite Hr, Rk2; exact RK).
  assert (LE : (average T (fun a => b2q (differ f g a)) <= 1)%Q).
  { rewrite <- (average_const T 1). apply average_le. intro a. destruct (differ f g a); cbn [b2q]; lra. }
  destruct (min_one r) as [[-> Lr]|[-> Lr]]; eexists; (split; [reflexivity|]); lra.
Qed.
End Full.
