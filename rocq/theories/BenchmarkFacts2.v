(** names, files, times and C strings *)
From Coq Require Import Ascii String List Bool Arith ZArith QArith Lia Lqa DecimalString DecimalN.
From Verif Require Import Res Cudd CuddFacts Spec SpecFacts Helpers HelpersFacts Metrics Examples AdderFacts MinimizeFacts Parsing
  SpecParsing ParsingFacts2 Benchmark SpecBenchmark.
Import ListNotations.
Open Scope string_scope.
Open Scope nat_scope.

(** ** names *)
Lemma to_string_inj a b : to_string a = to_string b -> a = b.
Proof.
  unfold to_string. intro H. apply DecimalN.Unsigned.to_uint_inj.
  assert (E : NilEmpty.uint_of_string (NilEmpty.string_of_uint (N.to_uint a)) = NilEmpty.uint_of_string (NilEmpty.string_of_uint (N.to_uint b))) by (rewrite H; reflexivity).
  rewrite !NilEmpty.usu in E. injection E as E. exact E.
Qed.

Lemma digits_stop d : forall d' r r', NilEmpty.string_of_uint d ++ String "_" r = NilEmpty.string_of_uint d' ++ String "_" r' -> d = d' /\ r = r'.
Proof.
  induction d; intros d' r r'; destruct d'; cbn [NilEmpty.string_of_uint append]; intro H; try discriminate H;
    try (injection H as H; destruct (IHd _ _ _ H) as [-> ->]; split; reflexivity).
  injection H as H. subst. split; reflexivity.
Qed.
Lemma number_stop a b r r' : to_string a ++ String "_" r = to_string b ++ String "_" r' -> a = b /\ r = r'.
Proof.
  intro H. unfold to_string in H. apply digits_stop in H. destruct H as [H ->]. split; [|reflexivity].
  exact (DecimalN.Unsigned.to_uint_inj _ _ H).
Qed.

Lemma adder_name_inj a b n n' p p' q q' :
  approximate_adder_name a n p q = approximate_adder_name b n' p' q' ->
  a = b /\ n = n' /\ p = p' /\ (uses_par2 a = true -> q = q').
Proof.
  destruct a, b; cbn [approximate_adder_name append uses_par2]; intro H; try discriminate H.
  - injection H as H. apply number_stop in H. destruct H as [-> H]. injection H as H. apply to_string_inj in H. subst.
    split; [reflexivity|]. split; [reflexivity|]. split; [reflexivity|discriminate].
  - injection H as H. apply number_stop in H. destruct H as [-> H]. injection H as H. apply to_string_inj in H. subst.
    split; [reflexivity|]. split; [reflexivity|]. split; [reflexivity|discriminate].
  - injection H as H. apply number_stop in H. destruct H as [-> H]. injection H as H. apply number_stop in H. destruct H as [-> H].
    injection H as H. apply to_string_inj in H. subst. split; [reflexivity|]. split; [reflexivity|]. split; reflexivity.
  - injection H as H. apply number_stop in H. destruct H as [-> H]. injection H as H. apply number_stop in H. destruct H as [-> H].
    injection H as H. apply to_string_inj in H. subst. split; [reflexivity|]. split; [reflexivity|]. split; reflexivity.
Qed.

Lemma metric_name_inj m m' : error_metric_name m = error_metric_name m' -> m = m'.
Proof. destruct m, m'; cbn; intro H; (reflexivity || discriminate H). Qed.

Lemma by_id_nodup (files : list string) i j s : NoDup files -> by_id files i = Ok s -> by_id files j = Ok s -> i = j.
Proof.
  intros N. unfold by_id. destruct (Nat.leb_spec (List.length files) i); [discriminate|].
  destruct (Nat.leb_spec (List.length files) j); [discriminate|]. unfold vget.
  destruct (nth_error files i) eqn:Ei; [|discriminate]. destruct (nth_error files j) eqn:Ej; [|discriminate].
  intros E1 E2. injection E1 as ->. injection E2 as ->.
  rewrite NoDup_nth_error in N. apply N; [exact H|]. congruence.
Qed.
Lemma by_id_range (files : list string) i : (i < List.length files -> exists s, by_id files i = Ok s /\ nth_error files i = Some s)
  /\ (List.length files <= i -> by_id files i = Throw).
Proof.
  unfold by_id. split; intro H.
  - destruct (Nat.leb_spec (List.length files) i); [lia|]. unfold vget.
    destruct (nth_error files i) as [s|] eqn:E; [exists s; auto|]. apply nth_error_None in E. lia.
  - destruct (Nat.leb_spec (List.length files) i); [reflexivity|lia].
Qed.
Ltac nodup_strings := repeat (constructor; [cbn [In]; intuition discriminate|]); constructor.
Lemma iscas_nodup : NoDup iscas_85_files. Proof. unfold iscas_85_files. nodup_strings. Qed.
Lemma epfl_nodup : NoDup epfl_files. Proof. unfold epfl_files. nodup_strings. Qed.

Lemma names_full :
  (forall m m', error_metric_name m = error_metric_name m' -> m = m')
  /\ (forall i, (i < 11 -> exists s, iscas_85_filepath_by_id i = Ok s) /\ (11 <= i -> iscas_85_filepath_by_id i = Throw))
  /\ (forall i j s, iscas_85_filepath_by_id i = Ok s -> iscas_85_filepath_by_id j = Ok s -> i = j)
  /\ (forall i, (i < 10 -> exists s, epfl_filepath_by_id i = Ok s) /\ (10 <= i -> epfl_filepath_by_id i = Throw))
  /\ (forall i j s, epfl_filepath_by_id i = Ok s -> epfl_filepath_by_id j = Ok s -> i = j).
Proof.
  split; [exact metric_name_inj|]. unfold iscas_85_filepath_by_id, epfl_filepath_by_id.
  split; [|split; [|split]].
  - intro i. destruct (by_id_range iscas_85_files i) as [H1 H2]. split; intro H.
    + destruct (H1 H) as (s & -> & _). cbn [bind]. eexists. reflexivity.
    + rewrite (H2 H). reflexivity.
  - intros i j s H1 H2. destruct (by_id iscas_85_files i) as [x| | |] eqn:E1; try discriminate H1.
    destruct (by_id iscas_85_files j) as [y| | |] eqn:E2; try discriminate H2. cbn [bind append] in H1, H2.
    assert (x = y) by congruence. subst y. exact (by_id_nodup _ i j x iscas_nodup E1 E2).
  - intro i. destruct (by_id_range epfl_files i) as [H1 H2]. split; intro H.
    + destruct (H1 H) as (s & -> & _). cbn [bind]. eexists. reflexivity.
    + rewrite (H2 H). reflexivity.
  - intros i j s H1 H2. destruct (by_id epfl_files i) as [x| | |] eqn:E1; try discriminate H1.
    destruct (by_id epfl_files j) as [y| | |] eqn:E2; try discriminate H2. cbn [bind append] in H1, H2.
    assert (x = y) by congruence. subst y. exact (by_id_nodup _ i j x epfl_nodup E1 E2).
Qed.

(** ** adders *)
Lemma get_adder_full M a N p1 p2 :
  (admissible a N p1 p2 -> exists r, get_approximate_adder M a N p1 p2 = Ok r /\ wfs M r /\ underestimates N r)
  /\ (~ admissible a N p1 p2 -> forall r, get_approximate_adder M a N p1 p2 <> Ok r).
Proof.
  destruct a; cbn [admissible get_approximate_adder]; split; intro H.
  - exact (aca1_c61 M N p1 H).
  - intro r. rewrite (aca1_bad M N p1 H). discriminate.
  - exact (aca2_c61 M N p1 (proj1 H) (proj2 H)).
  - intro r. destruct (aca2_bad M N p1) as [H1 H2].
    destruct (Nat.lt_ge_cases 0 p1) as [L|L]; [|rewrite H1 by lia; discriminate].
    destruct (Nat.le_gt_cases p1 N) as [L'|L']; [|rewrite H1 by lia; discriminate].
    rewrite H2; [discriminate|lia|lia].
  - exact (gda_c61 M N p1 p2 (proj1 H) (proj2 H)).
  - intro r. rewrite (gda_bad M N p1 p2 H). discriminate.
  - exact (gear_c61 M N p1 p2 (proj1 H) (proj1 (proj2 H)) (proj2 (proj2 H))).
  - intro r. rewrite (gear_bad M N p1 p2 H). discriminate.
Qed.

(** ** inputs *)
Lemma uval_bit f : forall i a, i < List.length f -> ev (nth i f bzero) a = Z.testbit (uval f a) (Z.of_nat i).
Proof.
  induction f as [|b f IH]; intros i a H; [cbn in H; lia|]. cbn [uval]. rewrite Z.add_comm. destruct i as [|i]; cbn [nth].
  - rewrite Z.testbit_0_r. reflexivity.
  - rewrite Nat2Z.inj_succ, Z.testbit_succ_r by lia. apply IH. cbn in H. lia.
Qed.
Lemma number_ext n x y : (forall i, i < n -> x i = y i) -> number n x = number n y.
Proof.
  revert x y. induction n as [|n IH]; intros x y H; [reflexivity|]. cbn [number].
  rewrite (H n) by lia. rewrite (IH x y); [reflexivity|]. intros i Hi. apply H. lia.
Qed.

Lemma load_adder_full bits : (Z.of_nat bits < 2 ^ 31)%Z ->
  exists M r, load_adder bits = Ok (M, r) /\ index_order M /\ read_size M = 2 * bits + 1
    /\ wfs M r /\ List.length r = bits + 1 /\ below (2 * bits) r
    /\ forall a, uval r a = (number bits (op1 a) + number bits (op2 a))%Z.
Proof.
  intro Hb. unfold load_adder.
  assert (E : Z.to_nat (u32 (2 * Z.of_nat bits + 1)) = 2 * bits + 1) by (unfold u32; rewrite Z.mod_small by lia; lia).
  rewrite E. destruct (regular_ok (id_mgr (2 * bits + 1)) bits) as (r & Er & Wr & Lr & V). rewrite Er. cbn [bind].
  exists (id_mgr (2 * bits + 1)), r. split; [reflexivity|]. split; [intro i; reflexivity|]. split; [reflexivity|].
  split; [exact Wr|]. split; [exact Lr|]. split; [|exact V].
  apply Forall_forall. intros b Hin a a' Ha. apply (In_nth _ _ bzero) in Hin. destruct Hin as (i & Hi & <-).
  rewrite !uval_bit by exact Hi. rewrite !V.
  rewrite (number_ext bits (op1 a) (op1 a')) by (intros; unfold op1; apply Ha; lia).
  rewrite (number_ext bits (op2 a) (op2 a')) by (intros; unfold op2; apply Ha; lia). reflexivity.
Qed.

Lemma load_input_adder files M0 input bits : In (input, bits) adder_names ->
  load_input files M0 input = load_adder bits /\ (Z.of_nat bits < 2 ^ 31)%Z.
Proof.
  cbn [adder_names In]. intros [E | [E | [E | []]]]; injection E as <- <-; split; reflexivity.
Qed.
Lemma load_input_other files M0 input : (forall bits, ~ In (input, bits) adder_names) ->
  load_input files M0 input = load_file files M0 input.
Proof.
  intro H. unfold load_input.
  destruct (String.eqb_spec input "adder8") as [->|_]; [exfalso; apply (H 8); cbn; auto|].
  destruct (String.eqb_spec input "adder16") as [->|_]; [exfalso; apply (H 16); cbn; auto|].
  destruct (String.eqb_spec input "adder32") as [->|_]; [exfalso; apply (H 32); cbn; auto|]. reflexivity.
Qed.

(** ** times *)
Lemma qlt_spec p q : (qlt p q = true <-> p < q)%Q /\ (qlt p q = false <-> q <= p)%Q.
Proof.
  unfold qlt. pose proof (Qle_bool_iff q p) as H. destruct (Qle_bool q p); cbn [negb]; split; split; intro K; try discriminate K; try reflexivity.
  - exfalso. assert (q <= p)%Q by (apply H; reflexivity). lra.
  - apply H. reflexivity.
  - apply Qnot_le_lt. intro L. apply H in L. discriminate L.
  - exfalso. apply H in K. discriminate K.
Qed.
Lemma to_int_pos q : (0 <= q)%Q -> (q < inject_Z (2 ^ 31))%Q -> exists z, to_int q = Ok z /\ (inject_Z z <= q < inject_Z (z + 1))%Q.
Proof.
  intros H1 H2. unfold to_int.
  assert (Hn : (0 <= Qnum q)%Z) by (unfold Qle in H1; cbn in H1; lia).
  rewrite Z.quot_div_nonneg by lia. set (z := (Qnum q / Zpos (Qden q))%Z).
  assert (Hz : (0 <= z)%Z) by (apply Z.div_pos; lia).
  assert (B : (inject_Z z <= q < inject_Z (z + 1))%Q).
  { unfold Qle, Qlt. cbn [inject_Z Qnum Qden]. pose proof (Z.mul_div_le (Qnum q) (Zpos (Qden q)) ltac:(lia)).
    pose proof (Z.mul_succ_div_gt (Qnum q) (Zpos (Qden q)) ltac:(lia)). unfold z. split; lia. }
  assert (Hz2 : (z < 2 ^ 31)%Z).
  { apply Z.lt_nge. intro L. rewrite Zle_Qle in L. destruct B. lra. }
  destruct (Z.leb_spec (- 2 ^ 31) z); [|lia]. destruct (Z.ltb_spec z (2 ^ 31)); [|lia]. exists z. split; [reflexivity|exact B].
Qed.
Lemma to_int_big q : (inject_Z (2 ^ 31) <= q)%Q -> to_int q = UB.
Proof.
  intros H. unfold to_int.
  assert (Hn : (2 ^ 31 * Zpos (Qden q) <= Qnum q)%Z) by (unfold Qle in H; cbn [inject_Z Qnum Qden] in H; lia).
  rewrite Z.quot_div_nonneg by lia. pose proof (Z.div_le_lower_bound (Qnum q) (Zpos (Qden q)) (2 ^ 31) ltac:(lia) ltac:(lia)).
  destruct (Z.ltb_spec (Qnum q / Zpos (Qden q)) (2 ^ 31)); [lia|]. rewrite andb_false_r. reflexivity.
Qed.
Lemma to_int_neg q : (q < 0)%Q -> (inject_Z (- 2 ^ 31 - 1) < q)%Q -> exists z, to_int q = Ok z /\ (inject_Z (z - 1) < q <= inject_Z z)%Q.
Proof.
  intros H1 H2. unfold to_int.
  assert (Hn : (Qnum q < 0)%Z) by (unfold Qlt in H1; cbn in H1; lia).
  assert (E : (Z.quot (Qnum q) (Zpos (Qden q)) = - (- Qnum q / Zpos (Qden q)))%Z).
  { rewrite <- Z.quot_div_nonneg by lia. rewrite Z.quot_opp_l by lia. lia. }
  rewrite E. set (z := (- Qnum q / Zpos (Qden q))%Z).
  assert (Hz : (0 <= z)%Z) by (apply Z.div_pos; lia).
  assert (B : (inject_Z (- z - 1) < q <= inject_Z (- z))%Q).
  { unfold Qle, Qlt. cbn [inject_Z Qnum Qden]. pose proof (Z.mul_div_le (- Qnum q) (Zpos (Qden q)) ltac:(lia)).
    pose proof (Z.mul_succ_div_gt (- Qnum q) (Zpos (Qden q)) ltac:(lia)). unfold z. split; lia. }
  assert (Hz2 : (- 2 ^ 31 - 1 < - z)%Z).
  { rewrite Zlt_Qlt. destruct B. lra. }
  destruct (Z.leb_spec (- 2 ^ 31) (- z)); [|lia]. destruct (Z.ltb_spec (- z) (2 ^ 31)); [|lia]. exists (- z)%Z. split; [reflexivity|exact B].
Qed.
Lemma to_int_small q : (q <= inject_Z (- 2 ^ 31 - 1))%Q -> to_int q = UB.
Proof.
  intros H. unfold to_int.
  assert (Hn : (Qnum q <= (- 2 ^ 31 - 1) * Zpos (Qden q))%Z) by (unfold Qle in H; cbn [inject_Z Qnum Qden] in H; lia).
  assert (E : (Z.quot (Qnum q) (Zpos (Qden q)) = - (- Qnum q / Zpos (Qden q)))%Z).
  { rewrite <- Z.quot_div_nonneg by lia. rewrite Z.quot_opp_l by lia. lia. }
  rewrite E. pose proof (Z.div_le_lower_bound (- Qnum q) (Zpos (Qden q)) (2 ^ 31 + 1) ltac:(lia) ltac:(lia)).
  destruct (Z.leb_spec (- 2 ^ 31) (- (- Qnum q / Zpos (Qden q)))); [lia|]. reflexivity.
Qed.

(** the unit of a time and its length in milliseconds *)
Lemma scaled ms z l : (inject_Z z <= ms / inject_Z (Zpos l) < inject_Z (z + 1))%Q ->
  (inject_Z (z * Zpos l) <= ms < inject_Z ((z + 1) * Zpos l))%Q.
Proof.
  intros [H1 H2]. rewrite !inject_Z_mult. assert (P : (0 < inject_Z (Zpos l))%Q) by reflexivity.
  apply (Qmult_le_compat_r _ _ (inject_Z (Zpos l))) in H1; [|lra].
  apply (Qmult_lt_compat_r _ _ (inject_Z (Zpos l))) in H2; [|exact P].
  assert (E : (ms / inject_Z (Zpos l) * inject_Z (Zpos l) == ms)%Q) by (field; intro Z0; rewrite Z0 in P; lra).
  rewrite E in H1, H2. split; assumption.
Qed.

Lemma format_time_full :
  (forall ms, (0 <= ms < inject_Z (60000 * 2 ^ 31))%Q -> exists z unit len,
     format_time (Fin ms) = Ok (to_string_int z ++ " " ++ unit) /\ time_unit ms unit len
     /\ (inject_Z (z * len) <= ms < inject_Z ((z + 1) * len))%Q)
  /\ (forall ms, (inject_Z (- 2 ^ 31 - 1) < ms < 0)%Q -> exists z,
       format_time (Fin ms) = Ok (to_string_int z ++ " ms") /\ (inject_Z (z - 1) < ms <= inject_Z z)%Q)
  /\ (forall ms, (inject_Z (60000 * 2 ^ 31) <= ms \/ ms <= inject_Z (- 2 ^ 31 - 1))%Q -> format_time (Fin ms) = UB)
  /\ format_time NonFin = UB.
Proof.
  split; [|split; [|split; [|reflexivity]]].
  - intros ms [H1 H2]. cbn [format_time]. destruct (qlt ms 1000) eqn:E1; [|destruct (qlt ms 300000) eqn:E2].
    + apply (qlt_spec ms 1000) in E1. destruct (to_int_pos ms H1) as (z & E & B); [apply (Qlt_trans _ 1000); [exact E1|reflexivity]|].
      rewrite E. cbn [bind]. exists z, "ms", 1%Z. split; [reflexivity|]. split; [left; auto|]. rewrite !Z.mul_1_r. exact B.
    + apply (qlt_spec ms 1000) in E1. apply (qlt_spec ms 300000) in E2.
      assert (P : (0 <= ms / 1000)%Q). { apply Qle_shift_div_l; [reflexivity|]. lra. }
      destruct (to_int_pos (ms / 1000) P) as (z & E & B).
      { apply Qlt_shift_div_r; [reflexivity|]. apply (Qlt_trans _ 300000); [exact E2|reflexivity]. }
      rewrite E. cbn [bind]. exists z, "s", 1000%Z. split; [reflexivity|]. split; [right; left; auto|]. exact (scaled ms z 1000 B).
    + apply (qlt_spec ms 1000) in E1. apply (qlt_spec ms 300000) in E2.
      assert (P : (0 <= ms / 60000)%Q). { apply Qle_shift_div_l; [reflexivity|]. lra. }
      destruct (to_int_pos (ms / 60000) P) as (z & E & B).
      { apply Qlt_shift_div_r; [reflexivity|]. eapply Qlt_le_trans; [exact H2|]. vm_compute. discriminate. }
      rewrite E. cbn [bind]. exists z, "m", 60000%Z. split; [reflexivity|]. split; [right; right; auto|]. exact (scaled ms z 60000 B).
  - intros ms [H1 H2]. cbn [format_time]. destruct (qlt ms 1000) eqn:E1.
    + destruct (to_int_neg ms H2 H1) as (z & E & B). rewrite E. cbn [bind]. exists z. split; [reflexivity|exact B].
    + apply (qlt_spec ms 1000) in E1. lra.
  - intros ms [H | H]; cbn [format_time].
    + assert (L : (300000 <= ms)%Q) by (eapply Qle_trans; [|exact H]; vm_compute; discriminate).
      destruct (qlt ms 1000) eqn:E1; [apply (qlt_spec ms 1000) in E1; lra|].
      destruct (qlt ms 300000) eqn:E2; [apply (qlt_spec ms 300000) in E2; lra|].
      rewrite to_int_big; [reflexivity|]. apply Qle_shift_div_l; [reflexivity|]. eapply Qle_trans; [|exact H]. vm_compute. discriminate.
    + assert (L : (ms < 1000)%Q) by (eapply Qle_lt_trans; [exact H|]; reflexivity).
      destruct (qlt ms 1000) eqn:E1; [|apply (qlt_spec ms 1000) in E1; lra].
      rewrite (to_int_small ms H). reflexivity.
Qed.

(** the digits name the number *)
Lemma to_string_int_inj x y : to_string_int x = to_string_int y -> x = y.
Proof.
  assert (D : forall n r, to_string n <> String "-" r).
  { intros n r H. unfold to_string in H. destruct (N.to_uint n); cbn [NilEmpty.string_of_uint] in H; discriminate H. }
  unfold to_string_int. destruct x as [|p|p], y as [|q|q]; intro H; try reflexivity;
    try (exfalso; apply (D _ _ (eq_sym H)); fail); try (exfalso; apply (D _ _ H); fail).
  - apply to_string_inj in H. cbn in H. discriminate H.
  - apply to_string_inj in H. cbn in H. discriminate H.
  - apply to_string_inj in H. cbn in H. congruence.
  - cbn [append] in H. injection H as H. apply to_string_inj in H. congruence.
Qed.

Lemma load_input_file files M input : (forall bits, ~ In (input, bits) adder_names) ->
  (files input = None -> load_input files M input = Throw)
  /\ (forall m i o evs, files input = Some (m, i, o, evs) -> ok_file m i o evs ->
      exists outs, load_input files M input = Ok (M, outs) /\ List.length outs = N.to_nat o
        /\ forall j, (j < o)%N -> exists f lit, nth_error outs (N.to_nat j) = Some f /\ wf M f /\ output_literal evs j lit
             /\ forall a b, lit_value evs a lit b <-> ev f a = b).
Proof.
  intro H. rewrite (load_input_other files M input H). unfold load_file. split.
  - intros ->. reflexivity.
  - intros m i o evs -> K. destruct (aig_correct M m i o evs K) as (outs & E & L & F). rewrite E. cbn [bind].
    exists outs. split; [reflexivity|]. split; [exact L|exact F].
Qed.
