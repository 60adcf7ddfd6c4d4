(** Proofs about the bucket minimisation: the result is never worse than one step from the original. *)
From Coq Require Import List Bool Arith ZArith QArith Lia Lqa.
From Verif Require Import Res Cudd CuddFacts Spec SpecFacts Helpers Metrics Operators Examples AdderFacts Minimize SpecMinimize MinimizeFacts MinimizeFacts2
  MinimizeFacts3 MinimizeFacts5.
Import ListNotations.
Open Scope nat_scope.

Section First.
Variable function : list bdd.
Variable metrics : list MetricDimension.
Variable operators : list OperatorFunction.
Variable pop_all : bool.
Notation grid := (bucket_grid_size metrics).
Hypothesis has_metric : metrics <> [].
Hypothesis grid_pos : Forall (fun b => (0 < b)%Z) grid.
Hypothesis grid_vol : (volume grid < 2 ^ 64)%Z.
Notation T := (Z.to_nat (volume grid)).
Notation at_index := (at_index metrics).
Notation measured := (measured function).
Notation good_op := (good_op function metrics operators pop_all).
Notation good_state := (good_state function metrics operators pop_all).

(** the outcome of [op] is matched *)
Definition matched (buckets : list Bucket) (g : list bdd) (op : OperatorFunction) : Prop :=
  forall g' idx vals, op g = Ok g' -> measured g' metrics idx vals -> dominated metrics buckets idx (nodeCount g').
Lemma matched_shrinks x y g op : shrinks x y -> matched x g op -> matched y g op.
Proof. intros HS H g' idx vals E ME. eapply dominated_shrinks; eauto. Qed.

Lemma op_step_shrinks cur bf done st st' : op_step function metrics operators pop_all cur bf done st = Ok st' ->
  shrinks (fst (fst (fst st))) (fst (fst (fst st'))).
Proof.
  intro H. destruct st as [[[buckets replace] test] possible]. unfold op_step in H.
  destruct (vget operators done) as [op| | |]; cbn [bind] in H; try discriminate.
  destruct (vget possible done) as [p| | |]; cbn [bind] in H; try discriminate.
  destruct (negb p); [injection H as <-; apply shrinks_refl|].
  destruct (op bf) as [modified| | |]; cbn [bind] in H; try discriminate. cbv zeta in H.
  destruct (vget buckets cur) as [c| | |]; cbn [bind] in H; try discriminate.
  destruct (bdd_size c <=? nodeCount modified).
  { destruct (_ <? _); [|injection H as <-; apply shrinks_refl].
    destruct (vset possible done false); cbn [bind] in H; try discriminate. injection H as <-. apply shrinks_refl. }
  destruct (metric_loop _ _ _ _ _ _ _ _ _) as [[rm|idx vals]| | |]; cbn [bind] in H; try discriminate.
  { destruct rm; [|injection H as <-; apply shrinks_refl].
    destruct (vset possible done false); cbn [bind] in H; try discriminate. injection H as <-. apply shrinks_refl. }
  destruct (reduce_multi_dim_index _ _); cbn [bind] in H; try discriminate.
  destruct (populate _ _ _ _ _ _ _ _) as [[[bs rp] ts]| | |] eqn:EP; cbn [bind] in H; try discriminate. injection H as <-.
  destruct (populate_step metrics _ _ _ _ _ _ _ _ EP) as (P1 & _). exact P1.
Qed.
Lemma loop_shrinks cur bf : forall l st st', for_each l st (op_step function metrics operators pop_all cur bf) = Ok st' ->
  shrinks (fst (fst (fst st))) (fst (fst (fst st'))).
Proof.
  induction l as [|i l IH]; intros st st' H; cbn [for_each] in H; [injection H as <-; apply shrinks_refl|].
  destruct (op_step _ _ _ _ _ _ _ _) as [st1| | |] eqn:E; cbn [bind] in H; try discriminate.
  eapply shrinks_trans; [exact (op_step_shrinks _ _ _ _ _ E)|exact (IH _ _ H)].
Qed.
Lemma explore_shrinks buckets first rest buckets' test' : explore function metrics operators pop_all buckets first rest = Ok (buckets', test') ->
  shrinks buckets buckets'.
Proof.
  intro H. unfold explore in H. cbv zeta in H.
  destruct (reduce_multi_dim_index _ _); cbn [bind] in H; try discriminate.
  destruct (vget buckets _); cbn [bind] in H; try discriminate.
  destruct (for_each _ _ _) as [[[[bs rp] ts] possible]| | |] eqn:EF; cbn [bind] in H; try discriminate.
  destruct (replace_loop rp possible bs) as [bs'| | |] eqn:ER; cbn [bind] in H; try discriminate. injection H as <- <-.
  apply loop_shrinks in EF. cbn [fst] in EF. destruct (replace_keeps _ _ _ _ ER) as (R1 & _). eapply shrinks_trans; eauto.
Qed.
Lemma search_shrinks fuel : forall buckets test buckets', search function metrics operators pop_all fuel buckets test = Some (Ok buckets') ->
  shrinks buckets buckets'.
Proof.
  induction fuel as [|fuel IH]; intros buckets test buckets' H; destruct test as [|first rest]; cbn [search] in H; try discriminate;
    try (injection H as <-; apply shrinks_refl).
  destruct (explore _ _ _ _ _ _ _) as [[bs ts]| | |] eqn:E; try discriminate.
  eapply shrinks_trans; [exact (explore_shrinks _ _ _ _ _ E)|exact (IH _ _ _ H)].
Qed.

(** the step for an operator that is marked as possible; the explored cell is below all others *)
Lemma op_step_matched cur xcur bf done st st' op : at_index cur xcur -> (forall idx, in_box grid idx -> below_all xcur idx) ->
  derived operators function bf -> good_op st -> nth_error operators done = Some op -> nth_error (snd st) done = Some true ->
  op_step function metrics operators pop_all cur bf done st = Ok st' ->
  matched (fst (fst (fst st'))) bf op /\ forall k, S done <= k -> nth_error (snd st') k = nth_error (snd st) k.
Proof.
  intros AC MINI HD GO Ho Hp H. destruct st as [[[buckets replace] test] possible]. cbn [fst snd] in *. unfold op_step in H.
  assert (E1 : vget operators done = Ok op) by (now apply vget_iff). assert (E2 : vget possible done = Ok true) by (now apply vget_iff).
  rewrite E1, E2 in H. cbn [bind negb] in H.
  destruct (op bf) as [modified| | |] eqn:Em; cbn [bind] in H; try discriminate. cbv zeta in H.
  destruct (vget buckets cur) as [c| | |] eqn:Ec; cbn [bind] in H; try discriminate. apply vget_iff in Ec.
  assert (VS : forall ps k, vset possible done false = Ok ps -> S done <= k -> nth_error ps k = nth_error possible k).
  { intros ps k Hv Hk. destruct (vset_spec _ _ _ _ Hv) as (_ & _ & N). rewrite N.
    assert (k =? done = false) as -> by (apply Nat.eqb_neq; lia). reflexivity. }
  destruct (bdd_size c <=? nodeCount modified) eqn:Es.
  { apply Nat.leb_le in Es.
    assert (EX : matched buckets bf op).
    { intros g' idx vals Eg ME. assert (g' = modified) as -> by congruence. exists cur, c, xcur. split; auto. split; auto. split; auto.
      apply MINI. exact (measured_box _ _ _ _ _ ME). }
    destruct (_ <? _); [|injection H as <-; auto].
    destruct (vset possible done false) as [ps| | |] eqn:Eps; cbn [bind] in H; try discriminate. injection H as <-. auto. }
  destruct (metric_loop _ _ _ _ _ _ _ _ _) as [v| | |] eqn:Ev; cbn [bind] in H; try discriminate.
  destruct v as [rm|idx vals].
  { assert (EX : matched buckets bf op).
    { intros g' idx vals Eg ME. assert (g' = modified) as -> by congruence.
      exact (metric_loop_reject function metrics grid_pos grid_vol buckets (nodeCount modified) modified metrics 0 [] [] [] rm idx vals
        eq_refl eq_refl eq_refl eq_refl (Forall2_nil _) ME Ev). }
    destruct rm; [|injection H as <-; auto].
    destruct (vset possible done false) as [ps| | |] eqn:Eps; cbn [bind] in H; try discriminate. injection H as <-. auto. }
  apply metric_loop_better in Ev. pose proof (measured_box _ _ _ _ _ Ev) as BX. fold grid in BX.
  rewrite (reduce_box metrics grid_vol) in H by auto. cbn [bind] in H.
  destruct (populate _ _ _ _ _ _ _ _) as [[[bs rp] ts]| | |] eqn:EP; cbn [bind] in H; try discriminate. injection H as <-. cbn [fst snd].
  split; [|auto]. intros g' idx' vals' Eg ME. assert (g' = modified) as -> by congruence.
  destruct (measured_fun _ _ _ _ _ _ _ ME Ev) as [-> ->].
  assert (LB : length buckets = T) by apply GO.
  assert (HO : done < length operators) by (apply nth_error_Some; congruence).
  assert (SM : nodeCount modified < nodeCount function).
  { apply Nat.leb_gt in Es. destruct GO as ((GB & _) & _). cbn [fst] in GB. destruct (proj2 GB cur c Ec) as (_ & G2 & _ & G4 & G5).
    destruct (is_empty c) eqn:Ee; [destruct (G4 eq_refl) as [G6 _]; rewrite G2, G6 in Es; lia|destruct (G5 eq_refl); lia]. }
  destruct (populate_sizes function metrics operators grid_pos done (nodeCount modified) modified idx vals HO eq_refl Ev SM _ _ _ _ _ _ _ LB EP) as [LB' SZ].
  set (k0 := Z.to_nat (flat idx grid 0)) in *.
  assert (KT : k0 < T) by (apply (flat_lt metrics); exact BX).
  destruct (nth_error buckets k0) as [bk|] eqn:Ek; [|apply nth_error_None in Ek; lia].
  destruct (SZ k0 bk idx Ek (at_flat metrics idx BX)) as (bk' & Ek' & D). exists k0, bk', idx. split; auto. split; [now apply (at_flat metrics)|].
  assert (RF : below_all idx idx) by (clear; induction idx; constructor; auto; lia). split; auto.
  destruct D as [[D _]|(_ & _ & D)]; [|lia]. exfalso. apply D. split; auto. apply in_seq. rewrite LB in *. destruct pop_all; lia.
Qed.
Lemma loop_matched cur xcur bf : at_index cur xcur -> (forall idx, in_box grid idx -> below_all xcur idx) ->
  derived operators function bf -> forall n a st st', good_op st -> (forall k, a <= k < a + n -> nth_error (snd st) k = Some true) ->
  for_each (seq a n) st (op_step function metrics operators pop_all cur bf) = Ok st' ->
  forall k op, a <= k < a + n -> nth_error operators k = Some op -> matched (fst (fst (fst st'))) bf op.
Proof.
  intros AC MINI HD. induction n as [|n IH]; intros a st st' GO FL H k op Hk Ho; [lia|]. cbn [seq for_each] in H.
  destruct (op_step _ _ _ _ _ _ _ _) as [st1| | |] eqn:E; cbn [bind] in H; try discriminate.
  assert (Eo : exists o, nth_error operators a = Some o).
  { destruct (nth_error operators a) as [o|] eqn:Eo; [eauto|]. apply nth_error_None in Eo.
    assert (k < length operators) by (apply nth_error_Some; congruence). lia. }
  destruct Eo as (o & Eo). destruct (op_step_matched cur xcur bf a st st1 o AC MINI HD GO Eo (FL a ltac:(lia)) E) as [MA F1].
  pose proof (op_step_good function metrics operators pop_all grid_pos grid_vol cur bf a st st1 HD GO E) as [GO1 _].
  destruct (Nat.eq_dec k a) as [->|N].
  - assert (op = o) as -> by congruence. eapply matched_shrinks; [exact (loop_shrinks _ _ _ _ _ H)|exact MA].
  - apply (IH (S a) st1 st' GO1) with (k := k); auto; [|lia]. intros j Hj. rewrite F1 by lia. apply FL. lia.
Qed.
Lemma zero_below idx : in_box grid idx -> below_all (repeat 0%Z (length grid)) idx.
Proof. generalize grid. intros l H. induction H as [|x y l l' L H IH]; cbn [length repeat]; constructor; auto. lia. Qed.
Lemma first_zero first : create_multi_dim_index 0 grid = Ok first -> first = repeat 0%Z (length grid).
Proof.
  intro E. destruct (at_index_ex metrics grid_pos 0) as (x & A & B & F); [pose proof (volume_pos grid grid_pos); lia|].
  unfold MinimizeFacts2.at_index in A. cbn [Z.of_nat] in A. assert (x = first) as -> by congruence.
  assert (BZ : in_box grid (repeat 0%Z (length grid))).
  { clear - grid_pos. unfold in_box. induction grid_pos as [|z l P H IH]; cbn [length repeat]; [apply Forall2_nil|apply Forall2_cons; [lia|exact (IH H)]]. }
  assert (FZ : flat (repeat 0%Z (length grid)) grid 0 = 0%Z).
  { rewrite <- row_major_at by exact BZ. clear - grid_pos. induction grid_pos as [|z l P H IH]; cbn [length repeat row_major]; [reflexivity|]. rewrite (IH H). lia. }
  pose proof (at_flat metrics _ BZ) as A2. rewrite FZ in A2. unfold MinimizeFacts2.at_index in A2. cbn in A2. congruence.
Qed.
Lemma minimize_matched fuel buckets : bucket_greedy_minimize function metrics operators pop_all fuel = Some (Ok buckets) ->
  forall k op, nth_error operators k = Some op -> matched buckets function op.
Proof.
  destruct (initial_good function metrics operators pop_all grid_pos) as (first & E & G).
  rewrite (minimize_search _ _ _ _ grid_pos grid_vol fuel first has_metric E). intros H k op Ho.
  destruct fuel as [|fuel]; cbn [search] in H; [discriminate|].
  destruct (explore _ _ _ _ _ _ _) as [[bs1 ts1]| | |] eqn:EX; try discriminate.
  eapply matched_shrinks; [exact (search_shrinks _ _ _ _ H)|]. clear H buckets.
  destruct G as (G & GT & MO). unfold explore in EX. cbv zeta in EX. cbn [min_element] in EX.
  assert (BX : in_box grid first) by (apply GT; now left). rewrite (reduce_box metrics grid_vol) in EX by auto. cbn [bind] in EX.
  set (cur := Z.to_nat (flat first grid 0)) in *.
  destruct (vget _ cur) as [b| | |] eqn:Eb; cbn [bind] in EX; try discriminate. apply vget_iff in Eb.
  destruct (for_each _ _ _) as [[[[bs rp] ts] possible]| | |] eqn:EF; cbn [bind] in EX; try discriminate.
  destruct (replace_loop rp possible bs) as [bs'| | |] eqn:ER; cbn [bind] in EX; try discriminate. injection EX as <- <-.
  destruct (replace_keeps _ _ _ _ ER) as (R1 & _). eapply matched_shrinks; [exact R1|].
  destruct (proj2 G _ b Eb) as (HD & _ & LP & _). pose proof (at_flat metrics first BX) as AC. fold cur in AC.
  unfold initial in Eb. apply nth_repeat in Eb. subst b. cbn [b_function possible_operators] in *.
  assert (KL : k < length operators) by (apply nth_error_Some; congruence).
  apply (loop_matched cur first function AC) with (n := length operators) (a := 0) (k := k) (op := op) in EF; auto; [| | |lia].
  - intros idx HI. rewrite (first_zero first E). now apply zero_below.
  - refine (conj (conj G (conj _ _)) (conj LP MO)).
    + intros x Hx. apply GT. eapply set_erase_in; eauto.
    + intros i o [].
  - intros j Hj. cbn [snd]. apply nth_error_repeat. lia.
Qed.
End First.

(** ** statement with the cells of the error grid *)
Lemma single_steps function metrics operators : metrics <> [] -> Forall (fun m => (0 < grid_size m)%Z) metrics ->
  (volume (map grid_size metrics) < 2 ^ 64)%Z -> Forall (fun m => (0 < bound m)%Q) metrics ->
  forall pop_all fuel buckets, bucket_greedy_minimize function metrics operators pop_all fuel = Some (Ok buckets) ->
  forall op g cell, In op operators -> op function = Ok g -> in_cell function metrics g cell ->
    exists j b index, nth_error buckets j = Some b /\ in_box (map grid_size metrics) index /\ row_major (map grid_size metrics) index = Z.of_nat j
      /\ below_all index cell /\ (pop_all = true -> index = cell) /\ bdd_size b <= nodeCount g.
Proof.
  intros HM GP GV BP pop_all fuel buckets H op g cell Hop Eg HC.
  assert (gp : Forall (fun b => (0 < b)%Z) (bucket_grid_size metrics)) by (apply Forall_map; exact GP).
  apply In_nth_error in Hop. destruct Hop as (k & Hop).
  pose proof (minimize_matched function metrics operators pop_all HM gp GV fuel buckets H k op Hop) as MA.
  pose proof (minimize_good function metrics operators pop_all HM GP GV fuel buckets H) as ((L & _) & _ & MO).
  destruct (cell_measured function metrics GP GV BP metrics g cell ltac:(auto) HC) as (vals & ME).
  destruct (MA g cell vals Eg ME) as (j & bj & xj & Hj & Aj & B & LE).
  assert (JT : j < Z.to_nat (volume (map grid_size metrics))) by (unfold bucket_grid_size in L; rewrite <- L; apply nth_error_Some; congruence).
  destruct (at_index_box metrics gp j xj JT Aj) as [BXj Fj].
  destruct pop_all.
  - pose proof (measured_box _ _ _ _ _ ME) as BC.
    set (c := Z.to_nat (flat cell (map grid_size metrics) 0)). pose proof (flat_lt metrics cell BC) as CT.
    destruct (nth_error buckets c) as [bc|] eqn:Ec; [|apply nth_error_None in Ec; unfold bucket_grid_size in *; lia].
    exists c, bc, cell. split; auto. split; auto. pose proof (flat_range _ _ BC). split; [rewrite row_major_at by auto; unfold c; lia|].
    split; [clear; induction cell; constructor; auto; lia|]. split; auto.
    pose proof (MO eq_refl j c bj bc xj cell Hj Ec Aj (at_flat metrics cell BC) B). lia.
  - exists j, bj, xj. split; auto. split; auto. split; [rewrite row_major_at by auto; exact Fj|]. split; auto. split; [discriminate|auto].
Qed.

Lemma interval_exists gs bd v : (0 < gs)%Z -> (0 < bd)%Q -> (0 <= v)%Q -> (v < bd)%Q -> exists c, (0 <= c < gs)%Z
  /\ (inject_Z c * bd / inject_Z gs <= v)%Q /\ (v < (inject_Z c + 1) * bd / inject_Z gs)%Q.
Proof.
  intros HG HB L U. assert (GQ : (0 < inject_Z gs)%Q) by (change 0%Q with (inject_Z 0); rewrite <- Zlt_Qlt; lia).
  set (q := (v * inject_Z gs / bd)%Q). exists (Qround.Qfloor q).
  assert (EV : (v == q * bd / inject_Z gs)%Q) by (unfold q; field; split; lra).
  pose proof (Qround.Qfloor_le q) as F1. pose proof (Qround.Qlt_floor q) as F2. rewrite inject_Z_plus in F2. change (inject_Z 1) with 1%Q in F2.
  assert (Q0 : (0 <= q)%Q). { unfold q. apply Qle_shift_div_l; auto. rewrite Qmult_0_l. apply Qmult_le_0_compat; lra. }
  assert (Q1 : (q < inject_Z gs)%Q). { unfold q. apply Qlt_shift_div_r; auto. rewrite Qmult_comm. apply Qmult_lt_l; auto. }
  split; [split|split].
  - apply (Qround.Qfloor_resp_le 0 q) in Q0. exact Q0.
  - rewrite Zlt_Qlt. lra.
  - rewrite EV. unfold Qdiv. apply Qmult_le_compat_r; [|apply Qinv_le_0_compat; lra]. apply Qmult_le_compat_r; [exact F1|lra].
  - rewrite EV. unfold Qdiv. apply Qmult_lt_compat_r; [apply Qinv_lt_0_compat; lra|]. apply Qmult_lt_compat_r; [exact HB|exact F2].
Qed.
Lemma cell_exists function g ms : Forall (fun m => (0 < grid_size m)%Z) ms -> Forall (fun m => (0 < bound m)%Q) ms ->
  Forall (fun m => exists v, metric m function g = Ok (Fin v) /\ (0 <= v)%Q /\ (v < bound m)%Q) ms -> exists cell, in_cell function ms g cell.
Proof.
  intros HG HB H. induction H as [|m ms (v & E & L & U) H IH]; [exists []; apply Forall2_nil|]. inversion HG; inversion HB; subst.
  destruct IH as (cell & IH); auto. destruct (interval_exists (grid_size m) (bound m) v) as (c & C1 & C2 & C3); auto.
  exists (c :: cell). apply Forall2_cons; [|exact IH]. split; [exact C1|]. exists v. auto.
Qed.
Lemma within_bounds function metrics operators : metrics <> [] -> Forall (fun m => (0 < grid_size m)%Z) metrics ->
  (volume (map grid_size metrics) < 2 ^ 64)%Z -> Forall (fun m => (0 < bound m)%Q) metrics ->
  forall pop_all fuel buckets, bucket_greedy_minimize function metrics operators pop_all fuel = Some (Ok buckets) ->
  forall op g, In op operators -> op function = Ok g ->
    Forall (fun m => exists v, metric m function g = Ok (Fin v) /\ (0 <= v)%Q /\ (v < bound m)%Q) metrics ->
    exists b, In b buckets /\ bdd_size b <= nodeCount g.
Proof.
  intros HM GP GV BP pop_all fuel buckets H op g Hop Eg HC. destruct (cell_exists function g metrics GP BP HC) as (cell & C).
  destruct (single_steps function metrics operators HM GP GV BP pop_all fuel buckets H op g cell Hop Eg C) as (j & b & index & Hj & _ & _ & _ & _ & LE).
  exists b. split; [eapply nth_error_In; eauto|exact LE].
Qed.

(** ** no operator makes the function smaller *)
Lemma no_progress function metrics (operators : list OperatorFunction) pop_all fuel : metrics <> [] -> Forall (fun m => (0 < grid_size m)%Z) metrics ->
  (volume (map grid_size metrics) < 2 ^ 64)%Z -> 0 < fuel ->
  (forall op, In op operators -> exists g, op function = Ok g /\ nodeCount function <= nodeCount g) ->
  exists buckets, bucket_greedy_minimize function metrics operators pop_all fuel = Some (Ok buckets)
    /\ length buckets = Z.to_nat (volume (map grid_size metrics)) /\ forall b, In b buckets -> is_empty b = true /\ b_function b = function.
Proof.
  intros HM GP GV HF HO.
  assert (gp : Forall (fun b => (0 < b)%Z) (bucket_grid_size metrics)) by (apply Forall_map; exact GP).
  destruct (initial_good function metrics operators pop_all gp) as (first & E & G).
  rewrite (minimize_search _ _ _ _ gp GV fuel first HM E).
  destruct fuel as [|fuel]; [lia|]. cbn [search]. destruct G as (G & GT & MO).
  assert (BX : in_box (bucket_grid_size metrics) first) by (apply GT; now left).
  unfold explore. cbv zeta. cbn [min_element]. rewrite (reduce_box metrics GV) by auto. cbn [bind].
  set (cur := Z.to_nat (flat first (bucket_grid_size metrics) 0)) in *.
  assert (CL : cur < length (initial function metrics operators)).
  { rewrite (proj1 G). apply (flat_lt metrics). exact BX. }
  destruct (vget_ok (initial function metrics operators) cur CL) as (b & Eb & Eb'). rewrite Eb. cbn [bind].
  assert (EB : b = Bkt function (nodeCount function) (repeat 0%Q (length metrics)) (repeat true (length operators)) true).
  { unfold initial in Eb'. now apply nth_repeat in Eb'. }
  subst b. cbn [b_function possible_operators].
  assert (ER : set_erase first [first] = []).
  { unfold set_erase. cbn [filter]. assert (vec_eqb first first = true) as -> by (now apply vec_eqb_eq). reflexivity. }
  rewrite ER.
  assert (LOOP : forall n a possible, length possible = length operators -> a + n <= length operators ->
     exists possible', length possible' = length operators
       /\ for_each (seq a n) ((initial function metrics operators, [], []), possible)
            (op_step function metrics operators pop_all cur function) = Ok ((initial function metrics operators, [], []), possible')).
  { assert (STEP : forall a possible, length possible = length operators -> a < length operators ->
      exists possible', length possible' = length operators
        /\ op_step function metrics operators pop_all cur function a ((initial function metrics operators, [], []), possible)
           = Ok ((initial function metrics operators, [], []), possible')).
    { intros a possible LP LA. unfold op_step.
      destruct (vget_ok operators a) as (op & Eo & Eo'); [lia|]. rewrite Eo. cbn [bind].
      destruct (vget_ok possible a) as (p & Ep & _); [lia|]. rewrite Ep. cbn [bind].
      destruct p; cbn [negb]; [|eauto].
      destruct (HO op (nth_error_In _ _ Eo')) as (g & Eg & Lg). rewrite Eg. cbn [bind]. cbv zeta. rewrite Eb. cbn [bind bdd_size].
      assert (nodeCount function <=? nodeCount g = true) as -> by (now apply Nat.leb_le).
      destruct (_ <? _); [|eauto].
      destruct (vset_ok possible a false) as (ps & Eps); [lia|]. rewrite Eps. cbn [bind].
      exists ps. split; [|reflexivity]. destruct (vset_spec _ _ _ _ Eps) as (L & _). lia. }
    induction n as [|n IH]; intros a possible LP LA; cbn [seq for_each]; [eauto|].
    destruct (STEP a possible LP) as (ps & Lps & Es); [lia|]. rewrite Es. cbn [bind]. apply IH; [exact Lps|lia]. }
  destruct (LOOP (length operators) 0 (repeat true (length operators))) as (possible' & _ & EL); [apply repeat_length|lia|].
  rewrite EL. cbn [bind replace_loop]. exists (initial function metrics operators).
  split; [destruct fuel; reflexivity|]. split; [exact (proj1 G)|].
  intros b Hb. unfold initial in Hb. apply repeat_spec in Hb. subst b. split; reflexivity.
Qed.
Lemma nodeCount_incl f g : (forall b, In b f -> In b g) -> nodeCount f <= nodeCount g.
Proof.
  intro H. unfold nodeCount. apply NoDup_incl_length; [apply NoDup_nodup|]. intros x Hx. apply nodup_In in Hx. apply nodup_In.
  apply in_flat_map in Hx. destruct Hx as (b & Hb & Hx). apply in_flat_map. exists b. auto.
Qed.
Lemma duplicated_unchanged M function metrics ops pop_all rands count fuel : Forall (wf M) function ->
  metrics <> [] -> Forall (fun m => (0 < m_grid_size m)%Z) metrics -> (volume (map m_grid_size metrics) < 2 ^ 64)%Z -> 0 < fuel ->
  (forall i b, nth_error function i = Some b -> exists j, j <> i /\ nth_error function j = Some b) ->
  exists smallest buckets, bucket_minimize_helper M fuel function metrics SINGLE_BDD ops rands count pop_all
     = Some (Ok (nodeCount function, smallest, buckets))
    /\ b_function smallest = function
    /\ length buckets = Z.to_nat (volume (map m_grid_size metrics)) /\ forall b, In b buckets -> is_empty b = true /\ b_function b = function.
Proof.
  intros W HM GP GV HF HD. unfold bucket_minimize_helper. cbv zeta.
  set (dims := map (fun m => Dim (m_grid_size m) (metric_function M (m_metric m)) (m_bound m)) metrics).
  assert (DG : map grid_size dims = map m_grid_size metrics) by (unfold dims; rewrite map_map; reflexivity).
  destruct (no_progress function dims (generate_single_bdd_operators M function ops) pop_all fuel) as (buckets & EB & LB & AB).
  - unfold dims. destruct metrics; [congruence|discriminate].
  - unfold dims. apply Forall_map. exact GP.
  - rewrite DG. exact GV.
  - exact HF.
  - intros op Hop. unfold generate_single_bdd_operators in Hop. apply in_flat_map in Hop. destruct Hop as (i & Hi & Hop). apply in_seq in Hi.
    apply in_flat_map in Hop. destruct Hop as (l & _ & Hop). apply in_map_iff in Hop. destruct Hop as (o & <- & _). unfold single_operator.
    destruct (vget_ok function i) as (b & Eb & Eb'); [lia|]. rewrite Eb. cbn [bind].
    destruct (apply_operator_spec M b o l) as (r & Er & _); [rewrite Forall_forall in W; apply W; eapply nth_error_In; eauto|]. rewrite Er. cbn [bind].
    destruct (vset_ok function i r) as (g & Eg); [lia|]. rewrite Eg. exists g. split; [reflexivity|].
    destruct (vset_spec _ _ _ _ Eg) as (_ & _ & NE). apply nodeCount_incl. intros x Hx. apply In_nth_error in Hx. destruct Hx as (k & Hk).
    destruct (Nat.eq_dec k i) as [->|N].
    + destruct (HD i x Hk) as (j & Nj & Hj). apply nth_error_In with (n := j). rewrite NE. apply Nat.eqb_neq in Nj. rewrite Nj. exact Hj.
    + apply nth_error_In with (n := k). rewrite NE. apply Nat.eqb_neq in N. rewrite N. exact Hk.
  - rewrite EB. cbn [bind]. rewrite DG in LB.
    destruct buckets as [|b0 buckets].
    + exfalso. cbn [length] in LB. pose proof (volume_pos (map m_grid_size metrics)) as VP. rewrite Forall_map in VP. specialize (VP GP). lia.
    + cbn [smallest_function bind]. exists (min_bucket b0 buckets), (b0 :: buckets). split; [reflexivity|]. split; [|auto].
      apply AB. apply (smallest_spec (b0 :: buckets) _ eq_refl).
Qed.
Definition twice_x0 : list bdd := [bvar 0; bvar 0].
Lemma reachable_missed : exists (M : mgr) (n fuel : nat) (f : list bdd) (m : SimpleMetricDimension) (ops : list Operator)
    (r : nat * Bucket * list Bucket) (g : list bdd),
  Forall (wf M) f /\ below n f /\ (0 < m_grid_size m)%Z /\ (0 < m_bound m)%Q
  /\ bucket_minimize_helper M fuel f [m] SINGLE_BDD ops [] 0 true = Some (Ok r)
  /\ derived (generate_single_bdd_operators M f ops) f g /\ error_below (m_metric m) n f g (m_bound m)
  /\ nodeCount g < bdd_size (snd (fst r)).
Proof.
  exists (id_mgr 1), 1, 10, twice_x0, (SimpleDim ERROR_RATE (3 # 4) 4), [POSITIVE_COFACTOR].
  destruct (bucket_minimize_helper (id_mgr 1) 10 twice_x0 [SimpleDim ERROR_RATE (3 # 4) 4] SINGLE_BDD [POSITIVE_COFACTOR] [] 0 true)
    as [[r| | |]|] eqn:E; try (vm_compute in E; discriminate). exists r, [bone; bone].
  split; [exact (Forall_cons _ (wf_var _ 0) (Forall_cons _ (wf_var _ 0) (Forall_nil _)))|]. split.
  { constructor; [|constructor; [|constructor]]; apply dep_vars; intros i [<-|[]]; lia. }
  split; [reflexivity|]. split; [reflexivity|]. split; [reflexivity|]. split.
  { apply (derived_step _ _ [bone; bvar 0] (single_operator (id_mgr 1) 1 0 POSITIVE_COFACTOR)); [|right; left; reflexivity|reflexivity].
    apply (derived_step _ _ twice_x0 (single_operator (id_mgr 1) 0 0 POSITIVE_COFACTOR)); [apply derived_refl|left; reflexivity|reflexivity]. }
  split; [vm_compute; reflexivity|]. vm_compute in E. injection E as <-. cbn [fst snd bdd_size]. vm_compute. lia.
Qed.
