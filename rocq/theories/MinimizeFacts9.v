(** Failures of the bucket search and the order in which it explores. *)
From Coq Require Import List Bool Arith ZArith QArith Lia Lqa Sorted.
From Verif Require Import Res Cudd CuddFacts Spec SpecFacts Helpers Counting Metrics Examples AdderFacts Minimize SpecMinimize
  MinimizeFacts MinimizeFacts2 MinimizeFacts5.
Import ListNotations.
Open Scope nat_scope.

Lemma fails_bind {A B} e (x : res A) (f : A -> res B) : fails e x -> fails e (bind x f).
Proof. unfold fails. intros ->. destruct e; reflexivity. Qed.
Lemma fails_cases {A} (x : res A) : (exists v, x = Ok v) \/ exists e, fails e x.
Proof.
  destruct x as [v| | |]; [left; eauto|right..]; [exists Undefined|exists Exception|exists FailedAssert]; reflexivity.
Qed.
Lemma fails_ok {A} e (v : A) : ~ fails e (Ok v).
Proof. destruct e; discriminate. Qed.
Lemma fails_fun {A} e e' (x : res A) : fails e x -> fails e' x -> e = e'.
Proof. unfold fails. intros -> H. destruct e, e'; discriminate || reflexivity. Qed.

Lemma dimension_fails gs v bd : (exists d, dimension_index gs v bd = Ok d) \/ (fails Undefined (dimension_index gs v bd) /\ no_cell gs v bd).
Proof.
  unfold dimension_index, fails, no_cell. destruct v as [v|]; [|right; auto].
  destruct (Qeq_bool bd 0) eqn:E0; [right; split; auto; left; now apply Qeq_bool_iff|]. cbv zeta.
  set (q := (inject_Z gs * v / bd)%Q). clearbody q. destruct q as [a x]. cbn [Qnum Qden].
  destruct ((0 <=? _)%Z && _) eqn:E; [left; eauto|right; split; auto; right].
  apply andb_false_iff in E. rewrite Z.leb_gt, Z.ltb_ge in E. pose proof (Z.quot_rem' a (Zpos x)) as Q1.
  destruct (Z_lt_le_dec a 0) as [Na|Na].
  - left. unfold Qle. cbn [Qnum Qden]. destruct E as [E|E].
    + assert (R' : (Z.rem a (Zpos x) <= 0)%Z) by (apply Z.rem_nonpos; lia). nia.
    + assert (Z.quot a (Zpos x) <= 0)%Z; [|lia].
      replace a with (- - a)%Z by lia. rewrite Z.quot_opp_l by lia. assert (0 <= Z.quot (- a) (Zpos x))%Z by (apply Z.quot_pos; lia). lia.
  - right. assert (0 <= Z.quot a (Zpos x))%Z by (apply Z.quot_pos; lia). destruct E as [E|E]; [lia|].
    unfold Qle, inject_Z. cbn [Qnum Qden]. pose proof (Z.rem_bound_pos a (Zpos x) ltac:(lia) ltac:(lia)). nia.
Qed.

Section Search.
Variable function : list bdd.
Variable metrics : list MetricDimension.
Variable operators : list OperatorFunction.
Variable pop_all : bool.
Notation grid := (bucket_grid_size metrics).
Hypothesis grid_pos : Forall (fun b => (0 < b)%Z) grid.
Hypothesis grid_vol : (volume grid < 2 ^ 64)%Z.
Notation T := (Z.to_nat (volume grid)).
Notation good := (good function metrics operators pop_all).
Notation good_op := (good_op function metrics operators pop_all).
Notation good_state := (good_state function metrics operators pop_all).
Notation caused := (caused function metrics operators).

Lemma metric_loop_fails buckets nodes modified : good buckets -> derived operators function modified ->
  forall ms i pre vpre rest, metrics = rest ++ ms -> length rest = i -> length pre = i -> length vpre = i ->
  in_box (map grid_size rest) pre ->
  forall e, fails e (metric_loop function metrics buckets nodes modified ms i (pre ++ repeat 0%Z (length ms)) (vpre ++ repeat 0%Q (length ms))) ->
  caused e.
Proof.
  intros G HD. induction ms as [|m ms IH]; intros i pre vpre rest E Lr L1 L2 BX e; cbn [metric_loop]; [intro H; now apply fails_ok in H|].
  assert (IM : In m metrics) by (rewrite E; apply in_or_app; right; now left).
  destruct (fails_cases (metric m function modified)) as [(value & Em)|(e' & Em)].
  2:{ intro H. assert (e = e') as -> by (eapply fails_fun; [exact H|]; now apply fails_bind).
      exists modified. split; auto. right. exists m. auto. }
  rewrite Em. cbn [bind]. destruct (dimension_fails (grid_size m) value (bound m)) as [(d & Ed)|(Ed & NC)].
  2:{ intro H. assert (e = Undefined) as -> by (eapply fails_fun; [exact H|]; now apply fails_bind).
      exists modified. split; auto. right. exists m. split; auto. right. eauto. }
  rewrite Ed. cbn [bind]. destruct (grid_size m <=? d)%Z eqn:Eg; [intro H; now apply fails_ok in H|]. apply Z.leb_gt in Eg.
  cbn [length repeat]. rewrite <- L1, vset_mid. cbn [bind].
  assert (BX1 : in_box (map grid_size (rest ++ [m])) (pre ++ [d])).
  { rewrite map_app. apply Forall2_app; auto. constructor; [|constructor]. apply dimension_nonneg in Ed. lia. }
  assert (BX2 : in_box grid (pre ++ d :: repeat 0%Z (length ms))).
  { change (d :: repeat 0%Z (length ms)) with ([d] ++ repeat 0%Z (length ms)). rewrite app_assoc.
    unfold bucket_grid_size. rewrite E. change (m :: ms) with ([m] ++ ms). rewrite app_assoc, map_app. apply Forall2_app; auto.
    assert (GP : Forall (fun b => (0 < b)%Z) (map grid_size ms)).
    { pose proof grid_pos as GP. unfold bucket_grid_size in GP. rewrite E, map_app in GP. apply Forall_app in GP.
      destruct GP as [_ GP]. cbn [map] in GP. now inversion GP. }
    clear - GP. induction ms as [|a ms IH]; cbn [map length repeat] in *; constructor; inversion GP; subst; auto. lia. }
  rewrite (reduce_at metrics grid_vol) by auto. cbn [bind].
  destruct (vget_ok buckets (Z.to_nat (flat (pre ++ d :: repeat 0%Z (length ms)) grid 0))) as (b & Eb & _).
  { destruct G as (L & _). rewrite L. now apply flat_lt. }
  rewrite Eb. cbn [bind]. destruct (bdd_size b <=? nodes); [intro H; now apply fails_ok in H|]. rewrite L1.
  assert (VS : forall v, vset (vpre ++ 0%Q :: repeat 0%Q (length ms)) i v = Ok (vpre ++ v :: repeat 0%Q (length ms))) by (intro v; rewrite <- L2; apply vset_mid).
  rewrite VS. cbn [bind]. intro H. set (v := match value with Fin e => e | NonFin => 0%Q end) in *.
  apply (IH (i + 1) (pre ++ [d]) (vpre ++ [v]) (rest ++ [m])); auto; try (rewrite app_length; cbn [length]; lia).
  - rewrite E, <- app_assoc. reflexivity.
  - rewrite <- !app_assoc. exact H.
Qed.
Lemma op_step_fails cur bf opnum st : derived operators function bf -> good_op st -> opnum < length operators -> cur < T ->
  forall e, fails e (op_step function metrics operators pop_all cur bf opnum st) -> caused e.
Proof.
  intros HD GO HO HC e. destruct st as [[[buckets replace] test] possible]. destruct GO as ((G & GT & GR) & LP & MO). cbn [fst snd] in *. unfold op_step.
  destruct (vget_ok operators opnum HO) as (op & Eo & No). rewrite Eo. cbn [bind].
  assert (HI : In op operators) by (eapply nth_error_In; eauto).
  destruct (vget_ok possible opnum) as (p & Ep & _); [lia|]. rewrite Ep. cbn [bind]. destruct (negb p); [intro H; now apply fails_ok in H|].
  destruct (fails_cases (op bf)) as [(modified & Em)|(e' & Em)].
  2:{ intro H. assert (e = e') as -> by (eapply fails_fun; [exact H|]; now apply fails_bind). exists bf. split; auto. left. eauto. }
  rewrite Em. cbn [bind]. cbv zeta.
  assert (HM : derived operators function modified) by (eapply derived_step; eauto).
  destruct (vget_ok buckets cur) as (c & Ec & Nc); [destruct G as (L & _); lia|]. rewrite Ec. cbn [bind].
  assert (RM : exists ps, vset possible opnum false = Ok ps) by (apply vset_ok; lia). destruct RM as (ps & Eps).
  destruct (bdd_size c <=? nodeCount modified) eqn:Es.
  { destruct (_ <? _); [|intro H; now apply fails_ok in H]. rewrite Eps. cbn [bind]. intro H. now apply fails_ok in H. }
  apply Nat.leb_gt in Es.
  destruct (fails_cases (metric_loop function metrics buckets (nodeCount modified) modified metrics 0 (repeat 0%Z (length metrics)) (repeat 0%Q (length metrics)))) as [(v & Ev)|(e' & Ev)].
  2:{ intro H. assert (e = e') as -> by (eapply fails_fun; [exact H|]; now apply fails_bind).
      eapply (metric_loop_fails buckets (nodeCount modified) modified G HM metrics 0 [] [] []); auto. constructor. }
  rewrite Ev. cbn [bind]. destruct v as [rm|idx vals].
  { destruct rm; [|intro H; now apply fails_ok in H]. rewrite Eps. cbn [bind]. intro H. now apply fails_ok in H. }
  apply metric_loop_better in Ev. pose proof (measured_box _ _ _ _ _ Ev) as BX. fold grid in BX.
  rewrite (reduce_at metrics grid_vol) by auto. cbn [bind].
  assert (SM : nodeCount modified < nodeCount function).
  { destruct (proj2 G cur c Nc) as (_ & _ & _ & GE & GN). destruct (is_empty c) eqn:Ee.
    - destruct (proj2 G cur c Nc) as (_ & SZ & _). rewrite (proj1 (GE eq_refl)) in SZ. lia.
    - destruct (GN eq_refl) as [? _]. lia. }
  destruct (populate_total function metrics operators pop_all grid_pos opnum (nodeCount modified) modified idx vals HO HM eq_refl Ev SM
    (seq (Z.to_nat (flat idx grid 0)) ((if pop_all then length buckets else Z.to_nat (flat idx grid 0) + 1) - Z.to_nat (flat idx grid 0)))
    (buckets, replace, test)) as (st' & E).
  - intros P i Hi. rewrite P in Hi. apply in_seq in Hi. assert (i = Z.to_nat (flat idx grid 0)) as -> by lia. now apply at_flat.
  - exact (conj G (conj GT GR)).
  - intros i Hi. apply in_seq in Hi. pose proof (flat_lt metrics _ BX). destruct G as (L & _). destruct pop_all; lia.
  - rewrite E. cbn [bind]. intro H. now apply fails_ok in H.
Qed.
Lemma for_each_fails {S} (I : S -> Prop) (body : nat -> S -> res S) (P : failure -> Prop) l : forall st,
  (forall i st st', In i l -> I st -> body i st = Ok st' -> I st') ->
  (forall i st e, In i l -> I st -> fails e (body i st) -> P e) -> I st ->
  forall e, fails e (for_each l st body) -> P e.
Proof.
  induction l as [|i l IH]; intros st H1 H2 H0 e; cbn [for_each]; [intro H; now apply fails_ok in H|].
  destruct (fails_cases (body i st)) as [(st' & E)|(e' & E)].
  - rewrite E. cbn [bind]. apply IH; [intros; eapply H1; eauto; now right|intros j s e' Hj; apply H2; now right|eapply H1; eauto; now left].
  - intro H. assert (e = e') as -> by (eapply fails_fun; [exact H|]; now apply fails_bind). eapply H2; eauto. now left.
Qed.
Lemma explore_fails buckets first rest : good_state buckets (first :: rest) ->
  forall e, fails e (explore function metrics operators pop_all buckets first rest) -> caused e.
Proof.
  intros (G & GT & MO) e. unfold explore. cbv zeta.
  pose proof (min_element_in rest first) as MI. set (pos := min_element first rest) in *.
  assert (BX : in_box grid pos) by now apply GT. rewrite (reduce_at metrics grid_vol) by auto. cbn [bind].
  destruct (vget_ok buckets (Z.to_nat (flat pos grid 0))) as (b & Eb & Nb); [destruct G as (L & _); rewrite L; now apply flat_lt|].
  rewrite Eb. cbn [bind]. destruct (proj2 G _ b Nb) as (HD & _ & LP & _).
  set (st0 := ((buckets, [], set_erase pos (first :: rest)), possible_operators b)).
  assert (G0 : good_op st0).
  { split; [split; [auto|split; [|intros i op []]]|split; auto]. intros x Hx. apply GT. eapply set_erase_in; eauto. }
  set (body := op_step function metrics operators pop_all (Z.to_nat (flat pos grid 0)) (b_function b)).
  assert (KEEP : forall i st st', In i (seq 0 (length operators)) -> good_op st -> body i st = Ok st' -> good_op st').
  { intros i st st' Hi GO E. unfold body in E. apply op_step_good in E; auto. apply E. }
  assert (E0 : (exists st, for_each (seq 0 (length operators)) st0 body = Ok st) \/ exists e, fails e (for_each (seq 0 (length operators)) st0 body)) by apply fails_cases.
  destruct E0 as [([[[bs rp] ts] possible] & EF)|(e' & EF)].
  - rewrite EF. cbn [bind]. pose proof (for_each_pc good_op body _ _ _ KEEP G0 EF) as GO.
    destruct GO as ((GB & _ & GR) & LP' & _). cbn [fst snd] in *.
    destruct (replace_total operators possible LP' rp bs) as (bs' & ER).
    + intros i op Hi. destruct (GR i op Hi). destruct GB as (L & _). lia.
    + rewrite ER. cbn [bind]. intro H. now apply fails_ok in H.
  - intro H. assert (e = e') as -> by (eapply fails_fun; [exact H|]; apply fails_bind; exact EF).
    eapply (for_each_fails good_op body caused); [exact KEEP| |exact G0|exact EF].
    intros i st e Hi GO. apply op_step_fails; auto; [apply in_seq in Hi; lia|now apply flat_lt].
Qed.
Lemma search_fails fuel : forall buckets test, good_state buckets test ->
  forall r e, search function metrics operators pop_all fuel buckets test = Some r -> fails e r -> caused e.
Proof.
  induction fuel as [|fuel IH]; intros buckets test G r e; destruct test as [|first rest]; cbn [search];
    try (intro H; injection H as <-; intro F; now apply fails_ok in F); try discriminate.
  pose proof (explore_fails buckets first rest G e) as EX.
  destruct (explore _ _ _ _ _ _ _) as [[bs ts]| | |] eqn:E.
  - apply explore_good in E; auto. apply IH. apply E.
  - intros H F. injection H as <-. apply EX. destruct e; try discriminate; reflexivity.
  - intros H F. injection H as <-. apply EX. destruct e; try discriminate; reflexivity.
  - intros H F. injection H as <-. apply EX. destruct e; try discriminate; reflexivity.
Qed.
Lemma minimize_fails fuel r e : metrics <> [] ->
  bucket_greedy_minimize function metrics operators pop_all fuel = Some r -> fails e r -> caused e.
Proof.
  intro HM. destruct (initial_good function metrics operators pop_all grid_pos) as (first & E & G).
  rewrite (minimize_search _ _ _ _ grid_pos grid_vol fuel first HM E). apply search_fails; auto.
Qed.

(** an operator that fails on the original function *)
Lemma op_step_first cur bf opnum op st e : nth_error operators opnum = Some op -> nth_error (snd st) opnum = Some true ->
  fails e (op bf) -> fails e (op_step function metrics operators pop_all cur bf opnum st).
Proof.
  intros EO EP F. destruct st as [[[buckets replace] test] possible]. cbn [snd] in EP. unfold op_step.
  apply vget_iff in EO, EP. rewrite EO. cbn [bind]. rewrite EP. cbn [bind negb]. now apply fails_bind.
Qed.
Lemma op_step_possible cur bf opnum st st' k : op_step function metrics operators pop_all cur bf opnum st = Ok st' -> k <> opnum ->
  nth_error (snd st') k = nth_error (snd st) k.
Proof.
  intros H NE. destruct st as [[[buckets replace] test] possible]. cbn [snd]. unfold op_step in H.
  destruct (vget operators opnum) as [op| | |] eqn:Eo; cbn [bind] in H; try discriminate.
  destruct (vget possible opnum) as [p| | |] eqn:Ep; cbn [bind] in H; try discriminate.
  destruct (negb p); [injection H as <-; auto|].
  destruct (op bf) as [modified| | |] eqn:Em; cbn [bind] in H; try discriminate. cbv zeta in H.
  destruct (vget buckets cur) as [c| | |] eqn:Ec; cbn [bind] in H; try discriminate.
  assert (RM : forall ps, vset possible opnum false = Ok ps -> nth_error ps k = nth_error possible k).
  { intros ps Hps. apply vset_spec in Hps. destruct Hps as (_ & _ & Hps). rewrite Hps. apply Nat.eqb_neq in NE. now rewrite NE. }
  destruct (bdd_size c <=? nodeCount modified) eqn:Es.
  { destruct (_ <? _); [|injection H as <-; auto].
    destruct (vset possible opnum false) as [ps| | |] eqn:Eps; cbn [bind] in H; try discriminate. injection H as <-. auto. }
  destruct (metric_loop _ _ _ _ _ _ _ _ _) as [v| | |] eqn:Ev; cbn [bind] in H; try discriminate.
  destruct v as [rm|idx vals].
  { destruct rm; [|injection H as <-; auto].
    destruct (vset possible opnum false) as [ps| | |] eqn:Eps; cbn [bind] in H; try discriminate. injection H as <-. auto. }
  destruct (reduce_multi_dim_index _ _) as [s| | |]; cbn [bind] in H; try discriminate.
  destruct (populate _ _ _ _ _ _ _ _) as [pst| | |] eqn:EP; cbn [bind] in H; try discriminate. injection H as <-. auto.
Qed.
Lemma operators_run cur bf op e opnum : forall l st st', NoDup l -> nth_error operators opnum = Some op -> nth_error (snd st) opnum = Some true -> In opnum l ->
  fails e (op bf) -> for_each l st (op_step function metrics operators pop_all cur bf) <> Ok st'.
Proof.
  induction l as [|i l IH]; intros st st' ND EO EP IN F H; [destruct IN|]. cbn [for_each] in H.
  destruct (op_step _ _ _ _ _ _ i st) as [s1| | |] eqn:E; cbn [bind] in H; try discriminate. inversion ND; subst.
  destruct (Nat.eq_dec opnum i) as [->|NE].
  - pose proof (op_step_first cur bf i op st e EO EP F) as F1. rewrite E in F1. now apply fails_ok in F1.
  - destruct IN as [->|IN]; [congruence|]. eapply (IH s1 st'); eauto. rewrite (op_step_possible _ _ _ _ _ opnum E NE). exact EP.
Qed.
Lemma failing_operator fuel buckets op e : metrics <> [] ->
  bucket_greedy_minimize function metrics operators pop_all fuel = Some (Ok buckets) -> In op operators -> ~ fails e (op function).
Proof.
  intros HM H IN F. destruct (initial_good function metrics operators pop_all grid_pos) as (first & E & G).
  rewrite (minimize_search _ _ _ _ grid_pos grid_vol fuel first HM E) in H.
  destruct fuel as [|fuel]; cbn [search] in H; [discriminate|]. destruct (explore _ _ _ _ _ _ _) as [[bs ts]| | |] eqn:EX; try discriminate.
  clear H. destruct G as (G & GT & MO). unfold explore in EX. cbv zeta in EX. cbn [min_element] in EX.
  assert (BX : in_box grid first) by (apply GT; now left). rewrite (reduce_at metrics grid_vol) in EX by auto. cbn [bind] in EX.
  destruct (vget (initial function metrics operators) _) as [b| | |] eqn:Eb; cbn [bind] in EX; try discriminate. apply vget_iff, nth_repeat in Eb. subst b.
  cbn [possible_operators b_function] in EX. apply In_nth_error in IN. destruct IN as (k & EK).
  assert (HK : k < length operators) by (apply nth_error_Some; congruence).
  destruct (for_each _ _ _) as [st| | |] eqn:EF; cbn [bind] in EX; try discriminate.
  eapply (operators_run _ _ op e k) in EF; eauto; [apply seq_NoDup| |apply in_seq; lia].
  cbn [snd]. clear - HK. revert k HK. induction (length operators) as [|n IH]; intros k HK; [lia|]. destruct k as [|k]; cbn [repeat nth_error]; auto. apply IH. lia.
Qed.
End Search.
Lemma search_failures : forall (function : list bdd) (metrics : list MetricDimension) (operators : list OperatorFunction) (pop_all : bool),
  metrics <> [] -> Forall (fun m => (0 < grid_size m)%Z) metrics -> (volume (map grid_size metrics) < 2 ^ 64)%Z ->
  forall fuel r, bucket_greedy_minimize function metrics operators pop_all fuel = Some r ->
  (forall e, fails e r -> caused function metrics operators e)
  /\ (forall op e, In op operators -> fails e (op function) -> exists e', fails e' r).
Proof.
  intros function metrics operators pop_all HM HG HV fuel r H.
  assert (GP : Forall (fun b => (0 < b)%Z) (bucket_grid_size metrics)) by (unfold bucket_grid_size; now apply Forall_map). split.
  - intro e. eapply minimize_fails; eauto.
  - intros op e IO F. destruct (fails_cases r) as [(buckets & ->)|FR]; auto. exfalso.
    eapply (failing_operator function metrics operators pop_all GP HV); eauto.
Qed.
