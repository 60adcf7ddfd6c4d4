(** the bucket experiments *)
From Coq Require Import String List Bool Arith NArith ZArith QArith Lia Lqa.
From Verif Require Import Res Cudd CuddFacts Spec SpecFacts Helpers Examples Metrics Parsing SpecParsing Benchmark SpecBenchmark BenchmarkFacts2 Float
  SpecGenetic Genetic GeneticFacts2 AdderFacts AdderSize Minimize SpecMinimize MinimizeFacts MinimizeFacts4 MinimizeMains SpecMains MainsFacts.
Import ListNotations.
Open Scope nat_scope.

Lemma two_dims z : create_multi_dim_index z [20; 20]%Z = Ok [((z / 20) mod 20)%Z; (z mod 20)%Z].
Proof. reflexivity. Qed.
Lemma bucket_rows_ok : forall buckets k, k + List.length buckets <= 400 -> Forall (fun b => List.length (metric_values b) = 2) buckets ->
  exists rows, bucket_rows (Z.of_nat k) [20; 20]%Z buckets = Ok rows /\ List.length rows = List.length buckets
  /\ forall j b, nth_error buckets j = Some b ->
     nth_error rows j = Some ([Z.of_nat ((k + j) / 20); Z.of_nat ((k + j) mod 20)],
       if is_empty b then None else Some (bdd_size b, nth 0 (metric_values b) 0%Q, nth 1 (metric_values b) 0%Q)).
Proof.
  induction buckets as [|b buckets IH]; intros k Hk F.
  - exists []. split; [reflexivity|]. split; [reflexivity|]. intros [|j] b H; discriminate H.
  - inversion F as [|? ? F1 F2]; subst. cbn [List.length] in Hk. destruct (IH (S k)) as (rows & E & L & R); [lia|exact F2|].
    cbn [bucket_rows]. rewrite two_dims. cbn [bind].
    replace (u64 (Z.of_nat k + 1)) with (Z.of_nat (S k)) by (unfold u64; rewrite Z.mod_small; lia). rewrite E.
    destruct (metric_values b) as [|er [|ace [|? ?]]] eqn:Ev; try discriminate F1. cbn [vget nth_error bind].
    assert (I : [((Z.of_nat k / 20) mod 20)%Z; (Z.of_nat k mod 20)%Z] = [Z.of_nat (k / 20); Z.of_nat (k mod 20)]).
    { rewrite Nat2Z.inj_div, Nat2Z.inj_mod. change (Z.of_nat 20) with 20%Z. f_equal. apply Z.mod_small. split; [apply Z.div_pos; lia|].
      apply Z.div_lt_upper_bound; lia. }
    rewrite I. destruct (is_empty b) eqn:Ee; cbn [bind].
    + eexists. split; [reflexivity|]. split; [cbn [List.length]; rewrite L; reflexivity|]. intros [|j] b' Hb'; cbn [nth_error] in *.
      * injection Hb' as <-. rewrite Ee, Nat.add_0_r. reflexivity.
      * replace (k + S j) with (S k + j) by lia. exact (R j b' Hb').
    + eexists. split; [reflexivity|]. split; [cbn [List.length]; rewrite L; reflexivity|]. intros [|j] b' Hb'; cbn [nth_error] in *.
      * injection Hb' as <-. rewrite Ee, Ev, Nat.add_0_r. reflexivity.
      * replace (k + S j) with (S k + j) by lia. exact (R j b' Hb').
Qed.

Lemma describes_of M n f (er ace : SimpleMetricDimension) i b : m_metric er = ERROR_RATE -> m_metric ace = AVERAGE_CASE ->
  restricted M f (b_function b) -> good_bucket M n f [er; ace] i b ->
  describes_bucket M n f (bdd_size b, nth 0 (metric_values b) 0%Q, nth 1 (metric_values b) 0%Q) (b_function b).
Proof.
  intros K1 K2 R (G1 & G2 & G3 & G4 & G5 & G6 & G7 & _). unfold describes_bucket. cbn [fst snd].
  split; [exact G1|]. split; [exact G2|]. split; [exact G3|]. split; [exact R|]. split; [exact G4|].
  destruct (metric_values b) as [|v [|w [|? ?]]]; try discriminate G6. cbn [nth]. split.
  - destruct (G7 0 er v eq_refl eq_refl) as [V _]. rewrite K1 in V. exact V.
  - destruct (G7 1 ace w eq_refl eq_refl) as [V _]. rewrite K2 in V. exact V.
Qed.

Lemma adder_row_ok files managers bits size max_ace : In ("adder" ++ to_string (N.of_nat bits), bits)%string adder_names ->
  0 < bits -> 3 * bits + 1 < 256 -> (0 < max_ace)%Q -> (20 * inject_Z (2 ^ Z.of_nat (bits + 1)) / max_ace < inject_Z (2 ^ 64))%Q ->
  2 * size = bits * (3 * bits + 5) -> forall fuel, 400 * size + 1 <= fuel ->
  exists row, adder_row_of fuel files managers bits max_ace = Some (Ok row) /\ bucket_adder_row bits size max_ace row.
Proof.
  intros HI Hb Hl Ha Hc Hs fuel Hf. unfold adder_row_of, minimize_input.
  destruct (load_input_adder (parsed files) (managers ("adder" ++ to_string (N.of_nat bits))%string) _ bits HI) as [-> Hu].
  set (M := id_mgr (2 * bits + 1)).
  assert (LA : exists f, load_adder bits = Ok (M, f) /\ Forall (wf M) f /\ List.length f = bits + 1 /\ below (2 * bits) f
     /\ forall a, uval f a = (number bits (op1 a) + number bits (op2 a))%Z).
  { destruct (load_adder_full bits Hu) as (M' & f & E & O & R & W & L & B & V).
    assert (M' = M) as ->; [|exists f; auto]. unfold load_adder in E. unfold M. unfold u32 in E. rewrite Z.mod_small in E by lia.
    replace (Z.to_nat (2 * Z.of_nat bits + 1)) with (2 * bits + 1) in E by lia.
    destruct (regular_adder (id_mgr (2 * bits + 1)) bits); try discriminate E. injection E as E _. symmetry. exact E. }
  destruct LA as (f & -> & W & L & B & V).
  assert (S : nodeCount f = size). { pose proof (sum_size M bits f ltac:(intro; reflexivity) Hb W L V). nia. }
  set (er := SimpleDim ERROR_RATE limit_005 20). set (ace := SimpleDim AVERAGE_CASE max_ace 20).
  destruct (helper_buckets M (2 * bits) f [er; ace]) with (fuel := fuel) as (smallest & buckets & E & Lb & Is & Sm & St & G); try assumption.
  - discriminate.
  - repeat apply Forall_cons; [left; reflexivity|right; split; [reflexivity|lia]|apply Forall_nil].
  - repeat apply Forall_cons; [reflexivity|reflexivity|apply Forall_nil].
  - repeat apply Forall_cons; [reflexivity|exact Ha|apply Forall_nil].
  - reflexivity.
  - repeat apply Forall_cons; [reflexivity|cbn [m_grid_size m_metric m_bound ace cap]; rewrite L; exact Hc|apply Forall_nil].
  - rewrite S. exact Hf.
  - rewrite E, S. cbn [bind]. change (Z.to_nat (volume (map m_grid_size [er; ace]))) with 400 in Lb.
    assert (F2 : Forall (fun b => List.length (metric_values b) = 2) buckets).
    { apply Forall_forall. intros b Ib. apply In_nth_error in Ib. destruct Ib as (i & Hi). apply (proj2 (G i b Hi)). }
    destruct (bucket_rows_ok buckets 0) as (rows & Er & Lr & R); [lia|exact F2|].
    change (Z.of_nat 0) with 0%Z in Er. rewrite Er. rewrite Forall_forall in F2. pose proof (F2 smallest Is) as Fs.
    destruct (metric_values smallest) as [|v [|w [|? ?]]] eqn:Ev; try discriminate Fs. cbn [vget nth_error bind].
    eexists. split; [reflexivity|]. unfold bucket_adder_row. fold M. cbn zeta. cbn [a_original a_smallest a_buckets fst snd].
    split; [reflexivity|]. exists f. split; [exact W|]. split; [split; assumption|]. split; [exact S|]. split; [rewrite Lr; exact Lb|].
    assert (Bi : forall i idx e, nth_error rows i = Some (idx, e) -> exists b, nth_error buckets i = Some b
        /\ idx = [Z.of_nat (i / 20); Z.of_nat (i mod 20)]
        /\ e = if is_empty b then None else Some (bdd_size b, nth 0 (metric_values b) 0%Q, nth 1 (metric_values b) 0%Q)).
    { intros i idx e Hi. assert (Li : i < List.length buckets) by (rewrite <- Lr; apply nth_error_Some; congruence).
      destruct (nth_error buckets i) as [b|] eqn:Eb; [|apply nth_error_None in Eb; lia]. exists b. pose proof (R i b Eb) as Ri. rewrite Hi in Ri.
      injection Ri as -> ->. auto. }
    split; [|split].
    + intros i idx e Hi. destruct (Bi i idx e Hi) as (b & Eb & -> & ->). split; [reflexivity|]. intros r Hr.
      destruct (G i b Eb) as [Rb Gb]. destruct (is_empty b) eqn:Ee; [discriminate Hr|]. injection Hr as <-. exists (b_function b).
      split; [exact (describes_of M _ f er ace i b eq_refl eq_refl Rb Gb)|].
      destruct Gb as (_ & _ & _ & G4 & _ & _ & _ & _ & G9). destruct (G9 Ee) as (G10 & G11). split; [rewrite <- G4, <- S; exact G10|].
      assert (Li : i < 400) by (rewrite <- Lb; apply nth_error_Some; congruence).
      assert (D : i / 20 < 20) by (apply Nat.div_lt_upper_bound; lia). pose proof (Nat.mod_upper_bound i 20 ltac:(discriminate)) as D'.
      specialize (G11 [Z.of_nat (i / 20); Z.of_nat (i mod 20)]).
      assert (IB : in_box (map m_grid_size [er; ace]) [Z.of_nat (i / 20); Z.of_nat (i mod 20)]).
      { unfold in_box. cbn [map m_grid_size er ace]. repeat apply Forall2_cons; [lia|lia|apply Forall2_nil]. }
      assert (RM : row_major (map m_grid_size [er; ace]) [Z.of_nat (i / 20); Z.of_nat (i mod 20)] = Z.of_nat i).
      { cbn [map m_grid_size er ace row_major volume fold_right]. pose proof (Nat.div_mod i 20 ltac:(discriminate)). lia. }
      specialize (G11 IB RM). split; [exact (G11 0 er _ eq_refl eq_refl)|]. split; [exact (G11 1 ace _ eq_refl eq_refl)|].
      rewrite <- G4. apply Sm. eapply nth_error_In; exact Eb.
    + apply In_nth_error in Is. destruct Is as (i & Hi). pose proof (R i smallest Hi) as Ri. destruct (G i smallest Hi) as [_ Gs].
      destruct Gs as (_ & _ & _ & G4 & _ & _ & _ & G8 & G9). rewrite Ev in Ri. cbn [nth] in Ri. destruct (is_empty smallest) eqn:Ee.
      * right. destruct (G8 eq_refl) as [E1 E2]. split.
        { rewrite Ev in E2. injection E2 as -> ->. rewrite G4, E1, S. reflexivity. }
        intros j idx e Hj. destruct (Bi j idx e Hj) as (b & Eb & _ & ->). destruct (is_empty b) eqn:Eeb; [reflexivity|]. exfalso.
        destruct (G j b Eb) as (_ & _ & _ & _ & _ & _ & _ & _ & _ & G9'). destruct (G9' Eeb) as (G10 & _).
        pose proof (Sm b (nth_error_In _ _ Eb)). rewrite G4, E1 in H. lia.
      * left. exists i, [Z.of_nat (i / 20); Z.of_nat (i mod 20)]. exact Ri.
    + intros g' Hg H1 H2. apply St; [exact Hg|]. intros m [<-|[<-|[]]]; assumption.
Qed.

Lemma minimize_adders_ok files managers fuel : 400 * 116 + 1 <= fuel -> exists row,
  minimize_adders fuel files managers = ([row], Some (Ok tt)) /\ bucket_adder_row 8 116 7 row.
Proof.
  intro Hf. destruct (adder_row_ok files managers 8 116 (inject_Z 7)) with (fuel := fuel) as (row & E & R); try assumption.
  - left. reflexivity.
  - lia.
  - lia.
  - reflexivity.
  - reflexivity.
  - reflexivity.
  - exists row. unfold minimize_adders. cbn [print_rows]. rewrite E. split; [reflexivity|exact R].
Qed.

(** ** circuits *)
Definition bucket_file_run files managers (fuel : nat) (_ : nat) (x : string * string) : option (res file_row) :=
  file_row_of fuel files managers (Ok (fst x)) (Ok (snd x)).
Lemma bucket_iscas_rows fuel files managers : minimize_iscas fuel files managers = print_rows (bucket_file_run files managers fuel) 0 bucket_iscas_table.
Proof. unfold minimize_iscas. apply print_rows_ext. repeat (apply Forall2_cons; [intro; reflexivity|]). apply Forall2_nil. Qed.
Lemma bucket_epfl_rows fuel files managers : minimize_epfl fuel files managers = print_rows (bucket_file_run files managers fuel) 0 epfl_table.
Proof. unfold minimize_epfl. apply print_rows_ext. repeat (apply Forall2_cons; [intro; reflexivity|]). apply Forall2_nil. Qed.

Section Files.
Variables (files : aiger_files) (managers : string -> mgr).
Definition not_adder (path : string) : Prop := forall bits, ~ In (path, bits) adder_names.
Lemma bucket_file_ok k name path i o evs : not_adder path -> holds_complete files path i o evs ->
  exists lim, forall fuel, lim <= fuel -> exists row, bucket_file_run files managers fuel k (name, path) = Some (Ok row)
    /\ bucket_file_row managers name path i o evs row.
Proof.
  intros NA (m & Ef & K). destruct (circuit_of (managers path) m i o evs K) as (f & E & W & C & B).
  exists (10 * nodeCount f + 1). intros fuel Hf. unfold bucket_file_run, file_row_of, minimize_input. cbn [fst snd].
  rewrite (load_input_other _ _ path NA). unfold load_file, parsed. rewrite Ef, E. cbn [bind].
  set (er := SimpleDim ERROR_RATE limit_005 10).
  destruct (helper_buckets (managers path) (N.to_nat i) f [er]) with (fuel := fuel) as (smallest & buckets & Eh & Lb & Is & Sm & St & G); try assumption.
  - discriminate.
  - repeat apply Forall_cons; [left; reflexivity|apply Forall_nil].
  - repeat apply Forall_cons; [reflexivity|apply Forall_nil].
  - repeat apply Forall_cons; [reflexivity|apply Forall_nil].
  - reflexivity.
  - repeat apply Forall_cons; [reflexivity|apply Forall_nil].
  - rewrite Eh. cbn [bind]. apply In_nth_error in Is. destruct Is as (j & Hj).
    destruct (G j smallest Hj) as (Rs & G1 & G2 & G3 & G4 & G5 & G6 & G7 & _).
    destruct (metric_values smallest) as [|v [|? ?]] eqn:Ev; try discriminate G6. cbn [vget nth_error bind].
    destruct (G7 0 er v eq_refl eq_refl) as [V1 V2]. cbn [er m_metric m_bound value_of] in V1, V2.
    eexists. split; [reflexivity|]. split; [reflexivity|]. exists f, (b_function smallest). cbn [f_original f_smallest f_rate].
    split; [exact W|]. split; [exact C|]. split; [reflexivity|]. split; [exact G1|]. split; [exact G2|]. split; [exact G3|]. split; [exact Rs|]. split; [exact G4|].
    split; [rewrite <- G4; exact G5|]. split; [exact V1|]. split; [exact V2|].
    intros g' Hg H1. apply St; [exact Hg|]. intros m0 [<-|[]]; assumption.
Qed.
Lemma bucket_file_throws k name path fuel : not_adder path -> (forall m i o evs, files path <> Some (m, i, o, evs, true)) ->
  bucket_file_run files managers fuel k (name, path) = Some Throw.
Proof.
  intros NA H. unfold bucket_file_run, file_row_of, minimize_input. cbn [fst snd]. rewrite (load_input_other _ _ path NA). unfold load_file, parsed.
  destruct (files path) as [[[[[m i] o] evs] []]|]; [destruct (H m i o evs eq_refl)|reflexivity|reflexivity].
Qed.
Lemma bucket_files table : Forall (fun x => not_adder (snd x)) table ->
  forall pre rest, table = (pre ++ rest)%list ->
  (forall name path, In (name, path) pre -> exists i o evs, holds_complete files path i o evs) ->
  exists lim, forall fuel, lim <= fuel -> exists rows rows' outcome,
    print_rows (bucket_file_run files managers fuel) 0 table = ((rows ++ rows')%list, outcome)
    /\ List.length rows = List.length pre
    /\ (forall k name path row, nth_error pre k = Some (name, path) -> nth_error rows k = Some row ->
          exists i o evs, holds_complete files path i o evs /\ bucket_file_row managers name path i o evs row)
    /\ (rest = [] -> rows' = [] /\ outcome = Some (Ok tt))
    /\ (forall name path rest', rest = (name, path) :: rest' ->
          (forall m i o evs, files path <> Some (m, i, o, evs, true)) -> rows' = [] /\ outcome = Some Throw).
Proof.
  intros NA pre rest Et H. rewrite Forall_forall in NA.
  assert (NA' : forall name path, In (name, path) (pre ++ rest)%list -> not_adder path) by (intros name path I; rewrite <- Et in I; exact (NA _ I)).
  destruct (rows_spec (bucket_file_run files managers)
    (fun k x row => exists i o evs, holds_complete files (snd x) i o evs /\ bucket_file_row managers (fst x) (snd x) i o evs row) rest pre 0) as (lim & R).
  { intros k [name path] Hk. apply nth_error_In in Hk. destruct (H name path Hk) as (i & o & evs & Ho). rewrite Nat.add_0_l.
    destruct (bucket_file_ok k name path i o evs) as (lim & L); [apply (NA' name); apply in_or_app; left; exact Hk|exact Ho|].
    exists lim. intros fuel Hf. destruct (L fuel Hf) as (row & E & P). exists row. split; [exact E|]. exists i, o, evs. auto. }
  exists lim. intros fuel Hf. destruct (R fuel Hf) as (rows & E & L & P). rewrite <- Et in E. eexists rows, _, _. split; [exact E|]. split; [exact L|].
  split; [intros k name path row Hk Hr; exact (P k (name, path) row Hk Hr)|]. split.
  - intros ->. split; reflexivity.
  - intros name path rest' -> T. cbn [print_rows]. rewrite (bucket_file_throws _ name path fuel); [split; reflexivity| |exact T].
    apply (NA' name). apply in_or_app. right. left. reflexivity.
Qed.
End Files.
Lemma tables_no_adders : Forall (fun x => not_adder (snd x)) (bucket_iscas_table ++ epfl_table)%list.
Proof.
  repeat (apply Forall_cons; [intros bits [E|[E|[E|[]]]]; discriminate E|]). apply Forall_nil.
Qed.

(** ** the programs *)
Lemma nsga2_files draws evolve files managers table main : keeps_lengths evolve ->
  In (main, table) [(nsga2_minimize_iscas, genetic_iscas_table); (nsga2_minimize_epfl, epfl_table)] ->
  forall pre rest, table = (pre ++ rest)%list ->
  (forall name path, In (name, path) pre -> exists i o evs, holds files path i o evs /\ varying o evs /\ small_circuit (managers path) o evs) ->
  exists lim, forall fuel, lim <= fuel -> exists rows rows' outcome,
    main draws evolve fuel files managers = ((rows ++ rows')%list, outcome)
    /\ List.length rows = List.length pre
    /\ (forall k name path row, nth_error pre k = Some (name, path) -> nth_error rows k = Some row ->
          exists i o evs, holds files path i o evs /\ genetic_file_row managers evolve k name path i o evs row)
    /\ (rest = [] -> rows' = [] /\ outcome = Some (Ok tt))
    /\ (forall name path rest', rest = (name, path) :: rest' ->
          files path = None \/ (exists i o evs, holds files path i o evs /\ ~ varying o evs) -> rows' = [] /\ outcome = Some Throw).
Proof.
  intros Hev [E|[E|[]]] pre rest Et H; injection E as <- <-; destruct (genetic_files draws evolve files managers Hev _ pre rest Et H) as (lim & L);
    exists lim; intros fuel Hf; [rewrite genetic_iscas_rows|rewrite genetic_epfl_rows]; exact (L fuel Hf).
Qed.
Lemma minimize_files files managers table main :
  In (main, table) [(minimize_iscas, bucket_iscas_table); (minimize_epfl, epfl_table)] ->
  forall pre rest, table = (pre ++ rest)%list ->
  (forall name path, In (name, path) pre -> exists i o evs, holds_complete files path i o evs) ->
  exists lim, forall fuel, lim <= fuel -> exists rows rows' outcome,
    main fuel files managers = ((rows ++ rows')%list, outcome)
    /\ List.length rows = List.length pre
    /\ (forall k name path row, nth_error pre k = Some (name, path) -> nth_error rows k = Some row ->
          exists i o evs, holds_complete files path i o evs /\ bucket_file_row managers name path i o evs row)
    /\ (rest = [] -> rows' = [] /\ outcome = Some (Ok tt))
    /\ (forall name path rest', rest = (name, path) :: rest' ->
          (forall m i o evs, files path <> Some (m, i, o, evs, true)) -> rows' = [] /\ outcome = Some Throw).
Proof.
  pose proof tables_no_adders as T. apply Forall_app in T. destruct T as [T1 T2].
  intros [E|[E|[]]] pre rest Et H; injection E as <- <-.
  - destruct (bucket_files files managers _ T1 pre rest Et H) as (lim & L). exists lim. intros fuel Hf. rewrite bucket_iscas_rows. exact (L fuel Hf).
  - destruct (bucket_files files managers _ T2 pre rest Et H) as (lim & L). exists lim. intros fuel Hf. rewrite bucket_epfl_rows. exact (L fuel Hf).
Qed.
Lemma reports_acceptable M n f max_er max_ace both evolve start r : Forall (wf M) f -> below n f ->
  reports M n f max_er max_ace both evolve start r ->
  r = Result (2 ^ 64 - 1) 0 0
  \/ exists g, Forall (wf M) g /\ below n g /\ List.length g = List.length f /\ node_count r = Z.of_nat (nodeCount g) /\ nodeCount g < nodeCount f
     /\ (error_rate_ r == rate n f g)%Q /\ (error_rate_ r < max_er)%Q
     /\ (both = true -> (average_case_error_ r == average_distance n f g)%Q /\ (average_case_error_ r < max_ace)%Q).
Proof.
  intros W B (K & _ & [(-> & _)|(j & g & _ & (ind & _ & E & A1 & A2 & A3) & D1 & D2 & D3)] & _); [left; reflexivity|]. right. exists g.
  destruct (function_from_full M f max_er both max_ace ind W) as [F1 F2].
  destruct (le_lt_dec (List.length (compute_support_positions f)) (List.length ind)) as [H|H]; [|rewrite (F2 H) in E; discriminate E].
  destruct (F1 H) as (g' & E' & Wg & L & _ & Bg). rewrite E in E'. injection E' as <-.
  split; [exact Wg|]. split; [exact (Bg n B)|]. split; [exact L|]. split; [exact D1|]. split; [exact A1|]. split; [exact D2|].
  split; [rewrite D2; exact A2|]. intro Hb. split; [exact (D3 Hb)|]. rewrite (D3 Hb). exact (A3 Hb).
Qed.
Lemma epfl_cases files M id path : epfl_filepath_by_id id = Ok path ->
  (files path = None -> load_epfl_benchmark_file files M id = Ok [])
  /\ (forall m i o, (m < 2 ^ 62)%N -> files path = Some (m, i, o, [], false) -> load_epfl_benchmark_file files M id = Ok (repeat bzero (N.to_nat o)))
  /\ (forall i o evs, holds files path i o evs ->
        exists f, load_epfl_benchmark_file files M id = Ok f /\ Forall (wf M) f /\ circuit o evs f /\ below (N.to_nat i) f).
Proof.
  intro E. split; [exact (epfl_missing files M id path E)|]. split; [intros m i o; exact (epfl_truncated files M id path m i o E)|].
  exact (epfl_loader files M id path E).
Qed.
