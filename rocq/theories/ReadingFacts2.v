(** How the minimisation programs end if a file cannot be read: proofs *)
From Coq Require Import Ascii String List Bool Arith NArith ZArith QArith Lia.
From Verif Require Import Res Cudd CuddFacts Spec Helpers HelpersFacts Parsing SpecParsing SpecMinimize Minimize MinimizeFacts ParsingFacts ParsingFacts2
  Benchmark SpecBenchmark Genetic SpecGenetic MinimizeMains SpecMains MainsFacts MainsFacts2 SpecReading ReadingFacts BenchmarkFacts2.
Import ListNotations.
Open Scope list_scope.
Open Scope nat_scope.

Lemma genetic_file_fails draws evolve files managers k name path fuel m i o evs b e : files path = Some (m, i, o, evs, b) -> (m < 2 ^ 62)%N -> small evs ->
  reading_fails e m i o evs -> exists r, genetic_file_run draws evolve files managers fuel k (name, path) = Some r /\ fails e r.
Proof.
  intros Ef Hm Hs H. apply (proj1 (file_outcome (managers path) m i o evs Hm Hs)) in H.
  unfold genetic_file_run, genetic_row_of, read_unchecked. cbn [fst snd]. rewrite Ef. unfold fails in H. rewrite H. destruct e; eexists; split; reflexivity.
Qed.
Lemma bucket_file_fails files managers k name path fuel m i o evs e : not_adder path -> files path = Some (m, i, o, evs, true) -> (m < 2 ^ 62)%N -> small evs ->
  reading_fails e m i o evs -> exists r, bucket_file_run files managers fuel k (name, path) = Some r /\ fails e r.
Proof.
  intros NA Ef Hm Hs H. apply (proj1 (file_outcome (managers path) m i o evs Hm Hs)) in H.
  unfold bucket_file_run, file_row_of, minimize_input. cbn [fst snd]. rewrite (load_input_other _ _ path NA). unfold load_file, parsed. rewrite Ef.
  unfold fails in H. rewrite H. destruct e; eexists; split; reflexivity.
Qed.
Lemma rows_stop {A B} (run : nat -> A -> option (res B)) k x rest r e : run k x = Some r -> fails e r ->
  exists r', print_rows run k (x :: rest) = ([], Some r') /\ fails e r'.
Proof. intros E F. cbn [print_rows]. rewrite E. unfold fails in F. rewrite F. destruct e; eexists; split; reflexivity. Qed.

Lemma nsga2_stop draws evolve files managers table main : keeps_lengths evolve ->
  In (main, table) [(nsga2_minimize_iscas, genetic_iscas_table); (nsga2_minimize_epfl, epfl_table)] ->
  forall pre name path rest m i o evs b e, table = (pre ++ (name, path) :: rest)%list ->
  (forall name path, In (name, path) pre -> exists i o evs, holds files path i o evs /\ varying o evs /\ small_circuit (managers path) o evs) ->
  files path = Some (m, i, o, evs, b) -> (m < 2 ^ 62)%N -> small evs -> reading_fails e m i o evs ->
  exists lim, forall fuel, lim <= fuel -> exists rows outcome,
    main draws evolve fuel files managers = (rows, Some outcome) /\ List.length rows = List.length pre /\ fails e outcome.
Proof.
  intros Hev HI pre name path rest m i o evs b e Et H Ef Hm Hs Hr.
  destruct (rows_spec (genetic_file_run draws evolve files managers) (fun _ _ _ => True) ((name, path) :: rest) pre 0) as (lim & R).
  { intros k [name0 path0] Hk. destruct (H name0 path0 (nth_error_In _ _ Hk)) as (i0 & o0 & evs0 & Ho & V & S).
    destruct (genetic_file_ok draws evolve files managers Hev (0 + k) name0 path0 i0 o0 evs0 Ho V S) as (lim & L). exists lim. intros fuel Hf. destruct (L fuel Hf) as (row & E & P). eauto. }
  exists lim. intros fuel Hf. destruct (R fuel Hf) as (rows & E & L & _). rewrite <- Et in E.
  destruct (genetic_file_fails draws evolve files managers (0 + List.length pre) name path fuel m i o evs b e Ef Hm Hs Hr) as (r & Er & Fr).
  destruct (rows_stop (genetic_file_run draws evolve files managers fuel) (0 + List.length pre) (name, path) rest r e Er Fr) as (r' & Er' & Fr').
  rewrite Er' in E. cbn [fst snd] in E. rewrite app_nil_r in E. exists rows, r'. split; [|auto].
  destruct HI as [HI|[HI|[]]]; injection HI as <- <-; [rewrite genetic_iscas_rows|rewrite genetic_epfl_rows]; exact E.
Qed.
Lemma minimize_stop files managers table main :
  In (main, table) [(minimize_iscas, bucket_iscas_table); (minimize_epfl, epfl_table)] ->
  forall pre name path rest m i o evs e, table = (pre ++ (name, path) :: rest)%list ->
  (forall name path, In (name, path) pre -> exists i o evs, holds_complete files path i o evs) ->
  files path = Some (m, i, o, evs, true) -> (m < 2 ^ 62)%N -> small evs -> reading_fails e m i o evs ->
  exists lim, forall fuel, lim <= fuel -> exists rows outcome,
    main fuel files managers = (rows, Some outcome) /\ List.length rows = List.length pre /\ fails e outcome.
Proof.
  intros HI pre name path rest m i o evs e Et H Ef Hm Hs Hr.
  assert (NA : forall name path, In (name, path) table -> not_adder path).
  { pose proof tables_no_adders as T. apply Forall_app in T. destruct T as [T1 T2]. rewrite Forall_forall in T1, T2.
    destruct HI as [HI|[HI|[]]]; injection HI as _ <-; intros n p I; [exact (T1 _ I)|exact (T2 _ I)]. }
  destruct (rows_spec (bucket_file_run files managers) (fun _ _ _ => True) ((name, path) :: rest) pre 0) as (lim & R).
  { intros k [name0 path0] Hk. apply nth_error_In in Hk. destruct (H name0 path0 Hk) as (i0 & o0 & evs0 & Ho).
    destruct (bucket_file_ok files managers (0 + k) name0 path0 i0 o0 evs0) as (lim & L); [apply (NA name0); rewrite Et; apply in_or_app; left; exact Hk|exact Ho|].
    exists lim. intros fuel Hf. destruct (L fuel Hf) as (row & E & P). eauto. }
  exists lim. intros fuel Hf. destruct (R fuel Hf) as (rows & E & L & _). rewrite <- Et in E.
  destruct (bucket_file_fails files managers (0 + List.length pre) name path fuel m i o evs e) as (r & Er & Fr); auto.
  { apply (NA name). rewrite Et. apply in_or_app. right. left. reflexivity. }
  destruct (rows_stop (bucket_file_run files managers fuel) (0 + List.length pre) (name, path) rest r e Er Fr) as (r' & Er' & Fr').
  rewrite Er' in E. cbn [fst snd] in E. rewrite app_nil_r in E. exists rows, r'. split; [|auto].
  destruct HI as [HI|[HI|[]]]; injection HI as <- <-; [rewrite bucket_iscas_rows|rewrite bucket_epfl_rows]; exact E.
Qed.

Lemma loaders_fail files M id path m i o evs e : (m < 2 ^ 62)%N -> small evs -> reading_fails e m i o evs ->
  (epfl_filepath_by_id id = Ok path -> forall b, files path = Some (m, i, o, evs, b) -> fails e (load_epfl_benchmark_file files M id))
  /\ (iscas_85_filepath_by_id id = Ok path -> files path = Some (m, i, o, evs, true) -> fails e (load_iscas_85_file files M id)).
Proof.
  intros Hm Hs Hr. apply (proj1 (file_outcome M m i o evs Hm Hs)) in Hr. unfold fails in *. split.
  - intros E b Ef. unfold load_epfl_benchmark_file, read_unchecked. rewrite E. cbn [bind]. rewrite Ef. exact Hr.
  - intros E Ef. unfold load_iscas_85_file. rewrite E. cbn [bind]. rewrite Ef. exact Hr.
Qed.
