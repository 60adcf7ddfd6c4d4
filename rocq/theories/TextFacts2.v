(** The texts of the programs *)
From Coq Require Import Ascii String List Bool Arith NArith ZArith QArith Qabs Lia Lqa.
From Verif Require Import Res Cudd CuddFacts Spec SpecFacts Float Metrics MetricsFacts Benchmark SpecBenchmark BenchmarkFacts2 BenchmarkFacts4 Parsing Genetic SpecGenetic Minimize Experiments SpecExperiments ExperimentsFacts
  MinimizeMains SpecMains MainsFacts MainsFacts2 Printing SpecPrinting PrintingFacts PrintingFacts2 SpecTables MainText TextFacts.
Import ListNotations.
Open Scope nat_scope.
Open Scope string_scope.

Ltac is_cell := repeat split; discriminate.
Lemma by_id_cell names id name : Forall (cell ",") names -> by_id names id = Ok name -> cell "," name.
Proof.
  intros H E. unfold by_id, vget in E. destruct (List.length names <=? id)%nat; [discriminate|]. destruct (nth_error names id) as [s|] eqn:En; [|discriminate]. injection E as <-. rewrite Forall_forall in H. apply H. now apply nth_error_In in En.
Qed.
Lemma file_names : Forall (cell ",") iscas_85_files /\ Forall (cell ",") epfl_files.
Proof. split; repeat constructor; discriminate. Qed.
Lemma file_row_name fuel files managers name path row : file_row_of fuel files managers name path = Some (Ok row) -> name = Ok (f_name row).
Proof.
  unfold file_row_of. destruct path as [path| | |]; try discriminate. destruct (minimize_input _ _ _ _ _) as [[[[o s] b]| | |]|]; try discriminate; cbn [bind]; intros [= H].
  destruct name as [name| | |]; try discriminate. cbn [bind] in H. destruct (vget (metric_values s) 0); try discriminate. cbn [bind] in H. injection H as <-. reflexivity.
Qed.
Definition bucket_file_columns : list string := ["Function name"; "original size"; "smallest size found"; "corresponding error rate"; "runtime"].
Lemma bucket_circuits_text main text : In (main, text) [(minimize_iscas, minimize_iscas_text); (minimize_epfl, minimize_epfl_text)] ->
  forall fuel files managers times, (forall k, printed_time (times k)) ->
  exists body, table "," (text fuel files managers times) = Some (["Function name"; "original size"; "smallest size found"; "corresponding error rate"; "runtime"] :: body)
  /\ rows_show bucket_file_cells times (fst (main fuel files managers)) body.
Proof.
  intros Hin fuel files managers times HT. assert (N : Forall (fun r => cell "," (f_name r)) (fst (main fuel files managers))
    /\ text fuel files managers times = bucket_file_header ++ put_rows bucket_file_line times 0 (fst (main fuel files managers))).
  { destruct file_names as [F1 F2]. destruct Hin as [[= <- <-]|[[= <- <-]|[]]]; (split; [|reflexivity]); apply Forall_forall; intros r Hr; apply print_rows_in in Hr; destruct Hr as (k & x & _ & E);
      apply file_row_name in E; [exact (by_id_cell _ _ _ F1 E)|exact (by_id_cell _ _ _ F2 E)]. }
  destruct N as [N ->]. unfold bucket_file_header. rewrite app_assoc_s.
  apply (rows_table "," bucket_file_line (fun r t => String.concat ", " [f_name r; put_size (f_original r); put_size (f_smallest r); put_double (f_rate r); t]) bucket_file_cells times (fun r => cell "," (f_name r))); auto.
  - intros r t. unfold bucket_file_line. cbn [String.concat]. rewrite !app_assoc_s. reflexivity.
  - intros r t H1 H2. now apply bucket_file_ok.
  - repeat split; discriminate.
Qed.

Lemma consider_nonneg M P max_er max_ace both ind best r : (0 <= node_count best)%Z -> consider M P max_er max_ace both ind best = Ok r -> (0 <= node_count r)%Z.
Proof.
  intros H E. unfold consider in E. destruct (fitness M P ind) as [fit| | |]; try discriminate. cbn [bind] in E. destruct (vget fit 1) as [f1| | |]; try discriminate. cbn [bind] in E.
  destruct (qlt f1 max_er); [|now injection E as <-]. destruct (if both then _ else _) as [ok| | |]; try discriminate. cbn [bind] in E. destruct ok; [|now injection E as <-].
  destruct (vget fit 0) as [f0| | |]; try discriminate. cbn [bind] in E. destruct (qlt f0 _); [|now injection E as <-]. unfold require_ in E.
  destruct ((-1 <? _) && _)%Z eqn:B; [|discriminate]. cbn [bind] in E. destruct (if both then _ else _); try discriminate. cbn [bind] in E. injection E as <-. cbn [node_count].
  apply andb_prop in B. destruct B as [B _]. apply Z.ltb_lt in B. lia.
Qed.
Lemma consider_all_nonneg M P max_er max_ace both inds : forall best r, (0 <= node_count best)%Z -> consider_all M P max_er max_ace both inds best = Ok r -> (0 <= node_count r)%Z.
Proof.
  induction inds as [|i inds IH]; intros best r H E; cbn [consider_all] in E; [now injection E as <-|].
  destruct (consider M P max_er max_ace both i best) as [b| | |] eqn:C; try discriminate. cbn [bind] in E. apply (IH b r); auto. now apply consider_nonneg in C.
Qed.
Lemma genetic_loop_nonneg M P max_er max_ace both evolve fuel : forall k pop best r, (0 <= node_count best)%Z ->
  genetic_loop M P max_er max_ace both evolve fuel k pop best = Some (Ok r) -> (0 <= node_count r)%Z.
Proof.
  induction fuel as [|fuel IH]; intros k pop best r H E; cbn [genetic_loop] in E; [discriminate|].
  destruct (consider_all _ _ _ _ _ _ best) as [b| | |] eqn:C; try discriminate. pose proof (consider_all_nonneg _ _ _ _ _ _ _ _ H C) as Hb.
  destruct (_ =? _)%Z; [now injection E as <-|]. now apply IH in E.
Qed.
Lemma run_genetic_nonneg M f max_er max_ace both draws evolve fuel r : run_genetic_minimization M f max_er max_ace both draws evolve fuel = Some (Ok r) -> (0 <= node_count r)%Z.
Proof.
  unfold run_genetic_minimization. destruct (_ =? 0)%nat; [discriminate|]. destruct (make_population _ _ _ _) as [pop| | |]; try discriminate. apply genetic_loop_nonneg. cbn. lia.
Qed.
Lemma genetic_row_ok draws evolve fuel M k name f max_ace both row : genetic_row_of draws evolve fuel M k name f max_ace both = Some (Ok row) ->
  g_name row = name /\ (0 <= node_count (g_result row))%Z.
Proof.
  unfold genetic_row_of. destruct f as [f| | |]; try discriminate. destruct (run_genetic_minimization _ _ _ _ _ _ _ _) as [[r| | |]|] eqn:E; try discriminate; cbn [bind]; intros [= <-].
  cbn [g_name g_result]. split; auto. now apply run_genetic_nonneg in E.
Qed.
Lemma genetic_circuits_text main text : In (main, text) [(nsga2_minimize_iscas, nsga2_minimize_iscas_text); (nsga2_minimize_epfl, nsga2_minimize_epfl_text)] ->
  forall draws evolve fuel files managers times, (forall k, printed_time (times k)) ->
  exists body, table "," (text draws evolve fuel files managers times) = Some (["File"; "Orig. Size"; "Approx. Size"; "ER"; "Time"] :: body)
  /\ rows_show genetic_file_cells times (fst (main draws evolve fuel files managers)) body.
Proof.
  intros Hin draws evolve fuel files managers times HT. set (P := fun r => cell "," (g_name r) /\ (0 <= node_count (g_result r))%Z).
  assert (N : Forall P (fst (main draws evolve fuel files managers))
    /\ text draws evolve fuel files managers times = genetic_file_header ++ put_rows genetic_file_line times 0 (fst (main draws evolve fuel files managers))).
  { destruct file_names as [F1 F2]. destruct Hin as [[= <- <-]|[[= <- <-]|[]]]; (split; [|reflexivity]); apply Forall_forall; intros r Hr; apply print_rows_in in Hr; destruct Hr as (k & x & Hx & E).
    - apply genetic_row_ok in E. destruct E as [E1 E2]. split; auto. rewrite E1. unfold nsga2_iscas_names in Hx. repeat (destruct Hx as [<-|Hx]; [is_cell|]). destruct Hx.
    - destruct (by_id epfl_files x) as [name| | |] eqn:En; try discriminate. destruct (epfl_filepath_by_id x) as [path| | |]; try discriminate.
      apply genetic_row_ok in E. destruct E as [E1 E2]. split; auto. rewrite E1. exact (by_id_cell _ _ _ F2 En). }
  destruct N as [N ->]. unfold genetic_file_header. rewrite app_assoc_s.
  apply (rows_table "," genetic_file_line (fun r t => String.concat ", " [g_name r; put_size (g_original r); put_size_t (node_count (g_result r)); put_double (error_rate_ (g_result r)); t]) genetic_file_cells times P); auto.
  - intros r t. unfold genetic_file_line. cbn [String.concat]. rewrite !app_assoc_s. reflexivity.
  - intros r t H1 H2. now apply genetic_file_ok.
  - repeat split; discriminate.
Qed.
Lemma genetic_adders_text draws evolve fuel times : (forall k, printed_time (times k)) ->
  exists body, table "," (nsga2_minimize_adders_text draws evolve fuel times) = Some (["Bits"; "Orig. Size"; "Approx. Size"; "ER"; "ACR"; "Time"] :: body)
  /\ rows_show genetic_adder_cells times (fst (nsga2_minimize_adders draws evolve fuel)) body.
Proof.
  intros HT. set (P := fun r => cell "," (g_name r) /\ (0 <= node_count (g_result r))%Z).
  assert (N : Forall P (fst (nsga2_minimize_adders draws evolve fuel))).
  { apply Forall_forall; intros r Hr; apply print_rows_in in Hr; destruct Hr as (k & [bits ma] & Hx & E). apply genetic_row_ok in E. destruct E as [E1 E2]. split; auto. rewrite E1.
    apply (decimal_cell _ _ _ (or_introl eq_refl) (to_string_decimal _)). }
  unfold nsga2_minimize_adders_text, genetic_adder_header. rewrite app_assoc_s.
  apply (rows_table "," genetic_adder_line (fun r t => String.concat ", " [g_name r; put_size (g_original r); put_size_t (node_count (g_result r)); put_double (error_rate_ (g_result r)); put_double (average_case_error_ (g_result r)); t]) genetic_adder_cells times P); auto.
  - intros r t. unfold genetic_adder_line. cbn [String.concat]. rewrite !app_assoc_s. reflexivity.
  - intros r t H1 H2. now apply genetic_adder_ok.
  - repeat split; discriminate.
Qed.

(** ** The buckets *)
Lemma concat_nil_cons s l : String.concat "" (s :: l) = s ++ String.concat "" l.
Proof. destruct l; cbn [String.concat]; [now rewrite app_nil_s|reflexivity]. Qed.
Lemma bucket_content b : (forall i, In i (fst b) -> (0 <= i)%Z) -> exists l, bucket_line b = String.concat ";" l ++ end_line /\ l <> [] /\ Forall (cell ";") l /\ bucket_cells b l.
Proof.
  destruct b as [idxs e]. cbn [fst]. intro H. assert (S : separator ";") by now right.
  assert (G : exists l', l' <> [] /\ Forall (cell ";") l' /\ match e with
     | None => "NaN;NaN;NaN" ++ end_line
     | Some (size, er, ace) => put_size size ++ ";" ++ put_double er ++ ";" ++ put_double ace ++ end_line
     end = String.concat ";" l' ++ end_line
     /\ match e with None => l' = ["NaN"; "NaN"; "NaN"] | Some (size, er, ace) => exists s e a, l' = [s; e; a] /\ shows_size s size /\ shows e er /\ shows a ace end).
  { destruct e as [[[size er] ace]|].
    - exists [put_size size; put_double er; put_double ace]. split; [discriminate|]. split; [|split].
      + cells_solve; [eapply decimal_cell; eauto; apply size_decimal|now apply put_double_cell|now apply put_double_cell].
      + cbn [String.concat]. rewrite !app_assoc_s. reflexivity.
      + do 3 eexists. split; [reflexivity|]. auto using size_decimal, put_double_shows.
    - exists ["NaN"; "NaN"; "NaN"]. split; [discriminate|]. split; [|split; reflexivity]. cells_solve; is_cell. }
  destruct G as (l' & N & C & E & D). exists (map put_size_t idxs ++ l')%list. unfold bucket_line, bucket_cells. cbn [fst snd]. rewrite E. clear E. split; [|split; [|split]].
  - unfold put_indices. clear H D. induction idxs as [|i idxs IH]; [reflexivity|]. cbn [map app]. rewrite concat_nil_cons, !app_assoc_s, IH.
    assert (X : (map put_size_t idxs ++ l')%list <> []) by (destruct l'; [contradiction|]; destruct idxs; discriminate). destruct (map put_size_t idxs ++ l')%list as [|x xs]; [contradiction|].
    cbn [String.concat]. rewrite !app_assoc_s. reflexivity.
  - destruct l'; [contradiction|]. destruct idxs; discriminate.
  - apply Forall_app. split; auto. apply Forall_forall. intros s Hs. apply in_map_iff in Hs. destruct Hs as (i & <- & Hi). eapply decimal_cell; eauto. now apply size_t_decimal, H.
  - exists (map put_size_t idxs), l'. split; auto. split; auto. clear -H. induction idxs as [|i idxs IH]; constructor; [apply size_t_decimal, H; now left|apply IH; intros j Hj; apply H; now right].
Qed.
Lemma buckets_text bs : (forall b i, In b bs -> In i (fst b) -> (0 <= i)%Z) -> exists ls, String.concat "" (map bucket_line bs) = lines ls /\ Forall (lacks newline) ls
  /\ Forall2 bucket_cells bs (map (cells_of_line ";") ls).
Proof.
  induction bs as [|b bs IH]; intro H; [exists []; repeat constructor|]. destruct IH as (ls & E & L & F); [intros; eapply H; eauto; now right|].
  destruct (bucket_content b) as (l & E1 & N & C & D); [intros; eapply H; eauto; now left|]. destruct (cells_semicolon l N C) as [C1 C2].
  exists (String.concat ";" l :: ls). split; [|split; [now constructor|]].
  - cbn [map lines]. rewrite concat_nil_cons, E, E1, app_assoc_s. reflexivity.
  - cbn [map]. constructor; auto. now rewrite C1.
Qed.
Lemma bucket_adder_ok r t : (forall b i, In b (a_buckets r) -> In i (fst b) -> (0 <= i)%Z) -> printed_time t -> exists l ls, bucket_adder_text r t = lines ((l :: "" :: "Buckets:" :: ls) ++ [""])
  /\ Forall (lacks newline) (l :: ls) /\ bucket_adder_cells r t (cells_of_line ";" l) /\ Forall2 bucket_cells (a_buckets r) (map (cells_of_line ";") ls).
Proof.
  intros H Ht. assert (S : separator ";") by now right. destruct (buckets_text _ H) as (ls & E & L & F). unfold bucket_adder_text, bucket_adder_cells. destruct (a_smallest r) as [[size er] ace]. cbn [fst snd]. rewrite E.
  destruct (cells_semicolon [put_size (a_original r); put_size size; put_double er; put_double ace; t]) as [C1 C2]; [discriminate| |].
  { cells_solve; try (eapply decimal_cell; eauto; apply size_decimal); [now apply put_double_cell|now apply put_double_cell|now apply time_cell]. }
  exists (String.concat ";" [put_size (a_original r); put_size size; put_double er; put_double ace; t]), ls. split; [|split; [now constructor|split; auto]].
  - rewrite lines_app. cbn [lines String.concat]. rewrite !app_assoc_s. reflexivity.
  - rewrite C1. do 4 eexists. split; [reflexivity|]. auto using size_decimal, put_double_shows.
Qed.
Lemma bucket_adders_text fuel files managers times : 400 * 116 + 1 <= fuel -> (forall k, printed_time (times k)) ->
  exists row cells buckets, minimize_adders fuel files managers = ([row], Some (Ok tt)) /\ bucket_adder_row 8 116 7 row
  /\ table ";" (minimize_adders_text fuel files managers times)
     = Some (["size f"; "size fhat"; "error rate"; "average case error"; "runtime"] :: cells :: [""] :: ["Buckets:"] :: buckets ++ [[""]])%list
  /\ bucket_adder_cells row (times 0) cells /\ Forall2 bucket_cells (a_buckets row) buckets.
Proof.
  intros Hf HT. destruct (minimize_adders_ok files managers fuel Hf) as (row & E & R).
  destruct (bucket_adder_ok row (times 0)) as (l & ls & ET & L & C & F); auto.
  { intros [idx e] i Hb Hi. cbn [fst] in Hi. destruct R as (_ & f & _ & _ & _ & _ & RB & _). apply In_nth_error in Hb. destruct Hb as [k Hb]. destruct (RB k idx e Hb) as [-> _].
    destruct Hi as [<-|[<-|[]]]; lia. }
  exists row, (cells_of_line ";" l), (map (cells_of_line ";") ls). split; auto. split; auto. split; auto.
  unfold minimize_adders_text, bucket_adder_header. rewrite E. cbn [fst put_rows]. rewrite app_nil_s, ET, app_assoc_s.
  inversion L; subst. 
  change ("size f;size fhat;error rate;average case error;runtime" ++ end_line ++ lines ((l :: "" :: "Buckets:" :: ls) ++ [""])) with (lines ("size f;size fhat;error rate;average case error;runtime" :: (l :: "" :: "Buckets:" :: ls) ++ [""])).
  rewrite table_lines.
  - cbn [map app]. rewrite map_app. cbn [map]. reflexivity.
  - constructor; [repeat split; discriminate|]. apply Forall_app. split; [|repeat constructor]. constructor; auto. constructor; [exact I|]. constructor; auto. repeat split; discriminate.
Qed.

(** ** The limit *)
Lemma limit_shown q s r : (q < limit_005)%Q -> shows s q -> reads_as s r -> (r <= 1 # 20)%Q.
Proof.
  intros H (r' & R' & N) R. rewrite (reads_as_unique _ _ _ R R').
  destruct (put_double_spec limit_005) as (x & X & NX & _). assert (E : (x == 1 # 20)%Q).
  { apply (reads_as_unique (put_double limit_005)); auto. change (put_double limit_005) with (put_double limit_005). assert (T : put_double limit_005 = "0.05") by (vm_compute; reflexivity). rewrite T. exists (0 + 5 / 100)%Q. split; reflexivity. }
  rewrite <- E. exact (nearest_unique_order _ _ _ _ N NX H).
Qed.
Lemma bucket_limit managers name path i o evs row s r : bucket_file_row managers name path i o evs row -> shows s (f_rate row) -> reads_as s r -> (r <= 1 # 20)%Q.
Proof.
  intros (_ & f & g & H). apply limit_shown. tauto.
Qed.
