(** the minimisation experiments *)
From Coq Require Import String List Bool Arith NArith ZArith QArith Lia Lqa.
From Verif Require Import Res Cudd CuddFacts Spec SpecFacts Helpers HelpersFacts2 Examples Metrics Parsing SpecParsing ParsingFacts2 Benchmark
  BenchmarkFacts2 Float SpecFloat FloatFacts Genetic SpecGenetic GeneticFacts GeneticFacts2 GeneticFacts3 AdderFacts AdderSize MetricsFacts MetricsFacts4 Minimize SpecMinimize MinimizeFacts
  MinimizeFacts2 MinimizeFacts3 MinimizeFacts4 MinimizeFacts5 MinimizeFacts7 MinimizeMains SpecMains.
Import ListNotations.
Open Scope nat_scope.

(** ** reading circuits *)
Lemma lit_value_below m i o evs : ok_file m i o evs -> forall a b, (forall v, v < N.to_nat i -> a v = b v) ->
  forall lit x, lit_value evs a lit x -> lit_value evs b lit x.
Proof.
  intros (_ & H & _) a b E lit x V. induction V.
  - apply lit_false.
  - apply lit_true.
  - rewrite E; [apply lit_input; assumption|]. apply in_split in H0. destruct H0 as (pre & post & H0). specialize (H _ _ _ H0). cbn [ok_line] in H. lia.
  - eapply lit_and; eassumption.
  - apply lit_not; assumption.
Qed.
Lemma circuit_of M m i o evs : ok_file m i o evs ->
  exists f, aig_file M m i o evs = Ok f /\ Forall (wf M) f /\ circuit o evs f /\ below (N.to_nat i) f.
Proof.
  intro K. destruct (aig_correct M m i o evs K) as (f & E & L & F). exists f. split; [exact E|].
  assert (A : forall b, In b f -> wf M b /\ depends_below (N.to_nat i) b).
  { intros b Hb. apply In_nth_error in Hb. destruct Hb as (j & Hj). assert (Lj : j < List.length f) by (apply nth_error_Some; congruence).
    destruct (F (N.of_nat j)) as (b' & lit & Nb & W & _ & V); [lia|]. rewrite Nnat.Nat2N.id, Hj in Nb. injection Nb as <-. split; [exact W|].
    intros a a' Ea. symmetry. apply V. apply (lit_value_below m i o evs K a a' Ea). apply V. reflexivity. }
  split; [apply Forall_forall; intros b Hb; apply A; exact Hb|]. split; [|apply Forall_forall; intros b Hb; apply A; exact Hb].
  split; [exact L|]. intros j Hj. destruct (F j Hj) as (b & lit & Nb & _ & O & V). exists b, lit. auto.
Qed.
Lemma positions_varying M o evs f : Forall (wf M) f -> circuit o evs f -> (compute_support_positions f <> [] <-> varying o evs).
Proof.
  intros W (L & C). destruct (positions_full M f W) as [_ P]. split.
  - intro H. destruct (compute_support_positions f) as [|[k v] ps] eqn:E; [congruence|].
    destruct (proj1 (P k v) (or_introl eq_refl)) as (Hk & a & D). destruct (C (N.of_nat k)) as (b & lit & Nb & O & V); [lia|].
    rewrite Nnat.Nat2N.id in Nb. rewrite (nth_error_nth f k bzero Nb) in D.
    exists (N.of_nat k), lit, (upd a v true), (upd a v false), (ev b (upd a v true)), (ev b (upd a v false)).
    split; [lia|]. split; [exact O|]. split; [apply V; reflexivity|]. split; [apply V; reflexivity|exact D].
  - intros (j & lit & a & a' & v & v' & Hj & O & V1 & V2 & D) E. destruct (C j Hj) as (b & lit' & Nb & O' & V).
    assert (lit' = lit) as ->.
    { exact (output_literal_unique _ _ _ _ O' O). }
    apply V in V1, V2. apply D. rewrite <- V1, <- V2.
    apply ev_ext_vars. intros x Hx. exfalso.
    assert (B : In (N.to_nat j, x) (compute_support_positions f)); [|rewrite E in B; exact B].
    apply positions_in. exists (N.to_nat j), b. split; [reflexivity|]. split; [exact Nb|]. apply support_in. exact Hx.
Qed.

(** ** the limits *)
Lemma limit_nearest : float_number 53 limit_005 /\ nearest_float 53 (1 # 20) limit_005.
Proof. apply round_float_spec. lia. Qed.
Lemma limit_value : (limit_005 == 3602879701896397 # 72057594037927936)%Q.
Proof. vm_compute. reflexivity. Qed.
Lemma limit_up : (limit_005 <= to_float limit_005)%Q.
Proof. vm_compute. discriminate. Qed.
Lemma limit_small : (limit_005 <= 100)%Q /\ (0 < limit_005)%Q.
Proof. split; vm_compute; [discriminate|reflexivity]. Qed.

(** ** the genetic runs *)
Lemma run_reports M n f max_ace both draws evolve : Forall (wf M) f -> below n f -> (both = true -> List.length f + n < 256) ->
  (0 <= max_ace)%Q -> (both = true -> (max_ace <= to_float max_ace)%Q) -> (Z.of_nat (nodeCount f) < 2 ^ 64)%Z ->
  (forall k pop len, Forall (fun d => List.length d = len) pop -> Forall (fun d => List.length d = len) (evolve k pop)) ->
  compute_support_positions f <> [] ->
  forall fuel, nodeCount f + 1 <= fuel ->
  exists start r, run_genetic_minimization M f limit_005 max_ace both draws evolve fuel = Some (Ok r) /\ initial f start
  /\ reports M n f limit_005 max_ace both evolve start r.
Proof.
  intros W B Hl Ha Hf Hc Hev Hne fuel Hfuel.
  destruct (run_full M n f limit_005 max_ace both draws evolve fuel W B (or_intror limit_up)) as (start & K & r & Es & E & R); auto.
  - apply limit_small.
  - exists start, r. split; [exact E|]. split; [|exists K; exact R].
    destruct (make_population_full (make_problem f limit_005 both max_ace) 100 3 draws) as [MP _].
    change (support_positions (make_problem f limit_005 both max_ace)) with (compute_support_positions f) in MP.
    destruct MP as (start' & Es' & L & F); [destruct (compute_support_positions f); [congruence|cbn [List.length]; lia]|].
    rewrite Es in Es'. injection Es' as <-. split; [exact L|exact F].
Qed.

(** ** the loop over the rows *)
Lemma rows_spec {A B} (run : nat -> nat -> A -> option (res B)) (P : nat -> A -> B -> Prop) (rest : list A) : forall pre k0,
  (forall k x, nth_error pre k = Some x -> exists lim, forall fuel, lim <= fuel -> exists row, run fuel (k0 + k) x = Some (Ok row) /\ P (k0 + k) x row) ->
  exists lim, forall fuel, lim <= fuel -> exists rows,
    print_rows (run fuel) k0 (pre ++ rest)%list = ((rows ++ fst (print_rows (run fuel) (k0 + List.length pre) rest))%list, snd (print_rows (run fuel) (k0 + List.length pre) rest))
    /\ List.length rows = List.length pre
    /\ forall k x row, nth_error pre k = Some x -> nth_error rows k = Some row -> P (k0 + k) x row.
Proof.
  induction pre as [|x pre IH]; intros k0 H.
  - exists 0. intros fuel _. exists []. cbn [app List.length]. rewrite Nat.add_0_r. split; [destruct (print_rows _ _ _); reflexivity|].
    split; [reflexivity|]. intros [|k] y row Hy; discriminate Hy.
  - destruct (H 0 x eq_refl) as (l1 & H1). destruct (IH (S k0)) as (l2 & H2).
    { intros k y Hy. replace (S k0 + k) with (k0 + S k) by lia. exact (H (S k) y Hy). }
    exists (Nat.max l1 l2). intros fuel Hf. destruct (H1 fuel) as (row & E1 & P1); [lia|]. destruct (H2 fuel) as (rows & E2 & L2 & P2); [lia|].
    rewrite Nat.add_0_r in E1, P1. exists (row :: rows). cbn [app print_rows List.length]. rewrite E1, E2. replace (k0 + S (List.length pre)) with (S k0 + List.length pre) by lia.
    split; [reflexivity|]. split; [rewrite L2; reflexivity|]. intros [|k] y r Hy Hr.
    + injection Hy as <-. injection Hr as <-. rewrite Nat.add_0_r. exact P1.
    + replace (k0 + S k) with (S k0 + k) by lia. exact (P2 k y r Hy Hr).
Qed.

Lemma adder_run (evolve : nat -> nat -> list individuum -> list individuum) draws k bits max_ace size : keeps_lengths evolve ->
  0 < bits -> 3 * bits + 1 < 256 -> (0 <= max_ace)%Z -> (inject_Z max_ace <= to_float (inject_Z max_ace))%Q ->
  2 * size = bits * (3 * bits + 5) -> (Z.of_nat size < 2 ^ 64)%Z ->
  forall fuel, size + 1 <= fuel ->
  exists f start r, let M := id_mgr (2 * bits + 1) in Forall (wf M) f /\ adds bits f /\ nodeCount f = size /\ initial f start
    /\ reports M (2 * bits) f limit_005 (inject_Z max_ace) true (evolve k) start r
    /\ genetic_row_of draws evolve fuel M k (to_string (N.of_nat bits)) (regular_adder M bits) (inject_Z max_ace) true
       = Some (Ok (GeneticRow (to_string (N.of_nat bits)) size r)).
Proof.
  intros Hev Hb Hl Ha Hf Hs Hz fuel Hfuel. set (M := id_mgr (2 * bits + 1)).
  destruct (regular_ok M bits) as (f & E & W & L & V).
  assert (B : below (2 * bits) f).
  { apply Forall_forall. intros b Hb'. apply In_nth_error in Hb'. destruct Hb' as (j & Hj).
    assert (Lj : j < List.length f) by (apply nth_error_Some; congruence). intros a a' Ea.
    assert (U : uval f a = uval f a').
    { rewrite !V. f_equal; apply number_ext; intros i Hi; apply Ea; lia. }
    rewrite !uval_number in U. apply (f_equal (fun z => Z.testbit z (Z.of_nat j))) in U. rewrite !number_testbit in U by exact Lj.
    rewrite (nth_error_nth f j bzero Hj) in U. exact U. }
  assert (S : nodeCount f = size). { pose proof (regular_size M bits f ltac:(intro; reflexivity) Hb E). nia. }
  destruct (run_reports M (2 * bits) f (inject_Z max_ace) true draws (evolve k) W B) with (fuel := fuel) as (start & r & Er & I & R).
  - intros _. lia.
  - change 0%Q with (inject_Z 0). rewrite <- Zle_Qle. exact Ha.
  - intros _. exact Hf.
  - rewrite S. exact Hz.
  - intros i pop len. apply Hev.
  - intro Hp. destruct (positions_full M f W) as [_ P].
    assert (I0 : In (0, 0) (compute_support_positions f)); [|rewrite Hp in I0; exact I0].
    apply P. split; [lia|]. exists (fun _ => false).
    assert (T : forall a, ev (nth 0 f bzero) a = xorb (a 0) (a 1)).
    { intro a. pose proof (V a) as Va. rewrite uval_number, L in Va. apply (f_equal (fun z => Z.testbit z (Z.of_nat 0))) in Va.
      rewrite number_testbit, exact_testbit in Va by lia. rewrite Va. unfold sum_bit. destruct (Nat.ltb_spec 0 bits); [|lia]. cbn [cf]. rewrite xorb_false_r. reflexivity. }
    rewrite !T. discriminate.
  - rewrite S. exact Hfuel.
  - exists f, start, r. cbn zeta. split; [exact W|]. split; [split; [exact L|exact V]|]. split; [exact S|]. split; [exact I|]. split; [exact R|].
    unfold genetic_row_of. fold M. rewrite E, Er. cbn [bind]. rewrite S. reflexivity.
Qed.

Lemma adders_ok draws evolve : keeps_lengths evolve -> exists lim, forall fuel, lim <= fuel -> exists rows,
  nsga2_minimize_adders draws evolve fuel = (rows, Some (Ok tt)) /\ List.length rows = 3
  /\ forall k entry row, nth_error adder_table k = Some entry -> nth_error rows k = Some row -> genetic_adder_row evolve k entry row.
Proof.
  intro Hev. destruct (rows_spec (fun fuel k '(bits, max_ace) => let M := id_mgr (2 * bits + 1) in
    genetic_row_of draws evolve fuel M k (to_string (N.of_nat bits)) (regular_adder M bits) (inject_Z max_ace) true)
    (fun k p row => forall entry, nth_error adder_table k = Some entry -> genetic_adder_row evolve k entry row) [] nsga2_adders 0) as (lim & H).
  - assert (A : forall k name bits max_ace size, nth_error adder_table k = Some (name, bits, max_ace, size) ->
      exists lim, forall fuel, lim <= fuel -> exists row,
        genetic_row_of draws evolve fuel (id_mgr (2 * bits + 1)) k (to_string (N.of_nat bits)) (regular_adder (id_mgr (2 * bits + 1)) bits) (inject_Z max_ace) true = Some (Ok row)
        /\ forall entry, nth_error adder_table k = Some entry -> genetic_adder_row evolve k entry row).
    { intros k name bits max_ace size Hk.
      assert (C : name = to_string (N.of_nat bits) /\ 0 < bits /\ 3 * bits + 1 < 256 /\ (0 <= max_ace)%Z
                  /\ (inject_Z max_ace <= to_float (inject_Z max_ace))%Q /\ 2 * size = bits * (3 * bits + 5) /\ (Z.of_nat size < 2 ^ 64)%Z).
      { destruct k as [|[|[|k]]]; cbn [adder_table nth_error] in Hk; [| | |destruct k; discriminate Hk]; injection Hk as <- <- <- <-;
          (split; [vm_compute; reflexivity|]; split; [lia|]; split; [lia|]; split; [lia|]; split; [vm_compute; discriminate|]; split; [vm_compute; reflexivity|]; vm_compute; reflexivity). }
      destruct C as (Cn & C1 & C2 & C3 & C4 & C5 & C6). exists (size + 1). intros fuel Hf.
      destruct (adder_run evolve draws k bits max_ace size Hev C1 C2 C3 C4 C5 C6 fuel Hf) as (f & start & r & W & Ad & S & I & R & E).
      eexists. split; [exact E|]. intros entry Hentry. rewrite Hk in Hentry. injection Hentry as <-. cbn [genetic_adder_row g_name g_original g_result].
      split; [symmetry; exact Cn|]. split; [reflexivity|]. exists f, start. cbn zeta. auto. }
    intros k [bits max_ace] Hk. cbn zeta beta iota. rewrite Nat.add_0_l.
    destruct k as [|[|[|k]]]; cbn [nsga2_adders nth_error] in Hk; [| | |destruct k; discriminate Hk]; injection Hk as <- <-.
    + exact (A 0 _ _ _ _ eq_refl).
    + exact (A 1 _ _ _ _ eq_refl).
    + exact (A 2 _ _ _ _ eq_refl).
  - exists lim. intros fuel Hf. destruct (H fuel Hf) as (rows & E & L & P). rewrite app_nil_r in E. cbn [print_rows fst snd] in E. rewrite app_nil_r in E.
    exists rows. split; [exact E|]. split; [exact L|]. intros k entry row Hk Hr.
    assert (Lk : k < 3). { change 3 with (List.length adder_table). apply nth_error_Some. congruence. }
    destruct (nth_error nsga2_adders k) as [p|] eqn:Ep; [|apply nth_error_None in Ep; cbn in Ep; lia].
    exact (P k p row Ep Hr entry Hk).
Qed.

(** ** circuits from files *)
Lemma print_rows_ext {A A' B} (run : nat -> A -> option (res B)) (run' : nat -> A' -> option (res B)) : forall l l' k,
  Forall2 (fun x y => forall k, run k x = run' k y) l l' -> print_rows run k l = print_rows run' k l'.
Proof.
  intros l l' k F. revert k. induction F as [|x y l l' E F IH]; intro k; cbn [print_rows]; [reflexivity|]. rewrite E.
  destruct (run' k y) as [[row| | |]|]; try reflexivity. rewrite IH. reflexivity.
Qed.

Definition genetic_file_run draws evolve files (managers : string -> mgr) (fuel k : nat) (x : string * string) : option (res genetic_row) :=
  genetic_row_of draws evolve fuel (managers (snd x)) k (fst x) (read_unchecked files (managers (snd x)) (snd x)) 0 false.
Lemma genetic_iscas_rows draws evolve fuel files managers : nsga2_minimize_iscas draws evolve fuel files managers
  = print_rows (genetic_file_run draws evolve files managers fuel) 0 genetic_iscas_table.
Proof. unfold nsga2_minimize_iscas. apply print_rows_ext. repeat (apply Forall2_cons; [intro; reflexivity|]). apply Forall2_nil. Qed.
Lemma genetic_epfl_rows draws evolve fuel files managers : nsga2_minimize_epfl draws evolve fuel files managers
  = print_rows (genetic_file_run draws evolve files managers fuel) 0 epfl_table.
Proof. unfold nsga2_minimize_epfl. apply print_rows_ext. repeat (apply Forall2_cons; [intro; reflexivity|]). apply Forall2_nil. Qed.

Section GeneticFiles.
Variables (draws : nat -> Z) (evolve : nat -> nat -> list individuum -> list individuum) (files : aiger_files) (managers : string -> mgr).
Hypothesis Hev : keeps_lengths evolve.
Lemma genetic_file_ok k name path i o evs : holds files path i o evs -> varying o evs -> small_circuit (managers path) o evs ->
  exists lim, forall fuel, lim <= fuel -> exists row, genetic_file_run draws evolve files managers fuel k (name, path) = Some (Ok row)
    /\ genetic_file_row managers evolve k name path i o evs row.
Proof.
  intros (m & b & Ef & K) V S. destruct (circuit_of (managers path) m i o evs K) as (f & E & W & C & B).
  exists (nodeCount f + 1). intros fuel Hf.
  destruct (run_reports (managers path) (N.to_nat i) f 0 false draws (evolve k) W B) with (fuel := fuel) as (start & r & Er & I & R); try discriminate.
  - apply S; assumption.
  - intros j pop len. apply Hev.
  - apply (positions_varying _ o evs f W C). exact V.
  - exact Hf.
  - unfold genetic_file_run, genetic_row_of, read_unchecked. cbn [fst snd]. rewrite Ef, E, Er. cbn [bind]. eexists. split; [reflexivity|].
    split; [reflexivity|]. exists f, start. auto.
Qed.
Lemma genetic_file_throws k name path fuel :
  files path = None \/ (exists i o evs, holds files path i o evs /\ ~ varying o evs) ->
  genetic_file_run draws evolve files managers fuel k (name, path) = Some Throw.
Proof.
  unfold genetic_file_run, genetic_row_of, read_unchecked. cbn [fst snd]. intros [->|(i & o & evs & (m & b & -> & K) & V)].
  - reflexivity.
  - destruct (circuit_of (managers path) m i o evs K) as (f & -> & W & C & B).
    assert (P : compute_support_positions f = []).
    { destruct (compute_support_positions f) eqn:E; [reflexivity|]. exfalso. apply V. apply (positions_varying _ o evs f W C). rewrite E. discriminate. }
    unfold run_genetic_minimization. change (support_positions (make_problem f limit_005 false 0)) with (compute_support_positions f). rewrite P. reflexivity.
Qed.
Lemma genetic_files table :
  forall pre rest, table = (pre ++ rest)%list ->
  (forall name path, In (name, path) pre -> exists i o evs, holds files path i o evs /\ varying o evs /\ small_circuit (managers path) o evs) ->
  exists lim, forall fuel, lim <= fuel -> exists rows rows' outcome,
    print_rows (genetic_file_run draws evolve files managers fuel) 0 table = ((rows ++ rows')%list, outcome)
    /\ List.length rows = List.length pre
    /\ (forall k name path row, nth_error pre k = Some (name, path) -> nth_error rows k = Some row ->
          exists i o evs, holds files path i o evs /\ genetic_file_row managers evolve k name path i o evs row)
    /\ (rest = [] -> rows' = [] /\ outcome = Some (Ok tt))
    /\ (forall name path rest', rest = (name, path) :: rest' ->
          files path = None \/ (exists i o evs, holds files path i o evs /\ ~ varying o evs) -> rows' = [] /\ outcome = Some Throw).
Proof.
  intros pre rest Et H.
  destruct (rows_spec (genetic_file_run draws evolve files managers)
    (fun k x row => exists i o evs, holds files (snd x) i o evs /\ genetic_file_row managers evolve k (fst x) (snd x) i o evs row) rest pre 0) as (lim & R).
  { intros k [name path] Hk. destruct (H name path (nth_error_In _ _ Hk)) as (i & o & evs & Ho & V & S). rewrite Nat.add_0_l.
    destruct (genetic_file_ok k name path i o evs Ho V S) as (lim & L). exists lim. intros fuel Hf. destruct (L fuel Hf) as (row & E & P).
    exists row. split; [exact E|]. exists i, o, evs. auto. }
  exists lim. intros fuel Hf. destruct (R fuel Hf) as (rows & E & L & P). rewrite <- Et in E. eexists rows, _, _. split; [exact E|]. split; [exact L|].
  split; [intros k name path row Hk Hr; exact (P k (name, path) row Hk Hr)|]. split.
  - intros ->. split; reflexivity.
  - intros name path rest' -> T. cbn [print_rows]. rewrite (genetic_file_throws _ name path fuel T). split; reflexivity.
Qed.
End GeneticFiles.

(** ** the loaders *)
Lemma iscas_loader files M id path : iscas_85_filepath_by_id id = Ok path ->
  (forall f, load_iscas_85_file files M id = Ok f -> exists m i o evs, files path = Some (m, i, o, evs, true))
  /\ (files path = None -> load_iscas_85_file files M id = Throw)
  /\ (forall i o evs, holds_complete files path i o evs ->
        exists f, load_iscas_85_file files M id = Ok f /\ Forall (wf M) f /\ circuit o evs f /\ below (N.to_nat i) f).
Proof.
  intro E. unfold load_iscas_85_file. rewrite E. cbn [bind]. split; [|split].
  - intros f H. destruct (files path) as [[[[[m i] o] evs] []]|]; [eauto 6| |discriminate H]. exfalso.
    destruct (on_header m i o) as [st| | |]; try discriminate H. cbn [bind] in H. destruct (aig_run M evs st) as [st'| | |]; discriminate H.
  - intros ->. reflexivity.
  - intros i o evs (m & -> & K). exact (circuit_of M m i o evs K).
Qed.
Lemma epfl_loader files M id path : epfl_filepath_by_id id = Ok path -> forall i o evs, holds files path i o evs ->
  exists f, load_epfl_benchmark_file files M id = Ok f /\ Forall (wf M) f /\ circuit o evs f /\ below (N.to_nat i) f.
Proof.
  intros E i o evs (m & b & Ef & K). unfold load_epfl_benchmark_file, read_unchecked. rewrite E. cbn [bind]. rewrite Ef. exact (circuit_of M m i o evs K).
Qed.
Lemma epfl_missing files M id path : epfl_filepath_by_id id = Ok path -> files path = None -> load_epfl_benchmark_file files M id = Ok [].
Proof. intros E H. unfold load_epfl_benchmark_file, read_unchecked. rewrite E. cbn [bind]. rewrite H. reflexivity. Qed.
(** only the header could be read *)
Lemma find_zero st m i o : (m < 2 ^ 62)%N -> on_header m i o = Ok st -> find_literal (literals st) 0 = Ok (literals st, bzero).
Proof.
  intros Hm. unfold on_header, size_t_. rewrite N.mod_small by lia. replace (m * 2 + 2)%N with (N.succ (N.succ (m * 2))) by lia.
  unfold resized. rewrite !N2Nat.inj_succ. cbn [repeat vset bind]. intros [= <-]. reflexivity.
Qed.
Lemma zero_outputs lits : find_literal lits 0 = Ok (lits, bzero) -> forall k r,
  outputs_loop (repeat 0%N k) lits r = Ok (r ++ repeat bzero k)%list.
Proof.
  intros H. induction k as [|k IH]; intro r; cbn [repeat outputs_loop]; [rewrite app_nil_r; reflexivity|]. rewrite H. cbn [bind]. rewrite IH, <- app_assoc. reflexivity.
Qed.
Lemma truncated M m i o : (m < 2 ^ 62)%N -> aig_file M m i o [] = Ok (repeat bzero (N.to_nat o)).
Proof.
  intro Hm. unfold aig_file. destruct (on_header m i o) as [st| | |] eqn:E.
  - cbn [bind aig_run]. unfold get_outputs. pose proof (find_zero st m i o Hm E) as Z. unfold on_header in E.
    replace (output_indices st) with (repeat 0%N (N.to_nat o)).
    + rewrite (zero_outputs _ Z). reflexivity.
    + destruct (vset _ 0 _) as [l| | |]; cbn [bind] in E; try discriminate E. destruct (vset _ 1 _) as [l'| | |]; cbn [bind] in E; try discriminate E. injection E as <-. reflexivity.
  - exfalso. revert E. unfold on_header, size_t_. rewrite N.mod_small by lia. replace (m * 2 + 2)%N with (N.succ (N.succ (m * 2))) by lia.
    unfold resized. rewrite !N2Nat.inj_succ. cbn [repeat vset bind]. discriminate.
  - exfalso. revert E. unfold on_header, size_t_. rewrite N.mod_small by lia. replace (m * 2 + 2)%N with (N.succ (N.succ (m * 2))) by lia.
    unfold resized. rewrite !N2Nat.inj_succ. cbn [repeat vset bind]. discriminate.
  - exfalso. revert E. unfold on_header, size_t_. rewrite N.mod_small by lia. replace (m * 2 + 2)%N with (N.succ (N.succ (m * 2))) by lia.
    unfold resized. rewrite !N2Nat.inj_succ. cbn [repeat vset bind]. discriminate.
Qed.
Lemma epfl_truncated files M id path m i o : epfl_filepath_by_id id = Ok path -> (m < 2 ^ 62)%N -> files path = Some (m, i, o, [], false) ->
  load_epfl_benchmark_file files M id = Ok (repeat bzero (N.to_nat o)).
Proof. intros E Hm H. unfold load_epfl_benchmark_file, read_unchecked. rewrite E. cbn [bind]. rewrite H. apply truncated. exact Hm. Qed.

(** ** the bucket experiments *)
Lemma metric_value M n f g kind v : Forall (wf M) f -> below n f -> Forall (wf M) g -> below n g -> List.length g = List.length f ->
  metric_function M kind f g = Ok (Fin v) ->
  (kind = ERROR_RATE -> (v == rate n f g)%Q) /\ (kind = AVERAGE_CASE -> List.length f + n < 256 -> (v == average_distance n f g)%Q).
Proof.
  intros Wf Bf Wg Bg L H. split.
  - intros ->. cbn [metric_function] in H. destruct (error_rate_full M n f g Wf Wg Bf Bg) as [R _]. destruct (R (eq_sym L)) as (q & E & EQ & _).
    rewrite E in H. cbn [bind] in H. injection H as <-. exact EQ.
  - intros -> Hl. cbn [metric_function] in H. destruct (ace_full M n f g Wf Wg Bf Bg) as [(q & q' & m & E & EQ & _) _]; [rewrite L; lia|].
    rewrite E in H. injection H as <-. exact EQ.
Qed.
Lemma rate_self n f : (rate n f f == 0)%Q.
Proof. unfold rate. rewrite (average_ext n _ (fun _ => 0%Q)); [apply average_const|]. intro a. rewrite differ_self. reflexivity. Qed.
Lemma distance_self n f : (average_distance n f f == 0)%Q.
Proof. unfold average_distance. rewrite (average_ext n _ (fun _ => 0%Q)); [apply average_const|]. intro a. rewrite dist_self. reflexivity. Qed.

(** ** the operators *)
Lemma list_ext {A} : forall l l' : list A, (forall i, nth_error l i = nth_error l' i) -> l = l'.
Proof.
  induction l as [|x l IH]; intros [|y l'] H; [reflexivity|discriminate (H 0)|discriminate (H 0)|].
  pose proof (H 0) as H0. cbn [nth_error] in H0. injection H0 as ->. f_equal. apply IH. intro i. exact (H (S i)).
Qed.
Lemma single_fixes M f g g' op : Forall (wf M) g -> In op (generate_single_bdd_operators M f both_cofactors) -> op g = Ok g' -> fixes_one M g g'.
Proof.
  intros W Hop E. unfold generate_single_bdd_operators in Hop. apply in_flat_map in Hop. destruct Hop as (i & _ & Hop).
  apply in_flat_map in Hop. destruct Hop as (j & _ & Hop). apply in_map_iff in Hop. destruct Hop as (o & <- & Ho).
  unfold single_operator in E. destruct (vget g i) as [b| | |] eqn:Eb; cbn [bind] in E; try discriminate. apply vget_iff in Eb.
  assert (Wb : wf M b) by (rewrite Forall_forall in W; apply W; eapply nth_error_In; eauto).
  destruct (apply_operator_spec M b o j Wb) as (r & Er & Wr & _ & S). rewrite Er in E. cbn [bind] in E.
  destruct (vset_spec _ _ _ _ E) as (L & Hi & NE). split; [exact L|]. exists i, j.
  assert (X : exists c, forall a, ev r a = ev b (upd a j c)).
  { destruct Ho as [<-|[<-|[]]]; [exists true|exists false]; exact S. }
  destruct X as (c & X). exists c, b, r. split; [exact Eb|]. split; [rewrite NE, Nat.eqb_refl; reflexivity|]. split; [exact Wr|]. split; [exact X|].
  intros k Hk. rewrite NE. apply Nat.eqb_neq in Hk. rewrite Hk. reflexivity.
Qed.
Lemma fixes_generated M f g : Forall (wf M) f -> fixes_one M f g ->
  g = f \/ exists op, In op (generate_single_bdd_operators M f both_cofactors) /\ op f = Ok g.
Proof.
  intros W (L & i & v & c & b & b' & Eb & Eb' & Wb' & V & O).
  assert (Ib : In b f) by (eapply nth_error_In; eauto). assert (Wb : wf M b) by (rewrite Forall_forall in W; apply W; exact Ib).
  assert (Hi : i < List.length f) by (apply nth_error_Some; congruence).
  destruct (le_lt_dec (terminal_level [f]) v) as [Hv|Hv].
  - left. apply list_ext. intro k. destruct (Nat.eq_dec k i) as [->|N]; [|apply O; exact N]. rewrite Eb, Eb'. f_equal.
    apply (canonical M); auto. intro a. rewrite V. apply ev_upd_notin. intro I.
    pose proof (terminal_level_gt [f] f b v (or_introl eq_refl) Ib I). lia.
  - right. set (o := if c then POSITIVE_COFACTOR else NEGATIVE_COFACTOR). exists (single_operator M i v o). split.
    + unfold generate_single_bdd_operators. apply in_flat_map. exists i. split; [apply in_seq; lia|].
      apply in_flat_map. exists v. split; [apply in_seq; lia|]. apply in_map. unfold o. destruct c; [left|right; left]; reflexivity.
    + unfold single_operator. assert (vget f i = Ok b) as -> by (now apply vget_iff). cbn [bind].
      destruct (apply_operator_spec M b o v Wb) as (r & Er & Wr & _ & S). rewrite Er. cbn [bind].
      assert (r = b') as ->. { apply (canonical M); auto. intro a. rewrite V. unfold o in S. destruct c; exact (S a). }
      destruct (vset_ok f i b' Hi) as (g' & Eg). rewrite Eg. f_equal. destruct (vset_spec _ _ _ _ Eg) as (_ & _ & NE).
      apply list_ext. intro k. rewrite NE. destruct (k =? i) eqn:Ek; [apply Nat.eqb_eq in Ek; subst k; congruence|].
      apply Nat.eqb_neq in Ek. symmetry. apply O. exact Ek.
Qed.
Lemma fixes_fit M n f g : Forall (wf M) f -> below n f -> fixes_one M f g -> Forall (wf M) g /\ below n g /\ List.length g = List.length f.
Proof.
  intros W B (L & i & v & c & b & b' & Eb & Eb' & Wb' & V & O). split; [|split; [|exact L]].
  - apply Forall_nth_error. intros k x Hk. destruct (Nat.eq_dec k i) as [->|N]; [congruence|]. rewrite (O k N) in Hk.
    rewrite Forall_forall in W. apply W. eapply nth_error_In; eauto.
  - unfold below in *. apply Forall_nth_error. intros k x Hk. rewrite Forall_forall in B. destruct (Nat.eq_dec k i) as [->|N].
    + assert (x = b') as -> by congruence. intros a a' H. rewrite !V. apply (B b (nth_error_In _ _ Eb)). intros j Hj. unfold upd.
      destruct (j =? v); auto.
    + rewrite (O k N) in Hk. apply B. eapply nth_error_In; eauto.
Qed.
Lemma derived_restricted M n f g : Forall (wf M) f -> below n f -> derived (generate_single_bdd_operators M f both_cofactors) f g -> restricted M f g.
Proof.
  intros W B H. induction H as [|g op g' H IH Hop E]; [apply restricted_none|].
  assert (FG : fit M n (List.length f) g).
  { apply (derived_fit M n (generate_single_bdd_operators M f both_cofactors)); [|split; [exact W|split; [exact B|reflexivity]]|exact H].
    intros o Ho. apply (generated_fits M n f both_cofactors). left. exact Ho. }
  eapply restricted_more; [exact IH|]. eapply single_fixes; [apply FG|exact Hop|exact E].
Qed.

Section Buckets.
Variables (M : mgr) (n : nat) (f : list bdd) (metrics : list SimpleMetricDimension).
Hypothesis Wf : Forall (wf M) f.
Hypothesis Bf : below n f.
Hypothesis Hm : metrics <> [].
Hypothesis Hkind : Forall (fun m => m_metric m = ERROR_RATE \/ (m_metric m = AVERAGE_CASE /\ List.length f + n < 256)) metrics.
Hypothesis Hgrid : Forall (fun m => (0 < m_grid_size m)%Z) metrics.
Hypothesis Hbound : Forall (fun m => (0 < m_bound m)%Q) metrics.
Hypothesis Hvol : (volume (map m_grid_size metrics) < 2 ^ 64)%Z.
Hypothesis Hcap : Forall (fun m => (inject_Z (m_grid_size m) * cap (List.length f) (m_metric m) / m_bound m < inject_Z (2 ^ 64))%Q) metrics.
Definition value_of (kind : ErrorMetric) (g : list bdd) : Q := match kind with ERROR_RATE => rate n f g | _ => average_distance n f g end.
Definition good_bucket (i : nat) (b : Bucket) : Prop :=
  Forall (wf M) (b_function b) /\ below n (b_function b) /\ List.length (b_function b) = List.length f
  /\ bdd_size b = nodeCount (b_function b) /\ bdd_size b <= nodeCount f /\ List.length (metric_values b) = List.length metrics
  /\ (forall k m v, nth_error metrics k = Some m -> nth_error (metric_values b) k = Some v -> (v == value_of (m_metric m) (b_function b))%Q /\ (v < m_bound m)%Q)
  /\ (is_empty b = true -> b_function b = f /\ metric_values b = repeat 0%Q (List.length metrics))
  /\ (is_empty b = false -> bdd_size b < nodeCount f
      /\ forall index, in_box (map m_grid_size metrics) index -> row_major (map m_grid_size metrics) index = Z.of_nat i ->
         forall k m x, nth_error metrics k = Some m -> nth_error index k = Some x ->
         in_interval (m_grid_size m) x (m_bound m) (value_of (m_metric m) (b_function b))).
Lemma value_nonneg kind g : (0 <= value_of kind g)%Q.
Proof.
  assert (A : forall F, (forall a, (0 <= F a)%Q) -> (0 <= average n F)%Q).
  { intros F HF. rewrite <- (average_const n 0). apply average_le. exact HF. }
  destruct kind; cbn [value_of]; unfold rate, average_distance; apply A; intro a;
    try (change 0%Q with (inject_Z 0); rewrite <- Zle_Qle; apply Z.abs_nonneg). unfold b2q. destruct (differ f g a); lra.
Qed.
Lemma helper_buckets fuel : Z.to_nat (volume (map m_grid_size metrics)) * nodeCount f + 1 <= fuel ->
  exists smallest buckets, bucket_minimize_helper M fuel f metrics SINGLE_BDD both_cofactors [] 0 false = Some (Ok (nodeCount f, smallest, buckets))
  /\ List.length buckets = Z.to_nat (volume (map m_grid_size metrics))
  /\ In smallest buckets /\ (forall b, In b buckets -> bdd_size smallest <= bdd_size b)
  /\ (forall g, fixes_one M f g -> (forall m, In m metrics -> (value_of (m_metric m) g < m_bound m)%Q) -> bdd_size smallest <= nodeCount g)
  /\ forall i b, nth_error buckets i = Some b -> restricted M f (b_function b) /\ good_bucket i b.
Proof.
  intro Hf.
  destruct (helper_ok M n f metrics SINGLE_BDD both_cofactors [] 0 false Wf Bf Hm Hgrid Hbound Hvol fuel Hf) as ([[original smallest] buckets] & E); [discriminate| |].
  { rewrite Forall_forall in *. intros m Im. split; [|apply Hcap; exact Im]. destruct (Hkind m Im) as [->|[-> K]]; cbn [admissible]; [exact I|exact K]. }
  destruct (helper_guarantee M n f metrics SINGLE_BDD both_cofactors [] 0 false Wf Bf Hm Hgrid Hbound Hvol fuel original smallest buckets E) as (-> & Is & Sm & G).
  destruct (helper_split M f metrics SINGLE_BDD both_cofactors [] 0 false fuel _ E) as (l & bs & EG & EB & ES & E1 & E2).
  cbn [fst snd] in E1, E2, ES. subst bs.
  pose proof (buckets_sound f (map (fun m => Dim (m_grid_size m) (metric_function M (m_metric m)) (m_bound m)) metrics) l false) as BS.
  rewrite (dims_grid M metrics) in BS. specialize (BS (dims_some M metrics Hm Hgrid Hbound Hvol) (dims_pos M metrics Hgrid) Hvol fuel buckets EB).
  destruct BS as [Lb BS]. exists smallest, buckets. split; [exact E|]. split; [exact Lb|]. split; [exact Is|]. split; [exact Sm|].
  unfold gens in EG. injection EG as <-. split.
  { intros g Hg Hv. destruct (fixes_generated M f g Wf Hg) as [->|(op & Hop & Eop)].
    { destruct (G smallest Is) as (G1 & G2 & _). exact G2. }
    destruct (fixes_fit M n f g Wf Bf Hg) as (Wg & Bg & Lg).
    destruct (within_bounds f (map (fun m => Dim (m_grid_size m) (metric_function M (m_metric m)) (m_bound m)) metrics)
      (generate_single_bdd_operators M f both_cofactors)) with (pop_all := false) (fuel := fuel) (buckets := buckets) (op := op) (g := g) as (b & Ib & Lb'); auto.
    - exact (dims_some M metrics Hm Hgrid Hbound Hvol).
    - exact (dims_pos M metrics Hgrid).
    - rewrite (dims_grid M metrics). exact Hvol.
    - apply Forall_map. exact Hbound.
    - apply Forall_map. apply Forall_forall. intros m Im. cbn [metric bound].
      pose proof Hkind as HK. rewrite Forall_forall in HK. specialize (HK m Im).
      destruct (metric_means M n f g (m_metric m)) as (v & Ev & [V0 _] & _).
      { split; [exact Wf|split; [exact Bf|reflexivity]]. }
      { split; [exact Wg|split; [exact Bg|exact Lg]]. }
      { destruct HK as [->|[-> K]]; cbn [admissible]; [exact I|exact K]. }
      exists v. split; [exact Ev|]. split; [exact V0|].
      destruct (metric_value M n f g (m_metric m) v Wf Bf Wg Bg Lg Ev) as [V1 V2]. specialize (Hv m Im).
      destruct HK as [K|[K K']]; rewrite K in Hv; cbn [value_of] in Hv; [rewrite (V1 K); exact Hv|rewrite (V2 K K'); exact Hv].
    - pose proof (Sm b Ib). lia. }
  intros i b Hi. destruct (G b (nth_error_In _ _ Hi)) as (G1 & G2 & G3 & G4 & G5 & G6).
  assert (Li : i < List.length buckets) by (apply nth_error_Some; congruence).
  destruct (index_conversions (map m_grid_size metrics) ltac:(lia)) as [_ IC].
  destruct (IC ltac:(apply Forall_map; exact Hgrid) (Z.of_nat i)) as (index & Ib & Ir & _); [lia|].
  destruct (BS i b index Hi Ib Ir) as (DR & _ & _ & B4 & B5). rewrite map_length in B4, B5.
  assert (V : forall k m v, nth_error metrics k = Some m -> nth_error (metric_values b) k = Some v -> is_empty b = false ->
              (v == value_of (m_metric m) (b_function b))%Q).
  { intros k m v Hk Hv Ee. destruct (B5 Ee) as (_ & _ & B6).
    assert (Lk : k < List.length index).
    { rewrite (in_box_length _ _ Ib), map_length. apply nth_error_Some. congruence. }
    destruct (nth_error index k) as [x|] eqn:Ex; [|apply nth_error_None in Ex; lia].
    destruct (B6 k _ v x (map_nth_error _ _ _ Hk) Hv Ex) as (EM & _). cbn [metric] in EM.
    destruct (metric_value M n f (b_function b) (m_metric m) v Wf Bf G3 G4 G5 EM) as [V1 V2].
    pose proof Hkind as HK. rewrite Forall_forall in HK. destruct (HK m (nth_error_In _ _ Hk)) as [K|[K K']]; rewrite K; cbn [value_of]; auto. }
  split; [exact (derived_restricted M n f _ Wf Bf DR)|].
  split; [exact G3|]. split; [exact G4|]. split; [exact G5|]. split; [exact G1|]. split; [exact G2|].
  split. { destruct (is_empty b) eqn:Ee; [destruct (B4 eq_refl) as [_ ->]; apply repeat_length|apply (B5 eq_refl)]. }
  split. { intros k m v Hk Hv. destruct (is_empty b) eqn:Ee.
    - destruct (B4 eq_refl) as [E1' E2']. rewrite E2' in Hv. apply nth_error_In, repeat_spec in Hv. subst v. rewrite E1'. split.
      + destruct (m_metric m); cbn [value_of]; symmetry; first [apply rate_self|apply distance_self].
      + rewrite Forall_forall in Hbound. apply Hbound. eapply nth_error_In; eauto.
    - split; [exact (V k m v Hk Hv eq_refl)|]. destruct (B5 eq_refl) as (_ & _ & B6).
      assert (Lk : k < List.length index). { rewrite (in_box_length _ _ Ib), map_length. apply nth_error_Some. congruence. }
      destruct (nth_error index k) as [x|] eqn:Ex; [|apply nth_error_None in Ex; lia].
      destruct (B6 k _ v x (map_nth_error _ _ _ Hk) Hv Ex) as (_ & B7). cbn [bound] in B7. apply B7.
      rewrite Forall_forall in Hbound. apply Hbound. eapply nth_error_In; eauto. }
  split; [exact B4|]. intro Ee. split; [apply (B5 Ee)|]. clear index Ib Ir B4 B5. intros index Ib Ir k m x Hk Hx.
  destruct (BS i b index Hi Ib Ir) as (_ & _ & _ & _ & B5). rewrite map_length in B5. destruct (B5 Ee) as (_ & Lv & B6).
  destruct (nth_error (metric_values b) k) as [v|] eqn:Ev.
  2:{ apply nth_error_None in Ev. assert (k < List.length metrics) by (apply nth_error_Some; congruence). lia. }
  pose proof (V k m v Hk Ev Ee) as EV.
  destruct (B6 k _ v x (map_nth_error _ _ _ Hk) Ev Hx) as (_ & B7). cbn [bound grid_size] in B7.
  destruct B7 as (_ & B8). { rewrite Forall_forall in Hbound. apply Hbound. eapply nth_error_In; eauto. }
  destruct B8 as (c & _ & B9 & B10 & B11). { rewrite EV. apply value_nonneg. }
  rewrite (B9 eq_refl) in B10, B11. unfold in_interval. rewrite <- EV. split; assumption.
Qed.
End Buckets.
