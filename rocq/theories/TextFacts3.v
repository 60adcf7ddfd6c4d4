(** What er_ace_adder_comparison prints *)
From Coq Require Import Ascii String List Bool Arith NArith ZArith QArith Qabs Lia Lqa.
From Verif Require Import Res Cudd CuddFacts Spec SpecFacts Helpers Float Metrics MetricsFacts MetricsFacts4 Benchmark Examples Experiments SpecExperiments ExperimentsFacts
  Genetic SpecGenetic GeneticFacts3 MinimizeMains SpecMains MainsFacts MainsFacts2 Printing SpecPrinting PrintingFacts PrintingFacts2 SpecTables MainText TextFacts TextFacts2.
Import ListNotations.
Open Scope nat_scope.
Open Scope string_scope.

Lemma table_line M adder N p1 p2 er ace wc : In (adder, (N, p1, p2), (er, ace, wc)) benchmark_adders ->
  adder_comparison_line M adder N p1 p2
  = Ok (approximate_adder_name adder (N.of_nat N) (N.of_nat p1) (N.of_nat p2) ++ ";" ++ put_double er ++ ";" ++ put_double ace ++ ";" ++ put_double (inject_Z wc) ++ end_line).
Proof.
  intro H. pose proof (benchmark_table M) as T. rewrite Forall_forall in T. destruct (T _ H) as (er' & ace' & wc' & E & H1 & H2 & H3).
  unfold adder_comparison_line. rewrite E. cbn [bind put_num]. now rewrite (put_double_eq _ _ H1), (put_double_eq _ _ H2), (put_double_eq _ _ H3).
Qed.
Lemma small_value M : exists q, small_example M = Ok (Fin q) /\ (q == 1 # 8)%Q.
Proof.
  unfold small_example. set (one := [_; _; _]). set (zero := [bvar 0; bvar 1; bvar 2]).
  assert (W1 : Forall (wf M) one) by (repeat apply Forall_cons; try apply Forall_nil; auto using wf_var, wf_or, wf_and).
  assert (W0 : Forall (wf M) zero) by (repeat apply Forall_cons; try apply Forall_nil; auto using wf_var).
  assert (B1 : below 3 one). { repeat apply Forall_cons; try apply Forall_nil; intros a b H; rewrite ?ev_or, ?ev_and, ?ev_var, ?(H 0), ?(H 1), ?(H 2) by lia; reflexivity. }
  assert (B0 : below 3 zero). { repeat apply Forall_cons; try apply Forall_nil; intros a b H; rewrite ?ev_var, ?(H 0), ?(H 1), ?(H 2) by lia; reflexivity. }
  destruct (ace_full M 3 one zero W1 W0 B1 B0) as ((q & q' & m & E & V & _) & _); [cbn; lia|].
  exists q. split; auto. rewrite V. transitivity (average 3 (fun a => if negb (a 0) && a 1 && a 2 then 1%Q else 0%Q)); [|vm_compute; reflexivity].
  apply average_ext. intro a. unfold one, zero. cbn [uval]. rewrite ev_or, ev_and, !ev_var. destruct (a 0), (a 1), (a 2); reflexivity.
Qed.
Lemma er_ace_prints managers : er_ace_adder_comparison managers = Ok (lines
  ["GeAr_N16_R6_P4;0.0307617;31.5;1024"; "GeAr_N16_R4_P4;0.0585938;127.5;4096"; "GeAr_N16_R4_P8;0.00183105;7.5;4096"; "GeAr_N16_R2_P4;0.11554;511.5;16640"; "0.125"]).
Proof.
  unfold er_ace_adder_comparison. destruct (small_value (managers 4)) as (q & E & V).
  rewrite (table_line (managers 0) GEAR 16 6 4 (63 # 2048) (63 # 2) 1024), (table_line (managers 1) GEAR 16 4 4 (15 # 256) (255 # 2) 4096),
    (table_line (managers 2) GEAR 16 4 8 (15 # 8192) (15 # 2) 4096), (table_line (managers 3) GEAR 16 2 4 (1893 # 16384) (1023 # 2) 16640)
    by (unfold benchmark_adders; cbn [In]; tauto).
  rewrite E. cbn [bind put_num]. rewrite (put_double_eq _ _ V). vm_compute. reflexivity.
Qed.
Lemma genetic_limit M n f max_ace both evolve start r s x : Forall (wf M) f -> below n f -> reports M n f limit_005 max_ace both evolve start r ->
  shows s (error_rate_ r) -> reads_as s x -> (x <= 1 # 20)%Q.
Proof.
  intros W B R S X. apply (limit_shown (error_rate_ r) s); auto. destruct (reports_acceptable M n f limit_005 max_ace both evolve start r W B R) as [E|(g & H)]; [rewrite E; reflexivity|tauto].
Qed.
Lemma er_ace_text managers : exists text, er_ace_adder_comparison managers = Ok text
  /\ split_at newline text
     = ["GeAr_N16_R6_P4;0.0307617;31.5;1024"; "GeAr_N16_R4_P4;0.0585938;127.5;4096"; "GeAr_N16_R4_P8;0.00183105;7.5;4096";
        "GeAr_N16_R2_P4;0.11554;511.5;16640"; "0.125"; ""].
Proof. eexists. split; [exact (er_ace_prints managers)|vm_compute; reflexivity]. Qed.
