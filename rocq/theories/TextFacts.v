(** The tables read back *)
From Coq Require Import Ascii String List Bool Arith ZArith QArith Qabs Lia Lqa.
From Verif Require Import Res Cudd Metrics Benchmark SpecBenchmark BenchmarkFacts2 BenchmarkFacts4 Genetic Experiments MinimizeMains Printing SpecPrinting PrintingFacts PrintingFacts2
  SpecTables MainText.
Import ListNotations.
Open Scope nat_scope.
Open Scope string_scope.

(** ** Splitting *)
Lemma split_lacks sep s : lacks sep s -> split_at sep s = [s].
Proof. induction s as [|c s IH]; [reflexivity|]. intros [H1 H2]. cbn [split_at]. destruct (Ascii.eqb_spec c sep); [contradiction|]. now rewrite IH. Qed.
Lemma split_cons sep a b : lacks sep a -> split_at sep (a ++ String sep b) = a :: split_at sep b.
Proof.
  induction a as [|c a IH]; intro H; cbn [String.append split_at]; [now rewrite Ascii.eqb_refl|]. destruct H as [H1 H2].
  destruct (Ascii.eqb_spec c sep); [contradiction|]. now rewrite IH.
Qed.
Definition cells_of_line (sep : ascii) (l : string) : list string := map skip_blanks (split_at sep l).
Fixpoint lines (ls : list string) : string := match ls with [] => "" | l :: ls' => l ++ end_line ++ lines ls' end.
Lemma split_lines ls : Forall (lacks newline) ls -> split_at newline (lines ls) = (ls ++ [""])%list.
Proof.
  induction ls as [|l ls IH]; intro H; [reflexivity|]. inversion H; subst. cbn [lines]. change (end_line ++ lines ls) with (String newline (lines ls)).
  rewrite split_cons by assumption. now rewrite IH.
Qed.
Lemma table_lines sep ls : Forall (lacks newline) ls -> table sep (lines ls) = Some (map (cells_of_line sep) ls).
Proof. intro H. unfold table. rewrite split_lines, rev_app_distr by assumption. cbn [rev app]. now rewrite rev_involutive. Qed.
Lemma lines_app a b : lines (a ++ b) = lines a ++ lines b.
Proof. induction a as [|l a IH]; [reflexivity|]. cbn [app lines]. rewrite IH, !app_assoc_s. reflexivity. Qed.
(** a cell without separator *)
Definition cell (sep : ascii) (s : string) : Prop := lacks sep s /\ lacks newline s /\ skip_blanks s = s.
Lemma cells_comma l : l <> [] -> Forall (cell ",") l -> cells_of_line "," (String.concat ", " l) = l /\ lacks newline (String.concat ", " l).
Proof.
  induction l as [|s l IH]; intros N H; [contradiction|]. inversion H as [|? ? (H1 & H2 & H3) H4]; subst. destruct l as [|s' l].
  - cbn [String.concat]. split; auto. unfold cells_of_line. rewrite split_lacks by assumption. cbn [map]. now rewrite H3.
  - destruct (IH ltac:(discriminate) H4) as [E L]. remember (s' :: l)%list as t. assert (C : String.concat ", " (s :: t) = s ++ String "," (String " " (String.concat ", " t))) by (subst; reflexivity).
    rewrite C. split.
    + unfold cells_of_line in *. rewrite split_cons by assumption. cbn [map]. rewrite H3. f_equal. cbn [split_at]. change (Ascii.eqb " " ",") with false. cbv iota.
      destruct (split_at "," (String.concat ", " t)) as [|w ws]; [subst t; discriminate|]. cbn [map skip_blanks] in *. exact E.
    + apply lacks_app; auto. repeat split; auto; discriminate.
Qed.
Lemma cells_semicolon l : l <> [] -> Forall (cell ";") l -> cells_of_line ";" (String.concat ";" l) = l /\ lacks newline (String.concat ";" l).
Proof.
  induction l as [|s l IH]; intros N H; [contradiction|]. inversion H as [|? ? (H1 & H2 & H3) H4]; subst. destruct l as [|s' l].
  - cbn [String.concat]. split; auto. unfold cells_of_line. rewrite split_lacks by assumption. cbn [map]. now rewrite H3.
  - destruct (IH ltac:(discriminate) H4) as [E L]. remember (s' :: l)%list as t. assert (C : String.concat ";" (s :: t) = s ++ String ";" (String.concat ";" t)) by (subst; reflexivity).
    rewrite C. split.
    + unfold cells_of_line in *. rewrite split_cons by assumption. cbn [map]. rewrite H3. f_equal. exact E.
    + apply lacks_app; auto. repeat split; auto; discriminate.
Qed.

(** ** Cells *)
Definition separator (sep : ascii) : Prop := sep = ","%char \/ sep = ";"%char.
Lemma decimal_cell sep s z : separator sep -> decimal s z -> cell sep s.
Proof.
  intros Hs (H0 & H & _). split; [|split].
  - apply (lacks_digits sep s) in H; auto. destruct Hs; subst; reflexivity.
  - apply (lacks_digits newline s) in H; auto.
  - destruct s as [|c s]; [reflexivity|]. cbn [read_digits skip_blanks] in *. destruct (Ascii.eqb_spec c " "); [subst; discriminate|reflexivity].
Qed.
Lemma put_double_shows q : shows (put_double q) q.
Proof. destruct (put_double_spec q) as (r & H1 & H2 & _). exists r. auto. Qed.
Lemma put_double_cell sep q : separator sep -> cell sep (put_double q).
Proof.
  intro Hs. destruct (put_double_spec q) as (r & (x & E & _) & _ & _ & L). split; [|split].
  - apply L; destruct Hs; subst; try reflexivity; cbn; intuition discriminate.
  - apply L; [reflexivity|cbn; intuition discriminate].
  - assert (B : lacks " " (put_double q)) by (apply L; [reflexivity|cbn; intuition discriminate]). destruct (put_double q) as [|c s]; [reflexivity|].
    destruct B as [B _]. cbn [skip_blanks]. destruct (Ascii.eqb_spec c " "); [contradiction|reflexivity].
Qed.
Lemma size_decimal n : shows_size (put_size n) n.
Proof. unfold shows_size, put_size. pose proof (to_string_decimal (N.of_nat n)) as H. now rewrite nat_N_Z in H. Qed.
Lemma size_t_decimal z : (0 <= z)%Z -> decimal (put_size_t z) z.
Proof. intro H. unfold put_size_t. pose proof (to_string_decimal (Z.to_N z)) as D. now rewrite Z2N.id in D. Qed.
Lemma time_cell sep s : separator sep -> printed_time s -> cell sep s.
Proof.
  intros Hs (ms & H0 & H). destruct format_time_text as (T1 & _ & T3 & _). destruct (Qlt_le_dec ms (inject_Z (60000 * 2 ^ 31))) as [L|L].
  - destruct (T1 ms (conj H0 L)) as (z & text & unit & len & E & I & U & B). rewrite E in H. injection H as <-.
    assert (D : decimal text z).
    { destruct I as [[_ D]|[N _]]; auto. exfalso. destruct B as [_ B]. assert (BZ : (inject_Z ((z + 1) * len) <= 0)%Q).
      { change 0%Q with (inject_Z 0). rewrite <- Zle_Qle. destruct U as [(_ & _ & EL)|[(_ & _ & EL)|(_ & _ & EL)]]; subst len; lia. } lra. }
    destruct (decimal_cell sep text z Hs D) as (C1 & C2 & C3). assert (N : text <> "") by now destruct D.
    assert (UN : lacks sep (" " ++ unit) /\ lacks newline (" " ++ unit)).
    { destruct U as [(_ & EU & _)|[(_ & EU & _)|(_ & EU & _)]], Hs as [-> | ->]; subst unit; cbn; repeat split; discriminate. }
    destruct UN as [U1 U2]. split; [now apply lacks_app|]. split; [now apply lacks_app|]. destruct text as [|c t]; [contradiction|]. cbn [String.append skip_blanks] in *.
    destruct (Ascii.eqb c " ") eqn:Ec; [|reflexivity]. exfalso. assert (Ls : String.length (skip_blanks t) <= String.length t) by (clear; induction t as [|x t IH]; [cbn; lia|]; cbn [skip_blanks]; destruct (Ascii.eqb x " "); cbn [String.length] in *; lia).
    rewrite C3 in Ls. cbn [String.length] in Ls. lia.
  - rewrite (T3 ms (or_introl L)) in H. discriminate.
Qed.

(** ** Rows *)
Lemma put_rows_lines {A} (line : A -> string -> string) (content : A -> string -> string) times : (forall r t, line r t = content r t ++ end_line) ->
  forall rows k, put_rows line times k rows = lines (map (fun p => content (fst p) (times (snd p))) (combine rows (seq k (List.length rows)))).
Proof.
  intro H. induction rows as [|r rows IH]; intro k; [reflexivity|]. cbn [put_rows combine List.length seq map lines fst snd]. rewrite H, IH, app_assoc_s. reflexivity.
Qed.
Lemma rows_table {A} sep (line content : A -> string -> string) (cells_of : A -> string -> list string -> Prop) times (P : A -> Prop) rows header cells :
  (forall r t, line r t = content r t ++ end_line) ->
  (forall r t, P r -> printed_time t -> lacks newline (content r t) /\ cells_of r t (cells_of_line sep (content r t))) ->
  (forall k, printed_time (times k)) -> Forall P rows -> lacks newline header -> cells_of_line sep header = cells ->
  exists body, table sep (header ++ end_line ++ put_rows line times 0 rows) = Some (cells :: body) /\ rows_show cells_of times rows body.
Proof.
  intros HL HC HT HP Hh Hc. rewrite (put_rows_lines line content times HL). set (ls := map _ _).
  assert (N : Forall (lacks newline) (header :: ls)).
  { constructor; auto. apply Forall_forall. intros x Hx. apply in_map_iff in Hx. destruct Hx as ([r k] & <- & Hx). apply in_combine_l in Hx. rewrite Forall_forall in HP. now apply HC; auto. }
  exists (map (cells_of_line sep) ls). change (header ++ end_line ++ lines ls) with (lines (header :: ls)). rewrite table_lines by assumption. cbn [map]. rewrite Hc. split; [reflexivity|].
  unfold ls. split.
  - rewrite !map_length, combine_length, seq_length. lia.
  - intros k r Hr. rewrite map_map. assert (E : nth_error (combine rows (seq 0 (List.length rows))) k = Some (r, k)).
    { assert (G : forall (l : list A) j i r, nth_error l i = Some r -> nth_error (combine l (seq j (List.length l))) i = Some (r, j + i)).
      { clear. induction l as [|x l IH]; intros j i r H; [now destruct i|]. destruct i as [|i]; cbn [nth_error List.length seq combine] in *; [rewrite Nat.add_0_r; congruence|]. rewrite (IH (S j) i r H). f_equal. f_equal. lia. }
      now apply (G rows 0 k r). }
    eexists. split; [apply map_nth_error; exact E|]. cbn [fst snd]. apply HC; auto. rewrite Forall_forall in HP. apply HP. now apply nth_error_In in Hr.
Qed.
Ltac cells_solve := repeat (apply Forall_cons || apply Forall_nil).
Lemma bucket_file_ok r t : cell "," (f_name r) -> printed_time t ->
  let l := String.concat ", " [f_name r; put_size (f_original r); put_size (f_smallest r); put_double (f_rate r); t] in
  lacks newline l /\ bucket_file_cells r t (cells_of_line "," l).
Proof.
  intros Hn Ht l. assert (S : separator ",") by now left. destruct (cells_comma [f_name r; put_size (f_original r); put_size (f_smallest r); put_double (f_rate r); t]) as [E L].
  - discriminate.
  - cells_solve; auto; try (eapply decimal_cell; eauto; apply size_decimal); [now apply put_double_cell|now apply time_cell].
  - split; auto. unfold l. rewrite E. exists (put_size (f_original r)), (put_size (f_smallest r)), (put_double (f_rate r)). auto using size_decimal, put_double_shows.
Qed.
Lemma genetic_file_ok r t : cell "," (g_name r) /\ (0 <= node_count (g_result r))%Z -> printed_time t ->
  let l := String.concat ", " [g_name r; put_size (g_original r); put_size_t (node_count (g_result r)); put_double (error_rate_ (g_result r)); t] in
  lacks newline l /\ genetic_file_cells r t (cells_of_line "," l).
Proof.
  intros [Hn Hz] Ht l. assert (S : separator ",") by now left. destruct (cells_comma [g_name r; put_size (g_original r); put_size_t (node_count (g_result r)); put_double (error_rate_ (g_result r)); t]) as [E L].
  - discriminate.
  - cells_solve; auto; try (eapply decimal_cell; eauto; apply size_decimal); [eapply decimal_cell; eauto; now apply size_t_decimal|now apply put_double_cell|now apply time_cell].
  - split; auto. unfold l. rewrite E. do 3 eexists. split; [reflexivity|]. auto using size_decimal, put_double_shows, size_t_decimal.
Qed.
Lemma genetic_adder_ok r t : cell "," (g_name r) /\ (0 <= node_count (g_result r))%Z -> printed_time t ->
  let l := String.concat ", " [g_name r; put_size (g_original r); put_size_t (node_count (g_result r)); put_double (error_rate_ (g_result r)); put_double (average_case_error_ (g_result r)); t] in
  lacks newline l /\ genetic_adder_cells r t (cells_of_line "," l).
Proof.
  intros [Hn Hz] Ht l. assert (S : separator ",") by now left.
  destruct (cells_comma [g_name r; put_size (g_original r); put_size_t (node_count (g_result r)); put_double (error_rate_ (g_result r)); put_double (average_case_error_ (g_result r)); t]) as [E L].
  - discriminate.
  - cells_solve; auto; try (eapply decimal_cell; eauto; apply size_decimal); [eapply decimal_cell; eauto; now apply size_t_decimal|now apply put_double_cell|now apply put_double_cell|now apply time_cell].
  - split; auto. unfold l. rewrite E. do 4 eexists. split; [reflexivity|]. auto using size_decimal, put_double_shows, size_t_decimal.
Qed.
Lemma print_rows_in {A B} (run : nat -> A -> option (res B)) : forall items k row, In row (fst (print_rows run k items)) ->
  exists k x, In x items /\ run k x = Some (Ok row).
Proof.
  induction items as [|x items IH]; intros k row H; [destruct H|]. cbn [print_rows] in H. destruct (run k x) as [[b| | |]|] eqn:E; try (now destruct H).
  specialize (IH (S k) row). destruct (print_rows run (S k) items) as [rows e]. cbn [fst] in *. destruct H as [<-|H]; [exists k, x; split; [now left|exact E]|].
  destruct (IH H) as (k' & x' & H1 & H2). exists k', x'. split; [now right|exact H2].
Qed.
