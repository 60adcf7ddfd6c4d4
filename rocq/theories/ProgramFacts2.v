(** The text of improved_sampling.cpp *)
From Coq Require Import Ascii String List Bool Arith ZArith QArith Lia Lqa.
From Verif Require Import Res Cudd CuddFacts Spec SpecFacts SpecBenchmark Helpers HelpersFacts HelpersFacts2 Counting Operators Metrics MetricsFacts RelMetrics RelFacts3 RelFacts4 RelFacts6 RelFacts7 Experiments ExperimentsFacts ExperimentsFacts2
  SamplingFacts MinimizeFacts3 Printing SpecPrinting PrintingFacts2 SpecTables MinimizeMains MainText TextFacts SpecMains MainsFacts ProgramText SpecPrograms.
Import ListNotations.
Open Scope nat_scope.
Open Scope string_scope.

Lemma put_double_proper q q' : (q == q')%Q -> shows (put_double q) q'.
Proof.
  intro E. destruct (put_double_shows q) as (r & H1 & H2 & H3). exists r. split; [exact H1|]. split; [exact H2|].
  intros x Hx. rewrite <- E. auto.
Qed.
Lemma concat_lines rows : String.concat "" (map (fun r => r ++ end_line) rows) = lines rows.
Proof.
  induction rows as [|r rows IH]; [reflexivity|]. cbn [map lines]. rewrite <- app_assoc_s, <- IH. destruct rows as [|r' rows]; cbn [map String.concat lines].
  - clear. generalize (r ++ end_line). intro s. induction s as [|c s IH]; cbn [String.append]; congruence.
  - reflexivity.
Qed.
Lemma mapM_UB {A B} (F : A -> res B) x l : F x = UB -> mapM F (x :: l) = UB.
Proof. intro H. cbn [mapM]. rewrite H. reflexivity. Qed.

Lemma improved_text M sort rm draws level last f : sorts_down sort -> wfs M f ->
  let n := read_size M in below n f -> 1 <= n -> (forall k i, 0 <= draws k i)%Z ->
  exists g, mapM (fun b => subset_light_child M b level last) f = Ok g
  /\ Forall2 (fun x y => forall a, ev y a = true -> ev x a = true) f g
  /\ (List.length f = 1 \/ two_wrong f g -> exists text size s body, improved_sampling_text M sort rm draws level last f = Ok text
        /\ table ";" text = Some (["Read file: " ++ size ++ " outputs"] :: ["Approximated the function"] :: ["error rate: " ++ s] :: body)
        /\ decimal size (Z.of_nat (List.length f)) /\ shows s (average n (fun a => b2q (uval g a <? uval f a)%Z))
        /\ List.length body = 200 /\ forall k, k < 200 -> exists cells, nth_error body k = Some cells /\ estimates_row draws n f g k cells)
  /\ (List.length f <> 1 -> ~ two_wrong f g -> improved_sampling_text M sort rm draws level last f = UB).
Proof.
  intros HS W n B Hn Hd.
  destruct (mapM_all (fun b => subset_light_child M b level last) (wf M)
    (fun x y => kept M x y /\ forall a, ev y a = true -> ev x a = true) f) as (g & E & H); auto.
  { intros x Wx. destruct (sl_kept M x level last Wx) as (y & Ey & K & Hy). exists y. auto. }
  assert (K : Forall2 (kept M) f g) by (revert H; apply all2_impl; intros x y Hxy; apply Hxy).
  assert (D : Forall2 (fun x y => forall a, ev y a = true -> ev x a = true) f g) by (revert H; apply all2_impl; intros x y Hxy; apply Hxy).
  destruct (kept_all M n f g K B) as (Wg & L & Bg). symmetry in L.
  destruct (error_rate_spec M n f g W Wg B Bg) as (q & Eq & Vq); [unfold bdd in *; lia|].
  assert (Er : forall i, i < List.length f -> (output_rate n f g i == density n (nth i f bzero) - density n (nth i g bzero))%Q).
  { intros i Hi. unfold output_rate, density.
    assert (N : forall a, ev (nth i g bzero) a = true -> ev (nth i f bzero) a = true).
    { clear - D Hi. revert i Hi. induction D as [|u v f g Huv D IH]; intros i Hi; [cbn in Hi; lia|]. destruct i as [|i]; cbn [nth]; [exact Huv|].
      apply IH. cbn in Hi. lia. }
    assert (X : (average n (fun a => b2q (ev (nth i f bzero) a)) == average n (fun a => b2q (wrong f g i a)) + average n (fun a => b2q (ev (nth i g bzero) a)))%Q).
    { rewrite <- average_plus. apply average_ext. intro a. specialize (N a). unfold wrong.
      destruct (ev (nth i g bzero) a), (ev (nth i f bzero) a); try reflexivity; discriminate (N eq_refl). }
    rewrite X. ring. }
  assert (Es : (sumQ (map (output_rate n f g) (seq 0 (List.length f))) == sumQ (map (density n) f) - sumQ (map (density n) g))%Q).
  { rewrite (sumQ_map_ext _ (fun i => density n (nth i f bzero) + (-1) * density n (nth i g bzero))%Q).
    2:{ intros i Hi. apply in_seq in Hi. rewrite Er by lia. ring. }
    rewrite SamplingFacts.sumQ_map_plus, SamplingFacts.sumQ_map_scale.
    rewrite <- (map_map (fun i => nth i f bzero) (density n)), nth_seq_list.
    rewrite <- (map_map (fun i => nth i g bzero) (density n)). replace (List.length f) with (List.length g) by auto. rewrite nth_seq_list. ring. }
  assert (Vr : (q == average n (fun a => b2q (uval g a <? uval f a)%Z))%Q).
  { rewrite Vq. apply average_ext. intro a. clear - D. assert (X : differ f g a = (uval g a <? uval f a)%Z).
    { induction D as [|u v f g Huv D IH]; [reflexivity|]. cbn [differ uval]. rewrite IH. specialize (Huv a).
      assert (Y : (uval g a <= uval f a)%Z) by (now apply uval_anti). apply eq_true_iff_eq. rewrite orb_true_iff, !Z.ltb_lt.
      destruct (ev u a), (ev v a); cbn [xorb Z.b2z]; try (discriminate (Huv eq_refl)); split; intros; try tauto; try lia. }
    now rewrite X. }
  assert (Hs : forall k, k < 200 -> (1 <= Z.of_nat (100 * (k + 1)) < 2 ^ 31)%Z) by (intros k Hk; lia).
  exists g. split; [exact E|]. split; [exact D|]. split.
  - intro Hw.
    assert (ER : forall k, k < 200 -> exists row, improved_sampling_row M sort rm (draws (2 * k)) (draws (2 * k + 1)) f g (Z.of_nat (100 * (k + 1))) = Ok (row ++ end_line)
      /\ lacks newline row /\ estimates_row draws n f g k (cells_of_line ";" row)).
    { intros k Hk. destruct (error_rate_sampling_exact M (draws (2 * k)) f g _ L W Wg B Bg (Hs k Hk) (Hd (2 * k))) as (x & Ex & Vx).
      assert (EY : exists y, error_rate_efficient_sampling M sort rm (draws (2 * k + 1)) f g (Z.of_nat (100 * (k + 1))) = Ok y /\ (y <= 1)%Q
        /\ (forall i, i < List.length f -> (output_rate n f g i <= y)%Q) /\ (y <= sumQ (map (output_rate n f g) (seq 0 (List.length f))))%Q).
      { destruct (sampling_ranges M sort rm (draws (2 * k + 1)) f g _ HS Hn W Wg B Bg (Hs k Hk)) as [HE _]. destruct (HE L) as (_ & H1 & H2). fold n in H1, H2.
        destruct Hw as [Hw|Hw].
        - destruct (H1 Hw) as (y & Ey & Vy). exists y. split; [exact Ey|]. split; [|split].
          + rewrite Vy. unfold output_rate. rewrite <- (average_const n 1). apply average_le. intro a. destruct (wrong f g 0 a); cbn; lra.
          + intros i Hi. replace i with 0 by lia. rewrite Vy. apply Qle_refl.
          + rewrite Hw, Vy. cbn [seq map]. unfold sumQ. cbn [fold_right]. lra.
        - destruct (H2 Hw) as (y & Ey & R1 & R2 & R3). exists y. auto. }
      destruct EY as (y & Ey & R1 & R2 & R3).
      set (a := put_size_t (Z.of_nat (100 * (k + 1)))). exists (String.concat ";" [a; put_double x; put_double y]).
      assert (Da : decimal a (Z.of_nat (100 * (k + 1)))) by (apply size_t_decimal; lia).
      destruct (cells_semicolon [a; put_double x; put_double y]) as [C1 C2]; [discriminate| |].
      { assert (Hsep : separator ";") by now right. apply Forall_cons; [eapply decimal_cell; eauto|]. apply Forall_cons; [now apply put_double_cell|]. apply Forall_cons; [now apply put_double_cell|]. apply Forall_nil. }
      split; [|split; [exact C2|]].
      - unfold improved_sampling_row. rewrite Ex. cbn [bind]. rewrite Ey. cbn [bind put_num]. fold a. f_equal. cbn [String.concat]. rewrite !app_assoc_s. reflexivity.
      - rewrite C1. exists a, (put_double x), (put_double y), y. split; [reflexivity|]. split; [exact Da|]. split; [|split; [apply put_double_shows|]].
        + apply put_double_proper. rewrite Vx. unfold drawn_share. rewrite Nat2Z.id. reflexivity.
        + split; [exact R1|]. split; [|now rewrite <- Es]. intros i Hi. rewrite <- Er by exact Hi. auto. }
    set (F := fun k => improved_sampling_row M sort rm (draws (2 * k)) (draws (2 * k + 1)) f g (Z.of_nat (100 * (k + 1)))) in *.
    destruct (mapM_all F (fun k => k < 200) (fun k s => exists row, s = row ++ end_line /\ lacks newline row /\ estimates_row draws n f g k (cells_of_line ";" row)) (seq 0 200)) as (rows & E2 & HR).
    { intros k Hk. destruct (ER k Hk) as (row & H1 & H2). exists (row ++ end_line). split; [exact H1|]. exists row. auto. }
    { apply Forall_forall. intros k Hk. apply in_seq in Hk. lia. }
    assert (HB : exists body, rows = map (fun r => r ++ end_line) body /\ Forall2 (fun k row => lacks newline row /\ estimates_row draws n f g k (cells_of_line ";" row)) (seq 0 200) body).
    { clear - HR. induction HR as [|k s ks rows (row & -> & H) HR (body & -> & IH)]; [exists []; split; [reflexivity|constructor]|].
      exists (row :: body). split; [reflexivity|]. constructor; auto. }
    destruct HB as (body & -> & HB). assert (LB : List.length body = 200) by (rewrite <- (seq_length 200 0); clear - HB; induction HB; cbn [List.length]; congruence).
    set (size := put_size (List.length f)). pose proof (size_decimal (List.length f)) as Dz. fold size in Dz. unfold shows_size in Dz.
    assert (Hsep : separator ";") by now right. destruct (decimal_cell ";" size _ Hsep Dz) as (Z1 & Z2 & _). destruct (put_double_cell ";" q Hsep) as (Q1 & Q2 & _).
    exists (lines (("Read file: " ++ size ++ " outputs") :: "Approximated the function" :: ("error rate: " ++ put_double q) :: body)), size, (put_double q), (map (cells_of_line ";") body).
    split; [|split; [|split; [exact Dz|split; [now apply put_double_proper|split; [now rewrite map_length|]]]]].
    + unfold improved_sampling_text. rewrite E. cbn [bind]. rewrite Eq. cbn [bind]. fold F. rewrite E2. cbn [bind]. fold size. f_equal. cbn [lines]. rewrite concat_lines, !app_assoc_s. reflexivity.
    + rewrite table_lines.
      * cbn [map]. unfold cells_of_line at 1 2 3. rewrite !split_lacks; [reflexivity| | |]; repeat (apply lacks_app; auto); cbn; repeat split; discriminate.
      * constructor; [|constructor; [|constructor]]; repeat (apply lacks_app; auto); try (cbn; repeat split; discriminate).
        clear - HB. induction HB as [|k row ks body [H _] HB IH]; constructor; auto.
    + intros k Hk. assert (G : forall j body', Forall2 (fun k row => lacks newline row /\ estimates_row draws n f g k (cells_of_line ";" row)) (seq j (List.length body')) body' ->
        forall i, i < List.length body' -> exists cells, nth_error (map (cells_of_line ";") body') i = Some cells /\ estimates_row draws n f g (j + i) cells).
      { clear. intros j body. revert j. induction body as [|r body IH]; intros j HB i Hi; [cbn in Hi; lia|]. cbn [List.length seq] in HB. inversion HB as [|? ? ? ? [_ H1] H2]; subst.
        destruct i as [|i]; cbn [map nth_error]; [rewrite Nat.add_0_r; eauto|]. cbn [List.length] in Hi. destruct (IH (S j) H2 i) as (c & Ec & Hc); [lia|].
        exists c. split; [exact Ec|]. now replace (j + S i) with (S j + i) by lia. }
      rewrite <- LB in HB. destruct (G 0 body HB k) as (c & Ec & Hc); [lia|]. exists c. auto.
  - intros H1 Hw. unfold improved_sampling_text. rewrite E. cbn [bind]. rewrite Eq. cbn [bind].
    change (seq 0 200) with (0 :: seq 1 199). rewrite mapM_UB; [reflexivity|]. unfold improved_sampling_row.
    destruct (error_rate_sampling_exact M (draws (2 * 0)) f g _ L W Wg B Bg (Hs 0 ltac:(lia)) (Hd (2 * 0))) as (x & Ex & _). rewrite Ex. cbn [bind].
    rewrite efficient_ub_all; auto.
Qed.

Lemma improved_main files M sort rm draws level last :
  (files "./iscas85/c880.aig" = None -> improved_sampling_main files M sort rm draws level last = Throw)
  /\ (forall i o evs, holds_complete files "./iscas85/c880.aig" i o evs ->
        exists f, improved_sampling_main files M sort rm draws level last = improved_sampling_text M sort rm draws level last f
          /\ Forall (wf M) f /\ circuit o evs f /\ below (N.to_nat i) f).
Proof.
  destruct (iscas_loader files M 3 "./iscas85/c880.aig" eq_refl) as (_ & H1 & H2). unfold improved_sampling_main. split.
  - intro H. now rewrite (H1 H).
  - intros i o evs H. destruct (H2 i o evs H) as (f & -> & H3). exists f. split; [reflexivity|exact H3].
Qed.
