(** run_genetic_minimization for any limits *)
From Coq Require Import List Bool Arith ZArith QArith Qround Lia Lqa Sorted.
From Verif Require Import Res Cudd CuddFacts Spec SpecFacts Helpers HelpersFacts HelpersFacts2 Counting Metrics MetricsFacts MetricsFacts4 MetricsFacts5
  MinimizeFacts MinimizeFacts3 Benchmark BenchmarkFacts2 Genetic SpecGenetic GeneticFacts GeneticFacts2 GeneticFacts3.
Import ListNotations.
Open Scope nat_scope.

Lemma quot_floor c : (0 <= c)%Q -> (inject_Z (Z.quot (Qnum c) (Zpos (Qden c))) <= c < inject_Z (Z.quot (Qnum c) (Zpos (Qden c))) + 1)%Q /\ (0 <= Z.quot (Qnum c) (Zpos (Qden c)))%Z.
Proof.
  intro H. assert (N : (0 <= Qnum c)%Z) by (unfold Qle in H; cbn in H; lia).
  rewrite Z.quot_div_nonneg by lia. change (Qnum c / Z.pos (Qden c))%Z with (Z.div (Qnum c) (QDen c)).
  assert (E : Qfloor c = (Qnum c / QDen c)%Z) by (destruct c; reflexivity). rewrite <- E. split; [split|].
  - apply Qfloor_le.
  - pose proof (Qlt_floor c) as L. rewrite inject_Z_plus in L. exact L.
  - rewrite E. apply Z.div_pos; lia.
Qed.

Section Run.
Variable M : mgr.
Variable n : nat.
Variable f : list bdd.
Variables max_er max_ace : Q.
Variable both : bool.
Hypothesis Wf : Forall (wf M) f.
Hypothesis Bf : below n f.
Hypothesis Hlen : both = true -> length f + n < 256.
Hypothesis Her : (max_er <= 100)%Q.
Hypothesis Hace : (0 <= max_ace)%Q.
Let P := make_problem f max_er both max_ace.
Let dim := length (compute_support_positions f).
Let size := counted n f (to_float max_er) (to_float max_ace) both.
Let found := SpecGenetic.found M n f max_er max_ace both.
Let reported := fun (r : MinimizationResult_) (g : list bdd) =>
  (inject_Z (node_count r) <= size g < inject_Z (node_count r) + 1)%Q /\ (error_rate_ r == rate n f g)%Q
  /\ (both = true -> (average_case_error_ r == average_distance n f g)%Q).

Lemma consider_any ind best : dim <= length ind -> (node_count best < 2 ^ 64)%Z -> exists g best',
  function_from_individuum M P ind = Ok g /\ consider M P max_er max_ace both ind best = Ok best'
  /\ ((acceptable n f max_er max_ace both g /\ (size g < inject_Z (node_count best))%Q /\ reported best' g /\ (0 <= node_count best')%Z
         /\ (both = false -> average_case_error_ best' = average_case_error_ best))
      \/ (~ (acceptable n f max_er max_ace both g /\ (size g < inject_Z (node_count best))%Q) /\ best' = best)).
Proof.
  intros Hd Hb. destruct (fitness_full M n f max_er both max_ace ind Wf Bf Hlen Hd) as (g & v & Eg & Ev & V1 & V2 & _).
  fold P in Eg, Ev. unfold consider. rewrite Ev. cbn [bind].
  destruct (Nat.le_gt_cases (nodeCount f) (nodeCount g)) as [Hc|Hc].
  - exists g, best. split; [exact Eg|]. rewrite (V1 Hc). cbn [app vget nth_error bind].
    assert (Q1 : qlt 100 max_er = false) by (apply qlt_spec; exact Her). rewrite Q1. split; [reflexivity|]. right. split; [|reflexivity].
    intros [(A & _) _]. lia.
  - destruct (V2 Hc) as (c & er & ace & Evv & E1 & E2 & C0 & C1 & C2 & C3). rewrite Evv. cbn [app vget nth_error bind].
    assert (Lg : length f = length g).
    { destruct (function_from_full M f max_er both max_ace ind Wf) as [F _]. destruct (F Hd) as (g' & Eg' & _ & Lg & _). fold P in Eg'.
      rewrite Eg in Eg'. injection Eg' as <-. lia. }
    assert (CS : (c == size g)%Q).
    { unfold size, counted. assert (F0 : (0 <= to_float max_ace)%Q) by (apply to_float_nonneg; exact Hace).
      destruct (Qlt_le_dec (to_float max_er) (rate n f g)) as [L1|L1]; rewrite <- E1 in L1.
      - destruct both; [destruct (Qlt_le_dec (to_float max_ace) (average_distance n f g)) as [L2|L2]; rewrite <- E2 in L2|].
        + rewrite (C3 L1 L2), E1, E2. ring.
        + rewrite (C1 L1 L2), E1. ring.
        + rewrite (C1 L1 ltac:(lra)), E1. ring.
      - destruct both; [destruct (Qlt_le_dec (to_float max_ace) (average_distance n f g)) as [L2|L2]; rewrite <- E2 in L2|].
        + rewrite (C2 L1 L2), E2. ring.
        + rewrite (C0 L1 L2). ring.
        + rewrite (C0 L1 ltac:(lra)). ring. }
    assert (C_nonneg : (0 <= c)%Q).
    { rewrite CS. unfold size, counted. pose proof (rate_range n f g). pose proof (distance_range n f g Lg).
      assert (0 <= inject_Z (Z.of_nat (nodeCount g)))%Q by (change 0%Q with (inject_Z 0); rewrite <- Zle_Qle; lia).
      repeat apply Qmult_le_0_compat; auto; [destruct (Qlt_le_dec _ _); lra|]. destruct both; [destruct (Qlt_le_dec _ _); lra|lra]. }
    destruct (qlt er max_er) eqn:Q1; apply qlt_spec in Q1; [|exists g, best; split; [exact Eg|]; split; [reflexivity|]; right; split; [|reflexivity]; intros [(_ & A & _) _]; rewrite <- E1 in A; lra].
    assert (Fin : (both = true -> (ace < max_ace)%Q) -> forall acer, (both = true -> acer = ace) -> (both = false -> acer = average_case_error_ best) ->
       exists g0 best', function_from_individuum M P ind = Ok g0
       /\ (if qlt c (inject_Z (node_count best)) then
             let z := Z.quot (Qnum c) (Zpos (Qden c)) in
             _ <- require_ ((-1 <? z) && (z <? 2 ^ 64))%Z ;; Ok (Result z er acer)
           else Ok best) = Ok best'
       /\ ((acceptable n f max_er max_ace both g0 /\ (size g0 < inject_Z (node_count best))%Q /\ reported best' g0 /\ (0 <= node_count best')%Z
             /\ (both = false -> average_case_error_ best' = average_case_error_ best))
          \/ (~ (acceptable n f max_er max_ace both g0 /\ (size g0 < inject_Z (node_count best))%Q) /\ best' = best))).
    { intros H acer Ha Hb'. destruct (quot_floor c C_nonneg) as [[F1 F2] F3].
      destruct (qlt c (inject_Z (node_count best))) eqn:Q2; apply qlt_spec in Q2.
      - exists g. eexists. split; [exact Eg|]. cbn zeta. set (z := Z.quot (Qnum c) (Zpos (Qden c))) in *.
        assert (Z1 : (z < node_count best)%Z) by (rewrite Zlt_Qlt; lra).
        assert (R : ((-1 <? z) && (z <? 2 ^ 64))%Z = true).
        { apply andb_true_intro. split; apply Z.ltb_lt; lia. }
        rewrite R. cbn [require_ bind]. split; [reflexivity|]. left. split; [|split; [rewrite <- CS; exact Q2|split; [|split]]].
        + split; [exact Hc|]. split; [rewrite <- E1; exact Q1|]. intro Eb. rewrite Eb in E2. rewrite <- E2. apply H. exact Eb.
        + unfold reported. cbn [node_count error_rate_ average_case_error_]. rewrite <- CS. split; [split; assumption|]. split; [exact E1|].
          intro Eb. rewrite (Ha Eb), E2, Eb. reflexivity.
        + cbn [node_count]. exact F3.
        + intro Eb. cbn [average_case_error_]. exact (Hb' Eb).
      - exists g, best. split; [exact Eg|]. split; [reflexivity|]. right. split; [|reflexivity]. intros [_ A]. rewrite <- CS in A. lra. }
    destruct both.
    + cbn [app vget nth_error bind]. destruct (qlt ace max_ace) eqn:Q2; apply qlt_spec in Q2.
      * apply (Fin ltac:(intros _; exact Q2) ace); [reflexivity|discriminate].
      * exists g, best. split; [exact Eg|]. split; [reflexivity|]. right. split; [|reflexivity].
        intros [(_ & _ & A) _]. specialize (A eq_refl). rewrite <- E2 in A. lra.
    + cbn [bind]. apply (Fin ltac:(discriminate) (average_case_error_ best)); [discriminate|reflexivity].
Qed.

Definition long_enough (inds : list individuum) : Prop := Forall (fun d => dim <= length d) inds.

Lemma consider_all_any inds : long_enough inds -> forall best, (0 <= node_count best < 2 ^ 64)%Z -> exists best',
  consider_all M P max_er max_ace both inds best = Ok best'
  /\ (0 <= node_count best' <= node_count best)%Z /\ (node_count best' = node_count best -> best' = best)
  /\ (best' = best \/ exists g, found inds g /\ reported best' g)
  /\ (forall g, found inds g -> (inject_Z (node_count best') <= size g)%Q)
  /\ (both = false -> average_case_error_ best' = average_case_error_ best).
Proof.
  induction 1 as [|ind inds Hi Hs IH]; intros best Hb; cbn [consider_all].
  - exists best. split; [reflexivity|]. split; [lia|]. split; [reflexivity|]. split; [left; reflexivity|]. split; [|reflexivity].
    intros g (ind & [] & _).
  - destruct (consider_any ind best Hi (proj2 Hb)) as (g & b1 & Eg & E1 & C). rewrite E1. cbn [bind].
    assert (B1 : (0 <= node_count b1 <= node_count best)%Z /\ (node_count b1 = node_count best -> b1 = best)
              /\ (acceptable n f max_er max_ace both g -> (inject_Z (node_count b1) <= size g)%Q)
              /\ (both = false -> average_case_error_ b1 = average_case_error_ best)).
    { destruct C as [(A & L & (D1 & D2 & D3) & D0 & D4)|[A ->]].
      - assert (node_count b1 < node_count best)%Z by (rewrite Zlt_Qlt; lra).
        split; [lia|]. split; [lia|]. split; [intros _; lra|exact D4].
      - split; [lia|]. split; [reflexivity|]. split; [|reflexivity]. intro Ac.
        destruct (Qlt_le_dec (size g) (inject_Z (node_count best))) as [L|L]; [tauto|exact L]. }
    destruct B1 as (N1 & N2 & N3 & N4).
    destruct (IH b1 ltac:(lia)) as (b2 & E2 & M1 & M2 & M3 & M4 & M5). rewrite E2. exists b2. split; [reflexivity|].
    split; [lia|]. split; [intro H; rewrite (M2 ltac:(lia)); apply N2; lia|]. split; [|split].
    + destruct M3 as [->|(g' & (ind' & I' & F') & D')]; [|right; exists g'; split; [exists ind'; split; [right; exact I'|exact F']|exact D']].
      destruct C as [(A & _ & D & _)|[_ ->]]; [|left; reflexivity]. right. exists g. split; [|exact D]. exists ind. split; [left; reflexivity|].
      split; [exact Eg|exact A].
    + intros g' (ind' & [<-|I'] & Eg' & A'); [|apply M4; exists ind'; auto]. fold P in Eg'. rewrite Eg in Eg'. injection Eg' as <-. specialize (N3 A').
      assert (inject_Z (node_count b2) <= inject_Z (node_count b1))%Q by (rewrite <- Zle_Qle; lia). lra.
    + intro Hb'. rewrite (M5 Hb'). exact (N4 Hb').
Qed.

Variable evolve : nat -> list individuum -> list individuum.
Variable start : list individuum.
Hypothesis Hsized : forall k, long_enough (generation evolve start (S k)).

Lemma loop_any : forall fuel k best o, (0 <= node_count best < 2 ^ 64)%Z ->
  genetic_loop M P max_er max_ace both evolve fuel k (generation evolve start k) best = Some o ->
  exists K r, o = Ok r /\ k < K
  /\ (0 <= node_count r <= node_count best)%Z
  /\ (r = best \/ exists j g, k < j <= K /\ found (generation evolve start j) g /\ reported r g)
  /\ (forall j g, k < j <= K -> found (generation evolve start j) g -> (inject_Z (node_count r) <= size g)%Q)
  /\ (both = false -> average_case_error_ r = average_case_error_ best).
Proof.
  induction fuel as [|fuel IH]; intros k best o Hb; cbn [genetic_loop]; [discriminate|].
  change (evolve k (generation evolve start k)) with (generation evolve start (S k)).
  destruct (consider_all_any (generation evolve start (S k)) (Hsized k) best Hb) as (b1 & E1 & N1 & N2 & N3 & N4 & N5). rewrite E1.
  destruct (Z.eqb_spec (node_count b1) (node_count best)) as [E|E].
  - injection 1 as <-. exists (S k), b1. split; [reflexivity|]. split; [lia|]. split; [lia|]. split; [left; exact (N2 E)|]. split; [|exact N5].
    intros j g Hj. replace j with (S k) by lia. exact (N4 g).
  - intro Ho. destruct (IH (S k) b1 o ltac:(lia) Ho) as (K & r & -> & K1 & M1 & M2 & M3 & M4).
    exists K, r. split; [reflexivity|]. split; [lia|]. split; [lia|]. split; [|split].
    + right. destruct M2 as [->|(j & g & Hj & F & D)]; [|exists j, g; split; [lia|split; [exact F|exact D]]].
      destruct N3 as [->|(g & F & D)]; [congruence|]. exists (S k), g. split; [lia|]. split; [exact F|exact D].
    + intros j g Hj F. destruct (Nat.eq_dec j (S k)) as [->|Nj]; [|apply (M3 j g); [lia|exact F]].
      pose proof (N4 g F). assert (inject_Z (node_count r) <= inject_Z (node_count b1))%Q by (rewrite <- Zle_Qle; lia). lra.
    + intro Hb'. rewrite (M4 Hb'). exact (N5 Hb').
Qed.
End Run.

Lemma run_any M n f max_er max_ace both draws evolve fuel o : Forall (wf M) f -> below n f ->
  (both = true -> length f + n < 256) -> (max_er <= 100)%Q -> (0 <= max_ace)%Q ->
  (forall k pop, Forall (fun d => length d = length (compute_support_positions f)) pop ->
     Forall (fun d => length d = length (compute_support_positions f)) (evolve k pop)) ->
  compute_support_positions f <> [] ->
  run_genetic_minimization M f max_er max_ace both draws evolve fuel = Some o ->
  let size := counted n f (to_float max_er) (to_float max_ace) both in
  exists start K r, make_population (make_problem f max_er both max_ace) 100 3 draws = Ok start
  /\ o = Ok r /\ 0 < K
  /\ (r = no_result
      \/ exists j g, 0 < j <= K /\ found M n f max_er max_ace both (generation evolve start j) g
           /\ (inject_Z (node_count r) <= size g < inject_Z (node_count r) + 1)%Q /\ (error_rate_ r == rate n f g)%Q
           /\ (both = true -> (average_case_error_ r == average_distance n f g)%Q))
  /\ (forall j g, 0 < j <= K -> found M n f max_er max_ace both (generation evolve start j) g -> (inject_Z (node_count r) <= size g)%Q)
  /\ (both = false -> average_case_error_ r = 0%Q).
Proof.
  intros Wf Bf Hl Her Hace Hev Hne Ho size.
  set (P := make_problem f max_er both max_ace).
  assert (L : 0 < length (support_positions P)). { change (support_positions P) with (compute_support_positions f). destruct (compute_support_positions f); [congruence|cbn [length]; lia]. }
  destruct (make_population_full P 100 3 draws) as [MP _]. destruct (MP L) as (start & Es & Ls & Fs).
  assert (Sz : forall k, Forall (fun d => length d = length (compute_support_positions f)) (generation evolve start k)).
  { induction k as [|k IH]; cbn [generation]; [|apply Hev; exact IH]. revert Fs. apply Forall_impl. intros d (D & _). exact D. }
  unfold run_genetic_minimization in Ho. fold P in Ho. destruct (Nat.eqb_spec (length (support_positions P)) 0); [lia|]. rewrite Es in Ho.
  destruct (loop_any M n f max_er max_ace both Wf Bf Hl Her Hace evolve start) with (fuel := fuel) (k := 0) (best := no_result) (o := o) as (K & r & E & K1 & M1 & M2 & M3 & M4);
    [| |exact Ho|].
  { intro k. specialize (Sz (S k)). revert Sz. apply Forall_impl. intros d D. rewrite D. apply le_n. }
  { cbn. lia. }
  exists start, K, r. split; [exact Es|]. split; [exact E|]. split; [exact K1|]. split; [|split].
  - destruct M2 as [->|(j & g & Hj & F & D1 & D2 & D3)]; [left; reflexivity|]. right. exists j, g. auto.
  - exact M3.
  - exact M4.
Qed.
