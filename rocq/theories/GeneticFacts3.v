(** fitness, initial population and the run *)
From Coq Require Import List Bool Arith ZArith QArith Lia Lqa Sorted.
From Verif Require Import Res Cudd CuddFacts Spec SpecFacts Helpers HelpersFacts HelpersFacts2 Counting Metrics MetricsFacts MetricsFacts4 MetricsFacts5
  MinimizeFacts MinimizeFacts3 Benchmark BenchmarkFacts2 Genetic SpecGenetic GeneticFacts GeneticFacts2.
Import ListNotations.
Open Scope nat_scope.

(** ** averages are multiples of 2^-n *)
Lemma sum_integer (l : list (list bool)) (F : asg -> Z) (G : asg -> Q) : (forall a, G a == inject_Z (F a))%Q -> (forall a, 0 <= F a)%Z ->
  exists k, (0 <= k)%Z /\ (sumQ (map (fun l => G (asg_of l)) l) == inject_Z k)%Q.
Proof.
  intros E P. induction l as [|x l (k & K & IH)]; cbn [map sumQ fold_right].
  - exists 0%Z. split; [lia|reflexivity].
  - exists (F (asg_of x) + k)%Z. split; [pose proof (P (asg_of x)); lia|]. unfold sumQ in IH. rewrite IH, E, inject_Z_plus. reflexivity.
Qed.
Lemma average_integer n (F : asg -> Z) (G : asg -> Q) : (forall a, G a == inject_Z (F a))%Q -> (forall a, 0 <= F a)%Z ->
  exists k, (0 <= k)%Z /\ (average n G == inject_Z k / inject_Z (2 ^ Z.of_nat n))%Q.
Proof.
  intros E P. destruct (sum_integer (all_inputs n) F G E P) as (k & K & H). exists k. split; [exact K|].
  rewrite average_eq. unfold sum_inputs. rewrite H. reflexivity.
Qed.
Lemma rate_integer n f g : exists k, (0 <= k)%Z /\ (rate n f g == inject_Z k / inject_Z (2 ^ Z.of_nat n))%Q.
Proof.
  apply (average_integer n (fun a => Z.b2z (differ f g a))).
  - intro a. destruct (differ f g a); reflexivity.
  - intro a. destruct (differ f g a); cbn [Z.b2z]; lia.
Qed.
Lemma rate_range n f g : (0 <= rate n f g <= 1)%Q.
Proof.
  unfold rate. split.
  - rewrite <- (average_const n 0). apply average_le. intro a. destruct (differ f g a); cbn [b2q]; lra.
  - rewrite <- (average_const n 1). apply average_le. intro a. destruct (differ f g a); cbn [b2q]; lra.
Qed.
Lemma distance_integer n f g : exists k, (0 <= k)%Z /\ (average_distance n f g == inject_Z k / inject_Z (2 ^ Z.of_nat n))%Q.
Proof.
  apply (average_integer n (fun a => dist (uval f a) (uval g a))); [reflexivity|]. intro a. apply dist_nonneg.
Qed.
Lemma distance_range n f g : length f = length g -> (0 <= average_distance n f g <= inject_Z (2 ^ Z.of_nat (length f)))%Q.
Proof.
  intro L. unfold average_distance. split.
  - rewrite <- (average_const n 0). apply average_le. intro a. change 0%Q with (inject_Z 0). rewrite <- Zle_Qle. apply dist_nonneg.
  - rewrite <- (average_const n (inject_Z (2 ^ Z.of_nat (length f)))). apply average_le. intro a. rewrite <- Zle_Qle.
    pose proof (uval_range f a) as R1. pose proof (uval_range g a) as R2. rewrite <- L in R2. unfold pow2 in R1, R2. unfold dist. lia.
Qed.
Lemma rate_kept n f g x : (n <= 24) -> (rate n f g < x)%Q -> (rate n f g <= to_float x)%Q.
Proof.
  intros Hn H. destruct (rate_integer n f g) as (k & K & E). pose proof (rate_range n f g) as R. rewrite E in *.
  apply (to_float_ge k n 0 x); [exact K|lia| |exact H]. apply R.
Qed.
Lemma distance_kept n f g x : length f = length g -> (n + length f <= 24) -> (average_distance n f g < x)%Q -> (average_distance n f g <= to_float x)%Q.
Proof.
  intros L Hn H. destruct (distance_integer n f g) as (k & K & E). pose proof (distance_range n f g L) as R. rewrite E in *.
  apply (to_float_ge k n (length f) x); [exact K|lia| |exact H]. apply R.
Qed.

(** ** fitness *)
Lemma apply_none M ps params : forall i ind, i + length ps <= length params ->
  (forall k p, nth_error params k = Some p -> (p <= 1 # 2)%Q) -> apply_positions M ps params i ind = Ok ind.
Proof.
  induction ps as [|[b v] ps IH]; intros i ind L H; cbn [apply_positions length] in *; [reflexivity|].
  destruct (vget_ok params i) as (p & Ep & Np); [lia|]. rewrite Ep. cbn [bind]. pose proof (H i p Np) as Hp.
  assert (Q1 : qlt (3 # 2) p = false) by (apply qlt_spec; lra). assert (Q2 : qlt (1 # 2) p = false) by (apply qlt_spec; exact Hp).
  rewrite Q1, Q2. apply IH; [lia|exact H].
Qed.

Lemma fitness_full M n f max_er both max_ace params : Forall (wf M) f -> below n f -> (both = true -> length f + n < 256) ->
  length (compute_support_positions f) <= length params ->
  let P := make_problem f max_er both max_ace in
  exists g v, function_from_individuum M P params = Ok g /\ fitness M P params = Ok v
  /\ (nodeCount f <= nodeCount g -> v = [inject_Z (Z.of_nat (nodeCount g)) * 5; 100]%Q ++ (if both then [to_float max_ace * 2]%Q else []))
  /\ (nodeCount g < nodeCount f -> exists c er ace, v = [c; er] ++ (if both then [ace] else [])
       /\ (er == rate n f g)%Q /\ (ace == if both then average_distance n f g else 0)%Q
       /\ ((er <= to_float max_er)%Q -> (ace <= to_float max_ace)%Q -> c = inject_Z (Z.of_nat (nodeCount g)))
       /\ ((to_float max_er < er)%Q -> (ace <= to_float max_ace)%Q -> (c == inject_Z (Z.of_nat (nodeCount g)) * (10000 * er + 50))%Q)
       /\ ((er <= to_float max_er)%Q -> (to_float max_ace < ace)%Q -> (c == inject_Z (Z.of_nat (nodeCount g)) * (100 + ace))%Q)
       /\ ((to_float max_er < er)%Q -> (to_float max_ace < ace)%Q ->
             (c == inject_Z (Z.of_nat (nodeCount g)) * (10000 * er + 50) * (100 + ace))%Q))
  /\ ((forall k p, nth_error params k = Some p -> (p <= 1 # 2)%Q) -> g = f).
Proof.
  intros W B Hn Hl P. destruct (function_from_full M f max_er both max_ace params W) as [F _].
  destruct (F Hl) as (g & Eg & Wg & Lg & _ & Bg). specialize (Bg n B). fold P in Eg.
  destruct (error_rate_full M n f g W Wg B Bg) as [ER _]. destruct (ER (eq_sym Lg)) as (er & Eer & Her & _).
  assert (G0 : (forall k p, nth_error params k = Some p -> (p <= 1 # 2)%Q) -> g = f).
  { intro H. unfold function_from_individuum in Eg. rewrite (apply_none M (support_positions P) params 0 (original P)) in Eg; [|exact Hl|exact H].
    injection Eg as <-. reflexivity. }
  unfold fitness. rewrite Eg. cbn [bind]. change (original_node_count P) with (nodeCount f). change (er_and_ace P) with both.
  change (original P) with f. change (max_error_rate P) with (to_float max_er). change (max_average_case_error P) with (to_float max_ace).
  set (nc := inject_Z (Z.of_nat (nodeCount g))). set (lim1 := to_float max_er). set (lim2 := to_float max_ace).
  destruct (Nat.leb_spec (nodeCount f) (nodeCount g)) as [Hc|Hc].
  - exists g, ([nc * 5; 100]%Q ++ (if both then [lim2 * 2]%Q else [])). split; [reflexivity|].
    split; [destruct both; cbn [negb]; reflexivity|]. split; [intros _; reflexivity|].
    split; [lia|exact G0].
  - rewrite Eer. cbn [bind].
    assert (A : exists ace0, (if both then x <- average_case_error M f g BaseTwo ;; finite x else Ok 0%Q) = Ok ace0
                  /\ (ace0 == if both then average_distance n f g else 0)%Q).
    { destruct both; [|exists 0%Q; split; reflexivity]. specialize (Hn eq_refl).
      destruct (ace_full M n f g W Wg B Bg) as [(ace & _ & _ & Eace & Hace & _) _]; [lia|]. rewrite Eace. cbn [bind finite]. exists ace. split; [reflexivity|exact Hace]. }
    destruct A as (ace0 & EA & HA). rewrite EA. cbn [bind].
    exists g, ([if qlt lim2 ace0 then ((if qlt lim1 er then nc * (er * 10000 + 50) else nc) * (100 + ace0))%Q
                          else (if qlt lim1 er then nc * (er * 10000 + 50) else nc)%Q; er] ++ (if both then [ace0] else [])).
    split; [reflexivity|]. split; [destruct both; reflexivity|].
    split; [lia|]. split; [|exact G0]. intros _. eexists. exists er, ace0. split; [reflexivity|]. split; [exact Her|]. split; [exact HA|].
    assert (T : forall x y, (x < y)%Q -> qlt x y = true) by (intros; apply qlt_spec; assumption).
    assert (N : forall x y, (y <= x)%Q -> qlt x y = false) by (intros; apply qlt_spec; assumption).
    split; [|split; [|split]]; intros H1 H2.
    + rewrite (N lim1 er H1), (N lim2 ace0 H2). reflexivity.
    + rewrite (T lim1 er H1), (N lim2 ace0 H2). unfold nc; ring.
    + rewrite (N lim1 er H1), (T lim2 ace0 H2). unfold nc; ring.
    + rewrite (T lim1 er H1), (T lim2 ace0 H2). unfold nc; ring.
Qed.

(** ** the initial population *)
Lemma changes_app a b : changes (a ++ b) = changes a + changes b.
Proof. unfold changes. rewrite filter_app, app_length. reflexivity. Qed.

Lemma init_loop_spec : forall count draws pos data, 0 < length data -> Forall digit data ->
  exists d pos', init_loop count draws pos data = Ok (d, pos') /\ length d = length data /\ Forall digit d /\ changes d <= changes data + count.
Proof.
  induction count as [|count IH]; intros draws pos data L D; cbn [init_loop].
  - exists data, pos. split; [reflexivity|]. split; [reflexivity|]. split; [exact D|lia].
  - destruct (Nat.eqb_spec (length data) 0); [lia|]. cbn [negb require_ bind].
    set (i := Z.to_nat (draws (S pos) mod Z.of_nat (length data))). set (x := inject_Z (1 + draws pos mod 2)).
    assert (Hi : i < length data). { pose proof (Z.mod_pos_bound (draws (S pos)) (Z.of_nat (length data)) ltac:(lia)). unfold i. lia. }
    assert (Hx : digit x). { pose proof (Z.mod_pos_bound (draws pos) 2 ltac:(lia)). unfold x, digit.
      assert (E : (draws pos mod 2 = 0 \/ draws pos mod 2 = 1)%Z) by lia. destruct E as [-> | ->]; auto. }
    clearbody i x. destruct (vset_ok data i x Hi) as (d1 & E1). rewrite E1. cbn [bind].
    assert (S1 : exists a o b, data = a ++ o :: b /\ d1 = a ++ x :: b).
    { destruct (nth_error_split data i) with (a := nth i data 0%Q) as (a & b & Ed & La).
      { apply nth_error_nth'. exact Hi. }
      exists a, (nth i data 0%Q), b. split; [exact Ed|]. rewrite Ed in E1 at 1. rewrite <- La in E1. rewrite vset_mid in E1. congruence. }
    destruct S1 as (a & o & b & Ed & Ed1).
    destruct (IH draws (S (S pos)) d1) as (d & pos' & E & Ld & Dd & Cd).
    { rewrite Ed1, app_length. cbn [length]. lia. }
    { rewrite Ed1. rewrite Ed in D. apply Forall_app in D. destruct D as [Da Db]. inversion_clear Db. apply Forall_app. split; [exact Da|constructor; assumption]. }
    exists d, pos'. split; [exact E|]. split; [|split; [exact Dd|]].
    + rewrite Ld, Ed, Ed1, !app_length. reflexivity.
    + assert (C1 : changes d1 <= changes data + 1). { rewrite Ed, Ed1, !changes_app. unfold changes. cbn [filter]. destruct (negb (Qeq_bool x 0)), (negb (Qeq_bool o 0)); cbn [length]; lia. }
      lia.
Qed.
Lemma zeros_digits n : Forall digit (repeat 0%Q n) /\ changes (repeat 0%Q n) = 0.
Proof. induction n as [|n [H1 H2]]; cbn; [split; [constructor|reflexivity]|]. split; [constructor; [left; reflexivity|exact H1]|exact H2]. Qed.

Lemma population_loop_spec P count draws : 0 < length (support_positions P) -> forall size pos pop, exists pop',
  population_loop size P count draws pos pop = Ok (pop ++ pop') /\ length pop' = size
  /\ Forall (fun d => length d = length (support_positions P) /\ Forall digit d /\ changes d <= count) pop'.
Proof.
  intros L size. induction size as [|size IH]; intros pos pop; cbn [population_loop].
  - exists []. rewrite app_nil_r. split; [reflexivity|]. split; [reflexivity|constructor].
  - cbn [get_bounds fst]. destruct (zeros_digits (length (support_positions P))) as [Z1 Z2].
    destruct (init_loop_spec count draws pos (repeat 0%Q (length (support_positions P)))) as (d & pos' & E & Ld & Dd & Cd).
    { rewrite repeat_length. exact L. }
    { exact Z1. }
    rewrite E. cbn [bind]. destruct (IH pos' (pop ++ [d])) as (pop' & E' & Lp & Fp). rewrite E'. exists (d :: pop').
    split; [rewrite <- app_assoc; reflexivity|]. split; [cbn [length]; lia|]. constructor; [|exact Fp].
    rewrite repeat_length in Ld. split; [exact Ld|]. split; [exact Dd|lia].
Qed.

Lemma make_population_full P size count draws :
  (0 < length (support_positions P) -> exists pop, make_population P size count draws = Ok pop /\ length pop = size
     /\ Forall (fun d => length d = length (support_positions P) /\ Forall digit d /\ changes d <= count) pop)
  /\ (support_positions P = [] -> 0 < size -> 0 < count -> make_population P size count draws = UB).
Proof.
  split.
  - intro L. destruct (population_loop_spec P count draws L size 0 []) as (pop & E & Lp & Fp). exists pop. split; [exact E|]. split; [exact Lp|exact Fp].
  - intros H Hs Hc. unfold make_population. destruct size as [|size]; [lia|]. cbn [population_loop get_bounds fst]. rewrite H.
    destruct count as [|count]; [lia|]. reflexivity.
Qed.

(** ** one individual *)
Section Run.
Variable M : mgr.
Variable n : nat.
Variable f : list bdd.
Variables max_er max_ace : Q.
Variable both : bool.
Hypothesis Wf : Forall (wf M) f.
Hypothesis Bf : below n f.
Hypothesis Hn : n <= 24 \/ (max_er <= to_float max_er)%Q.
Hypothesis Hboth : both = true -> n + length f <= 24 \/ (max_ace <= to_float max_ace)%Q.
Hypothesis Hlen : both = true -> length f + n < 256.
Hypothesis Her : (max_er <= 100)%Q.
Hypothesis Hace : (0 <= max_ace)%Q.
Let P := make_problem f max_er both max_ace.
Let dim := length (compute_support_positions f).
Let describes := SpecGenetic.describes n f both.
Let found := SpecGenetic.found M n f max_er max_ace both.

Lemma qlt_inj a b : qlt (inject_Z a) (inject_Z b) = (a <? b)%Z.
Proof.
  destruct (Z.ltb_spec a b) as [H|H].
  - apply qlt_spec. rewrite <- Zlt_Qlt. exact H.
  - apply qlt_spec. rewrite <- Zle_Qle. exact H.
Qed.

Lemma consider_spec ind best : dim <= length ind -> (node_count best < 2 ^ 64)%Z -> exists g best',
  function_from_individuum M P ind = Ok g /\ consider M P max_er max_ace both ind best = Ok best'
  /\ ((acceptable n f max_er max_ace both g /\ (Z.of_nat (nodeCount g) < node_count best)%Z /\ describes best' g
         /\ (both = false -> average_case_error_ best' = average_case_error_ best))
      \/ (~ (acceptable n f max_er max_ace both g /\ (Z.of_nat (nodeCount g) < node_count best)%Z) /\ best' = best)).
Proof.
  intros Hd Hb. destruct (fitness_full M n f max_er both max_ace ind Wf Bf Hlen Hd) as (g & v & Eg & Ev & V1 & V2 & _).
  fold P in Eg, Ev. unfold consider. rewrite Ev. cbn [bind].
  destruct (Nat.le_gt_cases (nodeCount f) (nodeCount g)) as [Hc|Hc].
  - exists g, best. split; [exact Eg|]. rewrite (V1 Hc). cbn [app vget nth_error bind].
    assert (Q1 : qlt 100 max_er = false) by (apply qlt_spec; exact Her). rewrite Q1. split; [reflexivity|]. right. split; [|reflexivity].
    intros [(A & _) _]. lia.
  - destruct (V2 Hc) as (c & er & ace & Evv & E1 & E2 & C0 & _). rewrite Evv. cbn [app vget nth_error bind].
    destruct (qlt er max_er) eqn:Q1; apply qlt_spec in Q1; [|exists g, best; split; [exact Eg|]; split; [reflexivity|]; right; split; [|reflexivity]; intros [(_ & A & _) _]; rewrite <- E1 in A; lra].
    assert (K1 : (er <= to_float max_er)%Q). { destruct Hn as [Hn'|Hn']; [|lra]. rewrite E1. apply rate_kept; [exact Hn'|]. rewrite <- E1. exact Q1. }
    assert (Lg : length f = length g).
    { destruct (function_from_full M f max_er both max_ace ind Wf) as [F _]. destruct (F Hd) as (g' & Eg' & _ & Lg & _). fold P in Eg'.
      rewrite Eg in Eg'. injection Eg' as <-. lia. }
    assert (Take : (both = true -> (ace < max_ace)%Q) -> c = inject_Z (Z.of_nat (nodeCount g))).
    { intro H. apply C0; [exact K1|]. destruct both.
      - specialize (H eq_refl). destruct (Hboth eq_refl) as [Hb'|Hb']; [|lra]. rewrite E2. apply distance_kept; [exact Lg|exact Hb'|]. rewrite <- E2. exact H.
      - rewrite E2. apply to_float_nonneg. exact Hace. }
    assert (Fin : (both = true -> (ace < max_ace)%Q) -> forall acer, (both = true -> acer = ace) -> (both = false -> acer = average_case_error_ best) ->
       exists g0 best', function_from_individuum M P ind = Ok g0
       /\ (if qlt c (inject_Z (node_count best)) then
             let z := Z.quot (Qnum c) (Zpos (Qden c)) in
             _ <- require_ ((-1 <? z) && (z <? 2 ^ 64))%Z ;; Ok (Result z er acer)
           else Ok best) = Ok best'
       /\ ((acceptable n f max_er max_ace both g0 /\ (Z.of_nat (nodeCount g0) < node_count best)%Z /\ describes best' g0
             /\ (both = false -> average_case_error_ best' = average_case_error_ best))
          \/ (~ (acceptable n f max_er max_ace both g0 /\ (Z.of_nat (nodeCount g0) < node_count best)%Z) /\ best' = best))).
    { intros H acer Ha Hb'. rewrite (Take H), qlt_inj. cbn [inject_Z Qnum Qden]. rewrite Z.quot_1_r.
      destruct (Z.ltb_spec (Z.of_nat (nodeCount g)) (node_count best)) as [L|L].
      - exists g. eexists. split; [exact Eg|]. cbn zeta.
        assert (R : ((-1 <? Z.of_nat (nodeCount g)) && (Z.of_nat (nodeCount g) <? 2 ^ 64))%Z = true).
        { apply andb_true_intro. split; apply Z.ltb_lt; lia. }
        rewrite R. cbn [require_ bind]. split; [reflexivity|]. left. split; [|split; [exact L|split]].
        + split; [exact Hc|]. split; [rewrite <- E1; exact Q1|]. intro Eb. rewrite Eb in E2. rewrite <- E2. apply H. exact Eb.
        + split; [reflexivity|]. split; [exact E1|]. intro Eb. cbn [average_case_error_]. rewrite (Ha Eb), E2, Eb. reflexivity.
        + intro Eb. cbn [average_case_error_]. exact (Hb' Eb).
      - exists g, best. split; [exact Eg|]. split; [reflexivity|]. right. split; [|reflexivity]. intros [_ A]. lia. }
    destruct both.
    + cbn [app vget nth_error bind]. destruct (qlt ace max_ace) eqn:Q2; apply qlt_spec in Q2.
      * apply (Fin ltac:(intros _; exact Q2) ace); [reflexivity|discriminate].
      * exists g, best. split; [exact Eg|]. split; [reflexivity|]. right. split; [|reflexivity].
        intros [(_ & _ & A) _]. specialize (A eq_refl). rewrite <- E2 in A. lra.
    + cbn [bind]. apply (Fin ltac:(discriminate) (average_case_error_ best)); [discriminate|reflexivity].
Qed.

Definition sized (inds : list individuum) : Prop := Forall (fun d => dim <= length d) inds.

Lemma consider_all_spec inds : sized inds -> forall best, (node_count best < 2 ^ 64)%Z -> exists best',
  consider_all M P max_er max_ace both inds best = Ok best'
  /\ (node_count best' <= node_count best)%Z /\ (node_count best' = node_count best -> best' = best)
  /\ (best' = best \/ exists g, found inds g /\ describes best' g)
  /\ (forall g, found inds g -> (node_count best' <= Z.of_nat (nodeCount g))%Z)
  /\ (both = false -> average_case_error_ best' = average_case_error_ best).
Proof.
  induction 1 as [|ind inds Hi Hs IH]; intros best Hb; cbn [consider_all].
  - exists best. split; [reflexivity|]. split; [lia|]. split; [reflexivity|]. split; [left; reflexivity|]. split; [|reflexivity].
    intros g (ind & [] & _).
  - destruct (consider_spec ind best Hi Hb) as (g & b1 & Eg & E1 & C). rewrite E1. cbn [bind].
    assert (B1 : (node_count b1 <= node_count best)%Z /\ (node_count b1 = node_count best -> b1 = best)
              /\ (acceptable n f max_er max_ace both g -> (node_count b1 <= Z.of_nat (nodeCount g))%Z)
              /\ (both = false -> average_case_error_ b1 = average_case_error_ best)).
    { destruct C as [(A & L & (D1 & D2 & D3) & D4)|[A ->]].
      - split; [lia|]. split; [lia|]. split; [intros _; lia|exact D4].
      - split; [lia|]. split; [reflexivity|]. split; [|reflexivity]. intro Ac.
        destruct (Z.lt_ge_cases (Z.of_nat (nodeCount g)) (node_count best)) as [L|L]; [tauto|exact L]. }
    destruct B1 as (N1 & N2 & N3 & N4).
    destruct (IH b1 ltac:(lia)) as (b2 & E2 & M1 & M2 & M3 & M4 & M5). rewrite E2. exists b2. split; [reflexivity|].
    split; [lia|]. split; [intro H; rewrite (M2 ltac:(lia)); apply N2; lia|]. split; [|split].
    + destruct M3 as [->|(g' & (ind' & I' & F') & D')]; [|right; exists g'; split; [exists ind'; split; [right; exact I'|exact F']|exact D']].
      destruct C as [(A & _ & D & _)|[_ ->]]; [|left; reflexivity]. right. exists g. split; [|exact D]. exists ind. split; [left; reflexivity|].
      split; [exact Eg|exact A].
    + intros g' (ind' & [<-|I'] & Eg' & A'); [|apply M4; exists ind'; auto]. fold P in Eg'. rewrite Eg in Eg'. injection Eg' as <-. specialize (N3 A'). lia.
    + intro Hb'. rewrite (M5 Hb'). exact (N4 Hb').
Qed.

Variable evolve : nat -> list individuum -> list individuum.
Variable start : list individuum.
Hypothesis Hsized : forall k, sized (generation evolve start (S k)).

Lemma loop_spec : forall fuel k best, (0 <= node_count best < 2 ^ 64)%Z -> (node_count best < Z.of_nat fuel)%Z ->
  exists K r, genetic_loop M P max_er max_ace both evolve fuel k (generation evolve start k) best = Some (Ok r)
  /\ k < K /\ (Z.of_nat K <= Z.of_nat k + node_count best + 1)%Z
  /\ (node_count r <= node_count best)%Z
  /\ (r = best \/ exists j g, k < j <= K /\ found (generation evolve start j) g /\ describes r g)
  /\ (forall j g, k < j <= K -> found (generation evolve start j) g -> (node_count r <= Z.of_nat (nodeCount g))%Z)
  /\ (both = false -> average_case_error_ r = average_case_error_ best).
Proof.
  induction fuel as [|fuel IH]; intros k best Hb Hf; [lia|]. cbn [genetic_loop].
  change (evolve k (generation evolve start k)) with (generation evolve start (S k)).
  destruct (consider_all_spec (generation evolve start (S k)) (Hsized k) best (proj2 Hb)) as (b1 & E1 & N1 & N2 & N3 & N4 & N5). rewrite E1.
  destruct (Z.eqb_spec (node_count b1) (node_count best)) as [E|E].
  - exists (S k), b1. split; [reflexivity|]. split; [lia|]. split; [lia|]. split; [lia|]. split; [left; exact (N2 E)|]. split; [|exact N5].
    intros j g Hj. replace j with (S k) by lia. exact (N4 g).
  - assert (P1 : (0 <= node_count b1)%Z).
    { destruct N3 as [->|(g & _ & D & _)]; [lia|]. rewrite D. lia. }
    destruct (IH (S k) b1 ltac:(lia) ltac:(lia)) as (K & r & E2 & K1 & K2 & M1 & M2 & M3 & M4).
    exists K, r. split; [exact E2|]. split; [lia|]. split; [lia|]. split; [lia|]. split; [|split].
    + right. destruct M2 as [->|(j & g & Hj & F & D)]; [|exists j, g; split; [lia|split; [exact F|exact D]]].
      destruct N3 as [->|(g & F & D)]; [congruence|]. exists (S k), g. split; [lia|]. split; [exact F|exact D].
    + intros j g Hj F. destruct (Nat.eq_dec j (S k)) as [->|Nj]; [pose proof (N4 g F); lia|]. apply (M3 j g); [lia|exact F].
    + intro Hb'. rewrite (M4 Hb'). exact (N5 Hb').
Qed.

Lemma loop_start fuel : (Z.of_nat (nodeCount f) < 2 ^ 64)%Z -> nodeCount f + 1 <= fuel ->
  exists K r, genetic_loop M P max_er max_ace both evolve fuel 0 start no_result = Some (Ok r)
  /\ 0 < K <= nodeCount f + 1
  /\ ((r = no_result /\ forall j g, 0 < j <= K -> ~ found (generation evolve start j) g)
      \/ (exists j g, 0 < j <= K /\ found (generation evolve start j) g /\ describes r g))
  /\ (forall j g, 0 < j <= K -> found (generation evolve start j) g -> (node_count r <= Z.of_nat (nodeCount g))%Z)
  /\ (both = false -> average_case_error_ r = 0%Q).
Proof.
  intros Hf Hfuel. destruct fuel as [|fuel]; [lia|]. cbn [genetic_loop]. change (evolve 0 start) with (generation evolve start 1).
  destruct (consider_all_spec (generation evolve start 1) (Hsized 0) no_result) as (b1 & E1 & N1 & N2 & N3 & N4 & N5); [cbn; lia|]. rewrite E1.
  assert (Big : forall g, acceptable n f max_er max_ace both g -> (Z.of_nat (nodeCount g) < node_count no_result)%Z).
  { intros g (A & _). cbn [no_result node_count]. lia. }
  destruct (Z.eqb_spec (node_count b1) (node_count no_result)) as [E|E].
  - pose proof (N2 E) as ->. exists 1, no_result. split; [reflexivity|]. split; [lia|]. split; [|split; [|reflexivity]].
    + left. split; [reflexivity|]. intros j g Hj F. replace j with 1 in F by lia. specialize (N4 g F).
      destruct F as (ind & _ & _ & A). specialize (Big g A). lia.
    + intros j g Hj F. replace j with 1 in F by lia. exact (N4 g F).
  - destruct N3 as [->|(g1 & F1 & D1)]; [congruence|].
    assert (L1 : (0 <= node_count b1 < Z.of_nat (nodeCount f))%Z).
    { destruct F1 as (ind & _ & _ & A & _). destruct D1 as (-> & _). lia. }
    destruct (loop_spec fuel 1 b1 ltac:(lia) ltac:(lia)) as (K & r & E2 & K1 & K2 & M1 & M2 & M3 & M4).
    exists K, r. split; [exact E2|]. split; [lia|]. split; [|split].
    + right. destruct M2 as [->|(j & g & Hj & F & D)]; [exists 1, g1; split; [lia|split; [exact F1|exact D1]]|].
      exists j, g. split; [lia|]. split; [exact F|exact D].
    + intros j g Hj F. destruct (Nat.eq_dec j 1) as [->|Nj]; [pose proof (N4 g F); lia|]. apply (M3 j g); [lia|exact F].
    + intro Hb'. rewrite (M4 Hb'). exact (N5 Hb').
Qed.
End Run.

(** ** the run *)
Lemma run_full M n f max_er max_ace both draws evolve fuel : Forall (wf M) f -> below n f ->
  (n <= 24 \/ (max_er <= to_float max_er)%Q) -> (both = true -> n + length f <= 24 \/ (max_ace <= to_float max_ace)%Q) -> (both = true -> length f + n < 256) -> (max_er <= 100)%Q -> (0 <= max_ace)%Q ->
  (Z.of_nat (nodeCount f) < 2 ^ 64)%Z -> nodeCount f + 1 <= fuel ->
  (forall k pop, Forall (fun d => length d = length (compute_support_positions f)) pop ->
     Forall (fun d => length d = length (compute_support_positions f)) (evolve k pop)) ->
  compute_support_positions f <> [] ->
  exists start K r, make_population (make_problem f max_er both max_ace) 100 3 draws = Ok start
  /\ run_genetic_minimization M f max_er max_ace both draws evolve fuel = Some (Ok r)
  /\ 0 < K <= nodeCount f + 1
  /\ ((r = no_result /\ forall j g, 0 < j <= K -> ~ found M n f max_er max_ace both (generation evolve start j) g)
      \/ (exists j g, 0 < j <= K /\ found M n f max_er max_ace both (generation evolve start j) g /\ describes n f both r g))
  /\ (forall j g, 0 < j <= K -> found M n f max_er max_ace both (generation evolve start j) g -> (node_count r <= Z.of_nat (nodeCount g))%Z)
  /\ (both = false -> average_case_error_ r = 0%Q).
Proof.
  intros Wf Bf Hn Hb Hl Her Hace Hc Hfuel Hev Hne.
  set (P := make_problem f max_er both max_ace).
  assert (L : 0 < length (support_positions P)). { change (support_positions P) with (compute_support_positions f). destruct (compute_support_positions f); [congruence|cbn [length]; lia]. }
  destruct (make_population_full P 100 3 draws) as [MP _]. destruct (MP L) as (start & Es & Ls & Fs).
  assert (Sz : forall k, Forall (fun d => length d = length (compute_support_positions f)) (generation evolve start k)).
  { induction k as [|k IH]; cbn [generation]; [|apply Hev; exact IH]. revert Fs. apply Forall_impl. intros d (D & _). exact D. }
  destruct (loop_start M n f max_er max_ace both Wf Bf Hn Hb Hl Her Hace evolve start) with (fuel := fuel) as (K & r & E & R); [|exact Hc|exact Hfuel|].
  { intro k. specialize (Sz (S k)). revert Sz. apply Forall_impl. intros d D. rewrite D. apply le_n. }
  exists start, K, r. split; [exact Es|]. split; [|exact R].
  unfold run_genetic_minimization. fold P. destruct (Nat.eqb_spec (length (support_positions P)) 0); [lia|]. rewrite Es. exact E.
Qed.

(** it always ends *)
Lemma consider_decreases M P max_er max_ace both ind best best' : (0 <= node_count best)%Z ->
  consider M P max_er max_ace both ind best = Ok best' -> (0 <= node_count best' <= node_count best)%Z.
Proof.
  intros Hb. unfold consider. destruct (fitness M P ind) as [v| | |]; try discriminate. cbn [bind].
  destruct (vget v 1) as [f1| | |]; try discriminate. cbn [bind]. destruct (qlt f1 max_er); [|injection 1 as <-; lia].
  destruct (if both then _ else _) as [[|]| | |]; try discriminate; cbn [bind]; [|injection 1 as <-; lia].
  destruct (vget v 0) as [f0| | |]; try discriminate. cbn [bind]. destruct (qlt f0 _) eqn:Q1; [|injection 1 as <-; lia].
  apply qlt_spec in Q1. set (z := Z.quot _ _). cbn zeta. destruct (Z.ltb_spec (-1) z) as [L1|]; cbn [andb require_ bind]; [|discriminate].
  destruct (z <? 2 ^ 64)%Z; cbn [require_ bind]; [|discriminate].
  destruct (if both then _ else _) as [ace| | |]; try discriminate. cbn [bind]. injection 1 as <-. cbn [node_count].
  split; [lia|]. unfold z. unfold Qlt in Q1. cbn [inject_Z Qnum Qden] in Q1. rewrite Z.mul_1_r in Q1.
  destruct (Z.le_gt_cases 0 (Qnum f0)) as [P0|P0].
  - rewrite Z.quot_div_nonneg by lia. assert (D : (Qnum f0 / Z.pos (Qden f0) <= node_count best)%Z); [|exact D]. apply Z.div_le_upper_bound; lia.
  - assert (D : (Qnum f0 ÷ Z.pos (Qden f0) <= 0)%Z); [|lia]. pose proof (Z.quot_le_mono (Qnum f0) 0 (Z.pos (Qden f0)) ltac:(lia) ltac:(lia)) as D. rewrite Z.quot_0_l in D by lia. exact D.
Qed.
Lemma consider_all_decreases M P max_er max_ace both inds : forall best best', (0 <= node_count best)%Z ->
  consider_all M P max_er max_ace both inds best = Ok best' -> (0 <= node_count best' <= node_count best)%Z.
Proof.
  induction inds as [|ind inds IH]; intros best best' Hb; cbn [consider_all]; [injection 1 as <-; lia|].
  destruct (consider M P max_er max_ace both ind best) as [b1| | |] eqn:E1; try discriminate. cbn [bind]. intro E2.
  pose proof (consider_decreases _ _ _ _ _ _ _ _ Hb E1) as D1. pose proof (IH b1 best' (proj1 D1) E2). lia.
Qed.
Lemma loop_ends M P max_er max_ace both evolve : forall fuel k pop best, (0 <= node_count best < Z.of_nat fuel)%Z ->
  genetic_loop M P max_er max_ace both evolve fuel k pop best <> None.
Proof.
  induction fuel as [|fuel IH]; intros k pop best Hb; [lia|]. cbn [genetic_loop].
  destruct (consider_all M P max_er max_ace both (evolve k pop) best) as [b1| | |] eqn:E1; try discriminate.
  destruct (Z.eqb_spec (node_count b1) (node_count best)) as [E|E]; [discriminate|].
  pose proof (consider_all_decreases _ _ _ _ _ _ _ _ (proj1 Hb) E1). apply IH. lia.
Qed.
Lemma run_ends M f max_er max_ace both draws evolve fuel : (2 ^ 64 <= Z.of_nat fuel)%Z ->
  run_genetic_minimization M f max_er max_ace both draws evolve fuel <> None.
Proof.
  intro H. unfold run_genetic_minimization. destruct (_ =? 0); [discriminate|].
  destruct (make_population _ _ _ _) as [pop| | |]; try discriminate. apply loop_ends. cbn [no_result node_count]. lia.
Qed.

(** ** the limits are rounded to float *)
Fixpoint conj_of (M : mgr) (i k : nat) : bdd := match k with O => bone | S k' => band M (bvar i) (conj_of M (S i) k') end.
(** !x0 & (x1 | x2 & ... & x27): with x0 = 0 it has the error rate 1/4 + 2^-28 *)
Definition wide_f : list bdd := let M := id_mgr 28 in [band M (bnot (bvar 0)) (bor M (bvar 1) (conj_of M 2 26))].
Definition wide_ind : individuum := 1%Q :: repeat 0%Q 27.

Lemma conj_of_spec M : forall k i, wf M (conj_of M i k) /\ depends_below (i + k) (conj_of M i k).
Proof.
  induction k as [|k IH]; intro i; cbn [conj_of]; [split; [exact I|intros a b H; reflexivity]|]. destruct (IH (S i)) as [W D].
  split; [auto with wf|]. intros a b H. rewrite !ev_and, !ev_var. rewrite (D a b) by (intros; apply H; lia). rewrite (H i) by lia. reflexivity.
Qed.
Lemma wide_ok : Forall (wf (id_mgr 28)) wide_f /\ below 28 wide_f.
Proof.
  destruct (conj_of_spec (id_mgr 28) 26 2) as [W D]. unfold wide_f. cbn zeta. split; (apply Forall_cons; [|apply Forall_nil]).
  - apply wf_and; [apply wf_not, wf_var|]. apply wf_or; [apply wf_var|exact W].
  - intros a b H. rewrite !ev_and, !ev_or, !ev_not, !ev_var. rewrite (D a b) by (intros; apply H; lia). rewrite (H 0), (H 1) by lia. reflexivity.
Qed.
Definition wide_limit : Q := (1 # 4) + (1 # 2 ^ 27).
Definition wide_problem : problem := make_problem wide_f wide_limit false 0.
Definition wide_g : list bdd := let M := id_mgr 28 in [bor M (bvar 1) (conj_of M 2 26)].
Lemma wide_found : found (id_mgr 28) 28 wide_f wide_limit 0 false [wide_ind] wide_g.
Proof.
  exists wide_ind. split; [left; reflexivity|].
  assert (E : function_from_individuum (id_mgr 28) wide_problem wide_ind = Ok wide_g) by (vm_compute; reflexivity).
  split; [exact E|]. destruct wide_ok as [W B].
  destruct (conj_of_spec (id_mgr 28) 26 2) as [W' D].
  assert (Wg : Forall (wf (id_mgr 28)) wide_g) by (apply Forall_cons; [apply wf_or; [apply wf_var|exact W']|apply Forall_nil]).
  assert (Bg : below 28 wide_g).
  { apply Forall_cons; [|apply Forall_nil]. intros a b H. rewrite !ev_or, !ev_var. rewrite (D a b) by (intros; apply H; lia). rewrite (H 1) by lia. reflexivity. }
  split; [apply Nat.ltb_lt; vm_compute; reflexivity|]. split; [|discriminate].
  destruct (error_rate_full (id_mgr 28) 28 wide_f wide_g W Wg B Bg) as [H _]. destruct (H eq_refl) as (q & Eq & Hq & _).
  unfold rate. rewrite <- Hq.
  assert (K : match error_rate (id_mgr 28) wide_f wide_g with Ok q => qlt q wide_limit = true | _ => False end) by (vm_compute; reflexivity).
  rewrite Eq in K. apply qlt_spec in K. exact K.
Qed.
Lemma run_bad : exists M n f max_er evolve,
  Forall (wf M) f /\ below n f /\ length f + n < 256 /\ (max_er <= 1)%Q /\ compute_support_positions f <> []
  /\ (forall k pop, Forall (fun d => length d = length (compute_support_positions f)) (evolve k pop))
  /\ (forall k start, exists g, found M n f max_er 0 false (generation evolve start (S k)) g)
  /\ forall draws fuel, 2 <= fuel -> exists r, run_genetic_minimization M f max_er 0 false draws evolve fuel = Some (Ok r)
       /\ (Z.of_nat (nodeCount f) * 2000 < node_count r < 2 ^ 20)%Z.
Proof.
  exists (id_mgr 28), 28, wide_f, wide_limit, (fun _ _ => [wide_ind]).
  destruct wide_ok as [W B]. split; [exact W|]. split; [exact B|]. split; [apply Nat.ltb_lt; vm_compute; reflexivity|]. split; [vm_compute; discriminate|].
  split; [vm_compute; discriminate|]. split; [intros _ _; apply Forall_cons; [vm_compute; reflexivity|apply Forall_nil]|].
  split; [intros k start; exists wide_g; exact wide_found|].
  intros draws fuel Hf.
  set (r0 := match consider_all (id_mgr 28) wide_problem wide_limit 0 false [wide_ind] no_result with Ok r => r | _ => no_result end).
  assert (E1 : consider_all (id_mgr 28) wide_problem wide_limit 0 false [wide_ind] no_result = Ok r0) by (vm_compute; reflexivity).
  assert (E2 : consider_all (id_mgr 28) wide_problem wide_limit 0 false [wide_ind] r0 = Ok r0) by (vm_compute; reflexivity).
  assert (N : (node_count r0 =? node_count no_result)%Z = false) by (vm_compute; reflexivity).
  assert (R : ((Z.of_nat (nodeCount wide_f) * 2000 <? node_count r0) && (node_count r0 <? 2 ^ 20))%Z = true) by (vm_compute; reflexivity).
  exists r0. split.
  - unfold run_genetic_minimization. fold wide_problem.
    assert (L : (length (support_positions wide_problem) =? 0) = false) by (vm_compute; reflexivity). rewrite L.
    destruct (make_population_full wide_problem 100 3 draws) as [MP _]. destruct MP as (start & Es & _); [apply Nat.eqb_neq in L; lia|]. rewrite Es.
    destruct fuel as [|[|fuel]]; [lia|lia|]. cbn [genetic_loop]. rewrite E1, N, E2, Z.eqb_refl. reflexivity.
  - apply andb_prop in R. destruct R as [R1 R2]. apply Z.ltb_lt in R1, R2. split; assumption.
Qed.

Lemma to_float_nearest : forall q, SpecFloat.float_number 24 (to_float q) /\ SpecFloat.nearest_float 24 q (to_float q).
Proof. intro q. apply FloatFacts.round_float_spec. discriminate. Qed.
