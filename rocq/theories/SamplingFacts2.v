(** Proofs about the distribution of sampled inputs *)
From Coq Require Import List Bool Arith ZArith QArith Qround Qabs Lia Lqa.
From Verif Require Import Res Cudd CuddFacts Spec SpecFacts Helpers HelpersFacts Counting CountFacts Metrics MetricsFacts RelMetrics RelFacts3 RelFacts4 RelFacts7
  SpecSampling SamplingFacts.
Import ListNotations.
Open Scope nat_scope.

Lemma nth_skipn {A} (n i : nat) (l : list A) d : nth i (skipn n l) d = nth (n + i) l d.
Proof. revert l. induction n as [|n IH]; intros l; [reflexivity|]. destruct l as [|x l]; cbn [skipn plus nth]; [destruct i; reflexivity|]. apply IH. Qed.
Lemma nth_firstn {A} (n i : nat) (l : list A) d : i < n -> nth i (firstn n l) d = nth i l d.
Proof.
  revert i l. induction n as [|n IH]; intros i l H; [lia|]. destruct l as [|x l]; [reflexivity|]. destruct i as [|i]; [reflexivity|]. cbn. apply IH. lia.
Qed.
Lemma firstn_seq_draws l pos T : pos + T <= length l -> map (draws_from l) (seq pos T) = firstn T (skipn pos l).
Proof.
  intro H. apply (nth_ext _ _ 0%Z 0%Z); [rewrite map_length, seq_length, firstn_length, skipn_length; lia|].
  intros i Hi. rewrite map_length, seq_length in Hi. rewrite nth_firstn, nth_skipn by exact Hi.
  rewrite (nth_indep _ 0%Z (draws_from l 0)) by (rewrite map_length, seq_length; exact Hi).
  rewrite (map_nth (draws_from l)). rewrite seq_nth by exact Hi. reflexivity.
Qed.

(** ** plain sampling *)
Section Plain.
Variable M : mgr.
Variables f g : list bdd.
Hypothesis HL : length f = length g.
Hypothesis Wf : wfs M f.
Hypothesis Wg : wfs M g.
Let T := read_size M.
Hypothesis Bf : below T f.
Hypothesis Bg : below T g.
Definition wrong_block (f g : list bdd) (x : list Z) : Q := b2q (differ f g (fun i => Z.odd (nth i x 0%Z))).

Lemma wrong_count_blocks s : forall l, s * T <= length l ->
  (inject_Z (Z.of_nat (length (filter (fun k => differ f g (sample (draws_from l) T k)) (seq 0 s))))
   == block_sum T (wrong_block f g) s l)%Q.
Proof.
  induction s as [|s IH]; intros l H; [reflexivity|]. cbn [seq filter block_sum]. cbn [Nat.mul] in H.
  assert (E : (inject_Z (Z.of_nat (length (filter (fun k => differ f g (sample (draws_from l) T k)) (seq 1 s)))) == block_sum T (wrong_block f g) s (skipn T l))%Q).
  { rewrite <- IH by (rewrite skipn_length; lia). rewrite <- seq_shift.
    assert (X : forall L, length (filter (fun k => differ f g (sample (draws_from l) T k)) (map S L))
       = length (filter (fun k => differ f g (sample (draws_from (skipn T l)) T k)) L)).
    { induction L as [|k L IHL]; [reflexivity|]. cbn [map filter].
      rewrite (differ_ext f g (sample (draws_from l) T (S k)) (sample (draws_from (skipn T l)) T k)).
      - destruct (differ f g _); cbn [length]; rewrite IHL; reflexivity.
      - intro i. unfold sample, draws_from. rewrite nth_skipn. f_equal. f_equal. cbn. lia. }
    rewrite X. reflexivity. }
  assert (B0 : differ f g (sample (draws_from l) T 0) = differ f g (fun i => Z.odd (nth i (firstn T l) 0%Z))).
  { apply (differ_below T); auto. intros i Hi. unfold sample, draws_from. rewrite nth_firstn by exact Hi. reflexivity. }
  unfold wrong_block at 1. rewrite <- B0, <- E. destruct (differ f g (sample (draws_from l) T 0)); cbn [length b2q].
  - rewrite Nat2Z.inj_succ. unfold Z.succ. rewrite inject_Z_plus. ring.
  - ring.
Qed.

Variable r : nat.
Hypothesis Hodd : Nat.Odd r.
Let rate := average T (fun a => b2q (differ f g a)).
Lemma wrong_block_mean : (expectation r T (wrong_block f g) == rate)%Q.
Proof.
  set (H := fun y : list Z => b2q (differ f g (fun i => (nth i y 0 =? 1)%Z))).
  rewrite (exp_ext_in r T _ (fun l => H (parity l))).
  - rewrite (exp_parity r Hodd), <- bmean_average. apply average_ext. intro a. unfold H.
    rewrite (differ_below T f g _ a); [reflexivity|auto|auto|]. intros i Hi. unfold input_list.
    rewrite (nth_indep _ 0%Z (Z.b2z (a 0))) by (rewrite map_length, seq_length; exact Hi).
    rewrite (map_nth (fun i => Z.b2z (a i))), seq_nth by exact Hi. destruct (a (0 + i)) eqn:E; cbn in E; rewrite E; reflexivity.
  - intros l [L _]. unfold wrong_block, H. rewrite (differ_below T f g (fun i => Z.odd (nth i l 0%Z)) (fun i => (nth i (parity l) 0 =? 1)%Z)); [reflexivity|auto|auto|].
    intros i Hi. unfold parity. rewrite <- L in Hi.
    rewrite (nth_indep (map (fun d => (d mod 2)%Z) l) 0%Z ((fun d => (d mod 2)%Z) 0%Z)) by (rewrite map_length; exact Hi).
    rewrite (map_nth (fun d => (d mod 2)%Z)). rewrite Zmod_odd. destruct (Z.odd (nth i l 0%Z)); reflexivity.
Qed.

Lemma plain_sampling samples : (1 <= samples < 2 ^ 31)%Z ->
  exists estimate : list Z -> Q,
    let k := Z.to_nat samples * T in
    (forall l, draw_list r k l -> error_rate_sampling M (draws_from l) f g samples = Ok (Fin (estimate l)))
    /\ (expectation r k estimate == rate)%Q
    /\ (expectation r k (fun l => (estimate l - rate) * (estimate l - rate)) == rate * (1 - rate) / inject_Z samples)%Q
    /\ (forall eps, (0 < eps)%Q -> (probability r k (fun l => Qle_bool eps (Qabs (estimate l - rate)))
          <= rate * (1 - rate) / inject_Z samples / (eps * eps))%Q).
Proof.
  intro Hs. set (estimate := fun l => match error_rate_sampling M (draws_from l) f g samples with Ok (Fin q) => q | _ => 0%Q end).
  exists estimate. cbv zeta. set (s := Z.to_nat samples). set (k := s * T).
  assert (V : forall l, draw_list r k l -> error_rate_sampling M (draws_from l) f g samples = Ok (Fin (estimate l))
     /\ (estimate l == block_sum T (wrong_block f g) s l / inject_Z samples)%Q).
  { intros l [L F]. destruct (error_rate_sampling_exact M (draws_from l) f g samples HL Wf Wg Bf Bg Hs) as (q & E & Eq).
    - intro i. unfold draws_from. destruct (Nat.lt_ge_cases i (length l)) as [Hi|Hi].
      + rewrite Forall_forall in F. apply F. now apply nth_In.
      + rewrite nth_overflow by exact Hi. lia.
    - unfold estimate. rewrite E. split; [reflexivity|]. rewrite Eq. fold T. fold s. rewrite (wrong_count_blocks s) by (rewrite L; unfold k; lia). reflexivity. }
  assert (P : (0 < inject_Z samples)%Q) by (change 0%Q with (inject_Z 0); rewrite <- Zlt_Qlt; lia).
  assert (Es : inject_Z (Z.of_nat s) = inject_Z samples) by (unfold s; rewrite Z2Nat.id by lia; reflexivity).
  assert (V2 : (expectation r k (fun l => (estimate l - rate) * (estimate l - rate)) == rate * (1 - rate) / inject_Z samples)%Q).
  { rewrite (exp_ext_in r k _ (fun l => (1 / (inject_Z samples * inject_Z samples))
       * ((block_sum T (wrong_block f g) s l - inject_Z (Z.of_nat s) * rate) * (block_sum T (wrong_block f g) s l - inject_Z (Z.of_nat s) * rate)))%Q).
    - rewrite exp_scale. unfold k. rewrite (block_variance r T _ s rate wrong_block_mean).
      rewrite (indicator_variance r T _ rate); [rewrite Es; field; lra| |exact wrong_block_mean].
      intros l _. unfold wrong_block. destruct (differ f g _); [right|left]; reflexivity.
    - intros l Hl. rewrite (proj2 (V l Hl)), Es. field. lra. }
  split; [intros l Hl; apply V; exact Hl|]. split; [|split].
  - rewrite (exp_ext_in r k _ (fun l => (1 / inject_Z samples) * block_sum T (wrong_block f g) s l)%Q).
    + rewrite exp_scale. unfold k. rewrite block_mean, wrong_block_mean, Es. field. lra.
    + intros l Hl. rewrite (proj2 (V l Hl)). field. lra.
  - exact V2.
  - intros eps He. apply chebyshev; [exact He|]. rewrite V2. apply Qle_refl.
Qed.
End Plain.
