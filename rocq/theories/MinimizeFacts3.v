(** Proofs about the bucket minimisation: final statements of the search, the generated operators
    and the helper. *)
From Coq Require Import List Bool Arith ZArith QArith Lia Lqa.
From Verif Require Import Res Cudd CuddFacts Spec SpecFacts Helpers HelpersFacts HelpersFacts2 Counting Metrics Operators
  OperatorFacts OperatorFacts2 OperatorFacts3 OperatorFacts4 Examples AdderFacts Minimize MinimizeFacts MinimizeFacts2.
Import ListNotations.
Open Scope nat_scope.

(** ** index positions *)
Lemma row_major_flat bounds : forall index, length index = length bounds -> row_major bounds index = flat index bounds 0.
Proof.
  induction bounds as [|b bs IH]; intros [|x xs] L; cbn [length] in L; try discriminate; cbn [row_major flat]; auto.
  rewrite IH by lia. rewrite (flat_acc bs xs (0 * b + x)) by lia. ring.
Qed.
Lemma row_major_at bounds index : in_box bounds index -> row_major bounds index = flat index bounds 0.
Proof. intro H. apply row_major_flat. now apply in_box_length. Qed.
Lemma index_conversions bounds : (volume bounds <= 2 ^ 64)%Z ->
  (forall index, in_box bounds index ->
     (0 <= row_major bounds index < volume bounds)%Z
     /\ reduce_multi_dim_index index bounds = Ok (row_major bounds index)
     /\ create_multi_dim_index (row_major bounds index) bounds = Ok index)
  /\ (Forall (fun b => (0 < b)%Z) bounds -> forall k, (0 <= k < volume bounds)%Z ->
     exists index, in_box bounds index /\ row_major bounds index = k
       /\ create_multi_dim_index k bounds = Ok index /\ reduce_multi_dim_index index bounds = Ok k).
Proof.
  intro V. split.
  - intros index B. rewrite row_major_at by auto. split; [now apply flat_range|]. split; [now apply reduce_ok|now apply create_ok].
  - intros P k K. destruct (flat_to_index bounds k P V K) as (index & E1 & B & E2). exists index.
    rewrite row_major_at by auto. rewrite reduce_ok in E2 by auto. injection E2 as <-. repeat split; auto. now apply reduce_ok.
Qed.
Lemma index_order_preserved bounds x y : in_box bounds x -> in_box bounds y -> below_all x y ->
  (row_major bounds x <= row_major bounds y)%Z /\ (x <> y -> (row_major bounds x < row_major bounds y)%Z).
Proof.
  intros Hx Hy B. rewrite !row_major_at by auto. pose proof (flat_mono bounds x y 0 0 Hx Hy B (Z.le_refl 0)). split; auto.
  intro N. assert (flat x bounds 0 <> flat y bounds 0)%Z by (intro; apply N; eapply flat_inj; eauto). lia.
Qed.

(** ** cells *)
Lemma dimension_cell gs bd v c : (0 < bd)%Q -> dimension_index gs (Fin v) bd = Ok c -> (c < gs)%Z -> (0 < gs)%Z ->
  (v < bd)%Q /\ ((0 <= v)%Q -> (inject_Z c * bd / inject_Z gs <= v)%Q /\ (v < (inject_Z c + 1) * bd / inject_Z gs)%Q).
Proof.
  intros HB E HC HG. unfold dimension_index in E.
  destruct (Qeq_bool bd 0); [discriminate|]. cbv zeta in E. set (q := (inject_Z gs * v / bd)%Q) in *.
  destruct (_ && _); [|discriminate]. apply (f_equal (fun x => match x with Ok y => y | _ => 0%Z end)) in E. cbn beta iota in E.
  assert (GQ : (0 < inject_Z gs)%Q) by (change 0%Q with (inject_Z 0); now rewrite <- Zlt_Qlt).
  assert (EV : (v == q * bd / inject_Z gs)%Q) by (unfold q; field; split; lra).
  assert (QN : (0 <= v)%Q -> (0 <= q)%Q).
  { intro V0. unfold q. apply Qle_shift_div_l; auto. rewrite Qmult_0_l. apply Qmult_le_0_compat; lra. }
  clearbody q.
  assert (QL : (q < inject_Z c + 1)%Q).
  { destruct q as [a p]. cbn [Qnum Qden] in E. unfold Qlt. cbn [inject_Z Qplus Qnum Qden].
    pose proof (Z.quot_rem' a (Zpos p)) as QR. pose proof (Z.rem_bound_abs a (Zpos p) ltac:(discriminate)) as RB.
    rewrite E in QR. change (Z.abs (Zpos p)) with (Zpos p) in RB. change (Z.pos (1 * 1)) with 1%Z. nia. }
  assert (QG : (q < inject_Z gs)%Q) by (assert (inject_Z c + 1 <= inject_Z gs)%Q by (change 1%Q with (inject_Z 1); rewrite <- inject_Z_plus, <- Zle_Qle; lia); lra).
  split.
  - rewrite EV. apply Qlt_shift_div_r; auto. assert (q * bd < inject_Z gs * bd)%Q by (apply Qmult_lt_compat_r; auto). lra.
  - intro V0. specialize (QN V0) as Q0.
    assert (QC : (inject_Z c <= q)%Q).
    { destruct q as [a p]. cbn [Qnum Qden] in E. unfold Qle. cbn [inject_Z Qnum Qden]. rewrite Z.mul_1_r.
      unfold Qle in Q0. cbn [Qnum Qden] in Q0. rewrite Z.mul_1_r in Q0. cbn [Z.mul] in Q0. pose proof (Z.quot_rem' a (Zpos p)) as QR.
      pose proof (Z.rem_nonneg a (Zpos p) ltac:(discriminate) ltac:(lia)). rewrite E in QR. lia. }
    split.
    + rewrite EV. apply Qle_shift_div_l; auto. field_simplify; [|lra]. assert (inject_Z c * bd <= q * bd)%Q by (apply Qmult_le_compat_r; lra). lra.
    + rewrite EV. apply Qlt_shift_div_r; auto. field_simplify; [|lra]. assert (q * bd < (inject_Z c + 1) * bd)%Q by (apply Qmult_lt_compat_r; auto). lra.
Qed.

Section Final.
Variable function : list bdd.
Variable metrics : list MetricDimension.
Variable operators : list OperatorFunction.
Variable pop_all : bool.
Notation grid := (map grid_size metrics).
Hypothesis has_metric : metrics <> [].
Hypothesis grid_pos : Forall (fun m => (0 < grid_size m)%Z) metrics.
Hypothesis grid_vol : (volume grid < 2 ^ 64)%Z.

Lemma gp : Forall (fun b => (0 < b)%Z) (bucket_grid_size metrics).
Proof. unfold bucket_grid_size. apply Forall_map. exact grid_pos. Qed.
Lemma minimize_good fuel buckets : bucket_greedy_minimize function metrics operators pop_all fuel = Some (Ok buckets) ->
  good_state function metrics operators pop_all buckets [].
Proof.
  destruct (initial_good function metrics operators pop_all gp) as (first & E & G).
  rewrite (minimize_search _ _ _ _ gp grid_vol fuel first has_metric E).
  exact (search_good function metrics operators pop_all gp grid_vol fuel _ _ _ G).
Qed.
Lemma at_row i index : i < Z.to_nat (volume grid) -> in_box grid index -> row_major grid index = Z.of_nat i -> at_index metrics i index.
Proof.
  intros H B E. rewrite row_major_at in E by auto. unfold at_index. rewrite <- E. now apply create_ok.
Qed.

Lemma measured_nth g ms cs vs : measured function g ms cs vs -> length vs = length ms /\ length cs = length ms
  /\ forall k m v, nth_error ms k = Some m -> nth_error vs k = Some v -> exists c, nth_error cs k = Some c /\ (c < grid_size m)%Z
       /\ metric m function g = Ok (Fin v) /\ dimension_index (grid_size m) (Fin v) (bound m) = Ok c.
Proof.
  induction 1 as [|m ms c cs v vs E1 E2 L H IH]; cbn [length].
  - repeat split; auto. intros [|k] m v Hm; discriminate.
  - destruct IH as (I1 & I2 & IH). repeat split; try lia. intros [|k] m' v' Hm Hv; cbn [nth_error] in *.
    + injection Hm as <-. injection Hv as <-. eauto.
    + now apply IH.
Qed.
Lemma below_nth x y : below_all x y -> forall k p q, nth_error x k = Some p -> nth_error y k = Some q -> (p <= q)%Z.
Proof. induction 1; intros [|k] p q Hp Hq; cbn [nth_error] in *; try discriminate; [congruence|eauto]. Qed.

Lemma buckets_sound fuel buckets : bucket_greedy_minimize function metrics operators pop_all fuel = Some (Ok buckets) ->
  length buckets = Z.to_nat (volume grid) /\
  forall i b index, nth_error buckets i = Some b -> in_box grid index -> row_major grid index = Z.of_nat i ->
    derived operators function (b_function b) /\ bdd_size b = nodeCount (b_function b) /\ bdd_size b <= nodeCount function
    /\ (is_empty b = true -> b_function b = function /\ metric_values b = repeat 0%Q (length metrics))
    /\ (is_empty b = false -> bdd_size b < nodeCount function /\ length (metric_values b) = length metrics
        /\ forall k m v x, nth_error metrics k = Some m -> nth_error (metric_values b) k = Some v -> nth_error index k = Some x ->
             metric m function (b_function b) = Ok (Fin v)
             /\ ((0 < bound m)%Q -> (v < bound m)%Q
                 /\ ((0 <= v)%Q -> exists c, (0 <= c <= x)%Z /\ (pop_all = false -> c = x)
                       /\ (inject_Z c * bound m / inject_Z (grid_size m) <= v)%Q
                       /\ (v < (inject_Z c + 1) * bound m / inject_Z (grid_size m))%Q))).
Proof.
  intro H. apply minimize_good in H. destruct H as ((L & G) & _). split; [exact L|].
  intros i b index Hi B E. assert (HT : i < Z.to_nat (volume grid)).
  { unfold bucket_grid_size in L. rewrite <- L. apply nth_error_Some. congruence. }
  pose proof (at_row i index HT B E) as A. destruct (G i b Hi) as (G1 & G2 & G3 & G4 & G5).
  split; auto. split; auto. split; [|split; auto].
  - destruct (is_empty b) eqn:Ee; [destruct (G4 eq_refl) as [G6 _]; rewrite G2, G6; lia|destruct (G5 eq_refl); lia].
  - intro Ee. destruct (G5 Ee) as (G6 & index' & cells & A' & ME & BL & EX).
    assert (index' = index) as -> by (unfold at_index in A, A'; congruence).
    destruct (measured_nth _ _ _ _ ME) as (L1 & L2 & ME'). split; auto. split; auto.
    intros k m v x Hm Hv Hx. destruct (ME' k m v Hm Hv) as (c & Hc & LT & EM & ED). split; auto. intro HB.
    destruct (dimension_cell _ _ _ _ HB ED LT) as [D1 D2].
    { rewrite Forall_forall in grid_pos. apply grid_pos. eapply nth_error_In; eauto. }
    split; auto. intro V0. exists c. split; [|split; [|now apply D2]].
    + pose proof (dimension_nonneg _ _ _ _ ED). pose proof (below_nth _ _ BL k c x Hc Hx). lia.
    + intro P. rewrite (EX P) in Hc. congruence.
Qed.

Lemma search_enough fuel : Z.to_nat (volume grid) * nodeCount function + 1 <= fuel ->
  bucket_greedy_minimize function metrics operators pop_all fuel <> None.
Proof.
  intro F. destruct (initial_good function metrics operators pop_all gp) as (first & E & G).
  rewrite (minimize_search _ _ _ _ gp grid_vol fuel first has_metric E).
  apply search_terminates; auto; [apply gp|]. unfold weight. rewrite initial_sizes. cbn [length]. exact F.
Qed.
Lemma search_more fuel fuel' : fuel <= fuel' -> forall buckets test r,
  search function metrics operators pop_all fuel buckets test = Some r ->
  search function metrics operators pop_all fuel' buckets test = Some r.
Proof.
  revert fuel'. induction fuel as [|fuel IH]; intros fuel' F buckets test r H.
  - destruct test; cbn [search] in H; [|discriminate]. destruct fuel'; exact H.
  - destruct fuel' as [|fuel']; [lia|]. destruct test as [|first rest]; cbn [search] in *; auto.
    destruct (explore _ _ _ _ _ _ _) as [[bs ts]| | |]; auto. apply IH; auto. lia.
Qed.
Lemma minimize_more fuel fuel' r : fuel <= fuel' ->
  bucket_greedy_minimize function metrics operators pop_all fuel = Some r ->
  bucket_greedy_minimize function metrics operators pop_all fuel' = Some r.
Proof.
  intro F. unfold bucket_greedy_minimize. destruct (_ =? _); auto. cbv zeta.
  destruct (create_multi_dim_index _ _); auto. now apply search_more.
Qed.
Lemma minimize_ok fuel : Z.to_nat (volume grid) * nodeCount function + 1 <= fuel ->
  (forall g op, derived operators function g -> In op operators -> exists g', op g = Ok g') ->
  (forall g m, derived operators function g -> In m metrics -> exists v, metric m function g = Ok (Fin v) /\ (0 <= v)%Q
     /\ (0 < bound m)%Q /\ (inject_Z (grid_size m) * v / bound m < inject_Z (2 ^ 64))%Q) ->
  exists buckets, bucket_greedy_minimize function metrics operators pop_all fuel = Some (Ok buckets).
Proof.
  intros F WO WM. pose proof (search_enough fuel F) as NT. revert NT.
  destruct (initial_good function metrics operators pop_all gp) as (first & E & G).
  rewrite (minimize_search _ _ _ _ gp grid_vol fuel first has_metric E). intro NT.
  assert (WB : well_behaved function metrics operators).
  { split; auto. intros g m HD HI. destruct (WM g m HD HI) as (v & EM & V0 & B0 & LT). exists v.
    assert (GS : (0 < grid_size m)%Z) by (rewrite Forall_forall in grid_pos; now apply grid_pos).
    unfold dimension_index. assert (Qeq_bool (bound m) 0 = false) as ->.
    { apply not_true_is_false. intro Hq. apply Qeq_bool_eq in Hq. lra. }
    cbv zeta. set (q := (inject_Z (grid_size m) * v / bound m)%Q) in *.
    assert (Q0 : (0 <= q)%Q).
    { unfold q. apply Qle_shift_div_l; auto. rewrite Qmult_0_l. apply Qmult_le_0_compat; auto.
      change 0%Q with (inject_Z 0). rewrite <- Zle_Qle. lia. }
    clearbody q. destruct q as [a p]. unfold Qlt, Qle in LT, Q0. cbn [Qnum Qden inject_Z] in *. rewrite Z.mul_1_r in *. cbn [Z.mul] in Q0.
    assert (R : (0 <= Z.quot a (Zpos p) < 2 ^ 64)%Z).
    { pose proof (Z.quot_rem' a (Zpos p)). pose proof (Z.rem_bound_pos a (Zpos p)). split; [apply Z.quot_pos; lia|].
      apply Z.quot_lt_upper_bound; lia. }
    exists (Z.quot a (Zpos p)). split; auto.
    assert ((0 <=? Z.quot a (Zpos p))%Z && (Z.quot a (Zpos p) <? 2 ^ 64)%Z = true) as -> by (apply andb_true_iff; split; [apply Z.leb_le|apply Z.ltb_lt]; lia).
    reflexivity. }
  destruct (search_total function metrics operators pop_all gp grid_vol fuel WB (initial function metrics operators) [first] G) as [N|(bs & Hb)]; [congruence|eauto].
Qed.

Lemma looser_smaller fuel buckets : pop_all = true ->
  bucket_greedy_minimize function metrics operators pop_all fuel = Some (Ok buckets) ->
  forall i j bi bj xi xj, nth_error buckets i = Some bi -> nth_error buckets j = Some bj ->
    in_box grid xi -> in_box grid xj -> row_major grid xi = Z.of_nat i -> row_major grid xj = Z.of_nat j ->
    below_all xi xj -> bdd_size bj <= bdd_size bi.
Proof.
  intros P H i j bi bj xi xj Hi Hj Bi Bj Ei Ej B. apply minimize_good in H. destruct H as ((L & _) & _ & MO).
  unfold bucket_grid_size in L. assert (HTi : i < Z.to_nat (volume grid)) by (rewrite <- L; apply nth_error_Some; congruence).
  assert (HTj : j < Z.to_nat (volume grid)) by (rewrite <- L; apply nth_error_Some; congruence).
  exact (MO P i j bi bj xi xj Hi Hj (at_row i xi HTi Bi Ei) (at_row j xj HTj Bj Ej) B).
Qed.
Lemma box_top ms : Forall (fun m => (0 < grid_size m)%Z) ms ->
  in_box (map grid_size ms) (map (fun m => grid_size m - 1)%Z ms)
  /\ row_major (map grid_size ms) (map (fun m => grid_size m - 1)%Z ms) = (volume (map grid_size ms) - 1)%Z
  /\ forall x, in_box (map grid_size ms) x -> below_all x (map (fun m => grid_size m - 1)%Z ms).
Proof.
  induction 1 as [|m ms Hm H IH]; cbn [map row_major volume fold_right].
  - split; [constructor|]. split; auto. intros x Hx. inversion Hx. constructor.
  - fold (volume (map grid_size ms)). destruct IH as (I1 & I2 & I3). split; [constructor; auto; lia|]. split; [rewrite I2; ring|].
    intros x Hx. inversion Hx as [|p q ps qs Hp Hps]; subst. constructor; [lia|now apply I3].
Qed.
Lemma last_smallest fuel buckets : pop_all = true ->
  bucket_greedy_minimize function metrics operators pop_all fuel = Some (Ok buckets) ->
  exists b, nth_error buckets (length buckets - 1) = Some b /\ forall b', In b' buckets -> bdd_size b <= bdd_size b'.
Proof.
  intros P H. pose proof (looser_smaller fuel buckets P H) as LS. destruct (buckets_sound fuel buckets H) as [L _].
  pose proof (vol_pos metrics gp) as V. unfold bucket_grid_size in V. destruct (box_top metrics grid_pos) as (B & R & T).
  destruct (nth_error buckets (length buckets - 1)) as [b|] eqn:Eb; [|apply nth_error_None in Eb; lia].
  exists b. split; auto. intros b' Hb'. apply In_nth_error in Hb'. destruct Hb' as (i & Hi).
  assert (HT : i < Z.to_nat (volume grid)) by (rewrite <- L; apply nth_error_Some; congruence).
  destruct (at_index_ex metrics gp i HT) as (x & _ & Bx & Ex). unfold bucket_grid_size in *. rewrite <- row_major_at in Ex by auto.
  apply (LS i (length buckets - 1) b' b x (map (fun m => grid_size m - 1)%Z metrics)); auto. rewrite R, L. lia.
Qed.
End Final.

(** ** the smallest bucket *)
Lemma min_bucket_spec l : forall best, In (min_bucket best l) (best :: l)
  /\ forall b, In b (best :: l) -> bdd_size (min_bucket best l) <= bdd_size b.
Proof.
  induction l as [|y l IH]; intro best; cbn [min_bucket].
  - split; [now left|]. intros b [<-|[]]. lia.
  - destruct (bdd_size y <? bdd_size best) eqn:E; [apply Nat.ltb_lt in E; destruct (IH y) as [I1 I2]|apply Nat.ltb_ge in E; destruct (IH best) as [I1 I2]].
    + split; [destruct I1; [right; now left|right; now right]|]. intros b [<-|[<-|Hb]].
      * specialize (I2 y (or_introl eq_refl)). lia.
      * apply I2. now left.
      * apply I2. now right.
    + split; [destruct I1; [now left|right; now right]|]. intros b [<-|[<-|Hb]].
      * apply I2. now left.
      * specialize (I2 best (or_introl eq_refl)). lia.
      * apply I2. now right.
Qed.
Lemma smallest_spec buckets b : smallest_function buckets = Ok b -> In b buckets /\ forall b', In b' buckets -> bdd_size b <= bdd_size b'.
Proof. destruct buckets as [|x l]; cbn [smallest_function]; [discriminate|]. intros [= <-]. apply min_bucket_spec. Qed.

(** ** operators *)
Lemma cofn_spec M v b n : forall k, okn M k n -> okn M k (snd (cofn M v b n)) /\ forall a, ev (cofn M v b n) a = evn n (upd a v b).
Proof.
  induction n as [|w t IHt c e IHe]; intros k H; cbn [cofn]; [split; auto|].
  pose proof (okn_top_notin _ _ _ _ _ _ H) as [NT NE]. cbn [okn] in H. destruct H as (HK & Ht & He & _).
  destruct (w =? v) eqn:E.
  - apply Nat.eqb_eq in E. subst w. destruct b; cbn [snd evn].
    + split; [eapply okn_weaken; [|exact Ht]; lia|]. intro a. rewrite upd_same. unfold ev. cbn [fst snd].
      rewrite evn_upd_notin by auto. apply xorb_false_l.
    + split; [eapply okn_weaken; [|exact He]; lia|]. intro a. rewrite upd_same. unfold ev. cbn [fst snd]. now rewrite evn_upd_notin by auto.
  - apply Nat.eqb_neq in E. destruct (IHt _ Ht) as [IT1 IT2]. destruct (IHe _ He) as [IE1 IE2]. split.
    + apply mk_ok; auto.
    + intro a. rewrite ev_mk. cbn [evn]. rewrite upd_other by auto. destruct (a w); [apply IT2|].
      unfold ev in *. cbn [fst snd]. rewrite <- IE2. now rewrite xorb_assoc.
Qed.
Lemma cofactor_spec M f v b : wf M f -> wf M (cofactor M f v b) /\ forall a, ev (cofactor M f v b) a = ev f (upd a v b).
Proof.
  intro H. unfold cofactor, wf, ev. cbn [fst snd]. destruct (cofn_spec M v b (snd f) 0 H) as [H1 H2]. split; auto.
  intro a. rewrite <- H2. unfold ev. now rewrite xorb_assoc.
Qed.

(** variables of the results *)
Lemma dep_const n c : depends_below n (c, One). Proof. intros a b H. reflexivity. Qed.
Lemma dep_ite M n v f g : v < n -> depends_below n f -> depends_below n g -> depends_below n (ite M (bvar v) f g).
Proof. intros Hv Hf Hg a b H. rewrite !ev_itev, (Hf a b H), (Hg a b H), (H v Hv). reflexivity. Qed.
Lemma dep_vars n (f : bdd) : (forall i, In i (varsn (snd f)) -> i < n) -> depends_below n f.
Proof. intros HV a b H. apply ev_ext_vars. intros i Hi. apply H. now apply HV. Qed.
Lemma dep_repl n sub : depends_below n (repl sub). Proof. unfold repl. destruct sub; intros a b H; reflexivity. Qed.
Lemma dep_major n q : depends_below n (major q). Proof. unfold major. destruct (qgtb _ _); intros a b H; reflexivity. Qed.
Lemma rc_dep M w ls le rh sub N n : forall c, (forall i, In i (varsn n) -> i < N) -> depends_below N (rc M w ls le rh sub n c).
Proof.
  induction n as [|v t IHt d e IHe]; intros c HV; cbn [rc]; [apply dep_const|].
  assert (Hv : v < N) by (apply HV; now left).
  pose proof (IHt c (below_then N v t d e HV)) as Ht. pose proof (IHe (xorb c d) (below_else N v t d e HV)) as He. pose proof (dep_repl N sub).
  destruct (v <? ls); [now apply dep_ite|]. destruct (v <=? le); [destruct (Bool.eqb _ _); now apply dep_ite|]. now apply dep_vars.
Qed.
Lemma rb_dep M w ls le N n : forall c, (forall i, In i (varsn n) -> i < N) -> depends_below N (rb M w ls le n c).
Proof.
  induction n as [|v t IHt d e IHe]; intros c HV; cbn [rb]; [apply dep_const|].
  assert (Hv : v < N) by (apply HV; now left).
  pose proof (IHt c (below_then N v t d e HV)) as Ht. pose proof (IHe (xorb c d) (below_else N v t d e HV)) as He.
  assert (D1 : depends_below N bone) by (intros a b H; reflexivity). assert (D0 : depends_below N (bnot bone)) by (intros a b H; reflexivity).
  destruct (v <? ls); [now apply dep_ite|]. destruct (v <=? le); [|now apply dep_vars]. cbv zeta.
  repeat match goal with |- context [if ?x then _ else _] => destruct x end; apply dep_ite; auto; apply dep_major.
Qed.
Lemma rr_dep M w l N n : forall c, (forall i, In i (varsn n) -> i < N) -> depends_below N (rr M w l n c).
Proof.
  induction n as [|v t IHt d e IHe]; intros c HV; cbn [rr]; [apply dep_const|].
  assert (Hv : v < N) by (apply HV; now left).
  pose proof (IHt c (below_then N v t d e HV)) as Ht. pose proof (IHe (xorb c d) (below_else N v t d e HV)) as He.
  destruct (v <? l); [now apply dep_ite|]. destruct (qgtb _ _); intros a b H; reflexivity.
Qed.

Lemma apply_operator_spec M b op l : wf M b -> exists r, apply_operator M b op l l = Ok r /\ wf M r
  /\ (forall n, depends_below n b -> depends_below n r)
  /\ match op with
     | POSITIVE_COFACTOR => forall a, ev r a = ev b (upd a l true)
     | NEGATIVE_COFACTOR => forall a, ev r a = ev b (upd a l false)
     | SUBSET_LIGHT => (forall a, ev r a = true -> ev b a = true)
         /\ forall n, depends_below n b -> at_range l l (light_const (density n) false) b (ev r)
     | SUBSET_HEAVY => (forall a, ev r a = true -> ev b a = true)
         /\ forall n, depends_below n b -> at_range l l (heavy_const (density n) false) b (ev r)
     | SUPERSET_LIGHT => (forall a, ev b a = true -> ev r a = true)
         /\ forall n, depends_below n b -> at_range l l (light_const (density n) true) b (ev r)
     | SUPERSET_HEAVY => (forall a, ev b a = true -> ev r a = true)
         /\ forall n, depends_below n b -> at_range l l (heavy_const (density n) true) b (ev r)
     | ROUND_BEST => forall n h, depends_below n b -> at_range l l child_const b h ->
         (disagreement n (ev b) (ev r) <= 2 * disagreement n (ev b) h)%Q
     | ROUND => depends_below l r /\ (index_order M -> forall n h, depends_below n b -> below_fun l h ->
         (disagreement n (ev b) (ev r) <= disagreement n (ev b) h)%Q)
     end.
Proof.
  intro H.
  pose proof (fun n HD => depends_below_vars M n b H HD) as HV.
  destruct (subset_ops M b l l H) as ((r1 & E1 & W1 & S1) & (r2 & E2 & W2 & S2) & _).
  destruct (superset_ops M b l l H) as ((r3 & E3 & W3 & S3) & (r4 & E4 & W4 & S4) & _).
  pose proof (fun n HD => child_choice M n b l l H HD) as CC.
  destruct op; cbn [apply_operator].
  - eexists. split; [reflexivity|]. destruct (cofactor_spec M b l true H) as [C1 C2]. split; auto. split; auto.
    intros n HD a a' HA. rewrite !C2. apply HD. intros i Hi. unfold upd. destruct (i =? l); auto.
  - eexists. split; [reflexivity|]. destruct (cofactor_spec M b l false H) as [C1 C2]. split; auto. split; auto.
    intros n HD a a' HA. rewrite !C2. apply HD. intros i Hi. unfold upd. destruct (i =? l); auto.
  - exists r1. split; auto. split; auto. split; [|split; auto].
    + intros n HD. unfold subset_light_child in E1. rewrite round_any_pure in E1. injection E1 as <-. apply rc_dep. auto.
    + intros n HD. destruct (CC n HD) as ((r & E & A) & _). rewrite E1 in E. now injection E as <-.
  - exists r2. split; auto. split; auto. split; [|split; auto].
    + intros n HD. unfold subset_heavy_child in E2. rewrite round_any_pure in E2. injection E2 as <-. apply rc_dep. auto.
    + intros n HD. destruct (CC n HD) as (_ & (r & E & A) & _). rewrite E2 in E. now injection E as <-.
  - exists r3. split; auto. split; auto. split; [|split; auto].
    + intros n HD. unfold superset_light_child in E3. rewrite round_any_pure in E3. injection E3 as <-. apply rc_dep. auto.
    + intros n HD. destruct (CC n HD) as (_ & _ & (r & E & A) & _). rewrite E3 in E. now injection E as <-.
  - exists r4. split; auto. split; auto. split; [|split; auto].
    + intros n HD. unfold superset_heavy_child in E4. rewrite round_any_pure in E4. injection E4 as <-. apply rc_dep. auto.
    + intros n HD. destruct (CC n HD) as (_ & _ & _ & (r & E & A)). rewrite E4 in E. now injection E as <-.
  - rewrite round_best_pure. eexists. split; [reflexivity|]. split; [apply rb_wf; now apply wf_edge|]. split.
    + intros n HD. apply rb_dep. auto.
    + intros n h HD HA. destruct (best_partial M n b l H HD) as (r & E & _ & B & _). rewrite round_best_pure in E. injection E as <-. now apply B.
  - rewrite round_bdd_pure. eexists. split; [reflexivity|]. split; [apply rr_wf|]. split; [intros n HD; apply rr_dep; auto|].
    split; [exact (rr_below M _ l (snd b) (fst b))|]. intros HI n h HD HA.
    destruct (round_optimal M n b l HI H HD) as (r & E & _ & _ & B). rewrite round_bdd_pure in E. injection E as <-. now apply B.
Qed.

(** the list of operators *)
Lemma nth_flat_map {A B} (F : A -> list B) K l : (forall x, length (F x) = K) -> forall i j x, nth_error l i = Some x -> j < K ->
  nth_error (flat_map F l) (i * K + j) = nth_error (F x) j.
Proof.
  intro HK. induction l as [|y l IH]; intros i j x Hi Hj; [destruct i; discriminate|]. cbn [flat_map]. destruct i as [|i]; cbn [nth_error] in Hi.
  - injection Hi as ->. cbn [Nat.mul Nat.add]. apply nth_error_app1. rewrite HK. exact Hj.
  - rewrite nth_error_app2 by (rewrite HK; cbn [Nat.mul]; lia). rewrite HK. replace (S i * K + j - K) with (i * K + j) by (cbn [Nat.mul]; lia). now apply IH.
Qed.
Lemma length_flat_map {A B} (F : A -> list B) K l : (forall x, length (F x) = K) -> length (flat_map F l) = length l * K.
Proof. intro HK. induction l as [|y l IH]; cbn [flat_map length]; auto. rewrite app_length, HK, IH. lia. Qed.
Lemma nth_seq n i : i < n -> nth_error (seq 0 n) i = Some i.
Proof.
  intro H. rewrite (nth_error_nth' (seq 0 n) 0) by (now rewrite seq_length). now rewrite seq_nth.
Qed.
Lemma single_apply M i j op f : (length f <= i -> single_operator M i j op f = UB)
  /\ forall b r, nth_error f i = Some b -> apply_operator M b op j j = Ok r ->
       exists f', single_operator M i j op f = Ok f' /\ length f' = length f /\ nth_error f' i = Some r
         /\ forall m, m <> i -> nth_error f' m = nth_error f m.
Proof.
  unfold single_operator. split.
  - intro H. assert (vget f i = UB) as ->; [|reflexivity]. unfold vget. apply nth_error_None in H. now rewrite H.
  - intros b r Hb Hr. pose proof Hb as Hg. apply vget_iff in Hg. rewrite Hg. cbn [bind]. rewrite Hr. cbn [bind].
    destruct (vset_ok f i r) as (f' & E); [apply nth_error_Some; congruence|]. exists f'. split; auto.
    destruct (vset_spec _ _ _ _ E) as (L & _ & N). split; auto. split.
    + specialize (N i). now rewrite Nat.eqb_refl in N.
    + intros m Hm. rewrite N. apply Nat.eqb_neq in Hm. now rewrite Hm.
Qed.
Lemma mapM_nth {A B} (F : A -> res B) l : forall r, mapM F l = Ok r -> length r = length l
  /\ forall i x, nth_error l i = Some x -> exists y, nth_error r i = Some y /\ F x = Ok y.
Proof.
  induction l as [|x l IH]; intros r H; cbn [mapM] in H; [injection H as <-; split; auto; intros [|i]; discriminate|].
  destruct (F x) as [y| | |] eqn:E; cbn [bind] in H; try discriminate. destruct (mapM F l) as [ys| | |]; cbn [bind] in H; try discriminate.
  injection H as <-. destruct (IH ys eq_refl) as [L N]. split; [cbn [length]; lia|]. intros [|i] z Hz; cbn [nth_error] in *.
  - injection Hz as <-. eauto.
  - now apply N.
Qed.
Lemma mapM_ok {A B} (F : A -> res B) l : (forall x, In x l -> exists y, F x = Ok y) -> exists r, mapM F l = Ok r.
Proof.
  induction l as [|x l IH]; intro H; cbn [mapM]; [eauto|]. destruct (H x (or_introl eq_refl)) as (y & ->). cbn [bind].
  destruct IH as (r & ->); [intros; apply H; now right|]. cbn [bind]. eauto.
Qed.
Lemma single_generated M function ops : let T := terminal_level [function] in let K := length ops in
  let gens := generate_single_bdd_operators M function ops in
  length gens = length function * (T * K)
  /\ forall i j k op, i < length function -> j < T -> nth_error ops k = Some op ->
     exists g, nth_error gens (i * (T * K) + (j * K + k)) = Some g
       /\ forall f, (length f <= i -> g f = UB)
          /\ forall b r, nth_error f i = Some b -> apply_operator M b op j j = Ok r ->
             exists f', g f = Ok f' /\ length f' = length f /\ nth_error f' i = Some r
               /\ forall m, m <> i -> nth_error f' m = nth_error f m.
Proof.
  intros T K gens.
  assert (L1 : forall i j, length (map (fun op => single_operator M i j op) ops) = K) by (intros; apply map_length).
  assert (L2 : forall i, length (flat_map (fun j => map (fun op => single_operator M i j op) ops) (seq 0 T)) = T * K)
    by (intros i; rewrite (length_flat_map _ K) by apply L1; now rewrite seq_length).
  split.
  - unfold gens, generate_single_bdd_operators. fold T. rewrite (length_flat_map _ (T * K)) by apply L2. now rewrite seq_length.
  - intros i j k op Hi Hj Hk. assert (KK : k < K) by (apply nth_error_Some; congruence). exists (single_operator M i j op). split.
    + unfold gens, generate_single_bdd_operators. fold T. rewrite (nth_flat_map _ (T * K)) with (x := i); [|apply L2|now apply nth_seq|nia].
      rewrite (nth_flat_map _ K) with (x := j); [|apply L1|now apply nth_seq|exact KK]. now apply map_nth_error.
    + intro f. apply single_apply.
Qed.
Lemma multi_generated M function ops : let T := terminal_level [function] in let K := length ops in
  let gens := generate_multi_bdd_operators M function ops in
  length gens = T * K
  /\ forall j k op, j < T -> nth_error ops k = Some op ->
     exists g, nth_error gens (j * K + k) = Some g
       /\ forall f, Forall (wf M) f -> exists f', g f = Ok f' /\ length f' = length f
          /\ forall i b, nth_error f i = Some b -> exists r, nth_error f' i = Some r /\ apply_operator M b op j j = Ok r.
Proof.
  intros T K gens.
  assert (L1 : forall j, length (map (fun op f => apply_operator_all M f op j j) ops) = K) by (intros; apply map_length).
  split.
  - unfold gens, generate_multi_bdd_operators. fold T. rewrite (length_flat_map _ K) by apply L1. now rewrite seq_length.
  - intros j k op Hj Hk. assert (KK : k < K) by (apply nth_error_Some; congruence). exists (fun f => apply_operator_all M f op j j). split.
    + unfold gens, generate_multi_bdd_operators. fold T. rewrite (nth_flat_map _ K) with (x := j); [|apply L1|now apply nth_seq|exact KK].
      apply (map_nth_error (fun op f => apply_operator_all M f op j j)). exact Hk.
    + intros f Hf. destruct (mapM_ok (fun b => apply_operator M b op j j) f) as (f' & E).
      { intros b Hb. rewrite Forall_forall in Hf. destruct (apply_operator_spec M b op j (Hf b Hb)) as (r & E & _). eauto. }
      exists f'. split; auto. destruct (mapM_nth _ _ _ E) as [L N]. split; auto.
Qed.
