(** Which operators a bucket may still use after a round *)
From Coq Require Import List Bool Arith ZArith QArith Lia Lqa Sorted.
From Verif Require Import Res Cudd Spec Helpers Metrics Operators Examples Minimize SpecMinimize MinimizeFacts MinimizeFacts2 MinimizeFacts3 MinimizeFacts10.
Import ListNotations.
Open Scope nat_scope.

Fixpoint find_key (k : nat) (m : list (nat * nat)) : option nat :=
  match m with [] => None | (k', v) :: m' => if k =? k' then Some v else find_key k m' end.
Lemma find_map_set k v m x : find_key x (map_set k v m) = if x =? k then Some v else find_key x m.
Proof.
  induction m as [|[a b] m IH]; cbn [map_set find_key].
  - reflexivity.
  - destruct (k =? a) eqn:E; cbn [find_key].
    + apply Nat.eqb_eq in E. subst a. destruct (x =? k); reflexivity.
    + rewrite IH. destruct (x =? a) eqn:E2; [|reflexivity]. apply Nat.eqb_eq in E2. subst a.
      rewrite Nat.eqb_sym, E. reflexivity.
Qed.
Lemma map_set_keys k v m x : In x (map fst (map_set k v m)) -> x = k \/ In x (map fst m).
Proof.
  induction m as [|[a b] m IH]; cbn [map_set map fst].
  - intros [<-|[]]. now left.
  - destruct (k =? a); cbn [map fst]; intros [<-|H]; auto; [right; now right|right; now left|].
    destruct (IH H); auto. right. now right.
Qed.
Lemma map_set_nodup k v m : NoDup (map fst m) -> NoDup (map fst (map_set k v m)).
Proof.
  induction m as [|[a b] m IH]; cbn [map_set map fst]; intro H; [repeat constructor; auto|].
  inversion H; subst. destruct (k =? a) eqn:E; cbn [map fst].
  - apply Nat.eqb_eq in E. subst a. constructor; auto.
  - constructor; auto. intro I. apply map_set_keys in I. destruct I as [->|I]; auto. now rewrite Nat.eqb_refl in E.
Qed.
Lemma find_none m x : ~ In x (map fst m) -> find_key x m = None.
Proof.
  induction m as [|[a b] m IH]; cbn [map fst find_key]; intro H; auto. destruct (x =? a) eqn:E.
  - apply Nat.eqb_eq in E. subst a. exfalso. apply H. now left.
  - apply IH. intro. apply H. now right.
Qed.

(** lines 183-187 *)
Lemma replace_loop_spec possible : forall replace buckets buckets', NoDup (map fst replace) -> replace_loop replace possible buckets = Ok buckets' ->
  length buckets' = length buckets /\ forall i b, nth_error buckets i = Some b -> exists b', nth_error buckets' i = Some b'
    /\ b_function b' = b_function b /\ bdd_size b' = bdd_size b
    /\ (find_key i replace = None -> b' = b)
    /\ (forall o, find_key i replace = Some o -> vset possible o false = Ok (possible_operators b')).
Proof.
  induction replace as [|[k o] replace IH]; intros buckets buckets' ND H; cbn [replace_loop] in H.
  - injection H as <-. split; auto. intros i b Hb. exists b. repeat split; auto. intros o X. discriminate X.
  - inversion ND as [|? ? NI ND']; subst. cbn [map fst] in *.
    destruct (vget buckets k) as [bk| | |] eqn:Ek; cbn [bind] in H; try discriminate. apply vget_iff in Ek.
    destruct (vset possible o false) as [ops| | |] eqn:Eo; cbn [bind] in H; try discriminate.
    destruct (vset buckets k _) as [bs| | |] eqn:Ev; cbn [bind] in H; try discriminate.
    destruct (vset_spec _ _ _ _ Ev) as (L & Hi & NE). destruct (IH bs buckets' ND' H) as (L' & IH'). split; [congruence|].
    intros i b Hb. cbn [find_key]. destruct (i =? k) eqn:E.
    + apply Nat.eqb_eq in E. subst i. rewrite Ek in Hb. injection Hb as <-.
      destruct (IH' k (Bkt (b_function bk) (bdd_size bk) (metric_values bk) ops (is_empty bk))) as (b' & H1 & _ & _ & H4 & _).
      { now rewrite NE, Nat.eqb_refl. }
      rewrite (H4 (find_none _ _ NI)) in *. exists (Bkt (b_function bk) (bdd_size bk) (metric_values bk) ops (is_empty bk)).
      cbn [b_function bdd_size possible_operators]. repeat split; auto; [intro X; discriminate X|]. intros o' X. injection X as <-. exact Eo.
    + apply IH'. rewrite NE, E. exact Hb.
Qed.

Section Search.
Variable function : list bdd.
Variable metrics : list MetricDimension.
Variable operators : list OperatorFunction.
Variable pop_all : bool.
Notation grid := (bucket_grid_size metrics).
Hypothesis grid_pos : Forall (fun m => (0 < grid_size m)%Z) metrics.

Notation too_bad := (too_bad function metrics).
Lemma dimension_out m e d : (0 < grid_size m)%Z -> dimension_index (grid_size m) e (bound m) = Ok d -> (grid_size m <= d)%Z ->
  exists v, e = Fin v /\ ((0 < bound m)%Q -> (bound m <= v)%Q).
Proof.
  intros G E L. destruct e as [v|]; [|discriminate E]. exists v. split; auto. intro B. apply Qnot_lt_le. intro LT.
  unfold dimension_index in E. destruct (Qeq_bool (bound m) 0) eqn:EB; [discriminate|]. cbv zeta in E.
  set (q := (inject_Z (grid_size m) * v / bound m)%Q) in *.
  destruct (_ && _) eqn:EC; [|discriminate]. assert (Ed : Z.quot (Qnum q) (Zpos (Qden q)) = d) by congruence. clear E. subst d. apply andb_true_iff in EC. destruct EC as [E0 _]. apply Z.leb_le in E0.
  assert (Hq : (q < inject_Z (grid_size m))%Q).
  { unfold q. apply Qlt_shift_div_r; auto. rewrite <- (Qmult_comm (bound m)). rewrite (Qmult_comm (inject_Z _)). apply Qmult_lt_compat_r; auto.
    change 0%Q with (inject_Z 0). now rewrite <- Zlt_Qlt. }
  unfold Qlt in Hq. cbn [inject_Z Qnum Qden] in Hq. clearbody q.
  destruct (Z_lt_ge_dec (Qnum q) 0) as [N|N].
  - assert (Z.quot (Qnum q) (Zpos (Qden q)) <= 0)%Z.
    { rewrite <- (Z.opp_involutive (Qnum q)), Z.quot_opp_l by lia. pose proof (Z.quot_pos (- Qnum q) (Zpos (Qden q)) ltac:(lia) ltac:(lia)). lia. }
    lia.
  - rewrite Z.quot_div_nonneg in L by lia. pose proof (Z.mul_div_le (Qnum q) (Zpos (Qden q)) ltac:(lia)). nia.
Qed.
Lemma dimension_in m v d : (0 < grid_size m)%Z -> (0 < bound m)%Q -> (bound m <= v)%Q ->
  dimension_index (grid_size m) (Fin v) (bound m) = Ok d -> (grid_size m <= d)%Z.
Proof.
  intros G B L E. unfold dimension_index in E. destruct (Qeq_bool (bound m) 0) eqn:EB; [discriminate|]. cbv zeta in E.
  set (q := (inject_Z (grid_size m) * v / bound m)%Q) in *.
  destruct (_ && _) eqn:EC; [|discriminate]. assert (Ed : Z.quot (Qnum q) (Zpos (Qden q)) = d) by congruence. clear E. subst d.
  assert (Hq : (inject_Z (grid_size m) <= q)%Q).
  { unfold q. apply Qle_shift_div_l; auto. rewrite !(Qmult_comm (inject_Z _)). apply Qmult_le_compat_r; auto.
    change 0%Q with (inject_Z 0). rewrite <- Zle_Qle. lia. }
  unfold Qle in Hq. cbn [inject_Z Qnum Qden] in Hq. clearbody q. rewrite Z.quot_div_nonneg by nia.
  apply Z.div_le_lower_bound; lia.
Qed.
Lemma metric_loop_reject buckets nodes g ms : incl ms metrics -> forall i idx vals,
  metric_loop function metrics buckets nodes g ms i idx vals = Ok (Rejected true) -> too_bad g.
Proof.
  induction ms as [|m ms IH]; intros HI i idx vals H; cbn [metric_loop] in H; [discriminate|].
  destruct (metric m function g) as [e| | |] eqn:Em; cbn [bind] in H; try discriminate.
  destruct (dimension_index _ _ _) as [d| | |] eqn:Ed; cbn [bind] in H; try discriminate.
  assert (Im : In m metrics) by (apply HI; now left).
  assert (Gm : (0 < grid_size m)%Z) by (rewrite Forall_forall in grid_pos; auto).
  destruct (grid_size m <=? d)%Z eqn:EG.
  - apply Z.leb_le in EG. destruct (dimension_out m e d Gm Ed EG) as (v & -> & Hv). exists m, v. auto.
  - destruct (vset idx i d) as [idx'| | |]; cbn [bind] in H; try discriminate.
    destruct (reduce_multi_dim_index _ _) as [p| | |]; cbn [bind] in H; try discriminate.
    destruct (vget buckets _) as [b| | |]; cbn [bind] in H; try discriminate.
    destruct (_ <=? _); [discriminate|].
    destruct (vset vals i _) as [vals'| | |]; cbn [bind] in H; try discriminate.
    eapply IH; [|exact H]. intros x Hx. apply HI. now right.
Qed.

Section Round.
Variable before : list Bucket.
Variable cur : nat.
Variable b0 : Bucket.
Hypothesis at_cur : nth_error before cur = Some b0.
Notation bf := (b_function b0).
Notation p0 := (possible_operators b0).

Notation first_bad := (first_bad function metrics).
Definition judged (size : nat) (possible : list bool) (j : nat) : Prop :=
  (nth_error p0 j = Some false -> nth_error possible j = Some false)
  /\ (nth_error p0 j = Some true -> exists op g, nth_error operators j = Some op /\ op bf = Ok g
      /\ (bdd_size b0 * 3 / 2 < nodeCount g -> nth_error possible j = Some false)
      /\ (nodeCount g < size -> first_bad g -> nth_error possible j = Some false)
      /\ (nth_error possible j = Some false -> size * 3 / 2 < nodeCount g \/ too_bad g)).
Definition changed (k : nat) (replace : list (nat * nat)) (i : nat) (c b : Bucket) : Prop :=
  possible_operators b = possible_operators c
  /\ ((bdd_size b = bdd_size c /\ find_key i replace = None)
      \/ (bdd_size b < bdd_size c /\ exists o op, find_key i replace = Some o /\ o < k /\ nth_error operators o = Some op
            /\ nth_error p0 o = Some true /\ op bf = Ok (b_function b))).
Definition book (k : nat) (st : op_state) : Prop :=
  let '((buckets, replace, _), possible) := st in
  length buckets = length before /\ length possible = length p0 /\ NoDup (map fst replace)
  /\ (forall j, k <= j -> nth_error possible j = nth_error p0 j)
  /\ (forall i c b, nth_error before i = Some c -> nth_error buckets i = Some b -> changed k replace i c b)
  /\ (forall cb j, nth_error buckets cur = Some cb -> j < k -> judged (bdd_size cb) possible j).

Lemma changed_more k replace i c b : changed k replace i c b -> changed (S k) replace i c b.
Proof.
  intros (H1 & [H2|(H2 & o & op & H3 & H4 & H5)]); split; auto. right. split; auto. exists o, op. split; auto. 
Qed.
Lemma judged_less s s' possible j : s' <= s -> judged s possible j -> judged s' possible j.
Proof.
  intros L (J1 & J2). split; auto. intro H. destruct (J2 H) as (op & g & E1 & E2 & E3 & E4 & E5). exists op, g.
  repeat split; auto; [intros; apply E4; auto; lia|]. intro X. destruct (E5 X) as [Y|Y]; auto. left.
  assert (s' * 3 / 2 <= s * 3 / 2) by (apply Nat.div_le_mono; lia). lia.
Qed.
Lemma populate_book opnum op g idx vals indices : nth_error operators opnum = Some op -> op bf = Ok g -> nth_error p0 opnum = Some true ->
  forall buckets replace test buckets' replace' test', NoDup (map fst replace) -> length buckets = length before ->
  (forall i c b, nth_error before i = Some c -> nth_error buckets i = Some b -> changed (S opnum) replace i c b) ->
  populate metrics indices opnum (nodeCount g) g idx vals (buckets, replace, test) = Ok (buckets', replace', test') ->
  NoDup (map fst replace') /\ length buckets' = length before
  /\ (forall i c b, nth_error before i = Some c -> nth_error buckets' i = Some b -> changed (S opnum) replace' i c b)
  /\ (forall i b b', nth_error buckets i = Some b -> nth_error buckets' i = Some b' -> bdd_size b' <= bdd_size b).
Proof.
  intros EO Eg EP. induction indices as [|i indices IH]; intros buckets replace test buckets' replace' test' ND LB CH H; cbn [populate] in H.
  - injection H as <- <- <-. split; auto. split; auto. split; auto. intros i' b b' Hb Hb'. rewrite Hb in Hb'. injection Hb' as <-. lia.
  - destruct (vget buckets i) as [b| | |] eqn:Eb; cbn [bind] in H; try discriminate. apply vget_iff in Eb.
    destruct (bdd_size b <=? nodeCount g) eqn:Es; [now apply IH in H|]. apply Nat.leb_gt in Es.
    destruct (create_multi_dim_index _ _) as [index| | |]; cbn [bind] in H; try discriminate.
    destruct (existsb _ _); [now apply IH in H|].
    destruct (vset buckets i _) as [bs| | |] eqn:Ev; cbn [bind] in H; try discriminate. destruct (vset_spec _ _ _ _ Ev) as (L & Hi & NE).
    apply IH in H.
    + destruct H as (H1 & H2 & H3 & H4). split; auto. split; auto. split; auto.
      intros j x x' Hx Hx'. destruct (Nat.eq_dec j i) as [->|NJ].
        -- rewrite Eb in Hx. injection Hx as <-. specialize (H4 i (Bkt g (nodeCount g) vals (possible_operators b) false) x').
           rewrite NE, Nat.eqb_refl in H4. specialize (H4 eq_refl Hx'). cbn [bdd_size] in H4. lia.
        -- apply (H4 j x x'); auto. rewrite NE. apply Nat.eqb_neq in NJ. now rewrite NJ.
    + now apply map_set_nodup.
    + lia.
    + intros j c x Hc Hx. rewrite NE in Hx. unfold changed. rewrite find_map_set. destruct (j =? i) eqn:E.
      * apply Nat.eqb_eq in E. subst j. injection Hx as <-. cbn [possible_operators bdd_size b_function].
        destruct (CH i c b Hc Eb) as (C1 & C2). split; auto. right. split.
        -- destruct C2 as [[C2 _]|[C2 _]]; lia.
        -- exists opnum, op. repeat split; auto.
      * exact (CH j c x Hc Hx).
Qed.

Lemma op_step_book k st st' : book k st -> op_step function metrics operators pop_all cur bf k st = Ok st' -> book (S k) st'.
Proof.
  destruct st as [[[buckets replace] test] possible]. intros (B1 & B2 & B3 & B4 & B5 & B6) H. unfold op_step in H.
  assert (B5' : forall i c b, nth_error before i = Some c -> nth_error buckets i = Some b -> changed (S k) replace i c b)
    by (intros; apply changed_more; eauto).
  destruct (vget operators k) as [op| | |] eqn:Eo; cbn [bind] in H; try discriminate. apply vget_iff in Eo.
  destruct (vget possible k) as [p| | |] eqn:Ep; cbn [bind] in H; try discriminate. apply vget_iff in Ep.
  assert (P0 : nth_error p0 k = Some p) by (rewrite <- (B4 k) by lia; exact Ep).
  destruct p; cbn [negb] in H.
  2:{ injection H as <-. split; auto. split; auto. split; auto. split; [intros j Hj; apply B4; lia|]. split; auto.
      intros cb j Hc Hj. destruct (Nat.eq_dec j k) as [->|NJ]; [|apply (B6 cb j); auto; lia]. split; congruence. }
  destruct (op bf) as [g| | |] eqn:Eg; cbn [bind] in H; try discriminate. cbv zeta in H.
  destruct (vget buckets cur) as [cb| | |] eqn:Ec; cbn [bind] in H; try discriminate. apply vget_iff in Ec.
  assert (SC : bdd_size cb <= bdd_size b0).
  { destruct (B5 cur b0 cb at_cur Ec) as (_ & [[X _]|[X _]]); lia. }
  (* the two ways to go on without new buckets *)
  assert (Off : forall ps, vset possible k false = Ok ps -> (bdd_size cb * 3 / 2 < nodeCount g \/ too_bad g) ->
    book (S k) ((buckets, replace, test), ps)).
  { intros ps Eps Why. destruct (vset_spec _ _ _ _ Eps) as (L & Hi & NE). split; auto. split; [congruence|]. split; auto. split; [|split; auto].
    - intros j Hj. rewrite NE. assert (E : (j =? k) = false) by (apply Nat.eqb_neq; lia). rewrite E. apply B4. lia.
    - intros cb' j Hc Hj. rewrite Ec in Hc. injection Hc as <-. destruct (Nat.eq_dec j k) as [->|NJ].
      + split; [congruence|]. intros _. exists op, g. rewrite NE, Nat.eqb_refl. repeat split; auto.
      + unfold judged. rewrite NE. apply Nat.eqb_neq in NJ. rewrite NJ. apply (B6 cb j); auto. apply Nat.eqb_neq in NJ. lia. }
  assert (On : (bdd_size b0 * 3 / 2 < nodeCount g -> False) -> (nodeCount g < bdd_size cb -> first_bad g -> False) ->
    book (S k) ((buckets, replace, test), possible)).
  { intros N1 N2. split; auto. split; auto. split; auto. split; [|split; auto].
    - intros j Hj. apply B4. lia.
    - intros cb' j Hc Hj. rewrite Ec in Hc. injection Hc as <-. destruct (Nat.eq_dec j k) as [->|NJ].
      + split; [congruence|]. intros _. exists op, g. repeat split; auto; [intros X; destruct (N1 X)|intros X Y; destruct (N2 X Y)|congruence].
      + apply (B6 cb j); auto. lia. }
  destruct (bdd_size cb <=? nodeCount g) eqn:Es.
  { apply Nat.leb_le in Es. destruct (bdd_size cb * 3 / 2 <? nodeCount g) eqn:E3.
    - apply Nat.ltb_lt in E3. destruct (vset possible k false) as [ps| | |] eqn:Eps; cbn [bind] in H; try discriminate. injection H as <-. apply Off; auto.
    - apply Nat.ltb_ge in E3. injection H as <-. apply On; [|intros; lia]. intro X.
      assert (bdd_size cb * 3 / 2 <= bdd_size b0 * 3 / 2) by (apply Nat.div_le_mono; lia). lia. }
  apply Nat.leb_gt in Es. assert (N1 : bdd_size b0 * 3 / 2 < nodeCount g -> False).
  { intro X. assert (bdd_size b0 <= bdd_size b0 * 3 / 2) by (apply Nat.div_le_lower_bound; lia). lia. }
  destruct (metric_loop _ _ _ _ _ _ _ _ _) as [v| | |] eqn:Ev; cbn [bind] in H; try discriminate.
  assert (N2 : v <> Rejected true -> first_bad g -> False).
  { intros NV (m & ms & e & Em & Ee & Eb & El). revert Ev. generalize (repeat 0%Q (length metrics)), (repeat 0%Z (length metrics)).
    intros l l0 Ev. rewrite Em in Ev at 2. cbn [metric_loop] in Ev. rewrite Ee in Ev. cbn [bind] in Ev.
    destruct (dimension_index _ _ _) as [d| | |] eqn:Ed; cbn [bind] in Ev; try discriminate.
    assert (G : (0 < grid_size m)%Z) by (rewrite Em in grid_pos; inversion grid_pos; auto).
    pose proof (dimension_in m e d G Eb El Ed) as X. apply Z.leb_le in X. rewrite X in Ev. congruence. }
  destruct v as [[|]|idx vals].
  - apply metric_loop_reject in Ev; [|apply incl_refl].
    destruct (vset possible k false) as [ps| | |] eqn:Eps; cbn [bind] in H; try discriminate. injection H as <-. apply Off; auto.
  - injection H as <-. apply On; auto. intros _. apply N2. discriminate.
  - destruct (reduce_multi_dim_index _ _) as [s| | |]; cbn [bind] in H; try discriminate.
    destruct (populate _ _ _ _ _ _ _ _) as [[[bs rp] ts]| | |] eqn:EP; cbn [bind] in H; try discriminate. injection H as <-.
    destruct (populate_book k op g idx vals _ Eo Eg P0 _ _ _ _ _ _ B3 B1 B5' EP) as (Q1 & Q2 & Q3 & Q4).
    assert (On' : book (S k) ((buckets, replace, test), possible)) by (apply On; auto; intros _; apply N2; discriminate).
    destruct On' as (_ & _ & _ & O4 & _ & O6). split; auto. split; auto. split; auto. split; auto. split; auto.
    intros cb' j Hc Hj. apply (judged_less (bdd_size cb)); [apply (Q4 cur); auto|]. apply O6; auto.
Qed.
Lemma for_each_book : forall m k st st', book k st -> for_each (seq k m) st (op_step function metrics operators pop_all cur bf) = Ok st' -> book (k + m) st'.
Proof.
  induction m as [|m IH]; intros k st st' B H; cbn [seq for_each] in H.
  - injection H as <-. now rewrite Nat.add_0_r.
  - destruct (op_step _ _ _ _ _ _ _ _) as [s| | |] eqn:E; cbn [bind] in H; try discriminate.
    replace (k + S m) with (S k + m) by lia. apply (IH (S k) s); auto. now apply (op_step_book k st).
Qed.
End Round.
End Search.

Lemma search_operators : forall (function : list bdd) (metrics : list MetricDimension) (operators : list OperatorFunction) (pop_all : bool),
  Forall (fun m => (0 < grid_size m)%Z) metrics -> (volume (map grid_size metrics) < 2 ^ 64)%Z ->
  forall k buckets first rest buckets' test', rounds function metrics operators pop_all k buckets (first :: rest) ->
  explore function metrics operators pop_all buckets first rest = Ok (buckets', test') ->
  exists pos b b_end, next_position (first :: rest) pos
  /\ nth_error buckets (Z.to_nat (row_major (map grid_size metrics) pos)) = Some b
  /\ nth_error buckets' (Z.to_nat (row_major (map grid_size metrics) pos)) = Some b_end
  /\ forall i c b', nth_error buckets i = Some c -> nth_error buckets' i = Some b' ->
     (bdd_size b' = bdd_size c -> possible_operators b' = possible_operators c)
     /\ (bdd_size b' < bdd_size c -> exists o op, nth_error operators o = Some op /\ op (b_function b) = Ok (b_function b')
         /\ nth_error (possible_operators b) o = Some true /\ nth_error (possible_operators b') o = Some false
         /\ length (possible_operators b') = length (possible_operators b)
         /\ forall j, j < length operators -> j <> o ->
            (nth_error (possible_operators b) j = Some false -> nth_error (possible_operators b') j = Some false)
            /\ (nth_error (possible_operators b) j = Some true -> exists op' g, nth_error operators j = Some op' /\ op' (b_function b) = Ok g
                /\ (bdd_size b * 3 / 2 < nodeCount g -> nth_error (possible_operators b') j = Some false)
                /\ (nodeCount g < bdd_size b_end -> first_bad function metrics g -> nth_error (possible_operators b') j = Some false)
                /\ (nth_error (possible_operators b') j = Some false -> bdd_size b_end * 3 / 2 < nodeCount g \/ too_bad function metrics g))).
Proof.
  intros function metrics operators pop_all HG HV k buckets first rest buckets' test' R H.
  assert (GP : Forall (fun b => (0 < b)%Z) (bucket_grid_size metrics)) by (unfold bucket_grid_size; now apply Forall_map).
  destruct (rounds_good function metrics operators pop_all GP HV k buckets _ R) as [(G & GT & MO) SS].
  unfold explore in H. cbv zeta in H.
  pose proof (min_element_least rest first SS) as NP. set (pos := min_element first rest) in *.
  assert (BX : in_box (bucket_grid_size metrics) pos) by (apply GT; apply NP).
  rewrite (reduce_at metrics HV) in H by auto. cbn [bind] in H.
  destruct (vget buckets _) as [b| | |] eqn:Eb; cbn [bind] in H; try discriminate. apply vget_iff in Eb.
  destruct (for_each _ _ _) as [[[[bs rp] ts] possible]| | |] eqn:EF; cbn [bind] in H; try discriminate.
  destruct (replace_loop rp possible bs) as [bs'| | |] eqn:ER; cbn [bind] in H; try discriminate. injection H as <- <-.
  set (cur := Z.to_nat (flat pos (bucket_grid_size metrics) 0)) in *.
  apply (for_each_book function metrics operators pop_all HG buckets cur b Eb) in EF.
  2:{ split; auto. split; auto. split; [constructor|]. split; auto. split; [|intros; lia].
      intros i c d Hc Hd. rewrite Hc in Hd. injection Hd as <-. split; auto. }
  cbn [Nat.add] in EF. destruct EF as (B1 & B2 & B3 & B4 & B5 & B6).
  destruct (replace_loop_spec possible rp bs bs' B3 ER) as (L & RL).
  assert (Ec : exists cb, nth_error bs cur = Some cb).
  { destruct (nth_error bs cur) as [cb|] eqn:E; [eauto|]. apply nth_error_None in E.
    assert (cur < length buckets) by (apply nth_error_Some; congruence). lia. }
  destruct Ec as (cb & Ec). destruct (RL cur cb Ec) as (b_end & Eend & _ & Send & _ & _).
  exists pos, b, b_end. split; auto. rewrite row_major_at by auto. split; [exact Eb|]. split; [exact Eend|].
  intros i c b' Hc Hb'.
  assert (Em : exists bm, nth_error bs i = Some bm).
  { destruct (nth_error bs i) as [x|] eqn:E; [eauto|]. apply nth_error_None in E.
    assert (i < length buckets) by (apply nth_error_Some; congruence). lia. }
  destruct Em as (bm & Em). destruct (RL i bm Em) as (b'' & E'' & F1 & F2 & F3 & F4). rewrite Hb' in E''. injection E'' as <-.
  destruct (B5 i c bm Hc Em) as (C1 & C2). split.
  - intro X. destruct C2 as [[_ C2]|[C2 _]]; [|lia]. rewrite (F3 C2). exact C1.
  - intro X. destruct C2 as [[C2 _]|(_ & o & op & K1 & K2 & K3 & K4 & K5)]; [lia|]. rewrite <- F1 in K5.
    pose proof (F4 o K1) as Eo. destruct (vset_spec _ _ _ _ Eo) as (L' & Hi & NE).
    exists o, op. split; auto. split; auto. split; auto. split; [now rewrite NE, Nat.eqb_refl|]. split; [congruence|].
    intros j Hj NJ. pose proof (B6 cb j Ec Hj) as (J1 & J2). rewrite Send, NE. apply Nat.eqb_neq in NJ. rewrite NJ. split; auto.
Qed.
