(** The approximation operators with rounded counts, for any number of variables. *)
From Coq Require Import List Bool Arith ZArith QArith Lia Lqa.
From Verif Require Import Res Cudd CuddFacts Spec SpecFacts SpecFloat Helpers HelpersFacts HelpersFacts2 Counting AddFacts CountFacts PathFacts MetricsFacts MetricsFacts4
  Operators OperatorFacts OperatorFacts2 OperatorFacts3 OperatorFacts4 Minimize MinimizeFacts3 Rounded RoundedFacts RoundedFacts2 RoundedMinimize.
Import ListNotations.
Open Scope nat_scope.

(** round_best with a rounded complement *)
Section Best.
Variable rnd : Q -> Q.
Variable M : mgr.
Variable w : bdd -> Q.
Variables ls le : nat.
Fixpoint rbr (n : node) (c : bool) : bdd :=
  match n with
  | One => (c, One)
  | Nd v t d e =>
      if v <? ls then ite M (bvar v) (rbr t c) (rbr e (xorb c d))
      else if v <=? le then
        let tc := w (c, t) in let ec := w (xorb c d, e) in
        if qgtb ec tc && qgtb (rnd (1 - ec)%Q) tc then ite M (bvar v) (bnot bone) (rbr e (xorb c d))
        else if qgtb tc ec && qgtb (rnd (1 - tc)%Q) ec then ite M (bvar v) (rbr t c) (bnot bone)
        else if qgtb tc ec && qgtb tc (rnd (1 - ec)%Q) then ite M (bvar v) bone (rbr e (xorb c d))
        else if qgtb ec tc && qgtb ec (rnd (1 - tc)%Q) then ite M (bvar v) (rbr t c) bone
        else ite M (bvar v) (major tc) (major ec)
      else (c, n)
  end.
Lemma rbr_wf n : forall c, wf M (c, n) -> wf M (rbr n c).
Proof.
  induction n as [|v t IHt d e IHe]; intros c H; [exact I|]. cbn [rbr].
  pose proof (IHt c (wf_then _ _ _ _ _ _ H)). pose proof (IHe (xorb c d) (wf_else _ _ _ _ _ _ _ H)).
  assert (wf M (bnot bone)) by exact I. assert (forall q, wf M (major q)) by (intro q; unfold major; destruct (qgtb q _); exact I).
  destruct (v <? ls); [apply wf_ite; auto with wf|]. destruct (v <=? le); auto. cbv zeta.
  repeat match goal with |- context [if ?b then _ else _] => destruct b end; apply wf_ite; auto with wf.
Qed.
Lemma rbr_outside n a : (forall i, In i (varsn n) -> ~ ls <= i <= le) -> forall c, ev (rbr n c) a = ev (c, n) a.
Proof.
  induction n as [|v t IHt d e IHe]; intros H c; [reflexivity|]. cbn [rbr]. cbn [varsn In] in H.
  destruct (v <? ls) eqn:E1; [|apply Nat.ltb_ge in E1; destruct (v <=? le) eqn:E2; auto].
  - rewrite ev_itev, ev_nd, IHt, IHe; auto; intros i Hi; apply H; right; apply in_or_app; auto.
  - apply Nat.leb_le in E2. exfalso. apply (H v); auto.
Qed.
Lemma rbr_dep N n : forall c, (forall i, In i (varsn n) -> i < N) -> depends_below N (rbr n c).
Proof.
  induction n as [|v t IHt d e IHe]; intros c HV; cbn [rbr]; [apply dep_const|].
  assert (Hv : v < N) by (apply HV; now left).
  pose proof (IHt c (below_then N v t d e HV)) as Ht. pose proof (IHe (xorb c d) (below_else N v t d e HV)) as He.
  assert (D1 : depends_below N bone) by (intros a b H; reflexivity). assert (D0 : depends_below N (bnot bone)) by (intros a b H; reflexivity).
  destruct (v <? ls); [now apply dep_ite|]. destruct (v <=? le); [|now apply dep_vars]. cbv zeta.
  repeat match goal with |- context [if ?x then _ else _] => destruct x end; apply dep_ite; auto; apply dep_major.
Qed.
End Best.
Lemma best_fl_any rnd M mc ls le n : forall c m, complete mc n c ->
  let q := rbr rnd M (wt_of mc) ls le in memo_ok q m ->
  exists m', round_best_rec_fl rnd M n c ls le mc m = Ok (q n c, m') /\ memo_ok q m'.
Proof.
  induction n as [|v t IHt d e IHe]; intros c m HC p0 Hm; [exists m; split; auto|].
  cbn [round_best_rec_fl]. destruct (blookup (c, Nd v t d e) m) as [r|] eqn:E.
  { exists m. apply blookup_some in E. apply Hm in E. cbn [fst snd] in E. now rewrite E. }
  pose proof (complete_then _ _ _ _ _ _ HC) as Ct. pose proof (complete_else _ _ _ _ _ _ HC) as Ce.
  pose proof (memo_ok_add p0) as ADD.
  assert (P : p0 (Nd v t d e) c = (
      if v <? ls then ite M (bvar v) (p0 t c) (p0 e (xorb c d))
      else if v <=? le then
        let tc := wt_of mc (c, t) in let ec := wt_of mc (xorb c d, e) in
        if qgtb ec tc && qgtb (rnd (1 - ec)%Q) tc then ite M (bvar v) (bnot bone) (p0 e (xorb c d))
        else if qgtb tc ec && qgtb (rnd (1 - tc)%Q) ec then ite M (bvar v) (p0 t c) (bnot bone)
        else if qgtb tc ec && qgtb tc (rnd (1 - ec)%Q) then ite M (bvar v) bone (p0 e (xorb c d))
        else if qgtb ec tc && qgtb ec (rnd (1 - tc)%Q) then ite M (bvar v) (p0 t c) bone
        else ite M (bvar v) (major tc) (major ec)
      else (c, Nd v t d e))) by reflexivity.
  destruct (v <? ls).
  - destruct (IHt c m Ct Hm) as (m1 & E1 & H1). rewrite E1. cbn [bind].
    destruct (IHe (xorb c d) m1 Ce H1) as (m2 & E2 & H2). rewrite E2. cbn [bind]. fold p0.
    eexists. rewrite <- P. split; [reflexivity|]. now apply ADD.
  - destruct (v <=? le).
    + rewrite !at_wt; [|apply Ce, in_edges_refl|apply Ct, in_edges_refl]. cbn [bind]. cbv zeta. cbv zeta in P.
      set (tc := wt_of mc (c, t)) in *. set (ec := wt_of mc (xorb c d, e)) in *.
      destruct (IHe (xorb c d) m Ce Hm) as (me & Ee & Hme). destruct (IHt c m Ct Hm) as (mt & Et & Hmt).
      repeat match goal with |- context [if ?b then _ else _] =>
        match b with context [major] => fail 1 | qgtb _ (1#2) => fail 1 | _ => destruct b end end;
        rewrite ?Ee, ?Et; cbn [bind]; fold p0; eexists; (split; [rewrite P; reflexivity|]); cbv beta zeta; unfold major in P; rewrite <- P; now apply ADD.
    + exists m. rewrite P. auto.
Qed.

Section Any.
Variable rnd : Q -> Q.
Variable M : mgr.
Lemma any_complete f : complete (count_minterms_fl rnd f) (snd f) (fst f).
Proof. intros k Hk. now apply (proj2 (minterms_fl_map rnd f)). Qed.
Lemma solutions_any_complete f : complete (count_solutions_fl rnd f) (snd f) (fst f).
Proof. intros k Hk. now apply (proj2 (solutions_fl_map rnd f)). Qed.
Lemma round_any_fl_pure f ls le rh sub : round_any_fl rnd M f ls le rh sub = Ok (rc M (wt_of (count_minterms_fl rnd f)) ls le rh sub (snd f) (fst f)).
Proof.
  unfold round_any_fl.
  destruct (remove_memo M (count_minterms_fl rnd f) ls le rh sub (snd f) (fst f) [] (any_complete f) (memo_ok_nil _)) as (m' & E & _).
  rewrite E. reflexivity.
Qed.
Lemma round_bdd_fl_pure f l : round_bdd_fl rnd M f l = Ok (rr M (wt_of (count_minterms_fl rnd f)) l (snd f) (fst f)).
Proof.
  unfold round_bdd_fl. destruct (round_memo M (count_minterms_fl rnd f) l (snd f) (fst f) [] (any_complete f) (memo_ok_nil _)) as (m' & E & _).
  rewrite E. reflexivity.
Qed.
Lemma round_best_fl_pure f ls le : round_best_fl rnd M f ls le = Ok (rbr rnd M (wt_of (count_minterms_fl rnd f)) ls le (snd f) (fst f)).
Proof.
  unfold round_best_fl. destruct (best_fl_any rnd M (count_minterms_fl rnd f) ls le (snd f) (fst f) [] (any_complete f) (memo_ok_nil _)) as (m' & E & _).
  rewrite E. reflexivity.
Qed.
Lemma round_up_fl_pure f ls le : round_up_fl rnd M f ls le = Ok (rc M (wt_of (count_solutions_fl rnd f)) ls le false false (snd f) (fst f))
  /\ round_down_fl rnd M f ls le = Ok (rc M (wt_of (count_solutions_fl rnd f)) ls le false true (snd f) (fst f)).
Proof.
  unfold round_up_fl, round_down_fl. pose proof (solutions_any_complete f) as C. split.
  - destruct (remove_memo M (count_solutions_fl rnd f) ls le false false (snd f) (fst f) [] C (memo_ok_nil _)) as (m' & E & _). now rewrite E.
  - destruct (remove_memo M (count_solutions_fl rnd f) ls le false true (snd f) (fst f) [] C (memo_ok_nil _)) as (m' & E & _). now rewrite E.
Qed.
(** what holds for every rounding *)
Definition proper (f r : bdd) : Prop := wf M r /\ forall n, depends_below n f -> depends_below n r.
Lemma rc_proper f w ls le rh sub : wf M f -> proper f (rc M w ls le rh sub (snd f) (fst f)).
Proof.
  intro H. split; [apply rc_wf; now rewrite edge_eta|]. intros n D. apply rc_dep. now apply (depends_below_vars M).
Qed.
Lemma subset_fl f ls le : wf M f -> forall op, In op [subset_light_child_fl; subset_heavy_child_fl; round_down_fl] ->
  exists r, op rnd M f ls le = Ok r /\ wf M r /\ (forall n, depends_below n f -> depends_below n r)
    /\ (forall a, ev r a = true -> ev f a = true)
    /\ ((forall i, In i (varsn (snd f)) -> ~ ls <= i <= le) -> forall a, ev r a = ev f a).
Proof.
  intros H op Hop.
  assert (K : forall w rh, exists r, Ok (rc M w ls le rh true (snd f) (fst f)) = Ok r /\ wf M r
    /\ (forall n, depends_below n f -> depends_below n r) /\ (forall a, ev r a = true -> ev f a = true)
    /\ ((forall i, In i (varsn (snd f)) -> ~ ls <= i <= le) -> forall a, ev r a = ev f a)).
  { intros w rh. eexists. split; [reflexivity|]. destruct (rc_proper f w ls le rh true H) as [P1 P2]. split; auto. split; auto. split.
    - intros a Ha. apply rc_subset in Ha. now rewrite edge_eta in Ha.
    - intros HO a. rewrite rc_outside by auto. now rewrite edge_eta. }
  destruct Hop as [<-|[<-|[<-|[]]]]; unfold subset_light_child_fl, subset_heavy_child_fl; rewrite ?round_any_fl_pure, ?(proj2 (round_up_fl_pure f ls le)); apply K.
Qed.
Lemma superset_fl f ls le : wf M f -> forall op, In op [superset_light_child_fl; superset_heavy_child_fl; round_up_fl] ->
  exists r, op rnd M f ls le = Ok r /\ wf M r /\ (forall n, depends_below n f -> depends_below n r)
    /\ (forall a, ev f a = true -> ev r a = true)
    /\ ((forall i, In i (varsn (snd f)) -> ~ ls <= i <= le) -> forall a, ev r a = ev f a).
Proof.
  intros H op Hop.
  assert (K : forall w rh, exists r, Ok (rc M w ls le rh false (snd f) (fst f)) = Ok r /\ wf M r
    /\ (forall n, depends_below n f -> depends_below n r) /\ (forall a, ev f a = true -> ev r a = true)
    /\ ((forall i, In i (varsn (snd f)) -> ~ ls <= i <= le) -> forall a, ev r a = ev f a)).
  { intros w rh. eexists. split; [reflexivity|]. destruct (rc_proper f w ls le rh false H) as [P1 P2]. split; auto. split; auto. split.
    - intros a Ha. apply rc_superset. now rewrite edge_eta.
    - intros HO a. rewrite rc_outside by auto. now rewrite edge_eta. }
  destruct Hop as [<-|[<-|[<-|[]]]]; unfold superset_light_child_fl, superset_heavy_child_fl; rewrite ?round_any_fl_pure, ?(proj1 (round_up_fl_pure f ls le)); apply K.
Qed.
Lemma rounding_fl f l ls le : wf M f ->
  (exists r, round_bdd_fl rnd M f l = Ok r /\ wf M r /\ depends_below l r /\ (forall n, depends_below n f -> depends_below n r))
  /\ (exists r, round_best_fl rnd M f ls le = Ok r /\ wf M r /\ (forall n, depends_below n f -> depends_below n r)
      /\ ((forall i, In i (varsn (snd f)) -> ~ ls <= i <= le) -> forall a, ev r a = ev f a)).
Proof.
  intro H. rewrite round_bdd_fl_pure, round_best_fl_pure. split.
  - eexists. split; [reflexivity|]. split; [apply rr_wf|]. split; [exact (rr_below M _ l (snd f) (fst f))|].
    intros n D. apply rr_dep. now apply (depends_below_vars M).
  - eexists. split; [reflexivity|]. split; [apply rbr_wf; now rewrite edge_eta|]. split.
    + intros n D. apply rbr_dep. now apply (depends_below_vars M).
    + intros HO a. rewrite rbr_outside by auto. now rewrite edge_eta.
Qed.
Lemma apply_operator_fl_fit b op l : wf M b -> exists r, apply_operator_fl rnd M b op l l = Ok r /\ wf M r
  /\ (forall n, depends_below n b -> depends_below n r).
Proof.
  intro H. destruct (rounding_fl b l l l H) as ((r1 & E1 & W1 & _ & D1) & (r2 & E2 & W2 & D2 & _)).
  pose proof (subset_fl b l l H) as SB. pose proof (superset_fl b l l H) as SP.
  destruct op; cbn [apply_operator_fl]; try (eexists; split; [eassumption|]; auto; fail).
  - eexists. split; [reflexivity|]. destruct (cofactor_spec M b l true H) as [C1 C2]. split; auto.
    intros n HD a a' HA. rewrite !C2. apply HD. intros i Hi. unfold upd. destruct (i =? l); auto.
  - eexists. split; [reflexivity|]. destruct (cofactor_spec M b l false H) as [C1 C2]. split; auto.
    intros n HD a a' HA. rewrite !C2. apply HD. intros i Hi. unfold upd. destruct (i =? l); auto.
  - destruct (SB subset_light_child_fl ltac:(now left)) as (r & E & W & D & _). eauto.
  - destruct (SB subset_heavy_child_fl ltac:(right; now left)) as (r & E & W & D & _). eauto.
  - destruct (SP superset_light_child_fl ltac:(now left)) as (r & E & W & D & _). eauto.
  - destruct (SP superset_heavy_child_fl ltac:(right; now left)) as (r & E & W & D & _). eauto.
Qed.
End Any.

(** ** the chosen child, up to the rounding of the counts *)
Definition respects_up_to (x y : Q) (w W : bdd -> Q) (n : node) (c : bool) : Prop :=
  forall k k', In k (edges n c) -> In k' (edges n c) -> (w k <= w k')%Q -> (x * W k <= y * W k')%Q.
Definition nearly (x y : Q) (W : bdd -> Q) (rh k : bool) := if rh then nearly_heavy_const x y W k else nearly_light_const x y W k.
Lemma rc_nearly M x y w W ls le rh sub n : forall c, respects_up_to x y w W n c ->
  at_range ls le (nearly x y W rh (negb sub)) (c, n) (ev (rc M w ls le rh sub n c)).
Proof.
  induction n as [|v t IHt d e IHe]; intros c HR.
  - apply ar_const. intro a. cbn. now destruct c.
  - assert (It : at_range ls le (nearly x y W rh (negb sub)) (c, t) (ev (rc M w ls le rh sub t c))).
    { apply IHt. intros k k' Hk Hk'. apply HR; cbn [edges]; right; apply in_or_app; auto. }
    assert (Ie : at_range ls le (nearly x y W rh (negb sub)) (xorb c d, e) (ev (rc M w ls le rh sub e (xorb c d)))).
    { apply IHe. intros k k' Hk Hk'. apply HR; cbn [edges]; right; apply in_or_app; auto. }
    cbn [rc]. destruct (v <? ls) eqn:E1.
    + apply Nat.ltb_lt in E1. eapply ar_before; eauto. intro a. apply ev_itev.
    + apply Nat.ltb_ge in E1. destruct (v <=? le) eqn:E2; [apply Nat.leb_le in E2|apply Nat.leb_gt in E2].
      * eapply ar_in; eauto.
        assert (It' : In (c, t) (edges (Nd v t d e) c)) by (cbn [edges]; right; apply in_or_app; left; apply in_edges_refl).
        assert (Ie' : In (xorb c d, e) (edges (Nd v t d e) c)) by (cbn [edges]; right; apply in_or_app; right; apply in_edges_refl).
        pose proof (HR _ _ It' Ie') as HR1. pose proof (HR _ _ Ie' It') as HR2.
        assert (T1 : then_const v (negb sub) (ev (rc M w ls le rh sub e (xorb c d))) (ev (ite M (bvar v) (repl sub) (rc M w ls le rh sub e (xorb c d)))))
          by (intro a; rewrite ev_itev, ev_repl; auto).
        assert (T2 : else_const v (negb sub) (ev (rc M w ls le rh sub t c)) (ev (ite M (bvar v) (rc M w ls le rh sub t c) (repl sub))))
          by (intro a; rewrite ev_itev, ev_repl; auto).
        destruct (qgtb (w (c, t)) (w (xorb c d, e))) eqn:E3.
        -- apply qgtb_true in E3. assert (K : (x * W (xorb c d, e) <= y * W (c, t))%Q) by (apply HR2; lra).
           destruct rh; cbn [Bool.eqb nearly]; [left|right]; auto.
        -- apply qgtb_false in E3. apply HR1 in E3. destruct rh; cbn [Bool.eqb nearly]; [right|left]; auto.
      * apply ar_after; auto.
Qed.
Lemma fl_respects u rnd M n f : (0 <= u <= 1)%Q -> relative_error u rnd -> wf M f -> depends_below n f ->
  respects_up_to (qpow (1 - u) (2 * n)) (qpow (1 + u) (2 * n)) (wt_of (count_minterms_fl rnd f)) (density n) (snd f) (fst f).
Proof.
  intros U R W D. assert (K : forall k, In k (edges (snd f) (fst f)) -> within u (2 * n) (wt_of (count_minterms_fl rnd f) k) (density n k)).
  { intros k Hk. pose proof (any_complete rnd f k Hk) as HC. destruct (blookup_key k _ HC) as [q E]. unfold wt_of. rewrite E.
    apply blookup_some in E. exact (minterms_fl_within u U rnd R M n f W D k q E). }
  intros k k' Hk Hk' L. destruct (K k Hk) as [K1 _]. destruct (K k' Hk') as [_ K2]. lra.
Qed.
Lemma child_choice_fl u rnd M n f ls le : (0 <= u <= 1)%Q -> relative_error u rnd -> wf M f -> depends_below n f ->
  let x := qpow (1 - u) (2 * n) in let y := qpow (1 + u) (2 * n) in
  (exists r, subset_light_child_fl rnd M f ls le = Ok r /\ at_range ls le (nearly_light_const x y (density n) false) f (ev r))
  /\ (exists r, subset_heavy_child_fl rnd M f ls le = Ok r /\ at_range ls le (nearly_heavy_const x y (density n) false) f (ev r))
  /\ (exists r, superset_light_child_fl rnd M f ls le = Ok r /\ at_range ls le (nearly_light_const x y (density n) true) f (ev r))
  /\ (exists r, superset_heavy_child_fl rnd M f ls le = Ok r /\ at_range ls le (nearly_heavy_const x y (density n) true) f (ev r)).
Proof.
  intros U R W D x y. pose proof (fl_respects u rnd M n f U R W D) as RS. fold x y in RS.
  unfold subset_light_child_fl, subset_heavy_child_fl, superset_light_child_fl, superset_heavy_child_fl. rewrite !round_any_fl_pure.
  assert (K : forall rh sub, at_range ls le (nearly x y (density n) rh (negb sub)) f (ev (rc M (wt_of (count_minterms_fl rnd f)) ls le rh sub (snd f) (fst f)))).
  { intros rh sub. pose proof (rc_nearly M x y _ _ ls le rh sub (snd f) (fst f) RS) as A. now rewrite <- surjective_pairing in A. }
  split; [|split; [|split]]; eexists; (split; [reflexivity|]).
  - exact (K false true).
  - exact (K true true).
  - exact (K false false).
  - exact (K true false).
Qed.
