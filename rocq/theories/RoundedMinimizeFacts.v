(** The bucket minimisation with rounded indices follows the exact one with other values of the metrics. *)
From Coq Require Import List Bool Arith ZArith QArith Lia Lqa.
From Verif Require Import Res Cudd Helpers Counting Metrics RelMetrics Operators Examples Minimize SpecMinimize Spec MinimizeFacts MinimizeFacts2 MinimizeFacts3
  Rounded RoundedAdd RoundedMinimize.
Import ListNotations.
Open Scope nat_scope.

Lemma quot_comp (p q : Q) : (p == q)%Q -> Z.quot (Qnum p) (Zpos (Qden p)) = Z.quot (Qnum q) (Zpos (Qden q)).
Proof.
  destruct p as [a b], q as [c d]. unfold Qeq. cbn [Qnum Qden]. intro E.
  rewrite <- (Z.quot_mul_cancel_r a (Zpos b) (Zpos d)) by discriminate. rewrite E.
  rewrite (Z.mul_comm (Zpos b)). rewrite Z.quot_mul_cancel_r by discriminate. reflexivity.
Qed.

(** results that agree up to a relation *)
Definition relres {A B} (R : A -> B -> Prop) (x : res A) (y : res B) : Prop :=
  match x, y with
  | Ok a, Ok b => R a b
  | UB, UB | Throw, Throw | Abort, Abort => True
  | _, _ => False
  end.
Lemma relres_bind {A B C D} (R : A -> B -> Prop) (S : C -> D -> Prop) x y (f : A -> res C) (g : B -> res D) :
  relres R x y -> (forall a b, R a b -> relres S (f a) (g b)) -> relres S (bind x f) (bind y g).
Proof. destruct x, y; cbn [relres bind]; auto; contradiction. Qed.
Lemma relres_refl {A} (R : A -> A -> Prop) (x : res A) : (forall a, R a a) -> relres R x x.
Proof. destruct x; cbn [relres]; auto. Qed.
Lemma vget_rel {A B} (R : A -> B -> Prop) l l' i : Forall2 R l l' -> relres R (vget l i) (vget l' i).
Proof.
  intro H. revert i. induction H as [|x y l l' Hx H IH]; intro i; unfold vget in *; destruct i; cbn [nth_error relres]; auto.
Qed.
Lemma vset_rel {A B} (R : A -> B -> Prop) l l' : Forall2 R l l' -> forall i x y, R x y -> relres (Forall2 R) (vset l i x) (vset l' i y).
Proof.
  induction 1 as [|a b l l' Hx H IH]; intros i x y E; cbn [vset relres]; auto.
  destruct i; cbn [vset relres]; [constructor; auto|]. eapply relres_bind; [apply IH; exact E|]. intros p q Hp. cbn [relres]. now constructor.
Qed.

Section Follow.
Variable rnd : Q -> Q.
Variable function : list bdd.
Variable metrics : list MetricDimension.
Variable operators : list OperatorFunction.
Variable pop_all : bool.

(** the value that has the rounded index *)
Definition adjusted (m : MetricDimension) (x : num) : num :=
  match x with
  | Fin e => Fin (rnd (rnd (rnd (inject_Z (grid_size m)) * e) / bound m) * bound m / inject_Z (grid_size m))
  | NonFin => NonFin
  end%Q.
Definition adjust (m : MetricDimension) : MetricDimension :=
  Dim (grid_size m) (fun f g => x <- metric m f g ;; Ok (adjusted m x)) (bound m).
Notation metrics' := (map adjust metrics).
Hypothesis grid_pos : Forall (fun m => (0 < grid_size m)%Z) metrics.

Lemma adjusted_index m x : (0 < grid_size m)%Z -> dimension_index (grid_size m) (adjusted m x) (bound m)
  = dimension_index_fl rnd (grid_size m) x (bound m).
Proof.
  intro G. destruct x as [e|]; [|reflexivity]. cbn [adjusted]. unfold dimension_index, dimension_index_fl.
  destruct (Qeq_bool (bound m) 0) eqn:E; [reflexivity|]. apply Qeq_bool_neq in E. cbv zeta.
  assert (GQ : ~ (inject_Z (grid_size m) == 0)%Q).
  { change 0%Q with (inject_Z 0). rewrite inject_Z_injective. lia. }
  rewrite (quot_comp _ (rnd (rnd (rnd (inject_Z (grid_size m)) * e) / bound m))%Q); [reflexivity|]. field. auto.
Qed.
Lemma grid' : bucket_grid_size metrics' = bucket_grid_size metrics.
Proof. unfold bucket_grid_size. rewrite map_map. reflexivity. Qed.

(** the values stored for a function are those of the metrics *)
Definition valued (ms : list MetricDimension) (g : list bdd) (vs : list Q) : Prop :=
  Forall2 (fun m v => metric m function g = Ok (Fin v)) ms vs.
Definition same (b b' : Bucket) : Prop :=
  b_function b = b_function b' /\ bdd_size b = bdd_size b' /\ possible_operators b = possible_operators b'
  /\ is_empty b = is_empty b' /\ (is_empty b = false -> valued metrics (b_function b) (metric_values b))
  /\ (is_empty b = true -> metric_values b = repeat 0%Q (length metrics)).
Notation sames := (Forall2 same).

Definition same_verdict (modified : list bdd) (v v' : verdict) : Prop :=
  match v, v' with
  | Rejected x, Rejected y => x = y
  | Better i vs, Better i' _ => i = i' /\ valued metrics modified vs
  | _, _ => False
  end.
Lemma metric_loop_same buckets buckets' nodes modified : sames buckets buckets' ->
  forall ms pre idx vpre vals', metrics = pre ++ ms -> length vpre = length pre -> length vals' = length metrics ->
  valued pre modified vpre ->
  relres (same_verdict modified)
    (metric_loop_fl rnd function metrics buckets nodes modified ms (length pre) idx (vpre ++ repeat 0%Q (length ms)))
    (metric_loop function metrics' buckets' nodes modified (map adjust ms) (length pre) idx vals').
Proof.
  intros SB. induction ms as [|m ms IH]; intros pre idx vpre vals' E L1 L2 V; cbn [metric_loop_fl metric_loop map].
  - cbn [relres same_verdict]. split; auto. cbn [length repeat]. rewrite app_nil_r in *. now subst pre.
  - assert (G : (0 < grid_size m)%Z).
    { rewrite Forall_forall in grid_pos. apply grid_pos. rewrite E. apply in_or_app. right. now left. }
    cbn [metric adjust grid_size bound]. destruct (metric m function modified) as [x| | |] eqn:Em; cbn [bind relres]; auto.
    rewrite (adjusted_index m x G). destruct (dimension_index_fl rnd (grid_size m) x (bound m)) as [d| | |] eqn:Ed; cbn [bind relres]; auto.
    destruct (grid_size m <=? d)%Z; [reflexivity|]. rewrite grid'.
    destruct (vset idx (length pre) d) as [idx1| | |]; cbn [bind relres]; auto.
    destruct (reduce_multi_dim_index idx1 (bucket_grid_size metrics)) as [k| | |]; cbn [bind relres]; auto.
    eapply relres_bind; [apply vget_rel; exact SB|]. intros b b' (S1 & S2 & S3 & S4 & S5 & S6). rewrite S2.
    destruct (bdd_size b' <=? nodes); [reflexivity|].
    destruct x as [e|]; [|cbn in Ed; discriminate]. cbn [adjusted length repeat].
    rewrite <- L1 at 1. rewrite vset_mid. cbn [bind].
    assert (LL : length pre < length vals').
    { rewrite L2, E, app_length. cbn [length]. lia. }
    destruct (vset_ok vals' (length pre) (rnd (rnd (rnd (inject_Z (grid_size m)) * e) / bound m) * bound m / inject_Z (grid_size m))%Q LL) as (vals1 & EV).
    rewrite EV. cbn [bind]. specialize (IH (pre ++ [m]) idx1 (vpre ++ [e]) vals1).
    rewrite !app_length in IH. cbn [length] in IH. rewrite <- !app_assoc in IH. cbn [app] in IH.
    apply IH; auto.
    + destruct (vset_spec _ _ _ _ EV) as [LV _]. lia.
    + apply Forall2_app; auto.
Qed.

Definition same_pop (st st' : pop_state) : Prop :=
  sames (fst (fst st)) (fst (fst st')) /\ snd (fst st) = snd (fst st') /\ snd st = snd st'.
Lemma populate_same opnum nodes modified idx vals vals' : valued metrics modified vals -> forall indices st st', same_pop st st' ->
  relres same_pop (populate metrics indices opnum nodes modified idx vals st)
                  (populate metrics' indices opnum nodes modified idx vals' st').
Proof.
  intros V. induction indices as [|i indices IH]; intros [[bs rp] ts] [[bs' rp'] ts'] H; cbn [populate]; [exact H|].
  destruct H as (S1 & S2 & S3). cbn [fst snd] in *. subst rp' ts'.
  eapply relres_bind; [apply vget_rel; exact S1|]. intros b b' Hb. pose proof Hb as (T1 & T2 & T3 & T4 & T5 & T6). rewrite T2, grid'.
  destruct (bdd_size b' <=? nodes); [apply IH; now repeat split|].
  destruct (create_multi_dim_index (Z.of_nat i) (bucket_grid_size metrics)) as [index| | |]; cbn [bind relres]; auto.
  destruct (existsb _ _); [apply IH; now repeat split|].
  eapply relres_bind.
  - apply vset_rel; [exact S1|]. repeat split; auto. discriminate.
  - intros bs1 bs1' H1. apply IH. now repeat split.
Qed.

Definition same_op (st st' : op_state) : Prop := same_pop (fst st) (fst st') /\ snd st = snd st'.
Lemma sames_length bs bs' : sames bs bs' -> length bs = length bs'.
Proof. induction 1; cbn [length]; congruence. Qed.
Lemma op_step_same cur bf opnum st st' : same_op st st' ->
  relres same_op (op_step_fl rnd function metrics operators pop_all cur bf opnum st)
                 (op_step function metrics' operators pop_all cur bf opnum st').
Proof.
  destruct st as [[[bs rp] ts] ps], st' as [[[bs' rp'] ts'] ps']. intros ((S1 & S2 & S3) & S4). cbn [fst snd] in *. subst rp' ts' ps'.
  unfold op_step_fl, op_step.
  destruct (vget operators opnum) as [op| | |]; cbn [bind relres]; auto.
  destruct (vget ps opnum) as [p| | |]; cbn [bind relres]; auto.
  destruct (negb p); [now repeat split|].
  destruct (op bf) as [modified| | |]; cbn [bind relres]; auto. cbv zeta.
  eapply relres_bind; [apply vget_rel; exact S1|]. intros b b' (T1 & T2 & T3 & T4 & T5 & T6). rewrite T2.
  destruct (bdd_size b' <=? nodeCount modified).
  { destruct (_ <? _).
    - destruct (vset ps opnum false) as [ps1| | |]; cbn [bind relres]; auto. now repeat split.
    - now repeat split. }
  rewrite map_length. eapply relres_bind.
  - apply (metric_loop_same bs bs' (nodeCount modified) modified S1 metrics [] (repeat 0%Z (length metrics)) [] (repeat 0%Q (length metrics)));
      auto; [now rewrite repeat_length|constructor].
  - intros v v' HV. destruct v as [x|idx vs], v' as [x'|idx' vs']; cbn [same_verdict] in HV; try contradiction.
    + subst x'. destruct x.
      * destruct (vset ps opnum false) as [ps1| | |]; cbn [bind relres]; auto. now repeat split.
      * now repeat split.
    + destruct HV as [<- V]. rewrite grid'. destruct (reduce_multi_dim_index idx (bucket_grid_size metrics)) as [start| | |]; cbn [bind relres]; auto.
      cbv zeta. rewrite <- (sames_length _ _ S1). eapply relres_bind.
      * apply populate_same; auto. now repeat split.
      * intros s s' HS. split; auto.
Qed.
Lemma for_each_same {S T} (R : S -> T -> Prop) F G : (forall i s t, R s t -> relres R (F i s) (G i t)) ->
  forall l s t, R s t -> relres R (for_each l s F) (for_each l t G).
Proof.
  intro H. induction l as [|i l IH]; intros s t HR; cbn [for_each]; auto.
  eapply relres_bind; [apply H; exact HR|]. intros a b Hab. now apply IH.
Qed.
Lemma replace_same possible : forall replace bs bs', sames bs bs' ->
  relres sames (replace_loop replace possible bs) (replace_loop replace possible bs').
Proof.
  induction replace as [|[i op] replace IH]; intros bs bs' H; cbn [replace_loop]; auto.
  eapply relres_bind; [apply vget_rel; exact H|]. intros b b' (T1 & T2 & T3 & T4 & T5 & T6).
  destruct (vset possible op false) as [ops| | |]; cbn [bind relres]; auto.
  eapply relres_bind; [|intros x y Hxy; apply IH; exact Hxy].
  apply vset_rel; auto. repeat split; auto.
Qed.

(** the positions are visited in the same order *)
Hypothesis positions : forall s best, Forall (in_box (bucket_grid_size metrics)) (best :: s) -> min_element_fl rnd best s = min_element best s.

Definition same_round (x x' : list Bucket * list (list Z)) : Prop := sames (fst x) (fst x') /\ snd x = snd x'.
Lemma explore_same bs bs' first rest : sames bs bs' -> Forall (in_box (bucket_grid_size metrics)) (first :: rest) ->
  relres same_round (explore_fl rnd function metrics operators pop_all bs first rest)
                    (explore function metrics' operators pop_all bs' first rest).
Proof.
  intros H P. unfold explore_fl, explore. cbv zeta. rewrite positions by exact P. rewrite grid'.
  destruct (reduce_multi_dim_index _ _) as [k| | |]; cbn [bind relres]; auto.
  eapply relres_bind; [apply vget_rel; exact H|]. intros b b' (T1 & T2 & T3 & T4 & T5 & T6).
  eapply relres_bind.
  - apply for_each_same with (R := same_op).
    + intros i s t Hst. rewrite T1. now apply op_step_same.
    + split; cbn [fst snd]; auto. now repeat split.
  - intros [[[bs1 rp1] ts1] ps1] [[[bs2 rp2] ts2] ps2] ((U1 & U2 & U3) & U4). cbn [fst snd] in *. subst rp2 ts2 ps2.
    eapply relres_bind; [apply replace_same; exact U1|]. intros x y Hxy. cbn [relres]. split; auto.
Qed.
Definition relopt {A B} (R : A -> B -> Prop) (x : option A) (y : option B) : Prop :=
  match x, y with Some a, Some b => R a b | None, None => True | _, _ => False end.
Hypothesis grid_vol : (volume (bucket_grid_size metrics) < 2 ^ 64)%Z.
Lemma grid_pos' : Forall (fun b => (0 < b)%Z) (bucket_grid_size metrics').
Proof. rewrite grid'. unfold bucket_grid_size. apply Forall_map. exact grid_pos. Qed.
Lemma grid_vol' : (volume (bucket_grid_size metrics') < 2 ^ 64)%Z.
Proof. rewrite grid'. exact grid_vol. Qed.
Lemma search_same fuel : forall bs bs' test, sames bs bs' -> good_state function metrics' operators pop_all bs' test ->
  relopt (relres sames) (search_fl rnd function metrics operators pop_all fuel bs test)
                        (search function metrics' operators pop_all fuel bs' test).
Proof.
  induction fuel as [|fuel IH]; intros bs bs' test H G; destruct test as [|first rest]; cbn [search_fl search relopt relres]; auto.
  assert (P : Forall (in_box (bucket_grid_size metrics)) (first :: rest)).
  { apply Forall_forall. intros x Hx. destruct G as (_ & GT & _). rewrite <- grid'. now apply GT. }
  pose proof (explore_same bs bs' first rest H P) as E.
  destruct (explore_fl _ _ _ _ _ _ _ _) as [[bs1 ts1]| | |], (explore _ _ _ _ _ _ _) as [[bs2 ts2]| | |] eqn:EX;
    cbn [relres] in E; try contradiction; cbn [relopt relres]; auto.
  destruct E as [E1 E2]. cbn [fst snd] in *. subst ts2. apply IH; auto.
  eapply explore_good in EX; eauto using grid_pos', grid_vol'. apply EX.
Qed.
Lemma minimize_same fuel : metrics <> [] ->
  relopt (relres sames) (bucket_greedy_minimize_fl rnd function metrics operators pop_all fuel)
                        (bucket_greedy_minimize function metrics' operators pop_all fuel).
Proof.
  intro NE. destruct (initial_good function metrics' operators pop_all grid_pos') as (first & E & G).
  assert (NE' : metrics' <> []) by (intro X; apply map_eq_nil in X; auto).
  rewrite (minimize_search function metrics' operators pop_all grid_pos' grid_vol' fuel first NE' E).
  unfold bucket_greedy_minimize_fl. rewrite grid' in E. rewrite E.
  destruct (length metrics =? 0) eqn:EL; [apply Nat.eqb_eq in EL; destruct metrics; [congruence|discriminate]|].
  cbv zeta. apply search_same; [|exact G].
  assert (ET : total_buckets metrics = volume (bucket_grid_size metrics)).
  { assert (P : Forall (fun b => (0 < b)%Z) (bucket_grid_size metrics)) by (unfold bucket_grid_size; apply Forall_map; exact grid_pos).
    unfold total_buckets. rewrite (total_volume _ P grid_vol 1%Z); lia. }
  rewrite ET. unfold initial. rewrite map_length, grid'.
  generalize (Z.to_nat (volume (bucket_grid_size metrics))) as k.
  induction k as [|k IHk]; cbn [repeat]; constructor; auto. repeat split; auto. discriminate.
Qed.
End Follow.
