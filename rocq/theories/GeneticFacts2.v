(** the problem class *)
From Coq Require Import List Bool Arith ZArith QArith Lia Lqa Sorted.
From Verif Require Import Res Cudd CuddFacts Spec SpecFacts Helpers HelpersFacts HelpersFacts2 Counting Metrics MetricsFacts MetricsFacts4 MetricsFacts5
  MinimizeFacts MinimizeFacts3 Benchmark BenchmarkFacts2 Genetic SpecGenetic GeneticFacts.
Import ListNotations.
Open Scope nat_scope.

(** ** positions *)
Lemma positions_in f : forall i0 i v, In (i, v) (positions_from i0 f) <-> exists j b, i = i0 + j /\ nth_error f j = Some b /\ In v (support b).
Proof.
  induction f as [|b f IH]; intros i0 i v; cbn [positions_from].
  - split; [intros []|]. intros ([|j] & b & _ & E & _); discriminate E.
  - rewrite in_app_iff, IH, in_map_iff. split.
    + intros [(s & E & I) | (j & b' & -> & E & I)].
      * injection E as <- <-. exists 0, b. split; [lia|]. split; [reflexivity|exact I].
      * exists (S j), b'. split; [lia|]. split; [exact E|exact I].
    + intros ([|j] & b' & -> & E & I); cbn [nth_error] in E.
      * injection E as ->. left. exists v. split; [f_equal; lia|exact I].
      * right. exists j, b'. split; [lia|]. split; [exact E|exact I].
Qed.

(** before in the order of the positions *)
Lemma seq_sorted n : forall s, StronglySorted lt (seq s n).
Proof.
  induction n as [|n IH]; intro s; cbn [seq]; constructor; [apply IH|]. apply Forall_forall. intros x I. apply in_seq in I. lia.
Qed.
Lemma filter_sorted (P : nat -> bool) l : StronglySorted lt l -> StronglySorted lt (filter P l).
Proof.
  induction 1 as [|x l Hs IH Hf]; cbn [filter]; [constructor|]. destruct (P x); [|exact IH]. constructor; [exact IH|].
  apply Forall_forall. intros y I. apply filter_In in I. destruct I as [I _]. rewrite Forall_forall in Hf. exact (Hf y I).
Qed.
Lemma support_sorted b : StronglySorted lt (support b).
Proof. unfold support, sorted_set. destruct (varsn (snd b)); [constructor|]. apply filter_sorted, seq_sorted. Qed.
Lemma app_sorted {A} (R : A -> A -> Prop) l l' : StronglySorted R l -> StronglySorted R l' -> (forall x y, In x l -> In y l' -> R x y) ->
  StronglySorted R (l ++ l').
Proof.
  induction 1 as [|x l Hs IH Hf]; intros H' HR; cbn [app]; [exact H'|]. constructor.
  - apply IH; [exact H'|]. intros y z Iy Iz. apply HR; [right; exact Iy|exact Iz].
  - apply Forall_app. split; [exact Hf|]. apply Forall_forall. intros y I. apply HR; [left; reflexivity|exact I].
Qed.
Lemma positions_sorted f : forall i0, StronglySorted before (positions_from i0 f).
Proof.
  induction f as [|b f IH]; intro i0; cbn [positions_from]; [constructor|]. apply app_sorted; [|apply IH|].
  - pose proof (support_sorted b) as H. induction H as [|x l Hs IHs Hf]; cbn [map]; constructor; [exact IHs|].
    apply Forall_forall. intros [i y] I. apply in_map_iff in I. destruct I as (z & E & I). injection E as <- <-.
    rewrite Forall_forall in Hf. right. split; [reflexivity|exact (Hf z I)].
  - intros [i x] [i' y] I I'. apply in_map_iff in I. destruct I as (z & E & I). injection E as <- <-.
    apply positions_in in I'. destruct I' as (j & b' & -> & _). left. cbn [fst]. lia.
Qed.
Lemma before_nodup l : StronglySorted before l -> NoDup l.
Proof.
  induction 1 as [|x l Hs IH Hf]; constructor; [|exact IH]. intro I. rewrite Forall_forall in Hf. specialize (Hf x I).
  unfold before in Hf. lia.
Qed.

Lemma positions_full M f : Forall (wf M) f ->
  StronglySorted before (compute_support_positions f)
  /\ forall i v, In (i, v) (compute_support_positions f) <->
     i < length f /\ exists a, ev (nth i f bzero) (upd a v true) <> ev (nth i f bzero) (upd a v false).
Proof.
  intro W. split; [apply positions_sorted|]. intros i v. unfold compute_support_positions. rewrite positions_in. split.
  - intros (j & b & E & Eb & I). cbn in E. subst i. assert (L : j < length f) by (apply nth_error_Some; congruence).
    split; [exact L|]. rewrite (nth_error_nth _ _ bzero Eb). rewrite Forall_forall in W.
    apply (support_depends M b v (W b (nth_error_In _ _ Eb))). exact I.
  - intros [L H]. exists i, (nth i f bzero). split; [reflexivity|]. split; [apply nth_error_nth'; exact L|].
    rewrite Forall_forall in W. apply (support_depends M); [apply W, nth_In, L|exact H].
Qed.

(** ** the function of an individual *)
Lemma chosen_fun p old x y : chosen p old x -> chosen p old y -> x = y.
Proof.
  intros (X1 & X2 & X3) (Y1 & Y2 & Y3). destruct (Qlt_le_dec (3 # 2) p) as [L|L]; [rewrite X1, Y1 by exact L; reflexivity|].
  destruct (Qlt_le_dec (1 # 2) p) as [L'|L']; [rewrite X2, Y2 by auto; reflexivity|]. rewrite X3, Y3 by exact L'. reflexivity.
Qed.

Definition pair_dec : forall x y : nat * nat, {x = y} + {x <> y}.
Proof. decide equality; apply Nat.eq_dec. Defined.

Fixpoint over (ps : list (nat * nat)) (params : list Q) (i o : nat) (a : asg) : asg :=
  match ps with
  | [] => a
  | (b, v) :: ps' =>
      let a' := over ps' params (S i) o a in
      if b =? o then
        let p := nth i params 0%Q in
        if qlt (3 # 2) p then upd a' v true else if qlt (1 # 2) p then upd a' v false else a'
      else a'
  end.
Lemma over_out ps params : forall i o a v, ~ In (o, v) ps -> over ps params i o a v = a v.
Proof.
  induction ps as [|[b w] ps IH]; intros i o a v H; cbn [over]; [reflexivity|]. cbn [In] in H.
  pose proof (IH (S i) o a v ltac:(tauto)) as E. destruct (Nat.eqb_spec b o) as [->|]; [|exact E].
  assert (N : v <> w) by (intro; subst; tauto).
  assert (U : forall x, upd (over ps params (S i) o a) w x v = a v).
  { intro x. unfold upd. destruct (Nat.eqb_spec v w); [congruence|exact E]. }
  destruct (qlt _ _); [apply U|]. destruct (qlt _ _); [apply U|exact E].
Qed.
Lemma over_in ps params : NoDup ps -> forall i o a k v, nth_error ps k = Some (o, v) -> chosen (nth (i + k) params 0%Q) (a v) (over ps params i o a v).
Proof.
  induction 1 as [|[b w] ps Nw Nd IH]; intros i o a k v E; [destruct k; discriminate E|]. cbn [over].
  destruct k as [|k]; cbn [nth_error] in E.
  - injection E as -> ->. rewrite Nat.eqb_refl, Nat.add_0_r. set (p := nth i params 0%Q). clearbody p.
    destruct (qlt (3 # 2) p) eqn:Q1; [|destruct (qlt (1 # 2) p) eqn:Q2].
    + apply qlt_spec in Q1. unfold upd. rewrite Nat.eqb_refl. split; [reflexivity|]. split; intro; lra.
    + apply qlt_spec in Q1. apply qlt_spec in Q2. unfold upd. rewrite Nat.eqb_refl. split; [intro; lra|]. split; [reflexivity|]. intro; lra.
    + apply qlt_spec in Q1. apply qlt_spec in Q2. split; [intro; lra|]. split; [intro; lra|]. intros _. apply over_out. exact Nw.
  - pose proof (IH (S i) o a k v E) as C. rewrite Nat.add_succ_comm in C.
    destruct (Nat.eqb_spec b o) as [->|]; [|exact C].
    assert (N : v <> w). { intro; subst. apply Nw. exact (nth_error_In _ _ E). }
    assert (U : forall x, upd (over ps params (S i) o a) w x v = over ps params (S i) o a v).
    { intro x. unfold upd. destruct (Nat.eqb_spec v w); [congruence|reflexivity]. }
    destruct (qlt (3 # 2) _); [rewrite U; exact C|]. destruct (qlt (1 # 2) _); [rewrite U; exact C|exact C].
Qed.

Lemma vset_wf M (l : list bdd) i x l' : Forall (wf M) l -> wf M x -> vset l i x = Ok l' -> Forall (wf M) l'.
Proof.
  intros W Wx E. destruct (vset_spec l i x l' E) as (L & Li & N). apply Forall_forall. intros y I.
  destruct (In_nth_error _ _ I) as [j Ej]. rewrite N in Ej. destruct (j =? i); [congruence|].
  rewrite Forall_forall in W. apply W. exact (nth_error_In _ _ Ej).
Qed.
Lemma vset_nth (l : list bdd) i x l' j : vset l i x = Ok l' -> nth j l' bzero = if j =? i then x else nth j l bzero.
Proof.
  intro E. destruct (vset_spec l i x l' E) as (L & Li & N). specialize (N j). destruct (Nat.eqb_spec j i) as [->|D].
  - exact (nth_error_nth _ _ bzero N).
  - destruct (nth_error l j) as [y|] eqn:F.
    + rewrite (nth_error_nth _ _ bzero N), (nth_error_nth _ _ bzero F). reflexivity.
    + apply nth_error_None in F. rewrite !nth_overflow by lia. reflexivity.
Qed.

Lemma apply_positions_spec M ps params : forall i ind, Forall (wf M) ind -> (forall o v, In (o, v) ps -> o < length ind) ->
  i + length ps <= length params ->
  exists g, apply_positions M ps params i ind = Ok g /\ Forall (wf M) g /\ length g = length ind
    /\ forall o a, ev (nth o g bzero) a = ev (nth o ind bzero) (over ps params i o a).
Proof.
  induction ps as [|[b v] ps IH]; intros i ind W Ho Hl; cbn [apply_positions over].
  - exists ind. split; [reflexivity|]. split; [exact W|]. split; reflexivity.
  - cbn [length] in Hl. destruct (vget_ok params i) as (p & Ep & Np); [lia|]. rewrite Ep. cbn [bind].
    assert (Lb : b < length ind) by (apply (Ho b v); left; reflexivity).
    assert (En : nth i params 0%Q = p) by exact (nth_error_nth _ _ 0%Q Np). rewrite En.
    destruct (vget_ok ind b Lb) as (x & Ex & Nx).
    assert (Wx : wf M x) by (rewrite Forall_forall in W; apply W; exact (nth_error_In _ _ Nx)).
    assert (Step : forall c, exists g, (b0 <- vget ind b ;; ind0 <- vset ind b (cofactor M b0 v c) ;; apply_positions M ps params (S i) ind0) = Ok g
       /\ Forall (wf M) g /\ length g = length ind
       /\ forall o a, ev (nth o g bzero) a = ev (nth o ind bzero) (if b =? o then upd (over ps params (S i) o a) v c else over ps params (S i) o a)).
    { intro c. rewrite Ex. cbn [bind]. destruct (vset_ok ind b (cofactor M x v c) Lb) as (ind' & Ei). rewrite Ei. cbn [bind].
      destruct (cofactor_spec M x v c Wx) as [Wc Vc]. destruct (vset_spec ind b _ ind' Ei) as (Li & _ & _).
      destruct (IH (S i) ind') as (g & Eg & Wg & Lg & Vg).
      { exact (vset_wf M ind b _ ind' W Wc Ei). }
      { intros o w I. rewrite Li. apply (Ho o w). right. exact I. }
      { lia. }
      exists g. split; [exact Eg|]. split; [exact Wg|]. split; [lia|]. intros o a. rewrite Vg, (vset_nth ind b _ ind' o Ei).
      rewrite (Nat.eqb_sym b o). destruct (Nat.eqb_spec o b) as [->|]; [|reflexivity]. rewrite Vc, (nth_error_nth _ _ bzero Nx). reflexivity. }
    destruct (qlt (3 # 2) p); [|destruct (qlt (1 # 2) p)].
    + exact (Step true).
    + exact (Step false).
    + destruct (IH (S i) ind W) as (g & Eg & Wg & Lg & Vg); [intros o w I; apply (Ho o w); right; exact I|lia|].
      exists g. split; [exact Eg|]. split; [exact Wg|]. split; [exact Lg|]. intros o a. rewrite Vg. destruct (b =? o); reflexivity.
Qed.
Lemma apply_positions_short M ps params : forall i ind, Forall (wf M) ind -> (forall o v, In (o, v) ps -> o < length ind) ->
  i <= length params -> length params < i + length ps -> apply_positions M ps params i ind = UB.
Proof.
  induction ps as [|[b v] ps IH]; intros i ind W Ho Hi Hl; cbn [apply_positions length] in *; [lia|].
  destruct (Nat.eq_dec i (length params)) as [->|D].
  - unfold vget. assert (N : nth_error params (length params) = None) by (apply nth_error_None; lia). rewrite N. reflexivity.
  - destruct (vget_ok params i) as (p & Ep & Np); [lia|]. rewrite Ep. cbn [bind].
    assert (Lb : b < length ind) by (apply (Ho b v); left; reflexivity).
    destruct (vget_ok ind b Lb) as (x & Ex & Nx).
    assert (Wx : wf M x) by (rewrite Forall_forall in W; apply W; exact (nth_error_In _ _ Nx)).
    assert (Step : forall c, (b0 <- vget ind b ;; ind0 <- vset ind b (cofactor M b0 v c) ;; apply_positions M ps params (S i) ind0) = UB).
    { intro c. rewrite Ex. cbn [bind]. destruct (vset_ok ind b (cofactor M x v c) Lb) as (ind' & Ei). rewrite Ei. cbn [bind].
      destruct (cofactor_spec M x v c Wx) as [Wc Vc]. destruct (vset_spec ind b _ ind' Ei) as (Li & _ & _).
      apply IH; [exact (vset_wf M ind b _ ind' W Wc Ei)| |lia|lia]. intros o w I. rewrite Li. apply (Ho o w). right. exact I. }
    destruct (qlt (3 # 2) p); [apply Step|]. destruct (qlt (1 # 2) p); [apply Step|].
    apply IH; [exact W| |lia|lia]. intros o w I. apply (Ho o w). right. exact I.
Qed.

Lemma function_from_full M f max_er both max_ace params : Forall (wf M) f ->
  let P := make_problem f max_er both max_ace in
  let dim := length (compute_support_positions f) in
  (dim <= length params -> exists g, function_from_individuum M P params = Ok g /\ Forall (wf M) g /\ length g = length f
     /\ (forall o a b, o < length f -> chosen_input (compute_support_positions f) params o a b -> ev (nth o g bzero) a = ev (nth o f bzero) b)
     /\ (forall n, below n f -> below n g))
  /\ (length params < dim -> function_from_individuum M P params = UB).
Proof.
  intros W P dim. destruct (positions_full M f W) as [Ps Pi]. split; intro H.
  - destruct (apply_positions_spec M (compute_support_positions f) params 0 f W) as (g & E & Wg & Lg & V).
    { intros o v I. apply Pi in I. exact (proj1 I). }
    { exact H. }
    exists g. split; [exact E|]. split; [exact Wg|]. split; [exact Lg|]. split.
    + intros o a b Ho [C1 C2]. rewrite V. apply ev_ext. intro v.
      destruct (in_dec pair_dec (o, v) (compute_support_positions f)) as [I|I].
      * destruct (In_nth_error _ _ I) as [k Ek].
        pose proof (over_in _ params (before_nodup _ Ps) 0 o a k v Ek) as C. cbn [Nat.add] in C.
        exact (chosen_fun _ _ _ _ C (C1 k v Ek)).
      * rewrite over_out by exact I. symmetry. exact (C2 v I).
    + intros n Bn. apply Forall_forall. intros y I a a' Ha. apply (In_nth _ _ bzero) in I. destruct I as (o & Ho & <-).
      rewrite !V. assert (Bo : depends_below n (nth o f bzero)).
      { unfold below in Bn. rewrite Forall_forall in Bn. apply Bn, nth_In. lia. }
      apply Bo. intros v Hv.
      destruct (in_dec pair_dec (o, v) (compute_support_positions f)) as [I|I].
      * destruct (In_nth_error _ _ I) as [k Ek].
        pose proof (over_in _ params (before_nodup _ Ps) 0 o a k v Ek) as C.
        pose proof (over_in _ params (before_nodup _ Ps) 0 o a' k v Ek) as C'. rewrite <- (Ha v Hv) in C'. exact (chosen_fun _ _ _ _ C C').
      * rewrite !over_out by exact I. exact (Ha v Hv).
  - apply apply_positions_short; [exact W| |lia|exact H]. intros o v I. apply Pi in I. exact (proj1 I).
Qed.
