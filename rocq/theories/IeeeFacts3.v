(** The operators with arbitrary doubles as counts, among them infinities and NaN *)
From Coq Require Import List Bool Arith ZArith QArith Lia.
From Verif Require Import Res Cudd CuddFacts Spec SpecFacts Helpers HelpersFacts HelpersFacts2 Counting AddFacts CountFacts
  Operators OperatorFacts OperatorFacts2 OperatorFacts3 OperatorFacts5 Ieee.
Import ListNotations.
Open Scope nat_scope.

(** ** the maps have all reachable edges as keys *)
Definition keys (m : bmap dbl) : list bdd := map fst m.
Definition closed (m : bmap dbl) : Prop := forall k, In k (keys m) -> forall k', In k' (reachable k) -> In k' (keys m).
Definition full (mc : bmap dbl) (n : node) (c : bool) : Prop := forall k, In k (edges n c) -> In k (keys mc).
Lemma minterms_rec_d_keys n : forall c m, closed m ->
  let m' := snd (count_minterms_rec_d n c m) in closed m' /\ forall k, In k (keys m') <-> In k (keys m) \/ In k (edges n c).
Proof.
  assert (HIT : forall n c m v, closed m -> blookup (c, n) m = Some v -> closed m /\ forall k, In k (keys m) <-> In k (keys m) \/ In k (edges n c)).
  { intros n0 c m v G E. split; auto. intro k. split; [auto|]. intros [H|H]; auto. apply blookup_some in E.
    apply (G (c, n0)); [apply in_map_iff; now exists ((c, n0), v)|exact H]. }
  induction n as [|x t IHt d e IHe]; intros c m G; cbn [count_minterms_rec_d].
  - destruct (blookup (c, One) m) as [v|] eqn:E; cbn [snd]; [now apply (HIT One c m v)|]. unfold keys. cbn [map fst]. split.
    + intros k [<-|H] k' H'; cbn in H'; [destruct H' as [<-|[]]; now left|right; exact (G k H k' H')].
    + intro k. cbn [edges In]. tauto.
  - destruct (blookup (c, Nd x t d e) m) as [v|] eqn:E; cbn [snd]; [now apply (HIT _ c m v)|].
    specialize (IHt c m G). destruct (count_minterms_rec_d t c m) as [hr m1]. cbn [snd] in IHt. destruct IHt as (G1 & K1).
    specialize (IHe (xorb c d) m1 G1). destruct (count_minterms_rec_d e (xorb c d) m1) as [lr m2]. cbn [snd] in IHe. destruct IHe as (G2 & K2).
    cbn [snd]. unfold keys in *. cbn [map fst]. split.
    + intros k [<-|H] k' H'; [|right; exact (G2 k H k' H')]. change (In k' (edges (Nd x t d e) c)) in H'. cbn [edges] in H'.
      destruct H' as [<-|H']; [now left|right]. apply K2. rewrite K1. apply in_app_or in H'. tauto.
    + intro k. cbn [edges In]. rewrite in_app_iff, K2, K1. tauto.
Qed.
Lemma solutions_rec_d_keys T n : forall c m, closed m ->
  let m' := snd (count_solutions_rec_d n c m T) in closed m' /\ forall k, In k (keys m') <-> In k (keys m) \/ In k (edges n c).
Proof.
  assert (HIT : forall n c m v, closed m -> blookup (c, n) m = Some v -> closed m /\ forall k, In k (keys m) <-> In k (keys m) \/ In k (edges n c)).
  { intros n0 c m v G E. split; auto. intro k. split; [auto|]. intros [H|H]; auto. apply blookup_some in E.
    apply (G (c, n0)); [apply in_map_iff; now exists ((c, n0), v)|exact H]. }
  induction n as [|x t IHt d e IHe]; intros c m G; cbn [count_solutions_rec_d].
  - destruct (blookup (c, One) m) as [v|] eqn:E; cbn [snd]; [now apply (HIT One c m v)|]. unfold keys. cbn [map fst]. split.
    + intros k [<-|H] k' H'; cbn in H'; [destruct H' as [<-|[]]; now left|right; exact (G k H k' H')].
    + intro k. cbn [edges In]. tauto.
  - destruct (blookup (c, Nd x t d e) m) as [v|] eqn:E; cbn [snd]; [now apply (HIT _ c m v)|].
    specialize (IHt c m G). destruct (count_solutions_rec_d t c m T) as [hr m1]. cbn [snd] in IHt. destruct IHt as (G1 & K1).
    specialize (IHe (xorb c d) m1 G1). destruct (count_solutions_rec_d e (xorb c d) m1 T) as [lr m2]. cbn [snd] in IHe. destruct IHe as (G2 & K2).
    cbn [snd]. unfold keys in *. cbn [map fst]. split.
    + intros k [<-|H] k' H'; [|right; exact (G2 k H k' H')]. change (In k' (edges (Nd x t d e) c)) in H'. cbn [edges] in H'.
      destruct H' as [<-|H']; [now left|right]. apply K2. rewrite K1. apply in_app_or in H'. tauto.
    + intro k. cbn [edges In]. rewrite in_app_iff, K2, K1. tauto.
Qed.
Lemma closed_nil : closed []. Proof. intros k []. Qed.
Lemma minterms_full f : full (count_minterms_d f) (snd f) (fst f).
Proof. intros k H. destruct (minterms_rec_d_keys (snd f) (fst f) [] closed_nil) as (_ & K). apply K. now right. Qed.
Lemma solutions_full f : full (count_solutions_d f) (snd f) (fst f).
Proof. intros k H. destruct (solutions_rec_d_keys (terminal_level [[f]]) (snd f) (fst f) [] closed_nil) as (_ & K). apply K. now right. Qed.
Lemma full_then mc v t d e c : full mc (Nd v t d e) c -> full mc t c.
Proof. intros H k Hk. apply H. cbn [edges]. right. apply in_or_app. auto. Qed.
Lemma full_else mc v t d e c : full mc (Nd v t d e) c -> full mc e (xorb c d).
Proof. intros H k Hk. apply H. cbn [edges]. right. apply in_or_app. auto. Qed.
Lemma at_full mc n c : full mc n c -> exists v, bmap_at mc (c, n) = Ok v.
Proof.
  intro H. unfold bmap_at. destruct (blookup_key (c, n) mc) as [v E]; [apply H, in_edges_refl|]. rewrite E. eauto.
Qed.

(** ** what the recursions can do, whatever the counts are: [K] has the constants that replace children, [A] the variables where this happens *)
Section Rebuilt.
Variable M : mgr.
Variable K : list bdd.
Variable A : nat -> Prop.
Inductive rebuilt : bdd -> bdd -> Prop :=
| r_keep x : rebuilt x x
| r_stop c v t d e k : A v -> In k K -> rebuilt (c, Nd v t d e) k
| r_node c v t d e x y : rebuilt (c, t) x -> rebuilt (xorb c d, e) y -> rebuilt (c, Nd v t d e) (ite M (bvar v) x y)
| r_then c v t d e k y : A v -> In k K -> rebuilt (xorb c d, e) y -> rebuilt (c, Nd v t d e) (ite M (bvar v) k y)
| r_else c v t d e x k : A v -> rebuilt (c, t) x -> In k K -> rebuilt (c, Nd v t d e) (ite M (bvar v) x k)
| r_both c v t d e k l : A v -> In k K -> In l K -> rebuilt (c, Nd v t d e) (ite M (bvar v) k l).
Hypothesis HK : forall k, In k K -> k = bone \/ k = bnot bone.
Lemma K_wf k : In k K -> wf M k. Proof. intro H. destruct (HK k H) as [->| ->]; exact I. Qed.
Lemma rebuilt_wf x y : rebuilt x y -> wf M x -> wf M y.
Proof.
  pose proof K_wf as KW. induction 1 as [x|c v t d e k Av Hk|c v t d e x y R1 IH1 R2 IH2|c v t d e k y Av Hk R IH|c v t d e x k Av R IH Hk|c v t d e k l Av Hk Hl];
    intro W; auto; apply wf_ite; auto with wf.
  - apply IH1. exact (wf_then _ _ _ _ _ _ W).
  - apply IH2. exact (wf_else _ _ _ _ _ _ _ W).
  - apply IH. exact (wf_else _ _ _ _ _ _ _ W).
  - apply IH. exact (wf_then _ _ _ _ _ _ W).
Qed.
Lemma K_ev k a b : In k K -> ev k a = ev k b. Proof. intro H. destruct (HK k H) as [->| ->]; reflexivity. Qed.
Lemma rebuilt_notin x y i b a : rebuilt x y -> ~ In i (varsn (snd x)) -> ev y (upd a i b) = ev y a.
Proof.
  induction 1 as [x|c v t d e k Av Hk|c v t d e x y R1 IH1 R2 IH2|c v t d e k y Av Hk R IH|c v t d e x k Av R IH Hk|c v t d e k l Av Hk Hl]; intro N.
  - destruct x as [c n]. now apply ev_upd_notin.
  - now apply K_ev.
  - cbn [snd varsn In] in N, IH1, IH2. rewrite in_app_iff in N. assert (Hx : upd a i b v = a v) by (apply upd_other; intro; subst; tauto).
    rewrite !ev_itev, Hx, IH1, IH2 by tauto. reflexivity.
  - cbn [snd varsn In] in N, IH. rewrite in_app_iff in N. assert (Hx : upd a i b v = a v) by (apply upd_other; intro; subst; tauto).
    rewrite !ev_itev, Hx, IH, (K_ev k _ a) by tauto. reflexivity.
  - cbn [snd varsn In] in N, IH. rewrite in_app_iff in N. assert (Hx : upd a i b v = a v) by (apply upd_other; intro; subst; tauto).
    rewrite !ev_itev, Hx, IH, (K_ev k _ a) by tauto. reflexivity.
  - cbn [snd varsn In] in N. assert (Hx : upd a i b v = a v) by (apply upd_other; intro; subst; tauto).
    rewrite !ev_itev, Hx, (K_ev k _ a), (K_ev l _ a) by tauto. reflexivity.
Qed.
Lemma rebuilt_outside x y a : rebuilt x y -> (forall i, In i (varsn (snd x)) -> ~ A i) -> ev y a = ev x a.
Proof.
  induction 1 as [x|c v t d e k Av Hk|c v t d e x y R1 IH1 R2 IH2|c v t d e k y Av Hk R IH|c v t d e x k Av R IH Hk|c v t d e k l Av Hk Hl]; intro N;
    cbn [snd varsn In] in N; try (exfalso; apply (N v); [now left|exact Av]).
  - reflexivity.
  - cbn [snd] in IH1, IH2. rewrite ev_itev, ev_nd, IH1, IH2; [reflexivity|intros i Hi; apply N; right; apply in_or_app; auto..].
Qed.
Lemma rebuilt_subset x y a : K = [bnot bone] -> rebuilt x y -> ev y a = true -> ev x a = true.
Proof.
  intro EK. assert (F : forall k, In k K -> ev k a = false) by (rewrite EK; intros k [<-|[]]; reflexivity).
  induction 1 as [x|c v t d e k Av Hk|c v t d e x y R1 IH1 R2 IH2|c v t d e k y Av Hk R IH|c v t d e x k Av R IH Hk|c v t d e k l Av Hk Hl];
    rewrite ?ev_itev, ?ev_nd; auto; try (rewrite (F k Hk)); try (rewrite (F l Hl)); try discriminate; destruct (a v); auto; discriminate.
Qed.
Lemma rebuilt_superset x y a : K = [bone] -> rebuilt x y -> ev x a = true -> ev y a = true.
Proof.
  intro EK. assert (F : forall k, In k K -> ev k a = true) by (rewrite EK; intros k [<-|[]]; reflexivity).
  induction 1 as [x|c v t d e k Av Hk|c v t d e x y R1 IH1 R2 IH2|c v t d e k y Av Hk R IH|c v t d e x k Av R IH Hk|c v t d e k l Av Hk Hl];
    rewrite ?ev_itev, ?ev_nd; auto; try (rewrite (F k Hk)); try (rewrite (F l Hl)); try reflexivity; destruct (a v); auto.
Qed.
End Rebuilt.

Definition memo_rebuilt M K A (m : bmap bdd) : Prop := forall k r, In (k, r) m -> rebuilt M K A k r.
Lemma memo_add M K A m k r : memo_rebuilt M K A m -> rebuilt M K A k r -> memo_rebuilt M K A ((k, r) :: m).
Proof. intros H R k' r' [[= <- <-]|Hi]; auto. Qed.

Lemma remove_d_rebuilt M ls le mc rh (sub : bool) n : let K := [if sub then bnot bone else bone] in let A := fun v => ls <= v <= le in
  forall c m, full mc n c -> memo_rebuilt M K A m ->
  exists r m', remove_children_rec_d M n c ls le mc m rh sub = Ok (r, m') /\ rebuilt M K A (c, n) r /\ memo_rebuilt M K A m'.
Proof.
  intros K A. induction n as [|v t IHt d e IHe]; intros c m F Hm; cbn [remove_children_rec_d]; [exists (c, One), m; repeat split; auto; constructor|].
  destruct (blookup (c, Nd v t d e) m) as [r|] eqn:E.
  { exists r, m. apply blookup_some in E. auto. }
  pose proof (full_then _ _ _ _ _ _ F) as Ft. pose proof (full_else _ _ _ _ _ _ F) as Fe. destruct (v <? ls) eqn:E1.
  - destruct (IHt c m Ft Hm) as (x & m1 & -> & R1 & H1). cbn [bind]. destruct (IHe (xorb c d) m1 Fe H1) as (y & m2 & -> & R2 & H2). cbn [bind].
    do 2 eexists. split; [reflexivity|]. assert (R : rebuilt M K A (c, Nd v t d e) (ite M (bvar v) x y)) by now constructor. split; [exact R|]. now apply memo_add.
  - apply Nat.ltb_ge in E1. destruct (v <=? le) eqn:E2; [|exists (c, Nd v t d e), m; repeat split; auto; constructor].
    apply Nat.leb_le in E2. assert (Av : A v) by (split; auto). assert (Hk : In (if sub then bnot bone else bone) K) by now left.
    destruct (at_full mc t c Ft) as (tc & ->). destruct (at_full mc e _ Fe) as (ec & ->). cbn [bind].
    destruct (Bool.eqb rh (dgtb tc ec)).
    + destruct (IHe (xorb c d) m Fe Hm) as (y & m2 & -> & R2 & H2). cbn [bind]. do 2 eexists. split; [reflexivity|].
      match goal with |- rebuilt _ _ _ ?a ?b /\ _ => assert (R : rebuilt M K A a b) by now constructor end. split; [exact R|]. now apply memo_add.
    + destruct (IHt c m Ft Hm) as (x & m1 & -> & R1 & H1). cbn [bind]. do 2 eexists. split; [reflexivity|].
      match goal with |- rebuilt _ _ _ ?a ?b /\ _ => assert (R : rebuilt M K A a b) by now constructor end. split; [exact R|]. now apply memo_add.
Qed.
Lemma in_consts (b : bool) : In (if b then bone else bnot bone) [bone; bnot bone].
Proof. destruct b; cbn; auto. Qed.
Lemma round_d_rebuilt M ls mc n : let K := [bone; bnot bone] in let A := fun v => ls <= v in
  forall c m, full mc n c -> memo_rebuilt M K A m ->
  exists r m', round_rec_d M n c ls mc m = Ok (r, m') /\ rebuilt M K A (c, n) r /\ memo_rebuilt M K A m'.
Proof.
  intros K A. induction n as [|v t IHt d e IHe]; intros c m F Hm; cbn [round_rec_d]; [exists (c, One), m; repeat split; auto; constructor|].
  destruct (blookup (c, Nd v t d e) m) as [r|] eqn:E.
  { exists r, m. apply blookup_some in E. auto. }
  pose proof (full_then _ _ _ _ _ _ F) as Ft. pose proof (full_else _ _ _ _ _ _ F) as Fe. destruct (v <? ls) eqn:E1.
  - destruct (IHt c m Ft Hm) as (x & m1 & -> & R1 & H1). cbn [bind]. destruct (IHe (xorb c d) m1 Fe H1) as (y & m2 & -> & R2 & H2). cbn [bind].
    do 2 eexists. split; [reflexivity|]. assert (R : rebuilt M K A (c, Nd v t d e) (ite M (bvar v) x y)) by now constructor. split; [exact R|]. now apply memo_add.
  - apply Nat.ltb_ge in E1. destruct (blookup_key (c, Nd v t d e) mc) as [q Eq]; [apply F, in_edges_refl|]. rewrite Eq.
    do 2 eexists. split; [reflexivity|]. pose proof (r_stop M K A c v t d e _ E1 (in_consts (dgtb q (DFin (1 # 2))))) as R. split; [exact R|]. now apply memo_add.
Qed.
Lemma best_d_rebuilt M ls le mc n : let K := [bone; bnot bone] in let A := fun v => ls <= v <= le in
  forall c m, full mc n c -> memo_rebuilt M K A m ->
  exists r m', round_best_rec_d M n c ls le mc m = Ok (r, m') /\ rebuilt M K A (c, n) r /\ memo_rebuilt M K A m'.
Proof.
  intros K A. assert (K1 : In bone K) by (cbn; auto). assert (K0 : In (bnot bone) K) by (cbn; auto).
  induction n as [|v t IHt d e IHe]; intros c m F Hm; cbn [round_best_rec_d]; [exists (c, One), m; repeat split; auto; constructor|].
  destruct (blookup (c, Nd v t d e) m) as [r|] eqn:E.
  { exists r, m. apply blookup_some in E. auto. }
  pose proof (full_then _ _ _ _ _ _ F) as Ft. pose proof (full_else _ _ _ _ _ _ F) as Fe. destruct (v <? ls) eqn:E1.
  - destruct (IHt c m Ft Hm) as (x & m1 & -> & R1 & H1). cbn [bind]. destruct (IHe (xorb c d) m1 Fe H1) as (y & m2 & -> & R2 & H2). cbn [bind].
    do 2 eexists. split; [reflexivity|]. assert (R : rebuilt M K A (c, Nd v t d e) (ite M (bvar v) x y)) by now constructor. split; [exact R|]. now apply memo_add.
  - apply Nat.ltb_ge in E1. destruct (v <=? le) eqn:E2; [|exists (c, Nd v t d e), m; repeat split; auto; constructor].
    apply Nat.leb_le in E2. assert (Av : A v) by (split; auto).
    destruct (at_full mc t c Ft) as (tc & ->). destruct (at_full mc e _ Fe) as (ec & ->). cbn [bind].
    destruct (IHt c m Ft Hm) as (x & m1 & -> & R1 & H1). destruct (IHe (xorb c d) m Fe Hm) as (y & m2 & -> & R2 & H2).
    destruct (_ && _); [|destruct (_ && _); [|destruct (_ && _); [|destruct (_ && _)]]]; cbn [bind]; do 2 eexists; (split; [reflexivity|]);
      match goal with |- rebuilt _ _ _ ?a ?b /\ _ => assert (R : rebuilt M K A a b) end; try (now constructor); try (split; [exact R|]; now apply memo_add).
    apply r_both; auto; apply in_consts.
Qed.

Definition result_facts (M : mgr) (ls le i : nat) (f r : bdd) : Prop :=
  wf M r /\ (forall v, In v (support r) -> In v (support f))
  /\ ((forall v, In v (support f) -> v < ls) -> r = f)
  /\ (i <> 6 -> (forall v, In v (support f) -> ~ ls <= v <= le) -> r = f)
  /\ (In i [0; 1; 4] -> forall a, ev r a = true -> ev f a = true)
  /\ (In i [2; 3; 5] -> forall a, ev f a = true -> ev r a = true).
Lemma rebuilt_facts M ls le i f r K A : wf M f -> rebuilt M K A f r -> (forall k, In k K -> k = bone \/ k = bnot bone) ->
  (forall v, A v -> ls <= v) -> (i <> 6 -> forall v, A v -> ls <= v <= le) ->
  (In i [0; 1; 4] -> K = [bnot bone]) -> (In i [2; 3; 5] -> K = [bone]) -> result_facts M ls le i f r.
Proof.
  intros W R HK A1 A2 S1 S2. pose proof (rebuilt_wf M K A HK f r R W) as Wr.
  assert (U : (forall v, In v (support f) -> ~ A v) -> r = f).
  { intro N. apply (canonical M); auto. intro a. apply (rebuilt_outside M K A f r a R). intros v Hv. apply N. now apply support_in. }
  repeat split.
  - exact Wr.
  - apply (support_shrinks M f r W Wr). intros v b a N. exact (rebuilt_notin M K A HK f r v b a R N).
  - intro H. apply U. intros v Hv Av. pose proof (H v Hv). pose proof (A1 v Av). lia.
  - intros Hi H. apply U. intros v Hv Av. apply (H v Hv). now apply A2.
  - intros Hi a. exact (rebuilt_subset M K A f r a (S1 Hi) R).
  - intros Hi a. exact (rebuilt_superset M K A f r a (S2 Hi) R).
Qed.
Lemma operators_d_facts M ls le i op f : nth_error (operators_d M ls le) i = Some op -> wf M f -> exists r, op f = Ok r /\ result_facts M ls le i f r.
Proof.
  intros E W. destruct f as [c n]. pose proof (minterms_full (c, n)) as Fm. pose proof (solutions_full (c, n)) as Fs. cbn [fst snd] in Fm, Fs.
  assert (NIL : forall K A, memo_rebuilt M K A []) by (intros K A k r []).
  assert (RC : forall mc rh sub, full mc n c -> (In i [0; 1; 4] -> sub = true) -> (In i [2; 3; 5] -> sub = false) -> 
     exists r m', remove_children_rec_d M n c ls le mc [] rh sub = Ok (r, m') /\ result_facts M ls le i (c, n) r).
  { intros mc rh sub F S1 S2. destruct (remove_d_rebuilt M ls le mc rh sub n c [] F (NIL _ _)) as (r & m' & E' & R & _). exists r, m'. split; [exact E'|].
    apply (rebuilt_facts M ls le i (c, n) r _ _ W R); auto; try tauto.
    - destruct sub; intros k [<-|[]]; auto.
    - intro Hi. now rewrite (S1 Hi).
    - intro Hi. now rewrite (S2 Hi). }
  destruct i as [|[|[|[|[|[|[|[|i]]]]]]]]; cbn [operators_d nth_error] in E; [..|now destruct i]; injection E as <-.
  - destruct (RC (count_minterms_d (c, n)) false true Fm) as (r & m' & E' & R); [auto|intros [H|[H|[H|[]]]]; discriminate|].
    exists r. split; [|exact R]. unfold subset_light_child_d, round_any_d. cbn [fst snd]. now rewrite E'.
  - destruct (RC (count_minterms_d (c, n)) true true Fm) as (r & m' & E' & R); [auto|intros [H|[H|[H|[]]]]; discriminate|].
    exists r. split; [|exact R]. unfold subset_heavy_child_d, round_any_d. cbn [fst snd]. now rewrite E'.
  - destruct (RC (count_minterms_d (c, n)) false false Fm) as (r & m' & E' & R); [intros [H|[H|[H|[]]]]; discriminate|auto|].
    exists r. split; [|exact R]. unfold superset_light_child_d, round_any_d. cbn [fst snd]. now rewrite E'.
  - destruct (RC (count_minterms_d (c, n)) true false Fm) as (r & m' & E' & R); [intros [H|[H|[H|[]]]]; discriminate|auto|].
    exists r. split; [|exact R]. unfold superset_heavy_child_d, round_any_d. cbn [fst snd]. now rewrite E'.
  - destruct (RC (count_solutions_d (c, n)) false true Fs) as (r & m' & E' & R); [auto|intros [H|[H|[H|[]]]]; discriminate|].
    exists r. split; [|exact R]. unfold round_down_d. cbn [fst snd]. now rewrite E'.
  - destruct (RC (count_solutions_d (c, n)) false false Fs) as (r & m' & E' & R); [intros [H|[H|[H|[]]]]; discriminate|auto|].
    exists r. split; [|exact R]. unfold round_up_d. cbn [fst snd]. now rewrite E'.
  - destruct (round_d_rebuilt M ls (count_minterms_d (c, n)) n c [] Fm (NIL _ _)) as (r & m' & E' & R & _). exists r. split.
    + unfold round_bdd_d. cbn [fst snd]. now rewrite E'.
    + apply (rebuilt_facts M ls le 6 (c, n) r _ _ W R); [intros k [<-|[<-|[]]]; auto|auto|congruence|intros [H|[H|[H|[]]]]; discriminate..].
  - destruct (best_d_rebuilt M ls le (count_minterms_d (c, n)) n c [] Fm (NIL _ _)) as (r & m' & E' & R & _). exists r. split.
    + unfold round_best_d. cbn [fst snd]. now rewrite E'.
    + apply (rebuilt_facts M ls le 7 (c, n) r _ _ W R); [intros k [<-|[<-|[]]]; auto|intros v [H _]; auto|auto|intros [H|[H|[H|[]]]]; discriminate..].
Qed.
