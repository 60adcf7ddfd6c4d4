(** terminal_level and the theorems that depend on it, stated with [first_unused] *)
From Coq Require Import List Bool Arith ZArith QArith Lia.
From Verif Require Import Res Cudd CuddFacts Spec SpecFacts Helpers HelpersFacts HelpersFacts2 Counting AddFacts CountFacts PathFacts
  Operators OperatorFacts OperatorFacts3 OperatorFacts4 Minimize MinimizeFacts3 MinimizeFacts5 MetricsFacts.
Import ListNotations.
Open Scope nat_scope.

Lemma first_unused_unique used S T : first_unused used S -> first_unused used T -> S = T.
Proof.
  intros (S1 & S2 & S3) (T1 & T2 & T3). destruct (Nat.lt_trichotomy S T) as [L|[E|L]]; auto; exfalso.
  - assert (K : used (T - 1)) by (apply T3; lia). apply S2 in K. lia.
  - assert (K : used (S - 1)) by (apply S3; lia). apply T2 in K. lia.
Qed.

Lemma terminal_level_first fs :
  ((forall f, In f fs -> f = []) -> terminal_level fs = 0)
  /\ ((exists f b, In f fs /\ In b f) -> first_unused (fun i => exists f, In f fs /\ vars_in f i) (terminal_level fs)).
Proof.
  split.
  - intro H. unfold terminal_level. induction fs as [|f fs IH]; [reflexivity|]. cbn [fold_left].
    rewrite (H f) by now left. cbn [fold_left]. apply IH. intros. apply H. now right.
  - intros (f & b & Hf & Hb). split; [|split].
    + destruct (tl_outer fs 0) as (_ & H & _). specialize (H f b Hf Hb). unfold terminal_level. lia.
    + intros i (f' & Hf' & b' & Hb' & Hi). eapply terminal_level_gt; eauto.
    + intro L. destruct (terminal_level_attained fs L) as (f' & b' & Hf' & Hb' & Hi). exists f'. split; auto.
      exists b'. split; auto. now apply support_in.
Qed.

Lemma levels_of_terminal f T : levels_of f T -> T = terminal_level [f].
Proof.
  intros [H0 H1]. destruct (terminal_level_first [f]) as [A B]. destruct f as [|b f].
  - rewrite H0 by auto. symmetry. apply A. intros g [<-|[]]. reflexivity.
  - apply (first_unused_unique (vars_in (b :: f))); [apply H1; discriminate|].
    destruct B as (B1 & B2 & B3); [exists (b :: f), b; cbn [In]; auto|]. split; [auto|split].
    + intros i Hi. apply B2. exists (b :: f). cbn [In]. auto.
    + intro L. destruct (B3 L) as (g & [<-|[]] & Hg). exact Hg.
Qed.

Lemma add_term_level_first A : first_unused (fun i => In i (avars A)) (add_term_level A).
Proof.
  split; [unfold add_term_level; lia|]. split; [intros; now apply add_term_level_lt|]. intro L.
  unfold add_term_level in *. replace (list_max0 (sorted_set (avars A)) + 1 - 1) with (list_max0 (sorted_set (avars A))) by lia.
  apply sorted_set_in. apply list_max0_in. intro E. rewrite E in L. cbn in L. lia.
Qed.

Lemma histogram_levels M A t : index_order M -> aok M 0 A -> first_unused (fun i => In i (avars A)) t -> t <= 63 ->
  exists r, add_terminal_values A = Ok r /\ NoDup (map fst r)
   /\ (forall v, In v (map fst r) <-> exists a, aev A a = v)
   /\ (avars A <> [] ->
        (forall v c, In (v, c) r -> c = Z.of_nat (count_inputs t (fun a => Qeq_bool (aev A a) v)))
        /\ fold_right Z.add 0%Z (map snd r) = (2 ^ Z.of_nat t)%Z)
   /\ (forall q, A = Leaf q -> r = [(q, 1%Z)]).
Proof.
  intros HI Hok HT L. rewrite (first_unused_unique _ _ _ HT (add_term_level_first A)) in *.
  destruct (histogram_full M A HI Hok L) as (r & R & N & V & _ & C). exists r. auto.
Qed.

Lemma solutions_levels M f T : index_order M -> wf M f -> levels_of [f] T ->
  NoDup (map fst (count_solutions f))
  /\ (forall k, In k (map fst (count_solutions f)) <-> In k (reachable f))
  /\ (forall k v, In (k, v) (count_solutions f) ->
       (v * inject_Z (2 ^ Z.of_nat (start_level T k)) == sum_inputs T (fun a => b2q (ev k a)))%Q).
Proof. intros HI Hf HT. rewrite (levels_of_terminal _ _ HT). exact (count_solutions_full M f HI Hf). Qed.

Lemma down_up_levels M f ls le T : index_order M -> wf M f -> levels_of [f] T ->
  (exists r, round_down M f ls le = Ok r /\ at_range ls le (light_const (own_solutions T) false) f (ev r))
  /\ (exists r, round_up M f ls le = Ok r /\ at_range ls le (light_const (own_solutions T) true) f (ev r)).
Proof. intros HI Hf HT. rewrite (levels_of_terminal _ _ HT). exact (down_up_choice M f ls le HI Hf). Qed.

Lemma down_up_same_levels M f ls le T : index_order M -> wf M f -> levels_of [f] T ->
  (forall c v t d e, In (c, Nd v t d e) (reachable f) -> ls <= v <= le ->
     start_level T (c, t) = start_level T (xorb c d, e)) ->
  (exists r, round_down M f ls le = Ok r /\ at_range ls le (light_const (density T) false) f (ev r))
  /\ (exists r, round_up M f ls le = Ok r /\ at_range ls le (light_const (density T) true) f (ev r)).
Proof. intros HI Hf HT. rewrite (levels_of_terminal _ _ HT). exact (down_up_same_level M f ls le HI Hf). Qed.

Lemma single_levels M function ops T : levels_of function T -> let K := length ops in
  let gens := generate_single_bdd_operators M function ops in
  length gens = length function * (T * K)
  /\ forall i j k op, i < length function -> j < T -> nth_error ops k = Some op ->
     exists g, nth_error gens (i * (T * K) + (j * K + k)) = Some g
       /\ forall f, (length f <= i -> g f = UB)
          /\ forall b r, nth_error f i = Some b -> apply_operator M b op j j = Ok r ->
             exists f', g f = Ok f' /\ length f' = length f /\ nth_error f' i = Some r
               /\ forall m, m <> i -> nth_error f' m = nth_error f m.
Proof. intros HT. rewrite (levels_of_terminal _ _ HT). exact (single_generated M function ops). Qed.

Lemma multi_levels M function ops T : levels_of function T -> let K := length ops in
  let gens := generate_multi_bdd_operators M function ops in
  length gens = T * K
  /\ forall j k op, j < T -> nth_error ops k = Some op ->
     exists g, nth_error gens (j * K + k) = Some g
       /\ forall f, Forall (wf M) f -> exists f', g f = Ok f' /\ length f' = length f
          /\ forall i b, nth_error f i = Some b -> exists r, nth_error f' i = Some r /\ apply_operator M b op j j = Ok r.
Proof. intros HT. rewrite (levels_of_terminal _ _ HT). exact (multi_generated M function ops). Qed.

Lemma random_levels M rands function ops count gens T : levels_of function T ->
  generate_random_operators M rands function ops count = Ok gens ->
  length gens = count /\ forall g, In g gens -> exists op level, In op ops /\ level < T
    /\ forall f, Forall (wf M) f -> exists f', g f = Ok f' /\ length f' = length f
         /\ forall i b, nth_error f i = Some b -> exists r, nth_error f' i = Some r /\ apply_operator M b op level level = Ok r.
Proof.
  intros HT HR. rewrite (levels_of_terminal _ _ HT). destruct (random_generated M rands function ops count gens HR) as [L H].
  split; auto. intros g Hg. destruct (H g Hg) as (op & level & Ho & Hl & E). exists op, level. split; auto. split; auto.
  intros f Hf. rewrite E. destruct (mapM_ok (fun b => apply_operator M b op level level) f) as (f' & E').
  { intros b Hb. rewrite Forall_forall in Hf. destruct (apply_operator_spec M b op level (Hf b Hb)) as (r & E' & _). eauto. }
  exists f'. split; auto. destruct (mapM_nth _ _ _ E') as [L' N]. split; auto.
Qed.

Lemma levels_of_check f T : terminal_level [f] = T -> levels_of f T.
Proof.
  intros <-. destruct (terminal_level_first [f]) as [A B]. split.
  - intros ->. apply A. intros g [<-|[]]. reflexivity.
  - intro N. destruct f as [|b f]; [congruence|]. destruct B as (B1 & B2 & B3); [exists (b :: f), b; cbn [In]; auto|].
    split; [auto|split].
    + intros i Hi. apply B2. exists (b :: f). cbn [In]. auto.
    + intro L. destruct (B3 L) as (g & [<-|[]] & Hg). exact Hg.
Qed.
