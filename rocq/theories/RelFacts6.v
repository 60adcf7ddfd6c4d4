(** Closing lemmas for PropRelMetrics.v *)
From Coq Require Import List Bool Arith ZArith QArith Qround Lia Lqa Permutation Sorted.
From Verif Require Import Res Cudd CuddFacts Spec SpecFacts Helpers HelpersFacts HelpersFacts2 Counting AddFacts CountFacts PathFacts Metrics MetricsFacts MetricsFacts2 MetricsFacts3 MetricsFacts4 RelMetrics RelFacts RelFacts2 RelFacts3 RelFacts4 RelFacts5.
Import ListNotations.
Open Scope nat_scope.

Lemma max_exists n F : dep_belowQ n F -> exists q, is_maxQ F q.
Proof.
  intro H.
  assert (X : forall l, l <> [] -> exists x, In x l /\ forall y, In y l -> (F (asg_of y) <= F (asg_of x))%Q).
  { induction l as [|x l IH]; intros Hl; [congruence|]. destruct l as [|x' l].
    - exists x. split; [now left|]. intros y [->|[]]. apply Qle_refl.
    - destruct IH as (m & Hm & HM); [discriminate|]. destruct (Qlt_le_dec (F (asg_of m)) (F (asg_of x))) as [L|L].
      + exists x. split; [now left|]. intros y [->|Hy]; [apply Qle_refl|]. specialize (HM y Hy). lra.
      + exists m. split; [now right|]. intros y [->|Hy]; auto. }
  destruct (X (all_inputs n)) as (x & Hx & HX).
  { intro E. pose proof (in_restrict n (fun _ => false)) as I. rewrite E in I. exact I. }
  exists (F (asg_of x)). split; [exists (asg_of x); reflexivity|].
  intro a. specialize (HX _ (in_restrict n a)).
  rewrite <- (H (asg_of (restrict n a)) a); auto. intros i Hi. now apply restrict_spec.
Qed.

Lemma wrel_dep n f g r : below n f -> below n g -> dep_belowQ n (wrel r f g).
Proof.
  intros Bf Bg a b H. unfold wrel. 
  assert (Uf : uval f a = uval f b) by now apply (below_uval n).
  assert (Ug : uval g a = uval g b) by now apply (below_uval n).
  assert (Sf : sval f a = sval f b) by now apply (below_sval n).
  assert (Sg : sval g a = sval g b) by now apply (below_sval n).
  destruct r; cbn [wrapped value]; rewrite ?Uf, ?Ug, ?Sf, ?Sg; reflexivity.
Qed.

Lemma wcre_search_full M clog2 n f g r e precision : clog2_ok clog2 -> wfs M f -> wfs M g -> below n f -> below n g ->
  f <> [] -> (r = TwosComplement -> g <> []) -> Nat.max (length f) (length g) <= 126 -> 16 <= e ->
  (1 # 65536 <= precision < 1)%Q ->
  exists top, is_maxQ (wrel r f g) top /\
  forall fuel, 142 <= fuel ->
  ((top == 0)%Q -> wcre_search M clog2 f g e precision r fuel = Some (Ok 0%Q))
  /\ ((0 < top < 1)%Q -> wcre_search M clog2 f g e precision r fuel = Some UB)
  /\ ((1 <= top)%Q -> exists q, wcre_search M clog2 f g e precision r fuel = Some (Ok q)
        /\ (top - precision / 2 <= q)%Q /\ (q < (3 # 2) * top)%Q
        /\ ((forall a, (wrel r f g a == top)%Q) -> (q <= top + precision / 2)%Q)).
Proof.
  intros HC Wf Wg Bf Bg Hf Hg HL He Hp. destruct (max_exists n (wrel r f g) (wrel_dep n f g r Bf Bg)) as (top & Ht).
  exists top. split; auto. now apply (wcre_search_spec M clog2 n).
Qed.

Ltac wfs_tac := repeat (apply Forall_cons; [auto with wf|]); apply Forall_nil.

(** witness for C43: f is the constant 4, the approximation is 9 if x0 and 4 otherwise *)
Definition four : list bdd := [bzero; bzero; bone; bzero].
Definition nine_or_four : list bdd := [bvar 0; bzero; bnot (bvar 0); bvar 0].

Lemma search_bad : exists (M : mgr) (clog2 : Z -> nat) (f g : list bdd),
  clog2_ok clog2 /\ Forall (wf M) f /\ Forall (wf M) g /\ length f = length g /\
  (exists top q, is_maxQ (fun a => rel (uval f a) (uval g a)) top
     /\ wcre_search M clog2 f g 16 (1 # 10000) BaseTwo 142 = Some (Ok q) /\ (top + (1 # 5) < q)%Q)
  /\ (exists g' top', length f = length g' /\ Forall (wf M) g' /\ is_maxQ (fun a => rel (uval f a) (uval g' a)) top'
     /\ wcre_search M clog2 f g' 16 (1 # 10000) BaseTwo 142 = Some UB).
Proof.
  exists (id_mgr 1), (fun z => Z.to_nat (Z.log2_up z)), four, nine_or_four.
  split; [exact log2_up_ok|]. split; [|split; [|split; [reflexivity|split]]].
  - wfs_tac.
  - wfs_tac.
  - eexists (5 # 4)%Q, _. split; [|split; [vm_compute; reflexivity|vm_compute; reflexivity]]. split.
    + exists (fun _ => true). vm_compute. reflexivity.
    + intro a. unfold rel, four, nine_or_four. cbn [uval]. rewrite ev_not. destruct (ev (bvar 0) a); vm_compute; discriminate.
  - exists [bone; bzero; bone; bzero], (1 # 4)%Q. split; [reflexivity|]. split; [|split].
    + wfs_tac.
    + split; [exists (fun _ => true); vm_compute; reflexivity|]. intro a. vm_compute. discriminate.
    + vm_compute. reflexivity.
Qed.

(** an instance of std::sort *)
Fixpoint insert_down (p : nat * Q) (l : list (nat * Q)) : list (nat * Q) :=
  match l with
  | [] => [p]
  | q :: l' => if Qle_bool (snd q) (snd p) then p :: l else q :: insert_down p l'
  end.
Definition sort_down (l : list (nat * Q)) : list (nat * Q) := fold_right insert_down [] l.

Lemma sort_down_ok : sorts_down sort_down.
Proof.
  assert (I : forall p l, Permutation (p :: l) (insert_down p l)).
  { intros p l. induction l as [|q l IH]; cbn [insert_down]; [apply Permutation_refl|]. destruct (Qle_bool _ _); [apply Permutation_refl|].
    eapply Permutation_trans; [apply perm_swap|]. now constructor. }
  assert (S : forall p l, StronglySorted (fun p q => (snd q <= snd p)%Q) l -> StronglySorted (fun p q => (snd q <= snd p)%Q) (insert_down p l)).
  { intros p l. induction 1 as [|q l HS IH HF]; cbn [insert_down]; [repeat constructor|].
    destruct (Qle_bool (snd q) (snd p)) eqn:E.
    - apply Qle_bool_iff in E. constructor; [constructor; auto|]. constructor; auto. eapply Forall_impl; [|exact HF]. cbn. intros x Hx. lra.
    - assert (L : (snd p <= snd q)%Q). { destruct (Qlt_le_dec (snd q) (snd p)) as [L|L]; auto. apply Qlt_le_weak, Qle_bool_iff in L. congruence. }
      constructor; auto. apply Forall_forall. intros x Hx.
      assert (Hx' : In x (p :: l)) by (apply (Permutation_in _ (Permutation_sym (I p l)) Hx)). destruct Hx' as [<-|Hx']; auto. rewrite Forall_forall in HF. auto. }
  intro l. unfold sort_down. induction l as [|p l [IH1 IH2]]; cbn [fold_right]; [split; constructor|]. split.
  - eapply Permutation_trans; [|apply I]. now constructor.
  - now apply S.
Qed.

Lemma efficient_bad : exists (M : mgr) (f g : list bdd), Forall (wf M) f /\ Forall (wf M) g /\ length f = length g
  /\ below (read_size M) f /\ below (read_size M) g
  /\ forall sort rm draws samples, sorts_down sort -> error_rate_efficient_sampling M sort rm draws f g samples = UB.
Proof.
  exists (id_mgr 1), [bvar 0; bzero], [bzero; bzero].
  assert (W1 : wfs (id_mgr 1) [bvar 0; bzero]) by (wfs_tac).
  assert (W2 : wfs (id_mgr 1) [bzero; bzero]) by (wfs_tac).
  assert (B1 : below 1 [bvar 0; bzero]).
  { constructor; [|constructor; [intros a b _; reflexivity|constructor]]. intros a b H. rewrite !ev_var. apply H. lia. }
  assert (B2 : below 1 [bzero; bzero]) by (repeat (constructor; [intros a b _; reflexivity|]); constructor).
  repeat (split; [auto; fail|]). intros sort rm draws samples HS.
  apply efficient_ub; auto; try discriminate.
  intros (i & j & Hi & Hj & Hij & (a & Ha) & (b & Hb)). cbn [length] in Hi, Hj. unfold wrong in *.
  assert (C : i = 1 \/ j = 1) by lia. destruct C as [-> | ->]; [cbn in Ha|cbn in Hb]; discriminate.
Qed.

Lemma sampling_ranges M sort rm draws f g samples : sorts_down sort -> 1 <= read_size M -> wfs M f -> wfs M g ->
  below (read_size M) f -> below (read_size M) g -> (1 <= samples < 2 ^ 31)%Z ->
  let n := read_size M in
  (length f = length g ->
     (exists q, error_rate_sampling M draws f g samples = Ok (Fin q) /\ (0 <= q <= 1)%Q
        /\ ((forall a, differ f g a = false) -> (q == 0)%Q) /\ ((forall a, differ f g a = true) -> (q == 1)%Q))
     /\ (length f = 1 -> exists q, error_rate_efficient_sampling M sort rm draws f g samples = Ok q /\ (q == output_rate n f g 0)%Q)
     /\ ((exists i j, i < length f /\ j < length f /\ i <> j /\ (exists a, wrong f g i a = true) /\ (exists a, wrong f g j a = true)) ->
         exists q, error_rate_efficient_sampling M sort rm draws f g samples = Ok q
           /\ (forall i, i < length f -> (output_rate n f g i <= q)%Q) /\ (q <= 1)%Q
           /\ (q <= sumQ (map (output_rate n f g) (seq 0 (length f))))%Q))
  /\ (length f <> length g -> error_rate_sampling M draws f g samples = Abort
        /\ error_rate_efficient_sampling M sort rm draws f g samples = Abort).
Proof.
  intros HS HT Wf Wg Bf Bg Hs n. split; [intro HL; split; [|split]|intro HL; split].
  - now apply error_rate_sampling_spec.
  - intro H1. apply efficient_single; auto. intro E. subst. discriminate.
  - intro H2. apply efficient_range; auto. intro E. subst. destruct H2 as (i & j & Hi & _). cbn in Hi. lia.
  - now apply error_rate_sampling_other.
  - unfold error_rate_efficient_sampling. now rewrite differences_abort.
Qed.

Lemma sampling_exact M sort rm draws f g samples : sorts_down sort -> 1 <= read_size M -> index_order M -> wfs M f -> wfs M g ->
  below (read_size M) f -> below (read_size M) g -> (1 <= samples < 2 ^ 31)%Z -> (forall i, 0 < draws i <= rm)%Z ->
  let n := read_size M in
  length f = length g ->
  (exists i j, i < length f /\ j < length f /\ i <> j /\ (exists a, wrong f g i a = true) /\ (exists a, wrong f g j a = true)) ->
  ((exists j, j < length f /\ forall i a, i < length f -> wrong f g i a = true -> wrong f g j a = true)
   \/ ((forall i j a, i < length f -> j < length f -> i <> j -> wrong f g i a = true -> wrong f g j a = false)
       /\ forall i, i < length f -> (output_rate n f g i == 0)%Q
            \/ (sumQ (map (output_rate n f g) (seq 0 (length f))) <= inject_Z samples * output_rate n f g i)%Q)) ->
  exists q, error_rate_efficient_sampling M sort rm draws f g samples = Ok q
    /\ (q == average n (fun a => b2q (differ f g a)))%Q.
Proof.
  intros HS HT HX Wf Wg Bf Bg Hs Hd n HL H2 C.
  assert (Hne : f <> []) by (intro E; subst; destruct H2 as (i & j & Hi & _); cbn in Hi; lia).
  destruct C as [(j & Hj & C)|[C1 C2]].
  - apply (efficient_nested M sort f g HS HL Wf Wg Bf Bg Hne rm draws samples j); auto.
  - apply (efficient_disjoint M sort f g HS HL Wf Wg Bf Bg Hne rm draws samples); auto.
Qed.

Lemma efficient_ub_all M sort rm draws f g samples : sorts_down sort -> 1 <= read_size M -> wfs M f -> wfs M g ->
  below (read_size M) f -> below (read_size M) g -> length f = length g -> length f <> 1 ->
  ~ (exists i j, i < length f /\ j < length f /\ i <> j /\ (exists a, wrong f g i a = true) /\ (exists a, wrong f g j a = true)) ->
  error_rate_efficient_sampling M sort rm draws f g samples = UB.
Proof.
  intros HS HT Wf Wg Bf Bg HL H1 H2. destruct f as [|x f].
  - destruct g; [|discriminate]. unfold error_rate_efficient_sampling. cbn [differences length Nat.eqb assert_ bind xor_vec].
    cbv zeta. destruct (HS (activations_of [] (read_size M))) as [HP _]. cbn [activations_of length seq combine map] in *.
    apply Permutation_nil in HP. rewrite HP. reflexivity.
  - apply efficient_ub; auto; try discriminate. cbn [length] in *. lia.
Qed.
