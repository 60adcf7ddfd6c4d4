(** Consequences of underflow and overflow *)
From Coq Require Import List Bool Arith ZArith QArith Lia Lqa.
From Verif Require Import Res Cudd CuddFacts Spec SpecFacts SpecFloat Float FloatFacts Helpers HelpersFacts HelpersFacts2 Counting CountFacts
  Metrics Operators LevelFacts OrderFacts Ieee IeeeFacts IeeeFacts4.
Import ListNotations.
Open Scope nat_scope.

Lemma chain_of M n f : index_order M -> wf M f -> (forall a, ev f a = forallb a (seq 0 n)) -> f = (false, chain 0 n).
Proof. intros HI W E. apply (canonical M); auto; [now apply chain_wf|]. intro a. now rewrite E, chain_ev. Qed.
Lemma random_all n : 1076 <= n -> forall rand_max draws, length draws = n ->
  exists l, random_satisfying_input_d rand_max (false, chain 0 n) (count_minterms_d (false, chain 0 n)) n draws = Ok l
    /\ ev (false, chain 0 n) (asg_ints l) = false.
Proof.
  intros Hn rm [|d draws] L; [cbn in L; lia|]. destruct (underflow_random n rm d draws Hn L) as (l & E & _ & V). exists (0%Z :: l). auto.
Qed.
Lemma underflow_facts M n f : index_order M -> wf M f -> (forall a, ev f a = forallb a (seq 0 n)) ->
  (1075 <= n -> exists v, blookup f (count_minterms_d f) = Some (DFin v) /\ (v == 0)%Q)
  /\ (1076 <= n -> subset_light_child M f 0 0 = Ok f /\ subset_light_child_d M f 0 0 = Ok bzero
      /\ forall rand_max draws, length draws = n ->
         exists l, random_satisfying_input_d rand_max f (count_minterms_d f) n draws = Ok l /\ ev f (asg_ints l) = false).
Proof.
  intros HI W E. rewrite (chain_of M n f HI W E). split.
  - intro Hn. destruct (underflow_count n Hn) as (v & H & r & -> & Z). exists r. auto.
  - intro Hn. split; [|split; [now apply underflow_subset|now apply random_all]]. destruct n as [|n]; [lia|]. now apply chain_kept.
Qed.
Lemma underflow_random_refuted : exists (M : mgr) (f : bdd) (n : nat),
  index_order M /\ wf M f /\ depends_below n f /\ (exists a, ev f a = true)
  /\ forall rand_max draws, length draws = n ->
     exists l, random_satisfying_input_d rand_max f (count_minterms_d f) n draws = Ok l /\ ev f (asg_ints l) = false.
Proof.
  exists (id_mgr 1076), (false, chain 0 1076), 1076. assert (I : index_order (id_mgr 1076)) by (intro i; reflexivity).
  split; [exact I|]. split; [now apply chain_wf|]. split; [|split].
  - intros a b H. rewrite !chain_ev. assert (X : forall l, (forall x, In x l -> x < 1076) -> forallb a l = forallb b l).
    { induction l as [|x l IH]; intro Hl; cbn [forallb]; [reflexivity|]. rewrite (H x), IH; auto; [intros y Hy|]; apply Hl; cbn; auto. }
    apply X. intros x Hx. apply in_seq in Hx. lia.
  - exists (fun _ => true). rewrite chain_ev. now apply forallb_forall.
  - apply random_all. lia.
Qed.

Lemma error_rate_wide count M f g : Forall (wf M) f -> Forall (wf M) g -> length f = length g ->
  (exists b v, In b (f ++ g) /\ In v (support b) /\ 1024 <= v) ->
  error_rate_d count M f g = Ok (DFin 0) \/ error_rate_d count M f g = Ok DNaN.
Proof.
  intros Wf Wg L (b & v & Hb & Hv & H). apply error_rate_over; auto. apply support_in in Hv.
  assert (v < terminal_level [f; g]); [|lia]. apply in_app_or in Hb as [Hb|Hb].
  - apply (terminal_level_gt [f; g] f b v); cbn; auto.
  - apply (terminal_level_gt [f; g] g b v); cbn; auto.
Qed.

Lemma overflow_round_down : exists (M : mgr) (f r r' : bdd), index_order M /\ wf M f /\ depends_below 1031 f
  /\ round_down_d M f 0 0 = Ok r /\ round_down M f 0 0 = Ok r'
  /\ (forall a, ev r a = negb (a 0) && (a 1 && (a 2 || a 1030))) /\ (forall a, ev r' a = a 0 && (a 1 || a 1030)).
Proof.
  set (M := id_mgr 1031). set (f := ite M (bvar 0) (bor M (bvar 1) (bvar 1030)) (band M (bvar 1) (bor M (bvar 2) (bvar 1030)))).
  exists M, f, (band M (bnot (bvar 0)) (band M (bvar 1) (bor M (bvar 2) (bvar 1030)))), (band M (bvar 0) (bor M (bvar 1) (bvar 1030))).
  split; [intro i; reflexivity|]. split; [unfold f; auto 10 with wf|]. split.
  { intros a b H. unfold f. rewrite !ev_ite, !ev_and, !ev_or, !ev_var, (H 0), (H 1), (H 2), (H 1030) by lia. reflexivity. }
  split; [vm_compute; reflexivity|]. split; [vm_compute; reflexivity|].
  split; intro a; rewrite ?ev_and, ?ev_not, ?ev_and, ?ev_or, ?ev_var; reflexivity.
Qed.
Lemma other_order_round_down : exists (M : mgr) (f r r' : bdd), wf M f /\ read_size M = 3 /\ depends_below 3 f
  /\ In (DInf false) (map snd (count_solutions_d f))
  /\ round_down_d M f 2 2 = Ok r /\ (forall a, ev r a = negb (a 2) && ev f a)
  /\ subset_light_child_d M f 2 2 = Ok r' /\ (forall a, ev r' a = a 2 && ev f a)
  /\ (average 3 (fun a => b2q (ev r a)) == 1 # 8)%Q /\ (average 3 (fun a => b2q (ev r' a)) == 3 # 8)%Q.
Proof.
  set (M := reversed_mgr 3 3). set (f := bor M (bor M (band M (bvar 0) (bvar 1)) (band M (bvar 0) (bvar 2))) (band M (bvar 1) (bvar 2))).
  exists M, f, (band M (bnot (bvar 2)) f), (band M (bvar 2) f).
  split; [unfold f; auto 10 with wf|]. split; [reflexivity|]. split.
  { intros a b H. unfold f. rewrite !ev_or, !ev_and, !ev_var, (H 0), (H 1), (H 2) by lia. reflexivity. }
  split; [vm_compute; auto|]. split; [vm_compute; reflexivity|]. split; [intro a; now rewrite ev_and, ev_not, ev_var|].
  split; [vm_compute; reflexivity|]. split; [intro a; now rewrite ev_and, ev_var|]. split; vm_compute; reflexivity.
Qed.
