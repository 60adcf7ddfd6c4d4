(** The effect of draws that are zero on the limited double range and on the randomized search: proofs *)
From Coq Require Import List Bool Arith ZArith QArith Lia Lqa.
From Verif Require Import Res Cudd CuddFacts Spec SpecFacts SpecFloat SpecExact Float FloatFacts Helpers HelpersFacts HelpersFacts2 Counting AddFacts CountFacts
  Metrics RelMetrics RelFacts Rounded RoundedFacts RoundedAdd RoundedMinimize RoundedRel RoundedRelFacts Ieee IeeeFacts IeeeFacts2 IeeeFacts6 ExactFacts ExactFacts2.
Import ListNotations.
Open Scope nat_scope.

Lemma random_satisfying_input_exact_d M rm f T draws : index_order M -> wf M f ->
  (exists a, ev f a = true) -> depends_below T f -> T <= 1022 -> length draws = T ->
  Forall (fun d => 0 <= d <= rm)%Z draws -> (0 < rm <= 2 ^ 53)%Z ->
  exists l, random_satisfying_input_d rm f (count_minterms_d f) T draws = Ok l /\ length l = T
    /\ Forall (fun x => x = 0 \/ x = 1)%Z l
    /\ (ev f (fun i => nth i l 0 =? 1)%Z = false <-> exists i, i < T /\ nth i draws 1%Z = 0%Z /\ needs_false f l i).
Proof.
  intros HI W Ha D HT HL HF Hr. rewrite (random_input_d_same M T f rm T draws W D HT Hr HF).
  apply (random_satisfying_input_exact_fl 53 r53 M rm f T draws); auto; try lia. exact r53_near.
Qed.

(** 8 against 12, 13, 14 and 15: the larger errors need a false variable *)
Definition eight : list bdd := [bzero; bzero; bzero; bone].
Definition more_if_false : list bdd := [bnot (bvar 0); bnot (bvar 1); bone; bone].
Definition log2_nat (z : Z) : nat := Z.to_nat (Z.log2_up z).

Section Stuck.
Variable pick : sampler.
Variables (d f_ : list bdd) (lg : bdd) (c e : Z).
Hypothesis Hpick : forall greater, (b <- bdd_multiply_constant_u256 (id_mgr 2) log2_nat (mask (id_mgr 2) d lg) (e / Z.gcd c e) ;;
  b' <- bdd_multiply_constant_u256 (id_mgr 2) log2_nat (mask (id_mgr 2) f_ lg) (c / Z.gcd c e) ;; Ok (greater_than (id_mgr 2) b b')) = Ok greater ->
  is_zero greater = false /\ pick greater [0; 0]%Z = Ok [1; 1]%Z.
Hypothesis Hg : exists greater, (b <- bdd_multiply_constant_u256 (id_mgr 2) log2_nat (mask (id_mgr 2) d lg) (e / Z.gcd c e) ;;
  b' <- bdd_multiply_constant_u256 (id_mgr 2) log2_nat (mask (id_mgr 2) f_ lg) (c / Z.gcd c e) ;; Ok (greater_than (id_mgr 2) b b')) = Ok greater.
Hypothesis Hgcd : Z.gcd c e = 1%Z.
Variables tc te : Z.
Hypothesis Hc : eval d [1; 1]%Z = Ok tc.
Hypothesis He : eval f_ [1; 1]%Z = Ok te.
Hypothesis Hno : (u256 (c * te) <? u256 (tc * e))%Z = false.

Lemma samples_stuck greater : pick greater [0; 0]%Z = Ok [1; 1]%Z -> forall samples pos,
  rs_samples pick (fun _ => 0%Z) d f_ greater 2 samples pos c e = Ok (c, e).
Proof.
  intros Hp. induction samples as [|samples IH]; intro pos; [reflexivity|].
  cbn [rs_samples seq map]. rewrite Hp. cbn [bind]. rewrite Hc. cbn [bind]. rewrite He. cbn [bind]. rewrite Hno. apply IH.
Qed.
Lemma loop_stuck samples : forall fuel pos,
  rs_loop (id_mgr 2) log2_nat pick (fun _ => 0%Z) d f_ lg samples fuel pos c e = None.
Proof.
  destruct Hg as [greater E]. destruct (Hpick greater E) as [Z P].
  induction fuel as [|fuel IH]; intro pos; [reflexivity|]. cbn [rs_loop]. rewrite E, Z. rewrite Hgcd, !Z.div_1_r.
  change (read_size (id_mgr 2)) with 2. rewrite samples_stuck by exact P. apply IH.
Qed.
End Stuck.

Lemma search_endless samples fuel :
  wcre_randomized_search (id_mgr 2) log2_nat (2 ^ 31 - 1) (fun _ => 0%Z) eight more_if_false samples BaseTwo fuel = None.
Proof.
  unfold wcre_randomized_search.
  destruct (rs_start (id_mgr 2) log2_nat eight more_if_false BaseTwo) as [[p|[[[[d f_] lg] c] e]]| | |] eqn:E; vm_compute in E; try discriminate E.
  injection E as <- <- <- <- <-. eapply loop_stuck.
  - intros greater G. vm_compute in G. injection G as <-. split; vm_compute; reflexivity.
  - eexists. vm_compute. reflexivity.
  - reflexivity.
  - vm_compute. reflexivity.
  - vm_compute. reflexivity.
  - vm_compute. reflexivity.
Qed.
Lemma search_endless_fl samples fuel :
  wcre_randomized_search_fl (round_float 53) (id_mgr 2) log2_nat (2 ^ 31 - 1) (fun _ => 0%Z) eight more_if_false samples BaseTwo fuel = None.
Proof.
  unfold wcre_randomized_search_fl.
  destruct (rs_start (id_mgr 2) log2_nat eight more_if_false BaseTwo) as [[p|[[[[d f_] lg] c] e]]| | |] eqn:E; vm_compute in E; try discriminate E.
  injection E as <- <- <- <- <-. eapply loop_stuck.
  - intros greater G. vm_compute in G. injection G as <-. split; vm_compute; reflexivity.
  - eexists. vm_compute. reflexivity.
  - reflexivity.
  - vm_compute. reflexivity.
  - vm_compute. reflexivity.
  - vm_compute. reflexivity.
Qed.
Lemma log2_nat_ok : clog2_ok log2_nat.
Proof. exact log2_up_ok. Qed.
Lemma zero_draws_endless : exists (M : mgr) (clog2 : Z -> nat) (f g : list bdd) (rm : Z) (rand : nat -> Z),
  clog2_ok clog2 /\ index_order M /\ Forall (wf M) f /\ Forall (wf M) g /\ below (read_size M) f /\ below (read_size M) g /\ f <> []
  /\ Nat.max (length f) (length g) <= 62 /\ (forall i, 0 <= rand i < rm)%Z
  /\ forall samples fuel, wcre_randomized_search M clog2 rm rand f g samples BaseTwo fuel = None
       /\ wcre_randomized_search_fl (round_float 53) M clog2 rm rand f g samples BaseTwo fuel = None.
Proof.
  exists (id_mgr 2), log2_nat, eight, more_if_false, (2 ^ 31 - 1)%Z, (fun _ => 0%Z).
  split; [apply log2_nat_ok|]. split; [intro; reflexivity|].
  assert (W1 : Forall (wf (id_mgr 2)) eight) by (repeat (apply Forall_cons; [cbn; auto|]); apply Forall_nil).
  assert (W2 : Forall (wf (id_mgr 2)) more_if_false).
  { apply Forall_cons; [apply wf_not, wf_var|]. apply Forall_cons; [apply wf_not, wf_var|]. apply Forall_cons; [cbn; auto|]. apply Forall_cons; [cbn; auto|]. apply Forall_nil. }
  split; auto. split; auto.
  assert (B : forall (l : list bdd), (forall b, In b l -> exists i, i < 2 /\ (b = bnot (bvar i) \/ b = bone \/ b = bzero)) -> below 2 l).
  { intros l H. apply Forall_forall. intros b Hb x y Hxy. destruct (H b Hb) as (i & Hi & [-> | [-> | ->]]); [|reflexivity|reflexivity].
    unfold bnot, bvar, ev. cbn. now rewrite Hxy. }
  split; [apply B; intros b Hb; exists 0; cbn in Hb; split; [lia|]; intuition congruence|].
  split; [apply B; intros b Hb; cbn in Hb; destruct Hb as [<-|[<-|[<-|[<-|[]]]]]; [exists 0|exists 1|exists 0|exists 0]; split; auto; lia|].
  split; [discriminate|]. split; [cbn; lia|]. split; [intro; lia|].
  intros samples fuel. split; [apply search_endless|apply search_endless_fl].
Qed.
