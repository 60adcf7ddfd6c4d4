(** The value of wcre_search computed with doubles. *)
From Coq Require Import List Bool Arith ZArith QArith Lia.
From Verif Require Import Res Cudd CuddFacts Spec SpecFacts SpecFloat SpecBisect Helpers HelpersFacts HelpersFacts2 Counting Metrics RelMetrics RelFacts3 RelFacts6
  BisectFacts RoundedMinimizeFacts RoundedRel RoundedRelFacts2.
Import ListNotations.
Open Scope nat_scope.

Lemma bisection_Qeq low top precision lo hi q q' : (q == q')%Q -> bisection low top precision lo hi q -> bisection low top precision lo hi q'.
Proof.
  intros E H. induction H as [lo hi q A B|lo hi q A B C|lo hi q A B C D|lo hi m q A B C D IH|lo hi m q A B C D F IH].
  - apply ends_close; auto. now rewrite <- E.
  - apply ends_exact; auto; now rewrite <- E.
  - apply ends_masked; auto; now rewrite <- E.
  - eapply goes_up; eauto.
  - eapply goes_down; eauto.
Qed.

Lemma wcre_search_value_fl :
  forall (rnd : Q -> Q) (M : mgr) (clog2 : Z -> nat) (n : nat) (f g : list bdd) (r : NumberRepresentation) (e : nat) (precision low top : Q) (s : Z),
  keeps_floats 53 rnd -> clog2_ok clog2 -> Forall (wf M) f -> Forall (wf M) g -> below n f -> below n g ->
  f <> [] -> (r = TwosComplement -> g <> []) -> 16 <= e ->
  (1 # 65536 <= precision < 1)%Q -> (0 <= s)%Z -> (2 ^ (- s) <= precision)%Q -> (Z.of_nat (Nat.max (length f) (length g)) + s + 1 <= 53)%Z ->
  is_minQ (wrel r f g) low -> is_maxQ (wrel r f g) top ->
  forall fuel, 142 <= fuel ->
  (forall k, (top == inject_Z (pow2 k))%Q -> exists q, wcre_search_fl rnd M clog2 f g e precision r fuel = Some (Ok q) /\ (q == top)%Q)
  /\ (forall k, (inject_Z (pow2 k) < top < inject_Z (pow2 (S k)))%Q ->
       exists q, wcre_search_fl rnd M clog2 f g e precision r fuel = Some (Ok q)
         /\ bisection low top precision (inject_Z (pow2 k)) (inject_Z (pow2 (S k))) q).
Proof.
  intros rnd M clog2 n f g r e precision low top s K C WF WG BF BG NF NG E P S0 S1 L LO HI fuel FU.
  destruct (wcre_search_value M clog2 n f g r e precision low top C WF WG BF BG NF NG ltac:(lia) E P LO HI fuel FU) as [A B].
  pose proof (wcre_search_fl_same 53 rnd M clog2 n f g r e precision s K C WF WG BF BG NF NG ltac:(lia) E S0 S1 L fuel) as R.
  split.
  - intros k T. destruct (A k T) as (q & Q1 & Q2). rewrite Q1 in R.
    destruct (wcre_search_fl rnd M clog2 f g e precision r fuel) as [[x| | |]|]; cbn in R; try contradiction; try discriminate.
    exists x. split; auto. now rewrite R.
  - intros k T. destruct (B k T) as (q & Q1 & Q2). rewrite Q1 in R.
    destruct (wcre_search_fl rnd M clog2 f g e precision r fuel) as [[x| | |]|]; cbn in R; try contradiction; try discriminate.
    exists x. split; auto. apply (bisection_Qeq low top precision _ _ q); auto. now symmetry.
Qed.
