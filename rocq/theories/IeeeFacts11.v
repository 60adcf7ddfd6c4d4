(** error_rate and average_bit_flip_error of up to 1022 variables, compared with the exact values. *)
From Coq Require Import List Bool Arith ZArith QArith Lia.
From Verif Require Import Res Cudd CuddFacts Spec SpecFacts SpecFloat Float FloatFacts Helpers HelpersFacts Counting Metrics
  Rounded RoundedFacts RoundedFacts2 RoundedAverageFacts Ieee IeeeFacts Ieee3 IeeeFacts10.
Import ListNotations.
Open Scope nat_scope.

Lemma metrics_in_range :
  forall (count : bdd -> nat -> dbl) (M : mgr) (n s : nat) (f g : list bdd),
  n <= 1022 -> (forall b k, wf M b -> depends_below n b -> k <= n -> count b k = DFin (CountMinterm_fl (round_float 53) b k)) ->
  Forall (wf M) f -> Forall (wf M) g -> below n f -> below n g -> length f = length g -> largest_support (f ++ g) s ->
  (exists q, error_rate_d count M f g = Ok (DFin q) /\ within (2 ^ (-53)) (2 * n + 1) q (average n (fun a => b2q (differ f g a)))
     /\ (n <= 53 -> (q == average n (fun a => b2q (differ f g a)))%Q))
  /\ ((Z.of_nat (length f) <= 2 ^ 53)%Z -> (Z.of_nat (length f) * 2 ^ Z.of_nat s < 2 ^ 1024)%Z ->
      exists q, average_bit_flip_error_d count M f g = Ok (DFin q)
        /\ within (2 ^ (-53)) (2 * n + length f + 1) q (average n (fun a => inject_Z (hamming f g a)))).
Proof.
  intros count M n s f g Hn C Wf Wg Bf Bg L HS. destruct double_rounding as [K R].
  destruct (metrics_fl_relative (2 ^ (-53)) r53 M n f g ltac:(split; vm_compute; discriminate) R Wf Wg Bf Bg L) as [(q1 & E1 & W1) (q2 & E2 & W2)].
  split.
  - destruct (error_rate_d_same count M n f g Hn C Wf Wg Bf Bg L) as (q & Q1 & Q2). rewrite E1 in Q2. injection Q2 as <-.
    exists q1. split; [exact Q1|]. split; [exact W1|]. intro H.
    destruct (metrics_fl_exact r53 M n f g K Wf Wg Bf Bg L H) as [(q & Q3 & Q4) _]. rewrite E1 in Q3. injection Q3 as <-. exact Q4.
  - intros Hm U. destruct (flips_d_same count M n s f g Hn C Wf Wg Bf Bg L HS Hm) as (q & Q1 & Q2).
    + rewrite p2_inj by lia. rewrite <- inject_Z_mult.
      assert (BQ : (2 ^ 1024 == inject_Z (2 ^ 1024))%Q) by (rewrite <- (p2_inj 1024) by lia; reflexivity). rewrite BQ, <- Zlt_Qlt. exact U.
    + rewrite E2 in Q2. injection Q2 as <-. exists q2. auto.
Qed.
