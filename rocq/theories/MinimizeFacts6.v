(** Proofs about the searches without metrics and the bounds of individuals *)
From Coq Require Import List Bool Arith ZArith QArith Lia.
From Verif Require Import Res Cudd Minimize Genetic SpecGenetic.
Import ListNotations.
Open Scope nat_scope.

Lemma no_metrics (function : list bdd) (operators : list OperatorFunction) (pop_all : bool) (fuel : nat) :
  bucket_greedy_minimize function [] operators pop_all fuel = Some Throw.
Proof. reflexivity. Qed.
Lemma bounds_full (P : problem) (d : individuum) :
  (length d = length (support_positions P) /\ Forall digit d -> Forall2 Qle (fst (get_bounds P)) d /\ Forall2 Qle d (snd (get_bounds P)))
  /\ (Forall2 Qle (fst (get_bounds P)) d -> Forall2 Qle d (snd (get_bounds P)) ->
      Forall (fun q => exists z, q = inject_Z z) d -> length d = length (support_positions P) /\ Forall digit d).
Proof.
  unfold get_bounds. cbn [fst snd]. generalize (length (support_positions P)) as n. split.
  - intros [<- D]. induction D as [|q d D _ IH]; cbn [length repeat]; [split; constructor|]. destruct IH as [I1 I2].
    split; constructor; auto; destruct D as [->|[-> | ->]]; unfold Qle; cbn; lia.
  - intros H1 H2 H3. revert n H1 H2. induction H3 as [|q d (z & ->) _ IH]; intros n H1 H2.
    + inversion H1 as [E|]. destruct n; [|discriminate]. split; [reflexivity|constructor].
    + destruct n as [|n]; [inversion H1|]. inversion_clear H1. inversion_clear H2. destruct (IH n) as [I1 I2]; auto.
      split; [cbn; lia|]. constructor; [|exact I2]. unfold Qle in *. cbn in *.
      assert (C : z = 0%Z \/ z = 1%Z \/ z = 2%Z) by lia. destruct C as [->|[-> | ->]]; unfold digit; auto.
Qed.
