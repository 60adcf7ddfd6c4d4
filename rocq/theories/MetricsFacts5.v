(** Counterexamples for the metrics. *)
From Coq Require Import List Bool Arith ZArith QArith Lia Lqa.
From Verif Require Import Res Cudd CuddFacts Spec SpecFacts Helpers HelpersFacts Counting Metrics.
Import ListNotations.
Open Scope nat_scope.

Lemma wce_twos_bad : exists (M : mgr) (f g : list bdd) (m : Z) (a : asg),
  Forall (wf M) f /\ Forall (wf M) g /\ f <> [] /\ g <> [] /\ length f <= 256 /\ length g <= 256
  /\ worst_case_error M f g TwosComplement = Ok m /\ (m < dist (sval f a) (sval g a))%Z.
Proof.
  exists (id_mgr 1), [bone; bzero], [bzero; bone], 1%Z, (fun _ => false).
  split; [auto 10 with wf|]. split; [auto 10 with wf|]. split; [discriminate|]. split; [discriminate|].
  split; [cbn; lia|]. split; [cbn; lia|]. split; vm_compute; reflexivity.
Qed.

Lemma awce_bound_bad : exists (M : mgr) (f g : list bdd) (n x wc : Z),
  Forall (wf M) f /\ Forall (wf M) g /\ length f = length g /\ (1 <= n)%Z
  /\ approximate_worst_case_error M f g n BaseTwo = Ok x
  /\ is_max (fun a => dist (uval f a) (uval g a)) wc
  /\ (inject_Z wc * (1 + 1 / inject_Z (2 ^ (n + 1) - 1)) < inject_Z x)%Q.
Proof.
  exists (id_mgr 1), [bzero; bone], [bone; bzero], 1%Z, 3%Z, 1%Z.
  split; [auto 10 with wf|]. split; [auto 10 with wf|]. split; [reflexivity|]. split; [lia|].
  split; [vm_compute; reflexivity|]. split; [|vm_compute; reflexivity].
  split; [exists (fun _ => false); reflexivity|]. intro a. vm_compute. discriminate.
Qed.

Lemma awce_twos_bad : exists (M : mgr) (f g : list bdd) (n x : Z) (a : asg),
  Forall (wf M) f /\ Forall (wf M) g /\ length f = length g /\ (1 <= n)%Z
  /\ approximate_worst_case_error M f g n TwosComplement = Ok x
  /\ (x < dist (sval f a) (sval g a))%Z.
Proof.
  exists (id_mgr 1), [bvar 0; bone], [bvar 0; bzero], 1%Z, 0%Z, (fun _ => false).
  split; [auto 10 with wf|]. split; [auto 10 with wf|]. split; [reflexivity|]. split; [lia|].
  split; vm_compute; reflexivity.
Qed.

Lemma below_two : forall a b : asg, (forall i, i < 2 -> a i = b i) -> a 0 = b 0 /\ a 1 = b 1.
Proof. intros a b H. split; apply H; lia. Qed.

Lemma mean_squared_value_bad : exists (M : mgr) (f : list bdd) (n : nat) (q : Q),
  Forall (wf M) f /\ below n f /\ mean_squared_value M f = Fin q
  /\ ~ (q == average n (fun a => inject_Z (uval f a * uval f a)))%Q.
Proof.
  exists (id_mgr 2), [bvar 0; bvar 1], 2, (5 / 2)%Q.
  split; [auto 10 with wf|]. split.
  { repeat constructor; intros a b H; destruct (below_two a b H) as [H0 H1]; cbn; now rewrite ?H0, ?H1. }
  split; [vm_compute; reflexivity|]. vm_compute. discriminate.
Qed.

Lemma mean_squared_error_bad : exists (M : mgr) (f g : list bdd) (n : nat) (q : Q),
  Forall (wf M) f /\ Forall (wf M) g /\ below n f /\ below n g /\ length f = length g
  /\ mean_squared_error M f g BaseTwo = Ok (Fin q)
  /\ ~ (q == average n (fun a => inject_Z (dist (uval f a) (uval g a) * dist (uval f a) (uval g a))))%Q.
Proof.
  exists (id_mgr 2), [bvar 0; bvar 1], [bzero; bzero], 2, (5 / 2)%Q.
  split; [auto 10 with wf|]. split; [auto 10 with wf|]. split.
  { repeat constructor; intros a b H; destruct (below_two a b H) as [H0 H1]; cbn; now rewrite ?H0, ?H1. }
  split; [repeat constructor; intros a b H; reflexivity|]. split; [reflexivity|].
  split; [vm_compute; reflexivity|]. vm_compute. discriminate.
Qed.
