(** The functions of from_papers.cpp: values for every variable order, and the rounding operators on them. *)
From Coq Require Import List Bool Arith ZArith Lia.
From Verif Require Import Res Cudd CuddFacts Spec SpecFacts Helpers HelpersFacts FromPapers Operators.
Import ListNotations.
Open Scope nat_scope.

Ltac papers_wf := repeat constructor; auto 20 using wf_and, wf_or, wf_not, wf_var, wf_one, wf_zero.
Ltac papers_ev := rewrite ?ev_or, ?ev_and, ?ev_not, ?ev_var, ?ev_one, ?ev_zero.

Section Papers.
Variable M : mgr.

Lemma example1a_wf : Forall (wf M) (example1a M). Proof. papers_wf. Qed.
Lemma example1b_wf : Forall (wf M) (example1b M). Proof. papers_wf. Qed.
Lemma example1c_wf : Forall (wf M) (example1c M). Proof. papers_wf. Qed.
Lemma example1d_wf : Forall (wf M) (example1d M). Proof. papers_wf. Qed.
Lemma example3_wf : Forall (wf M) (example3 M). Proof. papers_wf. Qed.
Lemma running_example_wf : Forall (wf M) (running_example M). Proof. papers_wf. Qed.


Lemma example1a_value a :
  uval (example1a M) a = (Z.b2z (a 0%nat) + Z.b2z (a 1%nat) + 2 * Z.b2z (a 2%nat) + 2 * Z.b2z (a 3%nat))%Z.
Proof.
  unfold example1a. cbn [uval]. papers_ev.
  destruct (a 0), (a 1), (a 2), (a 3); reflexivity.
Qed.

(** the sum without the second and third bit if the operands' high bits meet a carry or each other *)
Lemma example1b_value a :
  uval (example1b M) a =
  (Z.b2z (xorb (a 0%nat) (a 1%nat))
   + (if negb (a 2%nat) then 2 * (Z.b2z (a 0%nat && a 1%nat) + Z.b2z (a 3%nat)) else if a 3%nat && negb (a 0%nat && a 1%nat) then 4 else 0))%Z.
Proof.
  unfold example1b. cbn [uval]. papers_ev.
  destruct (a 0), (a 1), (a 2), (a 3); reflexivity.
Qed.
Lemma example1c_value a : uval (example1c M) a = (6 + Z.b2z (xorb (a 0%nat) (a 1%nat)))%Z.
Proof. unfold example1c. cbn [uval]. papers_ev. destruct (a 0), (a 1); reflexivity. Qed.
Lemma example1d_value a : uval (example1d M) a = (Z.b2z (xorb (a 0%nat) (a 1%nat)) + 4 * Z.b2z (a 0%nat && a 1%nat))%Z.
Proof. unfold example1d. cbn [uval]. papers_ev. destruct (a 0), (a 1); reflexivity. Qed.
Lemma example3_value a :
  uval (example3 M) a = nth (Z.to_nat (Z.b2z (a 0%nat) + 2 * Z.b2z (a 1%nat))) [10; 6; 13; 12]%Z 0%Z.
Proof. unfold example3. cbn [uval]. papers_ev. destruct (a 0), (a 1); reflexivity. Qed.
Lemma running_example_value a :
  uval (running_example M) a =
  nth (Z.to_nat (Z.b2z (a 2%nat) + 2 * Z.b2z (a 1%nat) + 4 * Z.b2z (a 0%nat))) [1; 1; 1; 2; 3; 2; 2; 1]%Z 0%Z.
Proof. unfold running_example. cbn [uval]. papers_ev. destruct (a 0), (a 1), (a 2); reflexivity. Qed.

Lemma paper_values : forall (a : asg),
  let x (i : nat) := Z.b2z (a i) in
  uval (example1a M) a = (x 0%nat + x 1%nat + 2 * x 2%nat + 2 * x 3%nat)%Z
  /\ uval (example1b M) a =
     (Z.b2z (xorb (a 0%nat) (a 1%nat))
      + (if negb (a 2%nat) then 2 * (Z.b2z (a 0%nat && a 1%nat) + x 3%nat)
         else if a 3%nat && negb (a 0%nat && a 1%nat) then 4 else 0))%Z
  /\ uval (example1c M) a = (6 + Z.b2z (xorb (a 0%nat) (a 1%nat)))%Z
  /\ uval (example1d M) a = (Z.b2z (xorb (a 0%nat) (a 1%nat)) + 4 * Z.b2z (a 0%nat && a 1%nat))%Z
  /\ uval (example3 M) a = nth (Z.to_nat (x 0%nat + 2 * x 1%nat)) [10; 6; 13; 12]%Z 0%Z
  /\ uval (running_example M) a
     = nth (Z.to_nat (x 2%nat + 2 * x 1%nat + 4 * x 0%nat)) [1; 1; 1; 2; 3; 2; 2; 1]%Z 0%Z.
Proof.
  intros a x. subst x. cbv beta.
  repeat split; [apply example1a_value | apply example1b_value | apply example1c_value | apply example1d_value
                | apply example3_value | apply running_example_value].
Qed.
End Papers.

Lemma example1_same M1 M2 :
  same_functions (example1a M1) (example1a M2) /\ same_functions (example1b M1) (example1b M2).
Proof. split; intros a; unfold example1a, example1b; cbn [map]; rewrite !ev_or, !ev_and, ?ev_not, ?ev_var; reflexivity. Qed.

(** lines 24-45 of tests/approximation_operations_test.cpp *)
Lemma example1_rounding n : let M := id_mgr n in
  map (fun b => round_down M b 2 4) (example1a M) = map Ok (example1b M)
  /\ map (fun b => round_up M b 2 4) (example1a M) = map Ok (example1c M)
  /\ map (fun b => round_bdd M b 2) (example1a M) = map Ok (example1d M).
Proof. cbv zeta. repeat split; vm_compute; reflexivity. Qed.
