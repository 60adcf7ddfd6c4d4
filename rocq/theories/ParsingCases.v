(** Concrete files for the readers and the counterexamples. *)
From Coq Require Import Ascii String List Bool Arith NArith Lia.
From Verif Require Import Res Cudd Helpers Parsing SpecParsing ParsingFacts ParsingFacts2.
Import ListNotations.
Open Scope list_scope.
Open Scope nat_scope.

Definition asg2 (x y : bool) : asg := fun i => match i with 0 => x | 1 => y | _ => false end.
(** benchmarks or tests: funs.pla with outputs or, and, y *)
Definition ex_pla : list pla_event :=
  [Inputs 2; Outputs 3; Keyword (ch "ilb") (ch "x y"); Keyword (ch "ob") (ch "or and id_y"); Terms 3;
   Term (ch "01") (ch "101"); Term (ch "10") (ch "100"); Term (ch "11") (ch "111")].
(** a half adder *)
Definition ex_aig : list aig_event :=
  [Input 0 2; Input 1 4; Output 0 10; Output 1 6; And 3 2 4; And 4 3 5; And 5 7 9; InputName 0 (ch "x"); OutputName 1 (ch "c")].

Lemma not_defined_dec evs lit : (forall index l r, In (And index l r) evs -> lit <> (2 * index)%N) -> (forall index, ~ In (Input index lit) evs) ->
  (2 <= lit)%N -> ~ defined evs lit.
Proof.
  intros H1 H2 H3 [E|[E|[(i & E)|(i & l & r & E & E2)]]]; [lia|lia|exact (H2 i E)|exact (H1 i l r E E2)].
Qed.
Ltac lines n H := match n with
  | O => idtac
  | S ?k => match type of H with _ = ?pre ++ _ => destruct pre as [|? pre]; [injection H as <- _| injection H as <- H; lines k H] end
  end.
Lemma ex_aig_ok : ok_file 5 2 2 ex_aig.
Proof.
  assert (D : forall evs lit, In (Input 0 lit) evs \/ In (Input 1 lit) evs -> declared evs lit /\ declared evs lit)
    by (intros evs lit [H|H]; split; left; right; right; left; eauto).
  split; [discriminate|]. split.
  - intros pre e post H. unfold ex_aig in H.
    lines 9 H.
    10: destruct pre; discriminate H.
    all: cbn [ok_line].
    + split; [lia|]. split; [reflexivity|]. apply not_defined_dec; [intros ? ? ? []|intros ? []|lia].
    + split; [lia|]. split; [reflexivity|]. apply not_defined_dec; [|intros ? [F|[]]; discriminate|lia]. intros ? ? ? [F|[]]; discriminate.
    + lia.
    + lia.
    + split; [lia|]. split; [apply not_defined_dec; [intros ? ? ? F|intros ? F|lia]; cbn [In] in F; decompose [or] F; try discriminate; contradiction|].
      split; left; right; right; left; [exists 0%N|exists 1%N]; cbn [In]; auto.
    + split; [lia|]. split; [apply not_defined_dec; [intros ? ? ? F|intros ? F|lia]; cbn [In] in F; decompose [or] F; try discriminate; try contradiction|].
      * match goal with E : And _ _ _ = And _ _ _ |- _ => injection E as <- _ _ end. lia.
      * split; right; (split; [reflexivity|]); right; right; left; [exists 0%N|exists 1%N]; cbn [In]; auto.
    + split; [lia|]. split; [apply not_defined_dec; [intros ? ? ? F|intros ? F|lia]; cbn [In] in F; decompose [or] F; try discriminate; try contradiction;
        match goal with E : And _ _ _ = And _ _ _ |- _ => injection E as <- _ _ end; lia|].
      split; right; (split; [reflexivity|]); right; right; right; [exists 3%N, 2%N, 4%N|exists 4%N, 3%N, 5%N]; cbn [In]; auto 10.
    + lia.
    + lia.
  - intros index lit H. cbn [In ex_aig] in H. decompose [or] H; try discriminate; try contradiction.
    + match goal with E : Output _ _ = Output _ _ |- _ => injection E as <- <- end. left; right; right; right. exists 5%N, 7%N, 9%N. cbn [In ex_aig]. auto 10.
    + match goal with E : Output _ _ = Output _ _ |- _ => injection E as <- <- end. left; right; right; right. exists 3%N, 2%N, 4%N. cbn [In ex_aig]. auto 10.
Qed.

Theorem accesses_wrong : forall M : mgr, exists (m i o : N) (evs : list aig_event) (st : aig) (name : list ascii),
  bind (on_header m i o) (aig_run M evs) = Ok st
  /\ aig_step M st (InputName i name) = UB /\ aig_step M st (OutputName o name) = UB /\ aig_step M st (And (m + 1) 0 1) = UB.
Proof.
  intro M. exists 2%N, 1%N, 1%N, [Input 0 2]. eexists. exists []. split; [reflexivity|]. vm_compute. repeat split.
Qed.
Theorem names_wrong : forall M : mgr, exists (evs : list pla_event) (st : pla), pla_run M evs pla_start = Ok st /\ variable_names st <> innames st.
Proof.
  intro M. exists [Keyword (ch "ilb") (ch "a"); Keyword (ch "ilb") (ch "b")]. eexists. split; [reflexivity|]. vm_compute. discriminate.
Qed.
