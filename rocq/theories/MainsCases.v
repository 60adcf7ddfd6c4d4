(** a circuit for the examples about the minimisation experiments *)
From Coq Require Import String List Bool Arith NArith ZArith QArith Lia.
From Verif Require Import Res Cudd CuddFacts Spec Parsing SpecParsing ParsingFacts2 Genetic MinimizeMains SpecMains MainsFacts.
Import ListNotations.
Open Scope nat_scope.

(** ** checking the format of a file *)
Definition definedb (evs : list aig_event) (lit : N) : bool :=
  ((lit =? 0) || (lit =? 1))%N
  || existsb (fun e => match e with Input _ l => (l =? lit)%N | And index _ _ => (2 * index =? lit)%N | _ => false end) evs.
Definition declaredb (evs : list aig_event) (lit : N) : bool := definedb evs lit || (N.odd lit && definedb evs (lit - 1)).
Definition ok_lineb (m i o : N) (pre : list aig_event) (e : aig_event) : bool :=
  match e with
  | Input index lit => ((index <? i) && (2 <=? lit) && (lit <? 2 * m + 2) && negb (N.odd lit))%N && negb (definedb pre lit)
  | Output index lit => ((index <? o) && (lit <? 2 * m + 2))%N
  | And index l r => ((1 <=? index) && (index <=? m))%N && negb (definedb pre (2 * index)) && declaredb pre l && declaredb pre r
  | InputName index _ => (index <? i)%N
  | OutputName index _ => (index <? o)%N
  | Unsupported => false
  end.
Fixpoint ok_linesb (m i o : N) (pre evs : list aig_event) : bool :=
  match evs with [] => true | e :: evs' => ok_lineb m i o pre e && ok_linesb m i o (pre ++ [e])%list evs' end.
Definition ok_fileb (m i o : N) (evs : list aig_event) : bool :=
  (2 * m + 2 <=? 2 ^ 32)%N && ok_linesb m i o [] evs
  && forallb (fun e => match e with Output _ lit => declaredb evs lit | _ => true end) evs.
Lemma definedb_spec evs lit : definedb evs lit = true <-> defined evs lit.
Proof.
  unfold definedb, defined. rewrite !orb_true_iff, !N.eqb_eq, existsb_exists. split.
  - intros [[E|E]|(e & I & E)]; [auto|auto|]. destruct e; try discriminate E; apply N.eqb_eq in E.
    + subst. eauto.
    + right; right; right. subst. eauto 6.
  - intros [E|[E|[(x & I)|(x & l & r & I & E)]]]; [auto|auto| |]; right; eexists; (split; [exact I|]); apply N.eqb_eq; auto.
Qed.
Lemma declaredb_spec evs lit : declaredb evs lit = true -> declared evs lit.
Proof.
  unfold declaredb, declared. rewrite orb_true_iff, andb_true_iff, !definedb_spec. tauto.
Qed.
Lemma ok_lineb_spec m i o pre e : ok_lineb m i o pre e = true -> ok_line m i o pre e.
Proof.
  destruct e; cbn [ok_lineb ok_line]; repeat rewrite andb_true_iff; repeat rewrite negb_true_iff; repeat rewrite N.ltb_lt; repeat rewrite N.leb_le.
  - intros ((((A & B) & C) & D) & E). split; [lia|]. split; [exact D|]. intro H. apply definedb_spec in H. congruence.
  - intros (A & B). lia.
  - intros ((((A & B) & C) & D) & E). split; [lia|]. split; [|split; apply declaredb_spec; assumption]. intro H. apply definedb_spec in H. congruence.
  - lia.
  - lia.
  - discriminate.
Qed.
Lemma ok_linesb_spec m i o : forall evs pre0, ok_linesb m i o pre0 evs = true -> forall pre e post, evs = (pre ++ e :: post)%list -> ok_line m i o (pre0 ++ pre)%list e.
Proof.
  induction evs as [|x evs IH]; intros pre0 H pre e post E; [destruct pre; discriminate E|]. cbn [ok_linesb] in H. apply andb_prop in H. destruct H as [H1 H2].
  destruct pre as [|y pre]; cbn [app] in E; injection E as -> E.
  - rewrite app_nil_r. apply ok_lineb_spec. exact H1.
  - replace (pre0 ++ y :: pre)%list with ((pre0 ++ [y]) ++ pre)%list by (rewrite <- app_assoc; reflexivity). exact (IH _ H2 _ _ _ E).
Qed.
Lemma ok_fileb_spec m i o evs : ok_fileb m i o evs = true -> ok_file m i o evs.
Proof.
  unfold ok_fileb. rewrite !andb_true_iff, N.leb_le, forallb_forall. intros ((A & B) & C). split; [exact A|]. split.
  - intros pre e post E. exact (ok_linesb_spec m i o evs [] B pre e post E).
  - intros index lit I. apply declaredb_spec. exact (C _ I).
Qed.

(** the conjunction of six inputs, and their second one *)
Definition and6 : list aig_event :=
  [Input 0 2; Input 1 4; Input 2 6; Input 3 8; Input 4 10; Input 5 12; Output 0 22; Output 1 4;
   And 7 2 4; And 8 14 6; And 9 16 8; And 10 18 10; And 11 20 12]%N.
Lemma and6_ok : ok_file 11 6 2 and6.
Proof. apply ok_fileb_spec. vm_compute. reflexivity. Qed.
Lemma and6_varying : varying 2 and6.
Proof.
  exists 1%N, 4%N, (fun _ => true), (fun _ => false), true, false. split; [lia|].
  split. { left. exists (firstn 7 and6), (skipn 8 and6). split; [reflexivity|]. cbn. intros l H. decompose [or] H; try discriminate; contradiction. }
  split; [|split; [|discriminate]]; [apply (lit_input and6 (fun _ => true) 1 4)|apply (lit_input and6 (fun _ => false) 1 4)]; cbn; auto.
Qed.
Lemma nth_error_same {A} : forall l l' : list A, (forall j, nth_error l j = nth_error l' j) -> l = l'.
Proof.
  induction l as [|x l IH]; intros [|y l'] H; [reflexivity|discriminate (H 0)|discriminate (H 0)|].
  pose proof (H 0) as H0. injection H0 as ->. f_equal. apply IH. intro j. exact (H (S j)).
Qed.
Lemma circuit_unique M o evs f g : Forall (wf M) f -> Forall (wf M) g -> circuit o evs f -> circuit o evs g -> f = g.
Proof.
  intros Wf Wg (Lf & Cf) (Lg & Cg). apply nth_error_same. intro j. destruct (le_lt_dec (N.to_nat o) j) as [H|H].
  - rewrite !(proj2 (nth_error_None _ _)) by lia. reflexivity.
  - destruct (Cf (N.of_nat j)) as (b & lit & Nb & O & V); [lia|]. destruct (Cg (N.of_nat j)) as (b' & lit' & Nb' & O' & V'); [lia|].
    rewrite Nnat.Nat2N.id in Nb, Nb'. rewrite Nb, Nb'. f_equal. assert (lit' = lit) as -> by (exact (output_literal_unique _ _ _ _ O' O)).
    rewrite Forall_forall in Wf, Wg. apply (canonical M); [apply Wf; eapply nth_error_In; eauto|apply Wg; eapply nth_error_In; eauto|].
    intro a. apply V. apply V'. reflexivity.
Qed.
Lemma and6_small : small_circuit (id_mgr 6) 2 and6.
Proof.
  intros f W C. destruct (circuit_of (id_mgr 6) 11 6 2 and6 and6_ok) as (g & E & Wg & Cg & _).
  rewrite (circuit_unique _ _ _ _ _ W Wg C Cg). assert (K : aig_file (id_mgr 6) 11 6 2 and6 = Ok g) by exact E. vm_compute in K. injection K as <-. vm_compute. reflexivity.
Qed.
