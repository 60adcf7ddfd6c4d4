(** How reading an and-inverter graph ends: proofs *)
From Coq Require Import Ascii String List Bool Arith NArith Lia.
From Verif Require Import Res Cudd CuddFacts Helpers HelpersFacts Parsing SpecParsing SpecMinimize MinimizeFacts ParsingFacts ParsingFacts2 SpecReading.
Import ListNotations.
Open Scope list_scope.
Open Scope nat_scope.

Lemma stops_unique e e' m i o pre line : stops e m i o pre line -> stops e' m i o pre line -> e = e'.
Proof.
  destruct line as [index lit|index lit|index l r|index name|index name|]; cbn [stops]; intros H H'.
  - destruct H, H'. congruence.
  - destruct H, H'. congruence.
  - destruct H as [[-> H]|[[-> H]|[[-> [H D]]|[-> (H & D & F)]]]]; destruct H' as [[-> H']|[[-> H']|[[-> [H' D']]|[-> (H' & D' & F')]]]];
      try reflexivity; try (exfalso; lia); contradiction.
  - destruct H as [[-> H]|[-> H]]; destruct H' as [[-> H']|[-> H']]; try reflexivity; exfalso; lia.
  - destruct H as [[-> H]|[-> H]]; destruct H' as [[-> H']|[-> H']]; try reflexivity; exfalso; lia.
  - congruence.
Qed.
Lemma stops_not_accepted e m i o pre line : stops e m i o pre line -> ~ accepts m i o pre line.
Proof.
  destruct line as [index lit|index lit|index l r|index name|index name|]; cbn [stops accepts]; intros H A; try lia.
  destruct A as (A1 & A2 & A3). destruct H as [[-> H]|[[-> H]|[[-> [H D]]|[-> (H & D & F)]]]]; [lia|lia|contradiction|contradiction].
Qed.

Lemma vset_not_throw {A} (l : list A) : forall k x, vset l k x <> Throw.
Proof. induction l as [|y l IH]; intros [|k] x; cbn [vset]; try discriminate. specialize (IH k x). destruct (vset l k x); cbn [bind]; congruence. Qed.
Lemma vset_not_abort {A} (l : list A) : forall k x, vset l k x <> Abort.
Proof. induction l as [|y l IH]; intros [|k] x; cbn [vset]; try discriminate. specialize (IH k x). destruct (vset l k x); cbn [bind]; congruence. Qed.
Lemma vget_not_throw {A} (l : list A) k : vget l k <> Throw.
Proof. unfold vget. destruct (nth_error l k); discriminate. Qed.
Lemma vget_not_abort {A} (l : list A) k : vget l k <> Abort.
Proof. unfold vget. destruct (nth_error l k); discriminate. Qed.

Section Reading.
Variable M : mgr.
Lemma readable_accepts m i o evs e : accepts m i o evs e <-> readable (2 * m + 2) i o evs e.
Proof.
  destruct e as [index lit|index lit|index l r|index name|index name|]; cbn [accepts readable]; try reflexivity. split.
  - intros ((A & B & C) & D & E & F). repeat split; auto; try lia. intro G. apply D. apply declared_even; auto. apply odd_double.
  - intros (A & B & C & D & E & F). repeat split; auto; try lia. intro G. apply D. left. exact G.
Qed.
Lemma step_outcome m i o evs st e : aig_inv M (2 * m + 2) i o evs st -> (forall index l r, e = And index l r -> (index < 2 ^ 31)%N) ->
  (exists st', aig_step M st e = Ok st' /\ accepts m i o evs e) \/ (exists x, fails x (aig_step M st e) /\ stops x m i o evs e).
Proof.
  intros I Hsm. destruct (aig_step M st e) as [st'| | |] eqn:E.
  - left. exists st'. split; [reflexivity|]. apply readable_accepts. exact (proj2 (aig_step_inv M _ i o evs st e st' I Hsm E)).
  - right. exists Undefined. split; [reflexivity|]. pose proof I as (S0 & N1 & N2 & N3 & LI & OI).
    apply (proj1 (step_cases M st e S0)) in E. destruct e as [index lit|index lit|index l r|index name|index name|]; cbn [boundary] in E; try contradiction.
    + fold (unsigned_ (index * 2)) in E. rewrite (unsigned_small index (Hsm index l r eq_refl)), N1 in E. cbn [stops]. right. left. split; [reflexivity|]. lia.
    + left. rewrite N2 in E. auto.
    + left. rewrite N3 in E. auto.
  - right. exists Exception. split; [reflexivity|]. pose proof I as (S0 & N1 & N2 & N3 & LI & OI). pose proof S0 as (S1 & S2 & S3 & S4 & S5 & S6).
    destruct e as [index lit|index lit|index l r|index name|index name|]; cbn [aig_step] in E.
    1,2,4,5: repeat match type of E with context [assert_ ?b] => destruct b; cbn [assert_ bind] in E; try discriminate E end;
      repeat match type of E with context [vset ?a ?b ?c] => destruct (vset a b c) eqn:?; cbn [bind] in E; try discriminate E end;
      match goal with H : vset _ _ _ = _ |- _ => destruct (vset_not_throw _ _ _ H) end.
    2: discriminate E.
    cbn [stops]. right. right. right. rewrite (unsigned_small index (Hsm index l r eq_refl)), N1 in E.
    destruct (N.leb_spec (2 * index) (2 * m + 2)) as [L0|L0]; cbn [assert_ bind] in E; [|discriminate E].
    destruct (N.ltb_spec l (2 * m + 2)) as [L1|L1]; cbn [andb assert_ bind] in E; [|discriminate E].
    destruct (N.ltb_spec r (2 * m + 2)) as [L2|L2]; cbn [andb assert_ bind] in E; [|discriminate E].
    destruct (vget (literals st) (N.to_nat (2 * index))) as [t| | |] eqn:Et; cbn [bind] in E; try discriminate E; [|exfalso; apply (vget_not_throw _ _ Et)].
    destruct t as [t|]; cbn [assert_ bind] in E; [discriminate E|].
    assert (L3 : (index <= m)%N). { destruct (N.leb_spec index m); auto. exfalso. unfold vget in Et. destruct (nth_error _ _) eqn:En; [|discriminate Et].
      assert (nth_error (literals st) (N.to_nat (2 * index)) <> None) as K by congruence. apply nth_error_Some in K. rewrite S2, N1 in K. lia. }
    split; [reflexivity|]. split; [lia|]. split.
    + intro D. destruct LI as (LL & A & B). unfold vget in Et. destruct (nth_error _ _) as [x|] eqn:En; [|discriminate Et]. injection Et as ->.
      destruct (B (2 * index)%N D ltac:(lia)) as (f & Ef). congruence.
    + intros [D1 D2]. destruct (find_ok M evs _ _ l LI L1 D1) as (l1 & f1 & E1 & LI1). rewrite E1 in E. cbn [bind] in E.
      destruct (find_ok M evs _ l1 r LI1 L2 D2) as (l2 & f2 & E2 & LI2). rewrite E2 in E. cbn [bind] in E.
      destruct (vset l2 _ _) eqn:Ev; cbn [bind] in E; try discriminate E. exact (vset_not_throw _ _ _ Ev).
  - right. exists FailedAssert. split; [reflexivity|]. pose proof I as (S0 & N1 & N2 & N3 & LI & OI). pose proof S0 as (S1 & S2 & S3 & S4 & S5 & S6).
    destruct e as [index lit|index lit|index l r|index name|index name|]; cbn [aig_step] in E; cbn [stops].
    + split; [reflexivity|]. rewrite N2, N1 in E. destruct (N.ltb_spec index i) as [A|A]; [|left; exact A]. destruct (N.ltb_spec lit (2 * m + 2)) as [B|B]; [|right; exact B].
      cbn [assert_ bind] in E. destruct (vset_ok (literals st) (N.to_nat lit) (Some (bvar (N.to_nat index)))) as (l' & E'); [lia|]. rewrite E' in E. discriminate E.
    + split; [reflexivity|]. rewrite N3, N1 in E. destruct (N.ltb_spec index o) as [A|A]; [|left; exact A]. destruct (N.ltb_spec lit (2 * m + 2)) as [B|B]; [|right; exact B].
      cbn [assert_ bind] in E. destruct (vset_ok (output_indices st) (N.to_nat index) lit) as (l' & E'); [lia|]. rewrite E' in E. discriminate E.
    + rewrite (unsigned_small index (Hsm index l r eq_refl)), N1 in E.
      destruct (N.leb_spec (2 * index) (2 * m + 2)) as [L0|L0]; cbn [assert_ bind] in E; [|left; split; [reflexivity|left; lia]].
      destruct (N.ltb_spec l (2 * m + 2)) as [L1|L1]; cbn [andb assert_ bind] in E; [|left; split; [reflexivity|right; left; lia]].
      destruct (N.ltb_spec r (2 * m + 2)) as [L2|L2]; cbn [andb assert_ bind] in E; [|left; split; [reflexivity|right; right; lia]].
      destruct (vget (literals st) (N.to_nat (2 * index))) as [t| | |] eqn:Et; cbn [bind] in E; try discriminate E; [|exfalso; apply (vget_not_abort _ _ Et)].
      assert (L3 : (index <= m)%N). { destruct (N.leb_spec index m); auto. exfalso. unfold vget in Et. destruct (nth_error _ _) eqn:En; [|discriminate Et].
        assert (nth_error (literals st) (N.to_nat (2 * index)) <> None) as K by congruence. apply nth_error_Some in K. rewrite S2, N1 in K. lia. }
      destruct t as [t|]; cbn [assert_ bind] in E.
      * right. right. left. split; [reflexivity|]. split; [lia|]. destruct LI as (LL & A & B). unfold vget in Et. destruct (nth_error _ _) as [x|] eqn:En; [|discriminate Et].
        injection Et as ->. destruct (A _ _ En) as [D _]. apply declared_even in D; auto. apply odd_double.
      * exfalso. destruct (find_literal_spec M evs _ _ l LI L1) as [(l1 & f1 & E1 & _ & LI1 & _)|[E1 _]]; rewrite E1 in E; cbn [bind] in E; [|discriminate E].
        destruct (find_literal_spec M evs _ _ r LI1 L2) as [(l2 & f2 & E2 & _ & LI2 & _)|[E2 _]]; rewrite E2 in E; cbn [bind] in E; [|discriminate E].
        destruct (vset l2 _ _) eqn:Ev; cbn [bind] in E; try discriminate E. exact (vset_not_abort _ _ _ Ev).
    + right. split; [reflexivity|]. rewrite N2 in E. destruct (N.leb_spec index i) as [A|A]; [|exact A]. exfalso. cbn [assert_ bind] in E.
      destruct (vset _ _ _) eqn:Ev; cbn [bind] in E; try discriminate E. exact (vset_not_abort _ _ _ Ev).
    + right. split; [reflexivity|]. rewrite N3 in E. destruct (N.leb_spec index o) as [A|A]; [|exact A]. exfalso. cbn [assert_ bind] in E.
      destruct (vset _ _ _) eqn:Ev; cbn [bind] in E; try discriminate E. exact (vset_not_abort _ _ _ Ev).
    + reflexivity.
Qed.

Lemma accepts_all_app m i o x y : accepts_all m i o (x ++ y) -> accepts_all m i o x.
Proof. intros H pre line post ->. apply (H pre line (post ++ y)). rewrite <- app_assoc. reflexivity. Qed.
Lemma accepts_all_last m i o x e : accepts_all m i o x -> accepts m i o x e -> accepts_all m i o (x ++ [e]).
Proof.
  intros H He pre line post E. destruct post as [|z post] using rev_ind.
  - apply app_inj_tail in E. destruct E as [<- <-]. exact He.
  - clear IHpost. rewrite app_comm_cons, app_assoc in E. apply app_inj_tail in E. destruct E as [-> _]. exact (H pre line post eq_refl).
Qed.
Lemma run_outcome m i o evs st0 : (m < 2 ^ 62)%N -> small evs -> on_header m i o = Ok st0 ->
  (exists st, aig_run M evs st0 = Ok st /\ accepts_all m i o evs)
  \/ (exists x pre line post, fails x (aig_run M evs st0) /\ evs = pre ++ line :: post /\ accepts_all m i o pre /\ stops x m i o pre line).
Proof.
  intros Hm Hs H0. assert (Hn : size_t_ (m * 2 + 2) = (2 * m + 2)%N).
  { unfold size_t_. rewrite N.mod_small; [lia|]. change (2 ^ 62)%N with 4611686018427387904%N in Hm. change (2 ^ 64)%N with 18446744073709551616%N. lia. }
  induction evs as [|e evs IH] using rev_ind.
  - left. exists st0. split; [reflexivity|]. intros [|? ?] ? ? E; discriminate E.
  - destruct (IH (small_app _ _ Hs)) as [(st & E & A)|(x & pre & line & post & F & -> & A & S)].
    + pose proof (aig_run_inv M m i o evs st0 st H0 (small_app _ _ Hs) E) as I. rewrite Hn in I.
      rewrite aig_run_app, E. cbn [bind aig_run].
      destruct (step_outcome m i o evs st e I) as [(st' & E' & A')|(x & F & S)].
      { intros index l r ->. apply (Hs index l r). apply in_or_app. right. now left. }
      * left. exists st'. rewrite E'. cbn [bind]. split; [reflexivity|]. now apply accepts_all_last.
      * right. exists x, evs, e, []. split; [|auto]. unfold fails in *. rewrite F. destruct x; reflexivity.
    + right. exists x, pre, line, (post ++ [e]). split; [|split; [rewrite <- app_assoc; reflexivity|auto]].
      rewrite aig_run_app. unfold fails in *. rewrite F. destruct x; reflexivity.
Qed.

Lemma first_stop m i o evs pre line post e pre' line' post' e' : evs = pre ++ line :: post -> accepts_all m i o pre -> stops e m i o pre line ->
  evs = pre' ++ line' :: post' -> accepts_all m i o pre' -> stops e' m i o pre' line' -> e = e'.
Proof.
  intros E1 A1 S1 E2 A2 S2.
  assert (X : pre = pre' /\ line = line').
  { rewrite E1 in E2. destruct (app_eq_app _ _ _ _ E2) as (l & [[-> K]|[-> K]]); (destruct l as [|z l]; cbn [app] in K; injection K as <- K;
      [rewrite app_nil_r in *; auto|exfalso]).
    - apply (stops_not_accepted _ _ _ _ _ _ S2). eapply A1. reflexivity.
    - apply (stops_not_accepted _ _ _ _ _ _ S1). eapply A2. reflexivity. }
  destruct X as [<- <-]. exact (stops_unique _ _ _ _ _ _ _ S1 S2).
Qed.

Lemma file_outcome m i o evs : (m < 2 ^ 62)%N -> small evs ->
  (forall e, fails e (aig_file M m i o evs) <-> reading_fails e m i o evs)
  /\ ((exists outs, aig_file M m i o evs = Ok outs)
      <-> accepts_all m i o evs /\ forall j lit, (j < o)%N -> output_literal evs j lit -> declared evs lit).
Proof.
  intros Hm Hs. assert (Hn : size_t_ (m * 2 + 2) = (2 * m + 2)%N).
  { unfold size_t_. rewrite N.mod_small; [lia|]. change (2 ^ 62)%N with 4611686018427387904%N in Hm. change (2 ^ 64)%N with 18446744073709551616%N. lia. }
  destruct (on_header_cases m i o) as [(Z & _)|(st0 & H0 & _)]; [lia|].
  unfold aig_file. rewrite H0. cbn [bind].
  destruct (run_outcome m i o evs st0 Hm Hs H0) as [(st & E & A)|(x & pre & line & post & F & E & A & S)].
  - rewrite E. cbn [bind]. pose proof (aig_run_inv M m i o evs st0 st H0 Hs E) as I.
    destruct (get_outputs_declared M _ i o evs st I) as [T O].
    assert (NS : forall e, ~ (exists pre line post, evs = pre ++ line :: post /\ accepts_all m i o pre /\ stops e m i o pre line)).
    { intros e (pre & line & post & Ee & _ & S). exact (stops_not_accepted _ _ _ _ _ _ S (A pre line post Ee)). }
    split.
    + intro e. unfold reading_fails. split.
      * intro F. right. destruct (get_outputs_cases st (proj1 I)) as [(r & Er)|Er]; rewrite Er in F; unfold fails in F; destruct e; try discriminate F.
        split; [reflexivity|]. split; [exact A|]. apply T. exact Er.
      * intros [F|(-> & _ & F)]; [destruct (NS e F)|]. apply T in F. rewrite F. reflexivity.
    + rewrite O. tauto.
  - assert (NA : ~ accepts_all m i o evs) by (intro AA; exact (stops_not_accepted _ _ _ _ _ _ S (AA pre line post E))).
    split.
    + intro e. split.
      * intro Fe. left. exists pre, line, post. split; [exact E|]. split; [exact A|]. unfold fails in F, Fe. rewrite F in Fe.
        destruct x, e; cbn in Fe; try discriminate Fe; exact S.
      * intros [(p' & l' & q' & E' & A' & S')|(_ & AA & _)]; [|contradiction].
        rewrite <- (first_stop m i o evs pre line post x p' l' q' e E A S E' A' S'). unfold fails in *. rewrite F. destruct x; reflexivity.
    + split; [|intros [AA _]; contradiction]. intros (outs & Eo). unfold fails in F. rewrite F in Eo. destruct x; discriminate Eo.
Qed.
End Reading.
