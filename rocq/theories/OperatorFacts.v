(** Proofs about the approximation operators: the memoised recursions agree with plain ones. *)
From Coq Require Import List Bool Arith ZArith QArith Lia Lqa.
From Verif Require Import Res Cudd CuddFacts Spec SpecFacts Helpers HelpersFacts Counting AddFacts CountFacts MetricsFacts MetricsFacts4 Operators.
Import ListNotations.
Open Scope nat_scope.

Lemma qgtb_true x y : qgtb x y = true <-> (y < x)%Q.
Proof.
  unfold qgtb. rewrite negb_true_iff. split; intro H.
  - destruct (Qlt_le_dec y x) as [L|L]; auto. apply Qle_bool_iff in L. congruence.
  - destruct (Qle_bool x y) eqn:E; auto. apply Qle_bool_iff in E. lra.
Qed.
Lemma qgtb_false x y : qgtb x y = false <-> (x <= y)%Q.
Proof.
  unfold qgtb. rewrite negb_false_iff. apply Qle_bool_iff.
Qed.

Definition wt_of (mc : bmap Q) (k : bdd) : Q := match blookup k mc with Some q => q | None => 0%Q end.
Definition complete (mc : bmap Q) (n : node) (c : bool) : Prop := forall k, In k (edges n c) -> In k (map fst mc).

Lemma blookup_key {T} k (m : bmap T) : In k (map fst m) -> exists v, blookup k m = Some v.
Proof.
  intro H. destruct (blookup k m) as [v|] eqn:E; [eauto|]. apply blookup_none in E. contradiction.
Qed.
Lemma at_wt mc k : In k (map fst mc) -> bmap_at mc k = Ok (wt_of mc k).
Proof. intro H. destruct (blookup_key k mc H) as [v E]. unfold bmap_at, wt_of. now rewrite E. Qed.

Lemma complete_then mc v t d e c : complete mc (Nd v t d e) c -> complete mc t c.
Proof. intros H k Hk. apply H. cbn [edges]. right. apply in_or_app. auto. Qed.
Lemma complete_else mc v t d e c : complete mc (Nd v t d e) c -> complete mc e (xorb c d).
Proof. intros H k Hk. apply H. cbn [edges]. right. apply in_or_app. auto. Qed.

Section Pure.
Variable M : mgr.
Variable w : bdd -> Q.
Variables ls le : nat.
Variables rh sub : bool.

Definition repl : bdd := if sub then bnot bone else bone.

Fixpoint rc (n : node) (c : bool) : bdd :=
  match n with
  | One => (c, One)
  | Nd v t d e =>
      if v <? ls then ite M (bvar v) (rc t c) (rc e (xorb c d))
      else if v <=? le then
        if Bool.eqb rh (qgtb (w (c, t)) (w (xorb c d, e)))
        then ite M (bvar v) repl (rc e (xorb c d))
        else ite M (bvar v) (rc t c) repl
      else (c, n)
  end.

Fixpoint rr (n : node) (c : bool) : bdd :=
  match n with
  | One => (c, One)
  | Nd v t d e =>
      if v <? ls then ite M (bvar v) (rr t c) (rr e (xorb c d))
      else if qgtb (w (c, n)) (1#2) then bone else bnot bone
  end.

Definition major (q : Q) : bdd := if qgtb q (1#2) then bone else bnot bone.
Fixpoint rb (n : node) (c : bool) : bdd :=
  match n with
  | One => (c, One)
  | Nd v t d e =>
      if v <? ls then ite M (bvar v) (rb t c) (rb e (xorb c d))
      else if v <=? le then
        let tc := w (c, t) in let ec := w (xorb c d, e) in
        if qgtb ec tc && qgtb (1 - ec) tc then ite M (bvar v) (bnot bone) (rb e (xorb c d))
        else if qgtb tc ec && qgtb (1 - tc) ec then ite M (bvar v) (rb t c) (bnot bone)
        else if qgtb tc ec && qgtb tc (1 - ec) then ite M (bvar v) bone (rb e (xorb c d))
        else if qgtb ec tc && qgtb ec (1 - tc) then ite M (bvar v) (rb t c) bone
        else ite M (bvar v) (major tc) (major ec)
      else (c, n)
  end.
End Pure.

Definition memo_ok (p : node -> bool -> bdd) (m : bmap bdd) : Prop :=
  forall k r, In (k, r) m -> r = p (snd k) (fst k).
Lemma memo_ok_nil p : memo_ok p []. Proof. intros k r []. Qed.
Lemma memo_ok_add p m n c : memo_ok p m -> memo_ok p (((c, n), p n c) :: m).
Proof. intros H k r [[= <- <-]|Hi]; auto. Qed.

Lemma remove_memo M mc ls le rh sub n : forall c m, complete mc n c ->
  let p := rc M (wt_of mc) ls le rh sub in memo_ok p m ->
  exists m', remove_children_rec M n c ls le mc m rh sub = Ok (p n c, m') /\ memo_ok p m'.
Proof.
  induction n as [|v t IHt d e IHe]; intros c m HC p Hm; [exists m; split; auto|].
  cbn [remove_children_rec]. destruct (blookup (c, Nd v t d e) m) as [r|] eqn:E.
  { exists m. apply blookup_some in E. apply Hm in E. cbn [fst snd] in E. now rewrite E. }
  pose proof (complete_then _ _ _ _ _ _ HC) as Ct. pose proof (complete_else _ _ _ _ _ _ HC) as Ce.
  pose proof (memo_ok_add p) as ADD.
  assert (P : p (Nd v t d e) c = (if v <? ls then ite M (bvar v) (p t c) (p e (xorb c d))
      else if v <=? le then
        if Bool.eqb rh (qgtb (wt_of mc (c, t)) (wt_of mc (xorb c d, e)))
        then ite M (bvar v) (repl sub) (p e (xorb c d))
        else ite M (bvar v) (p t c) (repl sub)
      else (c, Nd v t d e))) by reflexivity.
  destruct (v <? ls).
  - destruct (IHt c m Ct Hm) as (m1 & E1 & H1). rewrite E1. cbn [bind].
    destruct (IHe (xorb c d) m1 Ce H1) as (m2 & E2 & H2). rewrite E2. cbn [bind].
    eexists. fold p. rewrite <- P. split; [reflexivity|]. now apply ADD.
  - destruct (v <=? le).
    + rewrite !at_wt; [|apply Ce, in_edges_refl|apply Ct, in_edges_refl]. cbn [bind]. cbv zeta.
      destruct (Bool.eqb rh _).
      * destruct (IHe (xorb c d) m Ce Hm) as (m1 & E1 & H1). rewrite E1. cbn [bind].
        eexists. fold p. fold (repl sub). rewrite <- P. split; [reflexivity|]. now apply ADD.
      * destruct (IHt c m Ct Hm) as (m1 & E1 & H1). rewrite E1. cbn [bind].
        eexists. fold p. fold (repl sub). rewrite <- P. split; [reflexivity|]. now apply ADD.
    + exists m. rewrite P. auto.
Qed.

Lemma round_memo M mc ls n : forall c m, complete mc n c ->
  let p := rr M (wt_of mc) ls in memo_ok p m ->
  exists m', round_rec M n c ls mc m = Ok (p n c, m') /\ memo_ok p m'.
Proof.
  induction n as [|v t IHt d e IHe]; intros c m HC p Hm; [exists m; split; auto|].
  cbn [round_rec]. destruct (blookup (c, Nd v t d e) m) as [r|] eqn:E.
  { exists m. apply blookup_some in E. apply Hm in E. cbn [fst snd] in E. now rewrite E. }
  pose proof (complete_then _ _ _ _ _ _ HC) as Ct. pose proof (complete_else _ _ _ _ _ _ HC) as Ce.
  pose proof (memo_ok_add p) as ADD.
  assert (P : p (Nd v t d e) c = (if v <? ls then ite M (bvar v) (p t c) (p e (xorb c d))
      else if qgtb (wt_of mc (c, Nd v t d e)) (1#2) then bone else bnot bone)) by reflexivity.
  destruct (v <? ls).
  - destruct (IHt c m Ct Hm) as (m1 & E1 & H1). rewrite E1. cbn [bind].
    destruct (IHe (xorb c d) m1 Ce H1) as (m2 & E2 & H2). rewrite E2. cbn [bind].
    eexists. fold p. rewrite <- P. split; [reflexivity|]. now apply ADD.
  - destruct (blookup_key (c, Nd v t d e) mc) as [q Eq]; [apply HC, in_edges_refl|]. rewrite Eq. cbv zeta.
    unfold wt_of in P at 1. rewrite Eq in P. rewrite <- P. eexists. split; [reflexivity|]. now apply ADD.
Qed.

Lemma best_memo M mc ls le n : forall c m, complete mc n c ->
  let p := rb M (wt_of mc) ls le in memo_ok p m ->
  exists m', round_best_rec M n c ls le mc m = Ok (p n c, m') /\ memo_ok p m'.
Proof.
  induction n as [|v t IHt d e IHe]; intros c m HC p Hm; [exists m; split; auto|].
  cbn [round_best_rec]. destruct (blookup (c, Nd v t d e) m) as [r|] eqn:E.
  { exists m. apply blookup_some in E. apply Hm in E. cbn [fst snd] in E. now rewrite E. }
  pose proof (complete_then _ _ _ _ _ _ HC) as Ct. pose proof (complete_else _ _ _ _ _ _ HC) as Ce.
  pose proof (memo_ok_add p) as ADD.
  assert (P : p (Nd v t d e) c = (
      if v <? ls then ite M (bvar v) (p t c) (p e (xorb c d))
      else if v <=? le then
        let tc := wt_of mc (c, t) in let ec := wt_of mc (xorb c d, e) in
        if qgtb ec tc && qgtb (1 - ec) tc then ite M (bvar v) (bnot bone) (p e (xorb c d))
        else if qgtb tc ec && qgtb (1 - tc) ec then ite M (bvar v) (p t c) (bnot bone)
        else if qgtb tc ec && qgtb tc (1 - ec) then ite M (bvar v) bone (p e (xorb c d))
        else if qgtb ec tc && qgtb ec (1 - tc) then ite M (bvar v) (p t c) bone
        else ite M (bvar v) (major tc) (major ec)
      else (c, Nd v t d e))) by reflexivity.
  destruct (v <? ls).
  - destruct (IHt c m Ct Hm) as (m1 & E1 & H1). rewrite E1. cbn [bind].
    destruct (IHe (xorb c d) m1 Ce H1) as (m2 & E2 & H2). rewrite E2. cbn [bind]. fold p.
    eexists. rewrite <- P. split; [reflexivity|]. now apply ADD.
  - destruct (v <=? le).
    + rewrite !at_wt; [|apply Ce, in_edges_refl|apply Ct, in_edges_refl]. cbn [bind]. cbv zeta. cbv zeta in P.
      destruct (IHe (xorb c d) m Ce Hm) as (me & Ee & He). destruct (IHt c m Ct Hm) as (mt & Et & Ht).
      repeat match goal with |- context [if ?b then _ else _] =>
        match b with context [major] => fail 1 | qgtb _ (1#2) => fail 1 | _ => destruct b end end;
        rewrite ?Ee, ?Et; cbn [bind]; fold p; eexists; (split; [rewrite P; reflexivity|]); cbv beta zeta; unfold major in P; rewrite <- P; now apply ADD.
    + exists m. rewrite P. auto.
Qed.

(** ** the operators *)
Lemma minterms_complete f : complete (count_minterms f) (snd f) (fst f).
Proof. intros k Hk. now apply count_minterms_keys. Qed.
Lemma minterms_wt f k : In k (reachable f) -> (wt_of (count_minterms f) k == frac k)%Q.
Proof.
  intro H. destruct (count_minterms_at f k H) as (v & E & Q). apply count_minterms_keys in H.
  rewrite at_wt in E by auto. injection E as ->. auto.
Qed.
Lemma solutions_complete f : complete (count_solutions f) (snd f) (fst f).
Proof.
  intros k Hk. pose proof (count_solutions_rec_spec (terminal_level [[f]]) (snd f) (fst f) [] (good_map_nil _)) as H.
  unfold count_solutions. destruct (count_solutions_rec (snd f) (fst f) [] (terminal_level [[f]])) as [v m]. cbn [snd].
  destruct H as (_ & _ & K). apply K. auto.
Qed.
Lemma solutions_wt f k : In k (reachable f) ->
  (wt_of (count_solutions f) k == solw (terminal_level [[f]]) k)%Q.
Proof.
  intro Hk. pose proof (solutions_complete f k Hk) as HC. destruct (blookup_key k _ HC) as [v E].
  unfold wt_of. rewrite E. apply blookup_some in E.
  pose proof (count_solutions_rec_spec (terminal_level [[f]]) (snd f) (fst f) [] (good_map_nil _)) as H.
  unfold count_solutions in E. destruct (count_solutions_rec (snd f) (fst f) [] (terminal_level [[f]])) as [v' m]. cbn [snd] in E.
  destruct H as (_ & (G & _) & _). now apply G.
Qed.

Lemma round_any_pure M f ls le rh sub :
  round_any M f ls le rh sub = Ok (rc M (wt_of (count_minterms f)) ls le rh sub (snd f) (fst f)).
Proof.
  unfold round_any. destruct (remove_memo M (count_minterms f) ls le rh sub (snd f) (fst f) []
    (minterms_complete f) (memo_ok_nil _)) as (m' & E & _). now rewrite E.
Qed.
Lemma round_bdd_pure M f l : round_bdd M f l = Ok (rr M (wt_of (count_minterms f)) l (snd f) (fst f)).
Proof.
  unfold round_bdd. destruct (round_memo M (count_minterms f) l (snd f) (fst f) []
    (minterms_complete f) (memo_ok_nil _)) as (m' & E & _). now rewrite E.
Qed.
Lemma round_best_pure M f ls le : round_best M f ls le = Ok (rb M (wt_of (count_minterms f)) ls le (snd f) (fst f)).
Proof.
  unfold round_best. destruct (best_memo M (count_minterms f) ls le (snd f) (fst f) []
    (minterms_complete f) (memo_ok_nil _)) as (m' & E & _). now rewrite E.
Qed.
Lemma round_down_pure M f ls le : round_down M f ls le = Ok (rc M (wt_of (count_solutions f)) ls le false true (snd f) (fst f)).
Proof.
  unfold round_down. destruct (remove_memo M (count_solutions f) ls le false true (snd f) (fst f) []
    (solutions_complete f) (memo_ok_nil _)) as (m' & E & _). now rewrite E.
Qed.
Lemma round_up_pure M f ls le : round_up M f ls le = Ok (rc M (wt_of (count_solutions f)) ls le false false (snd f) (fst f)).
Proof.
  unfold round_up. destruct (remove_memo M (count_solutions f) ls le false false (snd f) (fst f) []
    (solutions_complete f) (memo_ok_nil _)) as (m' & E & _). now rewrite E.
Qed.
