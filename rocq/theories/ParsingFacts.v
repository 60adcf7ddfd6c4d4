(** Proofs about the readers: words, PLA files and the Function class. *)
From Coq Require Import Ascii String List Bool Arith NArith ZArith Lia.
From Verif Require Import Res Cudd CuddFacts Spec Helpers Parsing SpecParsing MinimizeFacts.
Import ListNotations.
Open Scope list_scope.
Open Scope nat_scope.

(** ** split *)
Lemma is_space_iff c : is_space c = true <-> blank c.
Proof.
  unfold is_space, blank. set (n := nat_of_ascii c). clearbody n. split; intro H.
  - do 33 (destruct n as [|n]; [solve [discriminate H | cbn [In]; lia]|]). discriminate H.
  - cbn [In] in H. decompose [or] H; try contradiction; subst; reflexivity.
Qed.
Lemma is_space_false c : is_space c = false <-> ~ blank c.
Proof. rewrite <- is_space_iff. destruct (is_space c); split; intro H; congruence. Qed.

Lemma tokens_gap g : forall s, gap g -> tokens (g ++ s) [] = tokens s [].
Proof.
  induction g as [|c g IH]; intros s H; auto. inversion H as [|? ? Hc Hg]; subst. cbn [app tokens].
  apply is_space_iff in Hc. rewrite Hc. auto.
Qed.
Lemma tokens_word w : forall s cur, Forall (fun c => ~ blank c) w -> tokens (w ++ s) cur = tokens s (cur ++ w).
Proof.
  induction w as [|c w IH]; intros s cur H; cbn [app]; [now rewrite app_nil_r|]. inversion H as [|? ? Hc Hw]; subst.
  cbn [tokens]. apply is_space_false in Hc. rewrite Hc, (IH s (cur ++ [c]) Hw), <- app_assoc. reflexivity.
Qed.
Lemma tokens_close g s cur : gap g -> g <> [] -> cur <> [] -> tokens (g ++ s) cur = cur :: tokens s [].
Proof.
  intros Hg Hn Hc. destruct g as [|c g]; [congruence|]. inversion Hg as [|? ? H1 H2]; subst. cbn [app tokens].
  apply is_space_iff in H1. rewrite H1. destruct cur as [|d cur]; [congruence|]. rewrite (tokens_gap g s H2). reflexivity.
Qed.
Lemma tokens_words s ws : words_of s ws -> tokens s [] = ws.
Proof.
  induction 1 as [s Hg|s w Hg [Hn Hw]|s w g rest ws Hg [Hn Hw] Hs Hsn Hr IH].
  - rewrite <- (app_nil_r s). rewrite (tokens_gap s [] Hg). reflexivity.
  - rewrite (tokens_gap s w Hg). rewrite <- (app_nil_r w) at 1. rewrite (tokens_word w [] [] Hw). cbn [app tokens].
    destruct w; [congruence|reflexivity].
  - rewrite (tokens_gap s _ Hg), (tokens_word w (g ++ rest) [] Hw), (tokens_close g rest ([] ++ w) Hs Hsn Hn), IH. reflexivity.
Qed.
Lemma words_gap c s ws : blank c -> words_of s ws -> words_of (c :: s) ws.
Proof.
  intros Hc H. destruct H as [s Hg|s w Hg Hw|s w g rest ws Hg Hw Hs Hsn Hr].
  - apply no_word. constructor; auto.
  - apply (last_word (c :: s) w); auto. constructor; auto.
  - apply (more_words (c :: s) w g rest ws); auto. constructor; auto.
Qed.
Lemma words_prefix s : forall cur, Forall (fun c => ~ blank c) cur -> words_of (cur ++ s) (tokens s cur).
Proof.
  induction s as [|c s IH]; intros cur Hc; cbn [tokens].
  - rewrite app_nil_r. destruct cur as [|d cur]; [apply no_word; constructor|].
    apply (last_word [] (d :: cur)); [constructor|split; [discriminate|auto]].
  - destruct (is_space c) eqn:E.
    + apply is_space_iff in E. specialize (IH [] (Forall_nil _)). cbn [app] in IH. destruct cur as [|d cur].
      * cbn [app]. apply words_gap; auto.
      * pose proof (more_words [] (d :: cur) [c] s (tokens s [])) as H. cbn [app] in H. cbn [app]. apply H; auto; try discriminate.
        -- constructor.
        -- split; [discriminate|auto].
        -- constructor; auto.
    + apply is_space_false in E. specialize (IH (cur ++ [c])). rewrite <- app_assoc in IH. apply IH.
      apply Forall_app. split; auto.
Qed.
Theorem split_words : forall (str : list ascii) (cont result : list (list ascii)),
  split str cont = result <-> exists ws, words_of str ws /\ result = cont ++ ws.
Proof.
  intros str cont result. unfold split. split.
  - intros <-. exists (tokens str []). split; auto. exact (words_prefix str [] (Forall_nil _)).
  - intros (ws & H & ->). rewrite (tokens_words str ws H). reflexivity.
Qed.

(** ** PLA *)
Lemma str_eqb_eq x : forall y, str_eqb x y = true <-> x = y.
Proof.
  induction x as [|a x IH]; intros [|b y]; cbn [str_eqb]; split; intro H; try discriminate; auto.
  - apply andb_true_iff in H. destruct H as [H1 H2]. apply Ascii.eqb_eq in H1. apply IH in H2. congruence.
  - injection H as -> ->. apply andb_true_iff. split; [apply Ascii.eqb_refl|apply IH; auto].
Qed.

Section Pla.
Variable M : mgr.

(** the part of a cube from column [i] on *)
Definition matches_from (a : asg) (i : nat) (vars : list bdd) (term : list ascii) : Prop := forall k v,
  nth_error vars (i + k) = Some v ->
  (nth_error term k = Some "0"%char -> ev v a = false) /\ (nth_error term k = Some "1"%char -> ev v a = true).

Lemma cube_loop_ok term : forall vars i cube,
  (forall k, nth_error term k = Some "0"%char \/ nth_error term k = Some "1"%char -> i + k < length vars) ->
  Forall (wf M) vars -> wf M cube ->
  exists c, cube_loop M vars term i cube = Ok c /\ wf M c
    /\ forall a, ev c a = true <-> ev cube a = true /\ matches_from a i vars term.
Proof.
  induction term as [|ch0 term IH]; intros vars i cube Hl Hv Hc; cbn [cube_loop].
  - exists cube. split; auto. split; auto. intro a. split; [|intros [H _]; auto]. intro H. split; auto.
    intros k v _. destruct k; split; discriminate.
  - assert (Hl' : forall k, nth_error term k = Some "0"%char \/ nth_error term k = Some "1"%char -> S i + k < length vars)
      by (intros k Hk; specialize (Hl (S k) Hk); lia).
    assert (Hstep : forall (a : asg) c, matches_from a i vars (c :: term) <->
        (forall v, nth_error vars i = Some v -> (c = "0"%char -> ev v a = false) /\ (c = "1"%char -> ev v a = true))
        /\ matches_from a (S i) vars term).
    { intros a c. split.
      - intro H. split.
        + intros v Ev. specialize (H 0 v). rewrite Nat.add_0_r in H. specialize (H Ev). cbn [nth_error] in H.
          destruct H as [H0 H1]. split; intros ->; auto.
        + intros k v Ev. apply (H (S k) v). rewrite <- Ev. f_equal. lia.
      - intros [H0 H1] k v Ev. destruct k as [|k].
        + rewrite Nat.add_0_r in Ev. specialize (H0 v Ev). destruct H0 as [Ha Hb]. cbn [nth_error].
          split; intros Hc0; injection Hc0 as ->; auto.
        + apply (H1 k v). rewrite <- Ev. f_equal. lia. }
    assert (Hget : ch0 = "0"%char \/ ch0 = "1"%char -> exists v, vget vars i = Ok v /\ nth_error vars i = Some v /\ wf M v).
    { intro H. assert (i < length vars) as Hi by (specialize (Hl 0); cbn [nth_error] in Hl; rewrite Nat.add_0_r in Hl; apply Hl;
        destruct H as [->| ->]; auto).
      destruct (vget_ok vars i Hi) as (v & E1 & E2). exists v. repeat (split; auto). apply (proj1 (Forall_forall _ _) Hv).
      exact (nth_error_In _ _ E2). }
    destruct (Ascii.eqb ch0 "0") eqn:E0; [|destruct (Ascii.eqb ch0 "1") eqn:E1].
    + apply Ascii.eqb_eq in E0. destruct (Hget (or_introl E0)) as (v & G1 & G2 & G3). rewrite G1. cbn [bind].
      destruct (IH vars (S i) (band M cube (bnot v)) Hl' Hv) as (c & F1 & F2 & F3); [auto with wf|].
      exists c. split; auto. split; auto. intro a. rewrite F3, Hstep, ev_and, ev_not, andb_true_iff, negb_true_iff.
      split.
      * intros [[H1 H2] H3]. split; auto. split; auto. intros v' Ev. rewrite G2 in Ev. injection Ev as <-. split; auto.
        intros ->; discriminate.
      * intros (H1 & H2 & H3). split; auto. split; auto. apply (H2 v G2). auto.
    + apply Ascii.eqb_eq in E1. destruct (Hget (or_intror E1)) as (v & G1 & G2 & G3). rewrite G1. cbn [bind].
      destruct (IH vars (S i) (band M cube v) Hl' Hv) as (c & F1 & F2 & F3); [auto with wf|].
      exists c. split; auto. split; auto. intro a. rewrite F3, Hstep, ev_and, andb_true_iff.
      split.
      * intros [[H1 H2] H3]. split; auto. split; auto. intros v' Ev. rewrite G2 in Ev. injection Ev as <-. split; auto.
        intros ->; discriminate.
      * intros (H1 & H2 & H3). split; auto. split; auto. apply (H2 v G2). auto.
    + apply Ascii.eqb_neq in E0. apply Ascii.eqb_neq in E1.
      destruct (IH vars (S i) cube Hl' Hv Hc) as (c & F1 & F2 & F3).
      exists c. split; auto. split; auto. intro a. rewrite F3, Hstep. split; [|intuition].
      intros [H1 H2]. split; auto. split; auto. intros v _. split; intro; contradiction.
Qed.
Lemma cube_loop_cases term : forall vars i cube, (exists c, cube_loop M vars term i cube = Ok c) \/ cube_loop M vars term i cube = UB.
Proof.
  induction term as [|c term IH]; intros vars i cube; cbn [cube_loop]; eauto.
  unfold vget. destruct (Ascii.eqb c "0"), (Ascii.eqb c "1"), (nth_error vars i); cbn [bind]; auto.
Qed.
Lemma cube_loop_bound term : forall vars i cube c, cube_loop M vars term i cube = Ok c ->
  forall k, nth_error term k = Some "0"%char \/ nth_error term k = Some "1"%char -> i + k < length vars.
Proof.
  induction term as [|d term IH]; intros vars i cube c H k Hk; [destruct k, Hk; discriminate|].
  cbn [cube_loop] in H. destruct k as [|k].
  - cbn [nth_error] in Hk. rewrite Nat.add_0_r. apply nth_error_Some. intro E. unfold vget in H. rewrite E in H.
    destruct Hk as [Hk|Hk]; injection Hk as ->; discriminate H.
  - cbn [nth_error] in Hk. replace (i + S k) with (S i + k) by lia. unfold vget in H.
    destruct (Ascii.eqb d "0"); [|destruct (Ascii.eqb d "1")]; [destruct (nth_error vars i); [|discriminate H]; cbn [bind] in H..|];
      exact (IH _ _ _ _ H k Hk).
Qed.

Lemma out_loop_ok out : forall outs i cube,
  (forall k, nth_error out k = Some "1"%char -> i + k < length outs) ->
  Forall (wf M) outs -> wf M cube ->
  exists outs', out_loop M outs out i cube = Ok outs' /\ length outs' = length outs /\ Forall (wf M) outs'
    /\ forall j f f', nth_error outs j = Some f -> nth_error outs' j = Some f' -> forall a,
         ev f' a = true <-> ev f a = true \/ (i <= j /\ nth_error out (j - i) = Some "1"%char /\ ev cube a = true).
Proof.
  induction out as [|c out IH]; intros outs i cube Hl Ho Hc; cbn [out_loop].
  - exists outs. split; [auto|]. split; [auto|]. split; [auto|]. intros j f f' E1 E2 a. rewrite E1 in E2. injection E2 as <-. split; auto.
    intros [H|(_ & H & _)]; auto. destruct (j - i); discriminate.
  - assert (Hl' : forall k, nth_error out k = Some "1"%char -> S i + k < length outs)
      by (intros k Hk; specialize (Hl (S k) Hk); lia).
    destruct (Ascii.eqb c "1") eqn:E1.
    + apply Ascii.eqb_eq in E1. subst c.
      assert (i < length outs) as Hi by (specialize (Hl 0 eq_refl); lia).
      destruct (vget_ok outs i Hi) as (b & G1 & G2). rewrite G1. cbn [bind].
      destruct (vset_ok outs i (bor M b cube) Hi) as (o1 & S1). rewrite S1. cbn [bind].
      destruct (vset_spec _ _ _ _ S1) as (L1 & _ & N1).
      assert (wf M b) as Hb by (apply (proj1 (Forall_forall _ _) Ho); exact (nth_error_In _ _ G2)).
      assert (Forall (wf M) o1) as Ho1.
      { apply Forall_forall. intros f Hf. apply In_nth_error in Hf. destruct Hf as (j & Ej). rewrite N1 in Ej.
        destruct (j =? i); [injection Ej as <-; auto with wf|]. apply (proj1 (Forall_forall _ _) Ho). exact (nth_error_In _ _ Ej). }
      destruct (IH o1 (S i) cube) as (o2 & F1 & F2 & F3 & F4); auto; [intros k Hk; rewrite L1; auto|].
      exists o2. split; auto. split; [lia|]. split; auto. intros j f f' Ej Ej' a.
      destruct (Nat.eq_dec j i) as [->|Hne].
      * rewrite G2 in Ej. injection Ej as <-. rewrite (F4 i (bor M b cube) f'); auto.
        -- rewrite ev_or, orb_true_iff, Nat.sub_diag. cbn [nth_error]. split; [intros [[H|H]|(H & _)]; [auto|right; auto|lia]|].
           intros [H|(_ & _ & H)]; auto.
        -- rewrite N1, Nat.eqb_refl. reflexivity.
      * rewrite (F4 j f f'); auto; [|rewrite N1; destruct (Nat.eqb_spec j i); [contradiction|auto]].
        split; (intros [H|(H1 & H2 & H3)]; [auto|right]).
        -- split; [lia|]. split; auto. replace (j - i) with (S (j - S i)) by lia. exact H2.
        -- split; [lia|]. split; auto. replace (j - i) with (S (j - S i)) in H2 by lia. exact H2.
    + apply Ascii.eqb_neq in E1. destruct (IH outs (S i) cube Hl' Ho Hc) as (o2 & F1 & F2 & F3 & F4).
      exists o2. split; [auto|]. split; [auto|]. split; [auto|]. intros j f f' Ej Ej' a. rewrite (F4 j f f'); auto.
      split; (intros [H|(H1 & H2 & H3)]; [auto|right]).
      * split; [lia|]. split; auto. replace (j - i) with (S (j - S i)) by lia. exact H2.
      * destruct (Nat.eq_dec j i) as [->|Hne]; [rewrite Nat.sub_diag in H2; injection H2 as ->; contradiction|].
        split; [lia|]. split; auto. replace (j - i) with (S (j - S i)) in H2 by lia. exact H2.
Qed.
Lemma out_loop_cases out : forall outs i cube, (exists o, out_loop M outs out i cube = Ok o) \/ out_loop M outs out i cube = UB.
Proof.
  induction out as [|c out IH]; intros outs i cube; cbn [out_loop]; eauto. destruct (Ascii.eqb c "1"); auto.
  destruct (Nat.lt_ge_cases i (length outs)) as [H|H].
  - destruct (vget_ok outs i H) as (b & G1 & _). rewrite G1. cbn [bind]. destruct (vset_ok outs i (bor M b cube) H) as (o & E).
    rewrite E. cbn [bind]. auto.
  - unfold vget. apply nth_error_None in H. rewrite H. auto.
Qed.
Lemma out_loop_bound out : forall outs i cube o, out_loop M outs out i cube = Ok o ->
  forall k, nth_error out k = Some "1"%char -> i + k < length outs.
Proof.
  induction out as [|d out IH]; intros outs i cube o H k Hk; [destruct k; discriminate|].
  cbn [out_loop] in H. destruct (Ascii.eqb d "1") eqn:E1.
  - destruct (vget outs i) as [b| | |] eqn:G; try discriminate H. cbn [bind] in H.
    destruct (vset outs i (bor M b cube)) as [o1| | |] eqn:G2; try discriminate H. cbn [bind] in H.
    destruct (vset_spec _ _ _ _ G2) as (L & Hi & _). destruct k as [|k]; [lia|].
    specialize (IH _ _ _ _ H k Hk). lia.
  - destruct k as [|k]; [cbn in Hk; injection Hk as ->; discriminate E1|]. specialize (IH _ _ _ _ H k Hk). lia.
Qed.

Definition pla_good (st : pla) : Prop := Forall (wf M) (bdd_vars st) /\ Forall (wf M) (output_bdds st).

Lemma pla_term st term out : pla_good st ->
  (fits (length (bdd_vars st)) (length (output_bdds st)) term out ->
     exists outs', pla_step M st (Term term out) = Ok (Pla (bdd_vars st) outs' (innames st) (outnames st) (variable_names st))
       /\ length outs' = length (output_bdds st) /\ Forall (wf M) outs'
       /\ forall j f f', nth_error (output_bdds st) j = Some f -> nth_error outs' j = Some f' -> forall a,
            ev f' a = true <-> ev f a = true \/ (nth_error out j = Some "1"%char /\ matches_from a 0 (bdd_vars st) term))
  /\ (~ fits (length (bdd_vars st)) (length (output_bdds st)) term out -> pla_step M st (Term term out) = UB).
Proof.
  intros [Hv Ho]. split.
  - intros [F1 F2]. cbn [pla_step]. destruct (cube_loop_ok term (bdd_vars st) 0 bone) as (c & E1 & E2 & E3); auto with wf.
    rewrite E1. cbn [bind]. destruct (out_loop_ok out (output_bdds st) 0 c) as (o & G1 & G2 & G3 & G4); auto.
    rewrite G1. cbn [bind]. exists o. split; [auto|]. split; [auto|]. split; [auto|]. intros j f f' Ej Ej' a. rewrite (G4 j f f' Ej Ej' a), E3, Nat.sub_0_r.
    split; (intros [H|H]; [auto|right]).
    + destruct H as (_ & H & _ & H'). auto.
    + destruct H as [H H']. split; [lia|]. repeat (split; auto).
  - intro Hn. cbn [pla_step]. destruct (cube_loop_cases term (bdd_vars st) 0 bone) as [(c & E)|E]; rewrite E; cbn [bind]; auto.
    destruct (out_loop_cases out (output_bdds st) 0 c) as [(o & E')|E']; rewrite E'; cbn [bind]; auto.
    exfalso. apply Hn. split; [exact (cube_loop_bound _ _ _ _ _ E)|exact (out_loop_bound _ _ _ _ _ E')].
Qed.

(** lengths and well-formedness after any events *)
Lemma sum_of_app f x y : sum_of f (x ++ y) = sum_of f x + sum_of f y.
Proof. unfold sum_of. induction x as [|e x IH]; cbn [app fold_right]; lia. Qed.
Lemma pla_run_app x : forall y st, pla_run M (x ++ y) st = bind (pla_run M x st) (pla_run M y).
Proof.
  induction x as [|e x IH]; intros y st; cbn [app pla_run bind]; auto. destruct (pla_step M st e); cbn [bind]; auto.
Qed.
Lemma below_dec (c : list ascii) (x y : ascii) n :
  (forall k, nth_error c k = Some x \/ nth_error c k = Some y -> k < n) \/ ~ (forall k, nth_error c k = Some x \/ nth_error c k = Some y -> k < n).
Proof.
  revert n. induction c as [|d c IH]; intro n; [left; intros [|k] [H|H]; discriminate|]. destruct n as [|n].
  - destruct (IH 0) as [H|H].
    + destruct (ascii_dec d x) as [->|H1]; [right; intro F; specialize (F 0 (or_introl eq_refl)); lia|].
      destruct (ascii_dec d y) as [->|H2]; [right; intro F; specialize (F 0 (or_intror eq_refl)); lia|].
      left. intros [|k] Hk; [cbn [nth_error] in Hk; destruct Hk; congruence|]. specialize (H k Hk). lia.
    + right. intro F. apply H. intros k Hk. specialize (F (S k) Hk). lia.
  - destruct (IH n) as [H|H].
    + left. intros [|k] Hk; [lia|]. specialize (H k Hk). lia.
    + right. intro F. apply H. intros k Hk. specialize (F (S k) Hk). lia.
Qed.
Lemma fits_dec i o term out : fits i o term out \/ ~ fits i o term out.
Proof.
  destruct (below_dec term "0" "1" i) as [H1|H1]; [|right; intros [F _]; auto].
  destruct (below_dec out "1" "1" o) as [H2|H2].
  - left. split; auto.
  - right. intros [_ F]. apply H2. intros k [Hk|Hk]; auto.
Qed.

Definition all_fit (evs : list pla_event) : Prop := forall pre term out post, evs = pre ++ Term term out :: post ->
  fits (declared_inputs pre) (declared_outputs pre) term out.

Lemma all_fit_app x y : all_fit (x ++ y) -> all_fit x.
Proof. intros H pre t o post E. apply (H pre t o (post ++ y)). rewrite E, <- app_assoc. reflexivity. Qed.

Lemma good_vars_app st (l : list bdd) : Forall (wf M) (bdd_vars st) -> Forall (wf M) l -> Forall (wf M) (bdd_vars st ++ l).
Proof. intros. apply Forall_app. auto. Qed.
Lemma good_bvars n s : Forall (wf M) (map bvar (seq s n)).
Proof. apply Forall_forall. intros f H. apply in_map_iff in H. destruct H as (i & <- & _). apply wf_var. Qed.
Lemma good_zeros n : Forall (wf M) (repeat bzero n).
Proof. apply Forall_forall. intros f H. apply repeat_spec in H. subst. apply wf_zero. Qed.

(** invariant of the reader: output [j] is the disjunction of the matching terms read so far *)
Definition pla_inv (evs : list pla_event) (st : pla) : Prop :=
  pla_good st /\ length (bdd_vars st) = declared_inputs evs /\ length (output_bdds st) = declared_outputs evs
  /\ (input_declarations evs <= 1 -> bdd_vars st = map bvar (seq 0 (declared_inputs evs)))
  /\ (forall term out, In (Term term out) evs -> fits (length (bdd_vars st)) (length (output_bdds st)) term out)
  /\ forall j f, nth_error (output_bdds st) j = Some f -> forall a, (ev f a = true <->
       exists term out, In (Term term out) evs /\ nth_error out j = Some "1"%char /\ matches_from a 0 (bdd_vars st) term).

Lemma matches_from_prefix a term vs rest :
  (forall i, nth_error term i = Some "0"%char \/ nth_error term i = Some "1"%char -> i < length vs) ->
  matches_from a 0 vs term <-> matches_from a 0 (vs ++ rest) term.
Proof.
  intro Hf. split; intros H k v Ev; cbn [Nat.add] in *.
  - assert (forall c, (c = "0"%char \/ c = "1"%char) -> nth_error term k = Some c -> nth_error vs k = Some v) as Hk.
    { intros c Hc E. rewrite nth_error_app1 in Ev; auto. apply Hf. destruct Hc as [->| ->]; auto. }
    split; intro E; [specialize (Hk _ (or_introl eq_refl) E)|specialize (Hk _ (or_intror eq_refl) E)]; apply (H k v Hk); auto.
  - apply H. cbn [Nat.add]. rewrite nth_error_app1; auto. apply nth_error_Some. congruence.
Qed.
Lemma fits_more i o i' o' term out : i <= i' -> o <= o' -> fits i o term out -> fits i' o' term out.
Proof. intros H1 H2 [F1 F2]. split; intros k Hk; [specialize (F1 k Hk)|specialize (F2 k Hk)]; lia. Qed.

Lemma snoc_split {A} (l pre post : list A) x y : l ++ [x] = pre ++ y :: post ->
  (post = [] /\ l = pre /\ x = y) \/ (exists post', post = post' ++ [x] /\ l = pre ++ y :: post').
Proof.
  intro E. destruct post as [|z0 post0] using rev_ind.
  - apply app_inj_tail in E. destruct E as [E1 E2]. left; auto.
  - clear IHpost0. right. exists post0. change (pre ++ y :: post0 ++ [z0]) with (pre ++ (y :: post0) ++ [z0]) in E.
    rewrite app_assoc in E. apply app_inj_tail in E. destruct E as [-> ->]. auto.
Qed.

(** an event that is no term and leaves functions and inputs alone *)
Lemma pla_inv_other evs st e inn outn names : (forall n, e <> Inputs n) -> (forall n, e <> Outputs n) -> (forall t o, e <> Term t o) ->
  pla_inv evs st -> pla_inv (evs ++ [e]) (Pla (bdd_vars st) (output_bdds st) inn outn names).
Proof.
  intros H1 H2 H3 (I1 & I2 & I3 & I4 & I5 & I6).
  assert (declared_inputs (evs ++ [e]) = declared_inputs evs) as D1
    by (unfold declared_inputs; rewrite sum_of_app; destruct e as [n|n| | |]; cbn; try lia; destruct (H1 n eq_refl)).
  assert (declared_outputs (evs ++ [e]) = declared_outputs evs) as D2
    by (unfold declared_outputs; rewrite sum_of_app; destruct e as [n|n| | |]; cbn; try lia; destruct (H2 n eq_refl)).
  assert (input_declarations (evs ++ [e]) = input_declarations evs) as D3
    by (unfold input_declarations; rewrite sum_of_app; destruct e as [n|n| | |]; cbn; try lia; destruct (H1 n eq_refl)).
  assert (forall t o, In (Term t o) (evs ++ [e]) <-> In (Term t o) evs) as D4.
  { intros t o. rewrite in_app_iff. cbn [In]. split; [|auto]. intros [H|[H|[]]]; auto. destruct (H3 t o H). }
  unfold pla_inv. cbn [bdd_vars output_bdds]. rewrite D1, D2, D3. split; [exact I1|]. split; [auto|]. split; [auto|]. split; [auto|]. split.
  - intros t o H. apply D4 in H. exact (I5 _ _ H).
  - intros j f Ej a. rewrite (I6 j f Ej a). split; intros (t & o & G1 & G2); exists t, o; [rewrite D4|rewrite D4 in G1]; auto.
Qed.

Lemma pla_inv_step evs st e : pla_inv evs st ->
  (forall term out, e = Term term out -> fits (declared_inputs evs) (declared_outputs evs) term out) ->
  exists st', pla_step M st e = Ok st' /\ pla_inv (evs ++ [e]) st'.
Proof.
  intros I0 Hf. destruct e as [n|n|n|k v|term out].
  - destruct I0 as ([V O] & I2 & I3 & I4 & I5 & I6). cbn [pla_step]. eexists. split; [reflexivity|].
    unfold pla_inv. cbn [bdd_vars output_bdds].
    assert (declared_inputs (evs ++ [Inputs n]) = declared_inputs evs + n) as D1
      by (unfold declared_inputs; rewrite sum_of_app; cbn; lia).
    assert (declared_outputs (evs ++ [Inputs n]) = declared_outputs evs) as D2
      by (unfold declared_outputs; rewrite sum_of_app; cbn; lia).
    assert (input_declarations (evs ++ [Inputs n]) = S (input_declarations evs)) as D3
      by (unfold input_declarations; rewrite sum_of_app; cbn; lia).
    assert (forall t o, In (Term t o) (evs ++ [Inputs n]) <-> In (Term t o) evs) as D4.
    { intros t o. rewrite in_app_iff. cbn [In]. split; [|auto]. intros [H|[H|[]]]; auto. discriminate. }
    rewrite D1, D2, D3, app_length, map_length, seq_length. split; [split; auto; apply good_vars_app; auto using good_bvars|].
    split; [lia|]. split; [lia|]. split; [|split].
    + intro H. assert (declared_inputs evs = 0) as Z.
      { assert (input_declarations evs = 0) as Hz by lia. clear - Hz. unfold declared_inputs, input_declarations in *.
        induction evs as [|e evs IH]; auto. cbn [sum_of fold_right] in *. unfold sum_of in *. cbn [fold_right] in *.
        destruct e; try lia; rewrite IH; lia. }
      rewrite Z in *. destruct (bdd_vars st); [reflexivity|discriminate].
    + intros t o H. apply D4 in H. apply (fits_more (length (bdd_vars st)) (length (output_bdds st))); [lia|lia|auto].
    + intros j f Ej a. rewrite (I6 j f Ej a). split; intros (t & o & G1 & G2 & G3); exists t, o.
      * rewrite D4. split; auto. split; auto. apply matches_from_prefix; auto. apply (I5 t o G1).
      * rewrite D4 in G1. split; auto. split; auto. apply matches_from_prefix in G3; auto. apply (I5 t o G1).
  - destruct I0 as ([V O] & I2 & I3 & I4 & I5 & I6). cbn [pla_step]. eexists. split; [reflexivity|].
    unfold pla_inv. cbn [bdd_vars output_bdds].
    assert (declared_inputs (evs ++ [Outputs n]) = declared_inputs evs) as D1
      by (unfold declared_inputs; rewrite sum_of_app; cbn; lia).
    assert (declared_outputs (evs ++ [Outputs n]) = declared_outputs evs + n) as D2
      by (unfold declared_outputs; rewrite sum_of_app; cbn; lia).
    assert (input_declarations (evs ++ [Outputs n]) = input_declarations evs) as D3
      by (unfold input_declarations; rewrite sum_of_app; cbn; lia).
    assert (forall t o, In (Term t o) (evs ++ [Outputs n]) <-> In (Term t o) evs) as D4.
    { intros t o. rewrite in_app_iff. cbn [In]. split; [|auto]. intros [H|[H|[]]]; auto. discriminate. }
    rewrite D1, D2, D3, app_length, repeat_length. split; [split; auto; apply Forall_app; auto using good_zeros|].
    split; [lia|]. split; [lia|]. split; [auto|split].
    + intros t o H. apply D4 in H. apply (fits_more (length (bdd_vars st)) (length (output_bdds st))); [lia|lia|auto].
    + intros j f Ej a. destruct (Nat.lt_ge_cases j (length (output_bdds st))) as [Hj|Hj].
      * rewrite nth_error_app1 in Ej by auto. rewrite (I6 j f Ej a). split; intros (t & o & G1 & G2 & G3); exists t, o.
        -- rewrite D4. auto.
        -- rewrite D4 in G1. auto.
      * rewrite nth_error_app2 in Ej by auto. apply nth_error_In, repeat_spec in Ej. subst f. rewrite ev_zero. split; [discriminate|].
        intros (t & o & G1 & G2 & G3). rewrite D4 in G1. destruct (I5 t o G1) as [_ F]. specialize (F j G2). lia.
  - cbn [pla_step]. eexists. split; [reflexivity|]. destruct st as [v o i on vn]. apply (pla_inv_other evs (Pla v o i on vn)); auto; discriminate.
  - cbn [pla_step]. destruct (str_eqb k (ch "ilb")); [|destruct (str_eqb k (ch "ob"))]; eexists; (split; [reflexivity|]).
    + apply pla_inv_other; auto; discriminate.
    + apply pla_inv_other; auto; discriminate.
    + destruct st as [w o i on vn]. apply (pla_inv_other evs (Pla w o i on vn)); auto; discriminate.
  - destruct I0 as (G0 & I2 & I3 & I4 & I5 & I6). specialize (Hf term out eq_refl).
    destruct (proj1 (pla_term st term out G0)) as (outs' & E1 & E2 & E3 & E4); [rewrite I2, I3; auto|].
    rewrite E1. eexists. split; [reflexivity|]. unfold pla_inv. cbn [bdd_vars output_bdds].
    assert (declared_inputs (evs ++ [Term term out]) = declared_inputs evs) as D1
      by (unfold declared_inputs; rewrite sum_of_app; cbn; lia).
    assert (declared_outputs (evs ++ [Term term out]) = declared_outputs evs) as D2
      by (unfold declared_outputs; rewrite sum_of_app; cbn; lia).
    assert (input_declarations (evs ++ [Term term out]) = input_declarations evs) as D3
      by (unfold input_declarations; rewrite sum_of_app; cbn; lia).
    assert (forall t o, In (Term t o) (evs ++ [Term term out]) <-> In (Term t o) evs \/ (t = term /\ o = out)) as D4.
    { intros t o. rewrite in_app_iff. cbn [In]. split; [intros [H|[H|[]]]; auto; injection H as -> ->; auto|].
      intros [H|[-> ->]]; auto. }
    rewrite D1, D2, D3. destruct G0 as [V O]. split; [split; auto|]. split; [auto|]. split; [lia|]. split; [auto|]. split.
    + intros t o H. apply D4 in H. rewrite E2. destruct H as [H|[-> ->]]; [auto|]. rewrite I2, I3. auto.
    + intros j f' Ej a. assert (exists f, nth_error (output_bdds st) j = Some f) as (f & Ef).
      { assert (j < length (output_bdds st)) as Hj by (rewrite <- E2; apply nth_error_Some; congruence).
        destruct (nth_error (output_bdds st) j) eqn:E; eauto. apply nth_error_None in E. lia. }
      rewrite (E4 j f f' Ef Ej a), (I6 j f Ef a). split.
      * intros [(t & o & G1 & G2 & G3)|[G2 G3]]; [exists t, o|exists term, out]; rewrite D4; auto.
      * intros (t & o & G1 & G2 & G3). rewrite D4 in G1. destruct G1 as [G1|[-> ->]]; [left|right; auto].
        exists t, o. auto.
Qed.
Lemma pla_start_inv : pla_inv [] pla_start.
Proof.
  unfold pla_inv, pla_start, pla_good. cbn [bdd_vars output_bdds length]. split; [split; constructor|]. split; [reflexivity|].
  split; [reflexivity|]. split; [intros _; reflexivity|]. split; [intros t o []|]. intros j f H. destruct j; discriminate.
Qed.
Lemma pla_run_inv evs : all_fit evs -> exists st, pla_run M evs pla_start = Ok st /\ pla_inv evs st.
Proof.
  induction evs as [|e evs IH] using rev_ind; intro H; [exists pla_start; split; [reflexivity|apply pla_start_inv]|].
  destruct (IH (all_fit_app _ _ H)) as (st & E & I0). rewrite pla_run_app, E. cbn [bind pla_run].
  destruct (pla_inv_step evs st e I0) as (st' & E' & I').
  - intros t o ->. apply (H evs t o []). reflexivity.
  - rewrite E'. cbn [bind]. exists st'. auto.
Qed.
Lemma all_fit_or evs : all_fit evs \/ exists pre term out post, evs = pre ++ Term term out :: post /\ all_fit pre
    /\ ~ fits (declared_inputs pre) (declared_outputs pre) term out.
Proof.
  induction evs as [|e evs IH] using rev_ind; [left; intros pre t o post E; destruct pre; discriminate|].
  destruct IH as [IH|(pre & t & o & post & E & H1 & H2)].
  - destruct e as [n|n|n|k v|t o].
    1-4: left; intros pre t o post E; destruct (snoc_split _ _ _ _ _ E) as [(_ & _ & H)|(p & _ & H)]; [discriminate|exact (IH _ _ _ _ H)].
    destruct (fits_dec (declared_inputs evs) (declared_outputs evs) t o) as [F|F].
    + left. intros pre t' o' post E. destruct (snoc_split _ _ _ _ _ E) as [(_ & H & H')|(p & _ & H)]; [|exact (IH _ _ _ _ H)].
      injection H' as <- <-. subst pre. auto.
    + right. exists evs, t, o, []. auto.
  - right. exists pre, t, o, (post ++ [e]). rewrite E, <- app_assoc. auto.
Qed.

Lemma matches_vars a n term : (forall i, nth_error term i = Some "0"%char \/ nth_error term i = Some "1"%char -> i < n) ->
  matches_from a 0 (map bvar (seq 0 n)) term <-> matches a term.
Proof.
  intro Hf.
  assert (forall i, i < n -> nth_error (map bvar (seq 0 n)) i = Some (bvar i)) as Hn.
  { intros i Hi. rewrite nth_error_map. rewrite (nth_error_nth' _ 0); [|rewrite seq_length; auto]. rewrite seq_nth by auto. reflexivity. }
  split.
  - intros H i. split; intro E; [specialize (Hf i (or_introl E))|specialize (Hf i (or_intror E))]; specialize (H i _ (Hn i Hf));
      rewrite ev_var in H; apply H; auto.
  - intros H k v Ev. cbn [Nat.add] in Ev. destruct (H k) as [H0 H1]. split; intro E.
    + specialize (Hf k (or_introl E)). rewrite (Hn k Hf) in Ev. injection Ev as <-. rewrite ev_var. auto.
    + specialize (Hf k (or_intror E)). rewrite (Hn k Hf) in Ev. injection Ev as <-. rewrite ev_var. auto.
Qed.

Theorem pla_sum_of_cubes : forall evs st, pla_run M evs pla_start = Ok st -> input_declarations evs <= 1 ->
  length (output_bdds st) = declared_outputs evs
  /\ forall j f, nth_error (output_bdds st) j = Some f -> wf M f /\ forall a, (ev f a = true <->
       exists term out, In (Term term out) evs /\ nth_error out j = Some "1"%char /\ matches a term).
Proof.
  intros evs st E Hi. destruct (all_fit_or evs) as [Hf|(pre & t & o & post & -> & H1 & H2)].
  - destruct (pla_run_inv evs Hf) as (st' & E' & ([V O] & I2 & I3 & I4 & I5 & I6)). rewrite E in E'. injection E' as <-.
    split; auto. intros j f Ej. split; [apply (proj1 (Forall_forall _ _) O); exact (nth_error_In _ _ Ej)|].
    intro a. rewrite (I6 j f Ej a). specialize (I4 Hi).
    split; intros (t & o & G1 & G2 & G3); exists t, o; (split; [auto|]; split; [auto|]); destruct (I5 t o G1) as [F _]; rewrite I2 in F;
      [rewrite I4 in G3; apply (matches_vars a (declared_inputs evs)); auto|rewrite I4; apply matches_vars; auto].
  - exfalso. destruct (pla_run_inv pre H1) as (st' & E' & (G0 & I2 & I3 & _)). rewrite pla_run_app, E' in E. cbn [bind pla_run] in E.
    rewrite (proj2 (pla_term st' t o G0)) in E; [discriminate|]. rewrite I2, I3. auto.
Qed.
Theorem pla_outcome : forall evs,
  (pla_run M evs pla_start = UB <-> exists pre term out post, evs = pre ++ Term term out :: post
     /\ ~ fits (declared_inputs pre) (declared_outputs pre) term out)
  /\ (pla_run M evs pla_start <> UB -> exists st, pla_run M evs pla_start = Ok st).
Proof.
  intro evs. destruct (all_fit_or evs) as [Hf|(pre & t & o & post & -> & H1 & H2)].
  - destruct (pla_run_inv evs Hf) as (st & E & _). rewrite E. split; [|eauto]. split; [discriminate|].
    intros (pre & t & o & post & E1 & H). destruct (H (Hf pre t o post E1)).
  - destruct (pla_run_inv pre H1) as (st' & E' & (G0 & I2 & I3 & _)). rewrite pla_run_app, E'. cbn [bind pla_run].
    rewrite (proj2 (pla_term st' t o G0)); [|rewrite I2, I3; auto]. cbn [bind]. split; [|congruence]. split; auto.
    intros _. exists pre, t, o, post. auto.
Qed.

(** names *)
Lemma keyword_cases k : (k = ch "ilb" /\ str_eqb k (ch "ilb") = true) \/ (k = ch "ob" /\ str_eqb k (ch "ilb") = false /\ str_eqb k (ch "ob") = true)
  \/ (k <> ch "ilb" /\ k <> ch "ob" /\ str_eqb k (ch "ilb") = false /\ str_eqb k (ch "ob") = false).
Proof.
  destruct (str_eqb k (ch "ilb")) eqn:E1; [left; split; auto; apply str_eqb_eq; auto|].
  destruct (str_eqb k (ch "ob")) eqn:E2; [right; left; split; auto; apply str_eqb_eq; auto|].
  right; right. split; [|split; auto]; intros ->; rewrite (proj2 (str_eqb_eq _ _) eq_refl) in *; discriminate.
Qed.
Lemma step_names st e st' : pla_step M st e = Ok st' ->
  exists ni no, Forall2 words_of (values_of "ilb" [e]) ni /\ Forall2 words_of (values_of "ob" [e]) no
    /\ innames st' = innames st ++ concat ni /\ outnames st' = outnames st ++ concat no
    /\ variable_names st' = variable_names st ++ match values_of "ilb" [e] with [] => [] | _ => innames st' end.
Proof.
  intro H. destruct e as [n|n|n|k v|t o]; cbn [pla_step] in H; unfold values_of; cbn [flat_map app].
  1-3: injection H as <-; exists [], []; cbn [concat innames outnames variable_names]; rewrite ?app_nil_r;
    split; [constructor|]; split; [constructor|]; auto.
  - assert (forall w, words_of w (tokens w [])) as Hw by (intro w; exact (words_prefix w [] (Forall_nil _))).
    destruct (keyword_cases k) as [(E & E1)|[(E & E1 & E2)|(N1 & N2 & E1 & E2)]].
    + rewrite E1 in H. injection H as <-. subst k. unfold ch in *. cbn [innames outnames variable_names].
      destruct (list_eq_dec ascii_dec (list_ascii_of_string "ilb") (list_ascii_of_string "ilb")) as [_|X]; [|destruct (X eq_refl)].
      destruct (list_eq_dec ascii_dec (list_ascii_of_string "ilb") (list_ascii_of_string "ob")) as [X|_]; [discriminate X|].
      exists [tokens v []], []. split; [constructor; auto|]. split; [constructor|]. cbn [concat app]. rewrite !app_nil_r. auto.
    + rewrite E1, E2 in H. injection H as <-. subst k. unfold ch in *. cbn [innames outnames variable_names].
      destruct (list_eq_dec ascii_dec (list_ascii_of_string "ob") (list_ascii_of_string "ilb")) as [X|_]; [discriminate X|].
      destruct (list_eq_dec ascii_dec (list_ascii_of_string "ob") (list_ascii_of_string "ob")) as [_|X]; [|destruct (X eq_refl)].
      exists [], [tokens v []]. split; [constructor|]. split; [constructor; auto|]. cbn [concat app]. rewrite !app_nil_r. auto.
    + rewrite E1, E2 in H. injection H as <-.
      destruct (list_eq_dec ascii_dec k (list_ascii_of_string "ilb")) as [X|_]; [contradiction|].
      destruct (list_eq_dec ascii_dec k (list_ascii_of_string "ob")) as [X|_]; [contradiction|].
      exists [], []. split; [constructor|]. split; [constructor|]. cbn [concat app]. rewrite !app_nil_r. auto.
  - destruct (cube_loop M (bdd_vars st) t 0 bone) as [c| | |]; cbn [bind] in H; try discriminate.
    destruct (out_loop M (output_bdds st) o 0 c) as [os| | |]; cbn [bind] in H; try discriminate. injection H as <-.
    exists [], []. cbn [concat innames outnames variable_names]. rewrite ?app_nil_r.
    split; [constructor|]; split; [constructor|]; auto.
Qed.
Lemma values_of_app k x y : values_of k (x ++ y) = values_of k x ++ values_of k y.
Proof. unfold values_of. apply flat_map_app. Qed.
Lemma run_names evs : forall st, pla_run M evs pla_start = Ok st ->
  (exists ni no, Forall2 words_of (values_of "ilb" evs) ni /\ Forall2 words_of (values_of "ob" evs) no
    /\ innames st = concat ni /\ outnames st = concat no)
  /\ (length (values_of "ilb" evs) <= 1 -> variable_names st = innames st).
Proof.
  induction evs as [|e evs IH] using rev_ind; intros st H.
  - injection H as <-. split; [|auto]. exists [], []. cbn. repeat (split; [constructor|]). auto.
  - rewrite pla_run_app in H. destruct (pla_run M evs pla_start) as [s| | |]; cbn [bind] in H; try discriminate.
    destruct (IH s eq_refl) as ((ni & no & F1 & F2 & E1 & E2) & Hv). cbn [pla_run bind] in H.
    destruct (pla_step M s e) as [s'| | |] eqn:Es; cbn [bind] in H; try discriminate. injection H as <-.
    destruct (step_names _ _ _ Es) as (ni' & no' & G1 & G2 & G3 & G4 & G5). split.
    + exists (ni ++ ni'), (no ++ no'). rewrite !values_of_app, !concat_app, <- E1, <- E2.
      split; [apply Forall2_app; auto|]. split; [apply Forall2_app; auto|]. auto.
    + rewrite values_of_app, app_length. intro Hl. rewrite G5. destruct (values_of "ilb" [e]) as [|v vs] eqn:Ev.
      * rewrite app_nil_r, Hv by (cbn [length] in Hl; lia). inversion G1; subst. rewrite G3. cbn [concat]. rewrite app_nil_r. reflexivity.
      * cbn [length] in Hl. assert (values_of "ilb" evs = []) as Hn by (destruct (values_of "ilb" evs); [auto|cbn [length] in Hl; lia]).
        rewrite Hn in F1. inversion F1; subst. cbn [concat] in E1. rewrite Hv by (rewrite Hn; cbn; lia). rewrite E1. reflexivity.
Qed.
End Pla.

(** ** Function *)
Theorem function_operations : forall (M : mgr) (bits : list bdd) (r : NumberRepresentation) (b : bdd), bits <> [] ->
  exists f, function_make bits r = Ok f /\ num_bits f = length bits /\ (is_signed f = true <-> r = TwosComplement)
    /\ (forall i, (function_get f i = Throw <-> length bits <= i) /\ (forall x, function_get f i = Ok x <-> nth_error bits i = Some x))
    /\ (forall i x, function_get (function_and M f b) i = Ok x <-> exists y, nth_error bits i = Some y /\ x = band M y b)
    /\ (forall i x, function_get (function_or M f b) i = Ok x <-> exists y, nth_error bits i = Some y /\ x = bor M y b)
    /\ num_bits (function_and M f b) = length bits /\ num_bits (function_or M f b) = length bits
    /\ is_signed (function_and M f b) = is_signed f /\ is_signed (function_or M f b) = is_signed f.
Proof.
  intros M bits r b H. exists (Fun bits r). assert (function_make bits r = Ok (Fun bits r)) as Hm0 by (destruct bits; [congruence|reflexivity]).
  assert (forall l i x, function_get (Fun l r) i = Ok x <-> nth_error l i = Some x) as Hg.
  { intros l i x. unfold function_get. cbn [value]. destruct (nth_error l i); split; intro E; inversion E; auto. }
  split; [exact Hm0|]. split; [reflexivity|]. split; [unfold is_signed; cbn [representation]; destruct r; split; congruence|].
  split.
  { intro i. split; [|auto]. unfold function_get. cbn [value]. rewrite <- nth_error_None. destruct (nth_error bits i); split; congruence. }
  assert (forall (g : bdd -> bdd) i x, nth_error (map g bits) i = Some x <-> exists y, nth_error bits i = Some y /\ x = g y) as Hm.
  { intros g i x. rewrite nth_error_map. destruct (nth_error bits i) as [y|]; cbn [option_map]; split.
    - intro E. injection E as <-. eauto.
    - intros (y' & E & ->). injection E as <-. auto.
    - discriminate.
    - intros (y' & E & _). discriminate. }
  unfold function_and, function_or, num_bits, is_signed. cbn [value representation]. rewrite !map_length.
  split; [intros i x; rewrite Hg; apply Hm|]. split; [intros i x; rewrite Hg; apply Hm|]. auto.
Qed.
Theorem function_bits : forall (M : mgr) (f : Function_) (b : bdd) (a : asg),
  map (fun g => ev g a) (value (function_and M f b)) = map (fun g => ev g a && ev b a) (value f)
  /\ map (fun g => ev g a) (value (function_or M f b)) = map (fun g => ev g a || ev b a) (value f).
Proof.
  intros M f b a. unfold function_and, function_or. cbn [value]. rewrite !map_map.
  split; apply map_ext; intro g; [apply ev_and|apply ev_or].
Qed.
(** as numbers: a condition selects between the value and zero, or between all ones and the value *)
Theorem function_value : forall (M : mgr) (f : Function_) (b : bdd) (a : asg),
  uval (value (function_and M f b)) a = (if ev b a then uval (value f) a else 0)%Z
  /\ sval (value (function_and M f b)) a = (if ev b a then sval (value f) a else 0)%Z
  /\ uval (value (function_or M f b)) a = (if ev b a then 2 ^ Z.of_nat (num_bits f) - 1 else uval (value f) a)%Z
  /\ (value f <> [] -> sval (value (function_or M f b)) a = (if ev b a then -1 else sval (value f) a)%Z).
Proof.
  intros M [l r] b a. unfold function_and, function_or, num_bits. cbn [value].
  assert (forall (c : bool) (h : bdd -> bdd), (forall g, ev (h g) a = if c then ev g a else false) ->
    uval (map h l) a = (if c then uval l a else 0)%Z /\ sval (map h l) a = (if c then sval l a else 0)%Z) as H1.
  { intros c h Hh. split.
    - induction l as [|g l IH]; cbn [map uval]; [destruct c; reflexivity|]. rewrite IH, Hh. destruct c; cbn [Z.b2z]; lia.
    - induction l as [|g [|g' l] IH]; [destruct c; reflexivity|cbn [map sval]; rewrite Hh; destruct c; reflexivity|].
      cbn [map sval] in *. rewrite IH, Hh. destruct c; cbn [Z.b2z]; lia. }
  assert (forall (c : bool) (h : bdd -> bdd), (forall g, ev (h g) a = if c then true else ev g a) ->
    uval (map h l) a = (if c then 2 ^ Z.of_nat (length l) - 1 else uval l a)%Z
    /\ (l <> [] -> sval (map h l) a = (if c then -1 else sval l a)%Z)) as H2.
  { clear H1. intros c h Hh. split.
    - induction l as [|g l IH]; [destruct c; reflexivity|]. cbn [map uval length]. rewrite IH, Hh.
      rewrite Nat2Z.inj_succ, Z.pow_succ_r by apply Nat2Z.is_nonneg. destruct c; cbn [Z.b2z]; lia.
    - induction l as [|g [|g' l] IH]; [congruence|intros _; cbn [map sval]; rewrite Hh; destruct c; reflexivity|]. intros _.
      cbn [map sval] in *. rewrite IH, Hh by discriminate. destruct c; cbn [Z.b2z]; lia. }
  destruct (H1 (ev b a) (fun own => band M own b)) as [A1 A2]; [intro g; rewrite ev_and; destruct (ev g a), (ev b a); reflexivity|].
  destruct (H2 (ev b a) (fun own => bor M own b)) as [B1 B2]; [intro g; rewrite ev_or; destruct (ev g a), (ev b a); reflexivity|].
  auto.
Qed.
Theorem function_write : forall (f : Function_) (i : nat) (b : bdd),
  (function_set f i b = Throw <-> num_bits f <= i)
  /\ (forall f', function_set f i b = Ok f' -> num_bits f' = num_bits f /\ is_signed f' = is_signed f
       /\ forall j, function_get f' j = if j =? i then Ok b else function_get f j)
  /\ (i < num_bits f -> exists f', function_set f i b = Ok f').
Proof.
  intros [l r] i b. unfold function_set, num_bits. cbn [value]. destruct (Nat.lt_ge_cases i (length l)) as [H|H].
  - destruct (vset_ok l i b H) as (l' & E). rewrite E. destruct (vset_spec _ _ _ _ E) as (L & _ & N1).
    split; [split; [discriminate|lia]|]. split; [|eauto]. intros f' Ef. injection Ef as <-. split; [exact L|]. split; [reflexivity|].
    intro j. unfold function_get. cbn [value]. rewrite N1. destruct (j =? i); reflexivity.
  - destruct (vset l i b) as [l'| | |] eqn:E; [destruct (vset_spec _ _ _ _ E); lia|..]; (split; [split; auto|]; split; [discriminate|lia]).
Qed.
Theorem function_empty : forall (r : NumberRepresentation), function_make [] r = Abort.
Proof. reflexivity. Qed.
