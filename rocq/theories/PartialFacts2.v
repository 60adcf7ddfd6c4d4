(** Repeated application of subset_heavy_child and superset_light_child; the variable names of PLA files *)
From Coq Require Import List Bool Arith ZArith QArith Lia Lqa Ascii.
From Verif Require Import Res Cudd CuddFacts Spec SpecFacts Helpers HelpersFacts HelpersFacts2 Counting AddFacts CountFacts PathFacts MetricsFacts MetricsFacts4 Operators OperatorFacts OperatorFacts2 OperatorFacts3 OperatorFacts4 OrderFacts OperatorFacts5 OperatorFacts6 SpecPartial.
Import ListNotations.
Open Scope nat_scope.

Section Clear.
Variable M : mgr.
Variables ls le : nat.
Variable sub : bool.
(** every node in the range replaced *)
Fixpoint clr (n : node) (c : bool) : bdd :=
  match n with
  | One => (c, One)
  | Nd v t d e =>
      if v <? ls then mk v (clr t c) (clr e (xorb c d))
      else if v <=? le then repl sub else (c, n)
  end.
Definition clrb (f : bdd) : bdd := clr (snd f) (fst f).
Lemma clr_repl : clrb (repl sub) = repl sub. Proof. destruct sub; reflexivity. Qed.
Lemma mk_same v x : mk v x x = x.
Proof.
  destruct (mk_cases v x x) as [(_ & E)|(N & _)]; [exact E|congruence].
Qed.
Lemma clr_mk_before v x y : v < ls -> clrb (mk v x y) = mk v (clrb x) (clrb y).
Proof.
  intro L. destruct (mk_cases v x y) as [(-> & ->)|(_ & c & t & d & e & -> & <- & <-)]; [now rewrite mk_same|].
  unfold clrb. cbn [fst snd clr]. apply Nat.ltb_lt in L. now rewrite L.
Qed.
Lemma clr_mk_in v x y : ~ v < ls -> v <= le -> x = repl sub \/ y = repl sub -> clrb (mk v x y) = repl sub.
Proof.
  intros L L' H. destruct (mk_cases v x y) as [(-> & ->)|(_ & c & t & d & e & -> & <- & <-)].
  - destruct H as [-> | ->]; apply clr_repl.
  - unfold clrb. cbn [fst snd clr]. apply Nat.ltb_nlt in L. apply Nat.leb_le in L'. now rewrite L, L'.
Qed.
Lemma clr_rc w rh n : forall k c, okn M k n -> clrb (rc M w ls le rh sub n c) = clr n c.
Proof.
  induction n as [|v t IHt d e IHe]; intros k c H; [reflexivity|]. pose proof H as (H1 & H2 & H3 & H4). cbn [rc clr].
  specialize (IHt _ c H2). specialize (IHe _ (xorb c d) H3).
  pose proof (rc_okb M w ls le rh sub t _ c H2). pose proof (rc_okb M w ls le rh sub e _ (xorb c d) H3). pose proof (okb_repl M (S (lv M v)) sub).
  destruct (v <? ls) eqn:E1; [apply Nat.ltb_lt in E1; rewrite itev_mk, clr_mk_before by auto; congruence|].
  destruct (v <=? le) eqn:E2.
  - apply Nat.ltb_nlt in E1. apply Nat.leb_le in E2. destruct (Bool.eqb rh _); rewrite itev_mk by auto; apply clr_mk_in; auto.
  - unfold clrb. cbn [fst snd clr]. now rewrite E1, E2.
Qed.
Lemma clr_okb n : forall k c, okn M k n -> okb M k (clr n c).
Proof.
  induction n as [|v t IHt d e IHe]; intros k c H; [exact I|]. pose proof H as (H1 & H2 & H3 & H4). cbn [clr].
  destruct (v <? ls); [|destruct (v <=? le); [apply okb_repl|exact H]].
  apply mk_ok; auto; [apply IHt|apply IHe]; assumption.
Qed.
Lemma clr_cut n : forall c, cutb ls le (fun _ => False) (clr n c).
Proof.
  induction n as [|v t IHt d e IHe]; intro c; [exact I|]. cbn [clr].
  destruct (v <? ls) eqn:E1; [apply Nat.ltb_lt in E1; apply cut_mk_before; auto|].
  destruct (v <=? le) eqn:E2; [destruct sub; exact I|]. unfold cutb. cbn [fst snd cut]. now rewrite E1, E2.
Qed.
Lemma clr_at_range n : forall k c, okn M k n -> at_range ls le (whole_const (negb sub)) (c, n) (ev (clr n c)).
Proof.
  induction n as [|v t IHt d e IHe]; intros k c H.
  - apply ar_const. intro a. cbn [clr]. unfold ev. cbn. destruct c; reflexivity.
  - pose proof H as (H1 & H2 & H3 & H4). specialize (IHt _ c H2). specialize (IHe _ (xorb c d) H3). cbn [clr].
    destruct (v <? ls) eqn:E1.
    + apply Nat.ltb_lt in E1. eapply ar_before; eauto. intro a. apply ev_mk.
    + apply Nat.ltb_nlt in E1. destruct (v <=? le) eqn:E2.
      * apply Nat.leb_le in E2. eapply ar_in; eauto; [lia|]. intro a. destruct sub; reflexivity.
      * apply Nat.leb_nle in E2. apply ar_after; [lia|lia|]. reflexivity.
Qed.
End Clear.

Section Twice.
Variable M : mgr.
Variables ls le : nat.
Lemma rc_nothing w rh sub n : forall k c, okn M k n -> cut ls le (fun _ => False) n c -> rc M w ls le rh sub n c = (c, n).
Proof.
  induction n as [|v t IHt d e IHe]; intros k c H C; [reflexivity|]. pose proof H as (H1 & H2 & H3 & H4).
  pose proof (okb_then M _ c _ _ _ _ H) as Ot. pose proof (okb_else M _ (xorb c d) _ _ _ _ H) as Oe.
  cbn [cut] in C. cbn [rc]. destruct (v <? ls).
  { rewrite (IHt _ c H2), (IHe _ (xorb c d) H3), itev_mk by first [apply C|assumption]. eapply mk_edges; eauto. }
  destruct (v <=? le); [|reflexivity]. destruct C as [[[] _]|[[] _]].
Qed.
Lemma rc_second0 w n : forall k c, okn M k n -> weighs0 w n c -> cut ls le (fun z => z = bnot bone) n c ->
  rc M w ls le true true n c = clr ls le true n c.
Proof.
  induction n as [|v t IHt d e IHe]; intros k c H W C; [reflexivity|]. pose proof H as (H1 & H2 & H3 & H4).
  specialize (IHt _ c H2 (weighs0_then _ _ _ _ _ _ W)). specialize (IHe _ (xorb c d) H3 (weighs0_else _ _ _ _ _ _ W)).
  pose proof (rc_okb M w ls le true true t _ c H2). pose proof (rc_okb M w ls le true true e _ (xorb c d) H3).
  pose proof (W _ (in_then v t d e c)) as Wt. pose proof (W _ (in_else v t d e c)) as We. pose proof (children_differ M _ c _ _ _ _ H) as N.
  cbn [cut] in C. cbn [rc clr repl]. destruct (v <? ls).
  { rewrite itev_mk by auto. rewrite IHt, IHe by apply C. reflexivity. }
  destruct (v <=? le); [|reflexivity]. change (bnot bone) with bzero in *.
  destruct C as [[Z C]|[Z C]].
  - destruct (qgtb (w (c, t)) (w (xorb c d, e))) eqn:E.
    + apply qgtb_true in E. destruct We as [We _]. apply Wt in Z. lra.
    + cbn [Bool.eqb]. assert (R : rc M w ls le true true t c = bzero) by (injection Z as -> ->; reflexivity).
      rewrite R, itev_mk, mk_same by (exact I). reflexivity.
  - destruct (qgtb (w (c, t)) (w (xorb c d, e))) eqn:E.
    + cbn [Bool.eqb]. assert (R : rc M w ls le true true e (xorb c d) = bzero) by (injection Z as -> ->; reflexivity).
      rewrite R, itev_mk, mk_same by (exact I). reflexivity.
    + apply qgtb_false in E. assert (Nz : (c, t) <> bzero) by (intro; apply N; congruence). apply Wt in Nz. apply We in Z. lra.
Qed.
Lemma rc_second1 w n : forall k c, okn M k n -> weighs1 w n c -> cut ls le (fun z => z = bone) n c ->
  rc M w ls le false false n c = clr ls le false n c.
Proof.
  induction n as [|v t IHt d e IHe]; intros k c H W C; [reflexivity|]. pose proof H as (H1 & H2 & H3 & H4).
  specialize (IHt _ c H2 (weighs1_then _ _ _ _ _ _ W)). specialize (IHe _ (xorb c d) H3 (weighs1_else _ _ _ _ _ _ W)).
  pose proof (rc_okb M w ls le false false t _ c H2). pose proof (rc_okb M w ls le false false e _ (xorb c d) H3).
  pose proof (W _ (in_then v t d e c)) as Wt. pose proof (W _ (in_else v t d e c)) as We. pose proof (children_differ M _ c _ _ _ _ H) as N.
  cbn [cut] in C. cbn [rc clr repl]. destruct (v <? ls).
  { rewrite itev_mk by auto. rewrite IHt, IHe by apply C. reflexivity. }
  destruct (v <=? le); [|reflexivity].
  destruct C as [[Z C]|[Z C]].
  - destruct (qgtb (w (c, t)) (w (xorb c d, e))) eqn:E.
    + cbn [Bool.eqb]. assert (R : rc M w ls le false false t c = bone) by (injection Z as -> ->; reflexivity).
      rewrite R, itev_mk, mk_same by (exact I). reflexivity.
    + apply qgtb_false in E. assert (Nz : (xorb c d, e) <> bone) by (intro; apply N; congruence). apply We in Nz. apply Wt in Z. lra.
  - destruct (qgtb (w (c, t)) (w (xorb c d, e))) eqn:E.
    + apply qgtb_true in E. destruct Wt as [Wt _]. apply We in Z. lra.
    + cbn [Bool.eqb]. assert (R : rc M w ls le false false e (xorb c d) = bone) by (injection Z as -> ->; reflexivity).
      rewrite R, itev_mk, mk_same by (exact I). reflexivity.
Qed.
End Twice.

Lemma heavy_light_twice M f ls le : wf M f ->
  (exists r s, subset_heavy_child M f ls le = Ok r /\ subset_heavy_child M r ls le = Ok s /\ subset_heavy_child M s ls le = Ok s
     /\ at_range ls le (whole_const false) f (ev s))
  /\ (exists r s, superset_light_child M f ls le = Ok r /\ superset_light_child M r ls le = Ok s /\ superset_light_child M s ls le = Ok s
     /\ at_range ls le (whole_const true) f (ev s)).
Proof.
  intro W. unfold subset_heavy_child, superset_light_child. rewrite !round_any_pure. split.
  - set (r := rc M (wt_of (count_minterms f)) ls le true true (snd f) (fst f)).
    pose proof (rc_cut M ls le (wt_of (count_minterms f)) true true _ _ (fst f) W) as C.
    pose proof (rc_wf M (wt_of (count_minterms f)) ls le true true _ (fst f) W) as Wr.
    pose proof (clr_rc M ls le true (wt_of (count_minterms f)) true _ _ (fst f) W) as K. fold r in C, Wr, K.
    exists r, (clr ls le true (snd f) (fst f)). split; [reflexivity|]. rewrite !round_any_pure. split; [|split].
    + f_equal. rewrite (rc_second0 M ls le _ (snd r) 0 (fst r) Wr (minterms_weighs0 M r Wr) C). exact K.
    + f_equal. set (s := clr ls le true (snd f) (fst f)).
      pose proof (clr_okb M ls le true _ _ (fst f) W) as Ws. pose proof (clr_cut ls le true (snd f) (fst f)) as Cs. fold s in Ws, Cs.
      rewrite (rc_nothing M ls le _ _ _ (snd s) 0 (fst s) Ws Cs). apply edge_eta.
    + pose proof (clr_at_range M ls le true _ _ (fst f) W) as A. rewrite edge_eta in A. exact A.
  - set (r := rc M (wt_of (count_minterms f)) ls le false false (snd f) (fst f)).
    pose proof (rc_cut M ls le (wt_of (count_minterms f)) false false _ _ (fst f) W) as C.
    pose proof (rc_wf M (wt_of (count_minterms f)) ls le false false _ (fst f) W) as Wr.
    pose proof (clr_rc M ls le false (wt_of (count_minterms f)) false _ _ (fst f) W) as K. fold r in C, Wr, K.
    exists r, (clr ls le false (snd f) (fst f)). split; [reflexivity|]. rewrite !round_any_pure. split; [|split].
    + f_equal. rewrite (rc_second1 M ls le _ (snd r) 0 (fst r) Wr (minterms_weighs1 M r Wr) C). exact K.
    + f_equal. set (s := clr ls le false (snd f) (fst f)).
      pose proof (clr_okb M ls le false _ _ (fst f) W) as Ws. pose proof (clr_cut ls le false (snd f) (fst f)) as Cs. fold s in Ws, Cs.
      rewrite (rc_nothing M ls le _ _ _ (snd s) 0 (fst s) Ws Cs). apply edge_eta.
    + pose proof (clr_at_range M ls le false _ _ (fst f) W) as A. rewrite edge_eta in A. exact A.
Qed.

(** ** the names of the input variables of a PLA file *)
From Coq Require Import String.
Import List ListNotations.
From Verif Require Import Parsing SpecParsing ParsingFacts.
Open Scope list_scope.
Lemma firstn_app_le {A} k (x y : list A) : k <= List.length x -> firstn k (x ++ y) = firstn k x.
Proof. intro H. rewrite firstn_app. replace (k - List.length x) with 0 by lia. cbn. apply app_nil_r. Qed.
Lemma prefixes_joined_snoc {A} (ls : list (list A)) l : prefixes_joined (ls ++ [l]) = prefixes_joined ls ++ concat ls ++ l.
Proof.
  unfold prefixes_joined. rewrite app_length. cbn [List.length]. rewrite Nat.add_1_r, seq_S, map_app, concat_app. cbn [Nat.add map concat]. f_equal.
  - f_equal. apply map_ext_in. intros k Hk. apply in_seq in Hk. now rewrite firstn_app_le by lia.
  - rewrite app_nil_r, firstn_all2 by (rewrite app_length; cbn [List.length]; lia). rewrite concat_app. cbn [concat]. now rewrite app_nil_r.
Qed.
Lemma run_registered M evs : forall st, pla_run M evs pla_start = Ok st ->
  exists ni, Forall2 words_of (values_of "ilb"%string evs) ni /\ innames st = concat ni /\ variable_names st = prefixes_joined ni.
Proof.
  induction evs as [|e evs IH] using rev_ind; intros st H.
  - injection H as <-. exists []. split; [constructor|]. auto.
  - rewrite pla_run_app in H. destruct (pla_run M evs pla_start) as [s| | |]; cbn [bind] in H; try discriminate.
    destruct (IH s eq_refl) as (ni & F1 & E1 & E2). cbn [pla_run bind] in H.
    destruct (pla_step M s e) as [s'| | |] eqn:Es; cbn [bind] in H; try discriminate. injection H as <-.
    destruct (step_names _ _ _ _ Es) as (ni' & no' & G1 & G2 & G3 & G4 & G5). exists (ni ++ ni'). rewrite values_of_app. split; [apply Forall2_app; auto|].
    split; [now rewrite concat_app, <- E1|]. rewrite G5.
    assert (L : List.length (values_of "ilb"%string [e]) <= 1).
    { unfold values_of. destruct e as [n|n|n|k v|t o]; cbn [flat_map app List.length]; try lia. destruct (list_eq_dec _ _ _); cbn; lia. }
    destruct (values_of "ilb"%string [e]) as [|v [|]].
    + inversion G1; subst. rewrite !app_nil_r. exact E2.
    + inversion G1 as [|x y l l' Hx Hl A B]; subst. inversion Hl; subst. rewrite prefixes_joined_snoc, E2, G3, E1. cbn [concat]. now rewrite app_nil_r.
    + cbn in L. lia.
Qed.
Lemma prefixes_joined_length {A} (ls : list (list A)) : List.length (concat ls) <= List.length (prefixes_joined ls).
Proof.
  destruct ls as [|l ls _] using rev_ind; [cbn; lia|]. rewrite prefixes_joined_snoc, concat_app, !app_length. cbn [concat]. rewrite app_nil_r. lia.
Qed.
Lemma prefixes_joined_once {A} (ls : list (list A)) : prefixes_joined ls = concat ls <-> concat (removelast ls) = [].
Proof.
  destruct ls as [|l ls _] using rev_ind; [cbn; tauto|]. rewrite prefixes_joined_snoc, removelast_last, concat_app. cbn [concat]. rewrite app_nil_r.
  pose proof (prefixes_joined_length ls). split.
  - intro E. apply (f_equal (@List.length A)) in E. rewrite !app_length in E. destruct (concat ls); [auto|cbn [List.length] in *; lia].
  - intro E. rewrite E. cbn [app]. enough (prefixes_joined ls = []) as -> by reflexivity.
    unfold prefixes_joined. apply concat_nil_Forall. apply Forall_map, Forall_forall. intros k _. apply concat_nil_Forall in E.
    apply concat_nil_Forall. apply Forall_forall. intros x Hx. rewrite Forall_forall in E. apply E. rewrite <- (firstn_skipn (S k) ls). apply in_or_app. auto.
Qed.
Lemma registered_names M evs st : pla_run M evs pla_start = Ok st ->
  exists ni, Forall2 words_of (values_of "ilb"%string evs) ni /\ innames st = concat ni /\ variable_names st = prefixes_joined ni
    /\ (variable_names st = innames st <-> concat (removelast ni) = []).
Proof.
  intro H. destruct (run_registered M evs st H) as (ni & F & E1 & E2). exists ni. rewrite E1, E2. repeat split; auto; apply prefixes_joined_once.
Qed.
