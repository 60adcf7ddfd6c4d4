(** Reading the dot text: the picture evaluates the functions *)
From Coq Require Import Ascii String List Bool Arith NArith Lia.
From Verif Require Import Res Cudd Benchmark DumpDot SpecDot SpecDotText DotText DumpDotFacts DumpDotFacts2 DotTextFacts DotTextFacts2 DotTextFacts3.
Import ListNotations.
Open Scope string_scope.
Open Scope nat_scope.

Lemma level_shape addr names : forall levels i S0 st, level_statements addr levels names i = Ok S0 -> In st S0 ->
  exists id l j, st = SNode id l (Level j).
Proof.
  induction levels as [|nodes levels IH]; intros i S0 st; cbn [level_statements]; [intros [= <-] []|].
  destruct nodes as [|x nodes]; cbn [bind].
  - destruct (level_statements addr levels names (S i)) as [S1| | |] eqn:E; cbn [bind]; try discriminate. intros [= <-]. now apply (IH (S i)).
  - unfold vget. destruct (nth_error names i) as [name|]; cbn [bind]; [|discriminate].
    destruct (level_statements addr levels names (S i)) as [S1| | |] eqn:E; cbn [bind]; try discriminate. intros [= <-].
    intros [<-|H]; [eauto|]. apply in_app_or in H. destruct H as [H|H]; [|exact (IH (S i) S1 st E H)].
    apply in_map_iff in H. destruct H as (y & <- & _). eauto.
Qed.
Lemma links_edges addr bdds : forall names i S0 st, links addr names bdds i = Ok S0 -> In st S0 -> exists x y, st = SEdge x y Solid.
Proof.
  induction names as [|name names IH]; intros i S0 st; cbn [links]; [intros [= <-] []|].
  destruct (vget bdds i) as [b| | |]; cbn [bind]; try discriminate.
  destruct (links addr names bdds (S i)) as [S1| | |] eqn:E; cbn [bind]; try discriminate. intros [= <-] [<-|I]; eauto.
Qed.
Lemma path_edges : forall names st, In st (path names) -> exists x y, st = SEdge x y Invisible.
Proof.
  induction names as [|x [|y l] IH]; intros st; cbn [path In]; try tauto. intros [<-|I]; eauto.
Qed.
Lemma dump_bottom addr bdds fn vn order left_terminal G id l : dump_dot_readable addr bdds fn vn order left_terminal = Ok G ->
  In (SNode id l Bottom) G -> l = "&#8868;" \/ l = "&#8869;".
Proof.
  unfold dump_dot_readable. destruct (assert_ _) as [[]| | |]; cbn [bind]; try discriminate. destruct (collect_nodes bdds) as [vis levels]. cbn zeta.
  destruct (assert_ _) as [[]| | |]; cbn [bind]; try discriminate.
  destruct (links _ _ _ _) as [S0| | |] eqn:EL; cbn [bind]; try discriminate.
  destruct (level_statements _ _ _ _) as [S1| | |] eqn:ES; cbn [bind]; try discriminate. intros [= <-].
  rewrite !in_app_iff. cbn [In]. rewrite !in_app_iff. intros [H|[H|[H|[H|[H|[H|[H|[H|H]]]]]]]].
  - apply in_map_iff in H. destruct H as (y & H & _). discriminate.
  - destruct order; [|destruct H]. apply path_edges in H. destruct H as (x & y & H). discriminate.
  - destruct (links_edges _ _ _ _ _ _ EL H) as (x & y & E). discriminate.
  - apply path_edges in H. destruct H as (x & y & H). discriminate.
  - destruct (level_shape _ _ _ _ _ _ ES H) as (? & ? & ? & E). discriminate.
  - injection H as <- <-; auto.
  - injection H as <- <-; auto.
  - destruct left_terminal as [[]|]; cbn in H; intuition discriminate.
  - apply in_flat_map in H. destruct H as (nodes & _ & H). apply in_flat_map in H. destruct H as (x & _ & [H|[H|[]]]); discriminate.
Qed.

Lemma variable_name_inj i j : variable_name i = variable_name j -> i = j.
Proof.
  unfold variable_name. intro H. apply string_app_inj in H. apply (subscript_inj (i + 1) (j + 1) "/I>" "/I>") in H. lia.
Qed.
Lemma shown_label_inj vn i j l : distinct_labels vn -> shown_label vn i = Some l -> shown_label vn j = Some l -> i = j.
Proof.
  intros [->|(N & _)]; unfold shown_label.
  - intros E1 E2. apply variable_name_inj. congruence.
  - destruct vn as [|x vn].
    + intros E1 E2. apply variable_name_inj. congruence.
    + intros H H'. apply (proj1 (NoDup_nth_error (x :: vn)) N).
      * apply nth_error_Some. rewrite H. discriminate.
      * now rewrite H, H'.
Qed.
Lemma shown_label_terminal vn i l : distinct_labels vn -> shown_label vn i = Some l -> l <> "&#8868;" /\ l <> "&#8869;".
Proof.
  intro D. unfold shown_label. destruct vn as [|x vn].
  - intros [= <-]. split; discriminate.
  - destruct D as [D|(_ & N1 & N2)]; [discriminate|]. intro H. apply nth_error_In in H. split; intros ->; auto.
Qed.
Lemma shown_label_of vn i : vn = [] \/ i < List.length vn -> shown_label vn i = Some (label_of vn i).
Proof.
  intros [->|L]; [reflexivity|]. unfold shown_label, label_of. destruct vn as [|x vn]; [cbn in L; lia|]. now apply nth_error_nth'.
Qed.

Lemma text_picture conf addr bdds fn vn order left_terminal : prints_pointers addr -> readable_config conf -> (forall x, quotable (addr x)) ->
  Forall (fun s => no_quote s /\ balanced s) fn -> Forall balanced vn -> distinct_labels vn -> fits bdds fn vn ->
  exists text G, dump_dot_text conf addr bdds fn vn order left_terminal = Ok text /\ read_dot text = Some G
    /\ (forall k name f, nth_error (all_function_names (List.length bdds) fn) k = Some name -> nth_error bdds k = Some f ->
          In (INode name (inner_text name) (Some "source")) G /\ In (IEdge name (addr f) Solid) G
          /\ (NoDup (all_function_names (List.length bdds) fn) -> forall id s, In (IEdge name id s) G -> s <> Invisible -> id = addr f)
          /\ forall a b, picture_value G (shown_label vn) a (addr f) b <-> ev f a = b).
Proof.
  intros P C A F V D Fit.
  destruct (dump_full addr bdds fn vn order left_terminal P) as [H _]. destruct (H Fit) as (G & EG & Nm & Ln & _ & _ & Lv & Lk & Ev). clear H.
  pose proof (text_full conf addr bdds fn vn order left_terminal C A F V) as T. rewrite EG in T. destruct T as (text & ET & RT).
  exists text, (map seen G). split; [exact ET|]. split; [exact RT|]. intros k name f Ek Ef.
  assert (Lab : forall id l i, In (SNode id l (Level i)) G -> shown_label vn i = Some l).
  { intros id l i I. apply Lv in I. destruct I as (x & (g & Ig & R) & Ti & _ & ->). apply shown_label_of.
    destruct Fit as [_ [E|Fv]]; [auto|right]. exact (Fv g x i Ig R Ti). }
  assert (IE : forall x y s, In (IEdge x y s) (map seen G) -> In (SEdge x y s) G).
  { intros x y s I. apply in_map_iff in I. destruct I as ([id l [|i|]|x' y' s'] & E & I); cbn in E; try discriminate. injection E as -> -> ->. exact I. }
  split; [|split; [|split]].
  - assert (I : In name (name_nodes G)) by (rewrite Nm; exact (nth_error_In _ _ Ek)). unfold name_nodes in I. apply in_flat_map in I.
    destruct I as ([id l [|i|]|x y s] & I & J); cbn in J; try tauto. destruct J as [->|[]].
    assert (l = name).
    { clear - EG I. unfold dump_dot_readable in EG. destruct (assert_ _) as [[]| | |]; cbn [bind] in EG; try discriminate.
      destruct (collect_nodes bdds) as [vis levels]. cbn zeta in EG. destruct (assert_ _) as [[]| | |]; cbn [bind] in EG; try discriminate.
      destruct (links _ _ _ _) as [S0| | |] eqn:EL; cbn [bind] in EG; try discriminate.
      destruct (level_statements _ _ _ _) as [S1| | |] eqn:ES; cbn [bind] in EG; try discriminate. injection EG as <-.
      rewrite !in_app_iff in I. cbn [In] in I. rewrite !in_app_iff in I. destruct I as [H|[H|[H|[H|[H|[H|[H|[H|H]]]]]]]].
      - apply in_map_iff in H. destruct H as (y & H & _). now injection H as <- <-.
      - destruct order; [|destruct H]. apply path_edges in H. destruct H as (x & y & H). discriminate.
      - destruct (links_edges _ _ _ _ _ _ EL H) as (x & y & E). discriminate.
      - apply path_edges in H. destruct H as (x & y & H). discriminate.
      - destruct (level_shape _ _ _ _ _ _ ES H) as (? & ? & ? & E). discriminate.
      - discriminate.
      - discriminate.
      - destruct left_terminal as [[]|]; cbn in H; intuition discriminate.
      - apply in_flat_map in H. destruct H as (nodes & _ & H). apply in_flat_map in H. destruct H as (x & _ & [H|[H|[]]]); discriminate. }
    subst l. change (INode name (inner_text name) (Some "source")) with (seen (SNode name name Source)). now apply in_map.
  - change (IEdge name (addr f) Solid) with (seen (SEdge name (addr f) Solid)). apply in_map. apply (Lk k name f Ek Ef).
  - intros N id s I Hs. destruct (Lk k name f Ek Ef) as [_ U]. exact (U N id s (IE _ _ _ I) Hs).
  - intros a b. assert (Sf : exists g, In g bdds /\ reach g f) by (exists f; split; [exact (nth_error_In _ _ Ef)|constructor]).
    rewrite <- (Ev f a b Sf). split.
    + intro PV. induction PV as [id I|id I|id i label id' b' Hl I E _ IHp].
      * apply in_map_iff in I. destruct I as ([id' l [|j|]|x' y' s'] & Es & I); cbn in Es; try discriminate.
        -- injection Es as -> ->. destruct (shown_label_terminal _ _ _ D (Lab _ _ _ I)) as [X _]. now destruct X.
        -- injection Es as -> ->. now constructor.
      * apply in_map_iff in I. destruct I as ([id' l [|j|]|x' y' s'] & Es & I); cbn in Es; try discriminate.
        -- injection Es as -> ->. destruct (shown_label_terminal _ _ _ D (Lab _ _ _ I)) as [_ X]. now destruct X.
        -- injection Es as -> ->. now constructor.
      * destruct (shown_label_terminal _ _ _ D Hl) as [T1 T2]. apply in_map_iff in I.
        destruct I as ([id2 l [|j|]|x' y' s'] & Es & I); cbn in Es; try discriminate.
        -- injection Es as -> ->. rewrite <- (shown_label_inj vn j i label D (Lab _ _ _ I) Hl) in E.
           apply (value_inner G a id label j id' b' I); [now apply IE|exact IHp].
        -- injection Es as -> ->. destruct (dump_bottom _ _ _ _ _ _ _ _ _ EG I); contradiction.
    + intro GV. induction GV as [id I|id I|id label i id' b' I E _ IHg].
      * apply picture_top. exact (in_map seen _ _ I).
      * apply picture_bottom. exact (in_map seen _ _ I).
      * apply (picture_inner _ _ _ id i label id' b'); [exact (Lab _ _ _ I)|exact (in_map seen _ _ I)|exact (in_map seen _ _ E)|exact IHg].
Qed.

(** the printed pointers of the examples *)
Definition plain (c : ascii) : bool := negb (Ascii.eqb c "034" || Ascii.eqb c "\").
Lemma plain_quotable s : all_chars plain s = true -> quotable s.
Proof.
  unfold quotable. induction s as [|c s IH]; cbn [all_chars quotable_text]; [reflexivity|]. intro H. apply andb_true_iff in H. destruct H as [H1 H2].
  unfold plain in H1. apply negb_true_iff, orb_false_iff in H1. destruct H1 as [-> ->]. auto.
Qed.
Lemma digits_plain_chars s : digits s -> all_chars plain s = true.
Proof.
  induction s as [|c s IH]; cbn [digits all_chars]; [reflexivity|]. intros [H1 H2]. rewrite (IH H2), andb_true_r. unfold plain.
  assert (E : Ascii.eqb c "034" = false /\ Ascii.eqb c "\" = false).
  { split; apply Ascii.eqb_neq; intros ->; vm_compute in H1; destruct H1 as [H0 H1]; (now apply H0) || now apply H1. }
  destruct E as [-> ->]. reflexivity.
Qed.
Lemma print_pointer_quotable x : quotable (print_pointer x).
Proof.
  apply plain_quotable. unfold print_pointer. cbn [append all_chars]. 
  assert (H : forall y rest, all_chars plain rest = true -> all_chars plain (print_node y rest) = true).
  { induction y as [|v t IHt c e IHe]; intros rest R; cbn [print_node all_chars]; [now rewrite R|].
    rewrite all_chars_app, (digits_plain_chars _ (to_string_digits _)). cbn [andb all_chars]. rewrite IHt; [now destruct c|]. now apply IHe. }
  rewrite (H _ "" eq_refl). destruct (fst x); reflexivity.
Qed.

(** a quote in a name ends the string *)
Lemma quote_breaks : exists fn G text, fits [bvar 0] fn [] /\ dump_dot_readable print_pointer [bvar 0] fn [] true None = Ok G
  /\ dump_dot_text default_config print_pointer [bvar 0] fn [] true None = Ok text /\ read_dot text = None.
Proof.
  exists [String "034" ""]. eexists. eexists. split; [split; auto|]. split; [vm_compute; reflexivity|]. split; [vm_compute; reflexivity|]. vm_compute. reflexivity.
Qed.
