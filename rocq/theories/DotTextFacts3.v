(** Reading the dot text: the graph *)
From Coq Require Import Ascii String List Bool Arith NArith Lia.
From Verif Require Import Res Cudd Benchmark DumpDot SpecDot SpecDotText DotText DumpDotFacts DumpDotFacts2 DotTextFacts DotTextFacts2.
Import ListNotations.
Open Scope string_scope.
Open Scope nat_scope.

(** ** Items of statement lists *)
Fixpoint walk (r : option string) (l : list dot) (d : attributes) : list item :=
  match l with
  | [] => []
  | s :: l' => let '(is, d') := items_of s d r in (is ++ walk r l' d')%list
  end.
Fixpoint after (l : list dot) (d : attributes) : attributes :=
  match l with [] => d | s :: l' => after l' (snd (items_of s d None)) end.
Lemma items_sub body d r : items_of (Sub body) d r = (walk (rank_of body) body d, d).
Proof.
  cbn [items_of]. f_equal. generalize (rank_of body) as q. intro q. generalize d. clear d. induction body as [|s l IH]; intro d; [reflexivity|].
  cbn [walk]. destruct (items_of s d q) as [is d']. now rewrite IH.
Qed.
Lemma items_defaults s d r r' : snd (items_of s d r) = snd (items_of s d r').
Proof. destruct s; reflexivity. Qed.
Lemma walk_app r l l' d : walk r (l ++ l') d = (walk r l d ++ walk r l' (after l d))%list.
Proof.
  revert d. induction l as [|s l IH]; intro d; [reflexivity|]. cbn [app walk after]. rewrite (items_defaults s d None r).
  destruct (items_of s d r) as [is d']. cbn [snd]. now rewrite IH, app_assoc.
Qed.
Lemma walk_cons_sub r body l d : walk r (Sub body :: l) d = (walk (rank_of body) body d ++ walk r l d)%list.
Proof. cbn [walk]. rewrite items_sub. reflexivity. Qed.
Lemma walk_map {A} (f : A -> dot) (g : A -> item) r d l : (forall x, In x l -> items_of (f x) d r = ([g x], d)) -> walk r (map f l) d = map g l.
Proof.
  induction l as [|x l IH]; intro H; [reflexivity|]. cbn [map walk]. rewrite (H x) by now left. cbn [app]. f_equal. apply IH. intros; apply H; now right.
Qed.
Lemma after_map {A} (f : A -> dot) d l : (forall x, snd (items_of (f x) d None) = d) -> after (map f l) d = d.
Proof. intro H. induction l as [|x l IH]; [reflexivity|]. cbn [map after]. now rewrite H. Qed.
Lemma rank_of_app l l' : rank_of (l ++ l') = match rank_of l' with Some r => Some r | None => rank_of l end.
Proof.
  induction l as [|s l IH]; cbn [app rank_of]; [now destruct (rank_of l')|]. rewrite IH. now destruct (rank_of l').
Qed.
Lemma rank_of_map {A} (f : A -> dot) l : (forall x, exists y a, f x = Node y a) -> rank_of (map f l) = None.
Proof. intro H. induction l as [|x l IH]; [reflexivity|]. cbn [map rank_of]. rewrite IH. destruct (H x) as (y & a & ->). reflexivity. Qed.
Lemma items_path names d r : style_of d = Invisible -> items_of (path_dot names) d r = (map seen (path names), d).
Proof.
  intro H. assert (E : pairs names (style_of (d ++ [])%list) = map seen (path names)).
  { rewrite app_nil_r, H. induction names as [|x [|y l] IH]; try reflexivity. change (pairs (x :: y :: l) Invisible) with (IEdge x y Invisible :: pairs (y :: l) Invisible).
    change (path (x :: y :: l)) with (SEdge x y Invisible :: path (y :: l)). cbn [map]. now rewrite IH. }
  destruct names as [|x [|y l]]; try reflexivity. cbn [path_dot items_of]. now rewrite E.
Qed.
Lemma rank_of_path names : rank_of [path_dot names] = None.
Proof. destruct names as [|x [|y l]]; reflexivity. Qed.

Definition dflt : attributes := [("dir", "non")].
Lemma walk_functions conf names order :
  walk (rank_of (function_dots conf names order)) (function_dots conf names order) dflt
  = map seen (map (fun name => SNode name name Source) names ++ (if order then path names else []))%list.
Proof.
  assert (R : rank_of (function_dots conf names order) = Some "source").
  { unfold function_dots. rewrite !rank_of_app.
    assert (E1 : rank_of (if order && (1 <? List.length names) then [path_dot names] else []) = None).
    { destruct (order && (1 <? List.length names)); [apply rank_of_path|reflexivity]. }
    rewrite E1, rank_of_map by eauto. reflexivity. }
  rewrite R. unfold function_dots. rewrite walk_app. cbn [walk items_of app after snd String.eqb Ascii.eqb Bool.eqb invis].
  rewrite walk_app. rewrite map_app, map_map. f_equal.
  - apply walk_map. intros x _. reflexivity.
  - rewrite after_map by reflexivity. destruct order; cbn [andb]; [|reflexivity].
    destruct (1 <? List.length names) eqn:E.
    + cbn [walk]. rewrite items_path by reflexivity. apply app_nil_r.
    + apply Nat.ltb_ge in E. destruct names as [|x [|y l]]; try reflexivity. cbn in E. lia.
Qed.
Lemma walk_links S0 : (forall st, In st S0 -> exists x y, st = SEdge x y Solid) -> walk (rank_of (map plain_edge S0)) (map plain_edge S0) dflt = map seen S0.
Proof. intro H. apply walk_map. intros st I. destruct (H st I) as (x & y & ->). reflexivity. Qed.
Lemma walk_chain names : walk (rank_of [invis; path_dot names]) [invis; path_dot names] dflt = map seen (path names).
Proof. cbn [walk]. cbn [items_of invis String.eqb Ascii.eqb Bool.eqb app]. rewrite items_path by reflexivity. apply app_nil_r. Qed.
Lemma walk_inner conf addr nodes name i : walk (rank_of (inner_dots conf addr nodes name)) (inner_dots conf addr nodes name) dflt
  = map seen (map (fun x => SNode (addr x) name (Level i)) nodes).
Proof.
  assert (R : rank_of (inner_dots conf addr nodes name) = Some "same").
  { unfold inner_dots. cbn [rank_of]. rewrite rank_of_map by eauto. reflexivity. }
  rewrite R. unfold inner_dots. cbn [walk items_of app]. rewrite map_map. apply walk_map. intros x _. reflexivity.
Qed.
Lemma walk_levels conf addr names r : forall levels i S0, level_statements addr levels names i = Ok S0 ->
  walk r (level_dots conf addr levels names i) dflt = map seen S0 /\ after (level_dots conf addr levels names i) dflt = dflt.
Proof.
  induction levels as [|nodes levels IH]; intros i S0; cbn [level_statements level_dots].
  - intros [= <-]. split; reflexivity.
  - destruct nodes as [|x nodes].
    + cbn [bind app]. destruct (level_statements addr levels names (S i)) as [S1| | |] eqn:E; cbn [bind]; try discriminate. intros [= <-]. cbn [app]. now apply IH.
    + unfold vget. destruct (nth_error names i) as [name|] eqn:En; cbn [bind]; [|discriminate].
      destruct (level_statements addr levels names (S i)) as [S1| | |] eqn:E; cbn [bind]; try discriminate. intros [= <-].
      destruct (IH (S i) S1 E) as [W A]. cbn [app after]. rewrite walk_cons_sub, items_sub. cbn [snd]. rewrite (nth_error_nth _ _ "" En), W. split; [|exact A].
      rewrite (walk_inner conf addr (x :: nodes) name i). change (SNode (addr x) name (Level i) :: (map (fun x0 => SNode (addr x0) name (Level i)) nodes ++ S1)%list)
        with (map (fun x0 => SNode (addr x0) name (Level i)) (x :: nodes) ++ S1)%list. now rewrite map_app.
Qed.
Lemma walk_terminals conf addr left_terminal : walk (rank_of (terminal_dots conf addr left_terminal)) (terminal_dots conf addr left_terminal) dflt
  = map seen ([SNode (addr bone) "&#8868;" Bottom; SNode (addr bzero) "&#8869;" Bottom] ++
      match left_terminal with
      | None => []
      | Some true => [SEdge (addr bone) (addr bzero) Invisible]
      | Some false => [SEdge (addr bzero) (addr bone) Invisible]
      end)%list.
Proof. destruct left_terminal as [[]|]; reflexivity. Qed.
Lemma walk_children addr r level_nodes : walk r (child_dots addr level_nodes) dflt
  = map seen (flat_map (fun nodes => flat_map (fun x =>
      [SEdge (addr x) (addr (then_child x)) Solid; SEdge (addr x) (addr (else_child x)) Dashed]) nodes) level_nodes).
Proof.
  assert (H : forall nodes l', walk r (flat_map (fun x => [Edge [addr x; addr (then_child x)] [("arrowhead", "none")];
      Edge [addr x; addr (else_child x)] [("arrowhead", "none"); ("style", "dashed")]]) nodes ++ l')%list dflt
    = (map seen (flat_map (fun x => [SEdge (addr x) (addr (then_child x)) Solid; SEdge (addr x) (addr (else_child x)) Dashed]) nodes) ++ walk r l' dflt)%list).
  { induction nodes as [|x nodes IH]; intro l'; [reflexivity|]. cbn [flat_map app walk items_of pairs style_of lookup dflt map seen].
    cbn [String.eqb Ascii.eqb Bool.eqb]. fold dflt. rewrite IH. reflexivity. }
  induction level_nodes as [|nodes l IH]; [reflexivity|]. unfold child_dots in *. cbn [flat_map]. rewrite H, IH, map_app. reflexivity.
Qed.

(** ** Names *)
Lemma digits_no_quote s : digits s -> no_quote s /\ forall d r, balanced_from d (s ++ r) = balanced_from d r.
Proof.
  induction s as [|c s IH]; cbn [digits]; [split; reflexivity|]. intros [H1 H2]. destruct (IH H2) as [Q B].
  assert (E : Ascii.eqb c "034" = false /\ Ascii.eqb c "<" = false /\ Ascii.eqb c ">" = false).
  { repeat split; apply Ascii.eqb_neq; intros ->; vm_compute in H1; destruct H1 as [H0 H1]; (now apply H0) || now apply H1. }
  destruct E as (E1 & E2 & E3). split.
  - unfold no_quote in *. cbn [all_chars]. now rewrite E1, Q.
  - intros d r. cbn [append balanced_from]. rewrite E2, E3. apply B.
Qed.
Lemma no_quote_app s t : no_quote s -> no_quote t -> no_quote (s ++ t).
Proof. unfold no_quote. rewrite all_chars_app. intros -> ->. reflexivity. Qed.
Lemma subscript_plain s : no_quote (subscript_of s) /\ forall d r, balanced_from d (subscript_of s ++ r) = balanced_from d r.
Proof.
  induction s as [|c s [Q B]]; [split; reflexivity|]. cbn [subscript_of]. destruct (digits_no_quote _ (to_string_digits (digit_value c))) as [Q' B']. split.
  - apply (no_quote_app "&#832"); [reflexivity|]. apply no_quote_app; [exact Q'|]. apply (no_quote_app ";"); [reflexivity|exact Q].
  - intros d r. rewrite !string_app_assoc. cbn [append balanced_from Ascii.eqb Bool.eqb]. rewrite B'. cbn [append balanced_from Ascii.eqb Bool.eqb]. apply B.
Qed.
Lemma variable_name_balanced i : balanced (variable_name i).
Proof.
  unfold balanced, variable_name. cbn [append balanced_from Ascii.eqb Bool.eqb]. unfold subscript.
  rewrite (proj2 (subscript_plain _)). reflexivity.
Qed.
Lemma written_html n : no_quote n -> balanced n -> written ("<" ++ n ++ ">").
Proof.
  intros Q B. split; [|right; eauto]. change ("<" ++ n ++ ">") with (String "<" n ++ ">"). apply (quotable_html _ _ (le_n _)).
  unfold no_quote in *. cbn [all_chars]. rewrite Q. reflexivity.
Qed.
Lemma written_names count fn : Forall (fun s => no_quote s /\ balanced s) fn -> forall x, In x (all_function_names count fn) -> written x.
Proof.
  intros F x. unfold all_function_names. destruct fn as [|y fn].
  - destruct (1 <? count).
    + rewrite in_map_iff. intros (i & <- & _). unfold function_name.
      replace ("<<I>f" ++ subscript i ++ "</I>>") with ("<" ++ ("<I>f" ++ subscript i ++ "</I>") ++ ">") by (rewrite !string_app_assoc; reflexivity).
      destruct (subscript_plain (to_string (N.of_nat i))) as [Q B]. apply written_html.
      * apply (no_quote_app "<I>f"); [reflexivity|]. apply no_quote_app; [exact Q|reflexivity].
      * unfold balanced. cbn [append balanced_from Ascii.eqb Bool.eqb]. unfold subscript. rewrite B. reflexivity.
    + destruct (count =? 1); cbn; [|tauto]. intros [<-|[]]. split; [reflexivity|left; reflexivity].
  - rewrite in_map_iff. intros (n & <- & I). rewrite Forall_forall in F. destruct (F n I) as [Q B]. now apply written_html.
Qed.
Lemma variable_names_balanced levels vn : Forall balanced vn -> forall x, In x (all_variable_names levels vn) -> balanced x.
Proof.
  intros F x. unfold all_variable_names. destruct vn as [|y vn]; [|rewrite Forall_forall in F; apply F].
  rewrite in_map_iff. intros (i & <- & _). apply variable_name_balanced.
Qed.

(** ** The whole text *)
Lemma read_text body ds : reads body ds -> read_dot ("digraph " ++ quoted "DD" ++ "{" ++ endl ++ body ++ "}" ++ endl) = Some (walk (rank_of ds) ds []).
Proof.
  intros (ts & k & R & P & L). unfold read_dot.
  rewrite (lex_runs _ Normal ([TId Word "digraph"] ++ [TId Quoted "DD"] ++ [TPunct lbrace] ++ [] ++ ts ++ [TPunct rbrace])%list).
  - cbn [app parse_graph]. cbn [String.eqb Ascii.eqb Bool.eqb andb lbrace]. rewrite app_length. cbn [List.length].
    assert (E : parse (k + 1) (ts ++ [TPunct rbrace])%list = Some (ds, [])).
    { rewrite <- (app_nil_r ds). apply P. reflexivity. }
    rewrite (parse_mono (k + 1) (List.length ts + 1) _ _ ltac:(lia) E). rewrite items_sub. reflexivity.
  - apply (runs_app _ _ [TId Word "digraph"] Normal); [reflexivity|]. apply (runs_app _ _ _ Normal); [reflexivity|].
    apply (runs_app _ _ [TPunct lbrace] Normal); [reflexivity|]. apply (runs_app _ _ [] Normal); [reflexivity|].
    apply (runs_app _ _ _ Normal); [exact R|reflexivity].
Qed.

Lemma text_full conf addr bdds fn vn order left_terminal : readable_config conf -> (forall x, quotable (addr x)) ->
  Forall (fun s => no_quote s /\ balanced s) fn -> Forall balanced vn ->
  match dump_dot_readable addr bdds fn vn order left_terminal with
  | Ok G => exists text, dump_dot_text conf addr bdds fn vn order left_terminal = Ok text /\ read_dot text = Some (map seen G)
  | UB => dump_dot_text conf addr bdds fn vn order left_terminal = UB
  | Throw => dump_dot_text conf addr bdds fn vn order left_terminal = Throw
  | Abort => dump_dot_text conf addr bdds fn vn order left_terminal = Abort
  end.
Proof.
  intros (C1 & C2 & C3) A F V. unfold dump_dot_readable, dump_dot_text.
  repeat match goal with H : Forall _ (_ :: _) |- _ => inversion H; clear H; subst end.
  destruct (assert_ _) as [[]| | |] eqn:E1; cbn [bind]; try reflexivity. cbn zeta.
  destruct (collect_nodes bdds) as [vis levels]. cbn zeta.
  destruct (assert_ ((List.length vn =? 0) || _)) as [[]| | |] eqn:E2; cbn [bind]; try reflexivity.
  pose proof (written_names (List.length bdds) fn F) as W. set (names := all_function_names (List.length bdds) fn) in *.
  pose proof (variable_names_balanced (List.length levels) vn V) as B. set (vnames := all_variable_names (List.length levels) vn) in *.
  assert (Q : forall x, In x names -> quotable x) by (intros x I; apply (W x I)).
  pose proof (reads_links addr A names bdds Q 0) as RL. unfold link_block.
  destruct (links addr names bdds 0) as [connections| | |]; cbn [bind]; try (rewrite RL; reflexivity).
  destruct RL as (cs & -> & RL & SL). cbn [bind].
  pose proof (reads_levels conf addr ltac:(assumption) ltac:(assumption) A vnames B levels 0) as RI.
  destruct (level_statements addr levels vnames 0) as [inner| | |] eqn:EL; cbn [bind]; try (rewrite RI; reflexivity).
  destruct RI as (is & -> & RI). cbn [bind]. eexists. split; [reflexivity|].
  pose proof (reads_app _ _ _ _ (reads_header conf C1 C2)
    (reads_app _ _ _ _ (reads_function_block conf ltac:(assumption) ltac:(assumption) names order W)
      (reads_app _ _ _ _ (reads_skip endl _ _ runs_endl (reads_skip (line 1 "# link function name nodes to the BDDs") _ _ eq_refl (reads_sub cs _ RL)))
        (reads_app _ _ _ _ (reads_chain addr A names levels Q)
          (reads_app _ _ _ _ RI
            (reads_app _ _ _ _ (reads_terminals conf addr ltac:(assumption) ltac:(assumption) A left_terminal)
              (reads_skip endl _ _ runs_endl (reads_skip (line 1 "# create inter-node high-/low-child connections") _ _ eq_refl (reads_children addr A levels))))))))) as R.
  apply read_text in R. unfold header, edge_lines. repeat rewrite string_app_assoc in R. repeat rewrite string_app_assoc. etransitivity; [exact R|]. f_equal.
  match goal with |- walk ?q _ _ = _ => generalize q; intro r end.
  rewrite walk_app. change (walk r (header_dots conf) []) with (@nil item). change (after (header_dots conf) []) with dflt. cbn [app].
  rewrite !walk_cons_sub, walk_functions, (walk_links _ SL), walk_chain, walk_app.
  destruct (walk_levels conf addr vnames r levels 0 inner EL) as [W1 W2]. rewrite W1, W2, walk_cons_sub, walk_terminals, walk_children.
  rewrite <- !map_app. f_equal. now rewrite <- !app_assoc.
Qed.
