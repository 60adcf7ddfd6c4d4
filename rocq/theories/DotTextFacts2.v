(** Reading the dot text: statements *)
From Coq Require Import Ascii String List Bool Arith NArith Lia.
From Verif Require Import Res Cudd Benchmark DumpDot SpecDot SpecDotText DotText DumpDotFacts DotTextFacts.
Import ListNotations.
Open Scope string_scope.
Open Scope nat_scope.

(** ** The parser *)
Lemma parse_mono : forall n m ts x, n <= m -> parse n ts = Some x -> parse m ts = Some x.
Proof.
  induction n as [|n IH]; intros m ts x L; [discriminate|]. destruct m as [|m]; [lia|]. assert (L' : n <= m) by lia. cbn [parse].
  destruct ts as [|[k y| |c] rest]; try discriminate.
  - destruct (parse_simple k y rest) as [[s r]|]; [|discriminate].
    destruct (parse n (skip_semi r)) as [[l r']|] eqn:E; [|discriminate]. now rewrite (IH m _ _ L' E).
  - destruct (Ascii.eqb c rbrace); [auto|]. destruct (Ascii.eqb c lbrace); [|discriminate].
    destruct (parse n rest) as [[body r]|] eqn:E; [|discriminate]. rewrite (IH m _ _ L' E).
    destruct (parse n (skip_semi r)) as [[l r']|] eqn:E2; [|discriminate]. now rewrite (IH m _ _ L' E2).
Qed.
(** what follows a statement *)
Definition stops (ts : list token) : Prop :=
  match ts with TArrow :: _ => False | TPunct c :: _ => c = lbrace \/ c = rbrace \/ c = semi | _ => True end.
Definition next (ts : list token) : Prop :=
  match ts with TId _ _ :: _ => True | TPunct c :: _ => c = lbrace \/ c = rbrace | _ => False end.
Lemma parse_next n ts x : parse n ts = Some x -> next ts.
Proof.
  destruct n as [|n]; [discriminate|]. cbn [parse]. destruct ts as [|[k y| |c] rest]; try discriminate; cbn [next]; auto.
  destruct (Ascii.eqb_spec c rbrace); [auto|]. destruct (Ascii.eqb_spec c lbrace); [auto|discriminate].
Qed.
Lemma next_stops ts : next ts -> stops ts.
Proof. destruct ts as [|[k y| |c] rest]; cbn; tauto. Qed.
Lemma next_semi ts : next ts -> skip_semi ts = ts.
Proof. destruct ts as [|[k y| |c] rest]; cbn [next]; try tauto; auto. intros [-> | ->]; reflexivity. Qed.

Definition parses (k : nat) (ts : list token) (ds : list dot) : Prop :=
  forall n rest l r, parse n rest = Some (l, r) -> parse (k + n) (ts ++ rest)%list = Some ((ds ++ l)%list, r).
Lemma parses_nil : parses 0 [] [].
Proof. intros n rest l r H. exact H. Qed.
Lemma parses_app k ts ds k' ts' ds' : parses k ts ds -> parses k' ts' ds' -> parses (k + k') (ts ++ ts')%list (ds ++ ds')%list.
Proof.
  intros H H' n rest l r E. rewrite <- app_assoc, <- (app_assoc ds), <- Nat.add_assoc. apply H. now apply H'.
Qed.
Lemma parses_sub k ts ds : parses k ts ds -> parses (S (S k)) (TPunct lbrace :: ts ++ [TPunct rbrace])%list [Sub ds].
Proof.
  intros H n rest l r E. cbn [app]. rewrite <- app_assoc. cbn [app]. cbn [plus parse]. cbn [Ascii.eqb lbrace rbrace Bool.eqb].
  assert (B : parse (S (k + n)) (ts ++ TPunct rbrace :: rest)%list = Some (ds, rest)).
  { replace (S (k + n)) with (k + S n) by lia. rewrite <- (app_nil_r ds). apply H. reflexivity. }
  cbn [parse] in B. cbn [parse]. rewrite B. rewrite (next_semi rest (parse_next _ _ _ E)).
  assert (E' : parse (S (k + n)) rest = Some (l, r)) by (apply (parse_mono n); [lia|exact E]).
  cbn [parse] in E'. rewrite E'. reflexivity.
Qed.
(** a statement ending in a semicolon *)
Lemma parses_semi k x ts s : (forall rest, parse_simple k x (ts ++ TPunct semi :: rest)%list = Some (s, TPunct semi :: rest)) ->
  parses 1 (TId k x :: ts ++ [TPunct semi])%list [s].
Proof.
  intros H n rest l r E. cbn [app]. rewrite <- app_assoc. cbn [app plus parse]. rewrite H. cbn [skip_semi]. rewrite Ascii.eqb_refl, E. reflexivity.
Qed.
(** a statement without *)
Lemma parses_open k x ts s : (forall rest, next rest -> parse_simple k x (ts ++ rest)%list = Some (s, rest)) ->
  parses 1 (TId k x :: ts)%list [s].
Proof.
  intros H n rest l r E. cbn [app plus parse]. rewrite (H rest (parse_next _ _ _ E)).
  rewrite (next_semi rest (parse_next _ _ _ E)), E. reflexivity.
Qed.
(** a path *)
Definition hops (names : list string) : list token := flat_map (fun y => [TArrow; TId Quoted y]) names.
Definition path_tokens (names : list string) : list token := match names with [] => [] | x :: l => TId Quoted x :: hops l end.
Definition path_dot (names : list string) : dot := match names with [x] => Node x [] | _ => Edge names [] end.
Lemma parse_path_hops l : forall rest, stops rest -> parse_path (hops l ++ rest)%list = (l, rest).
Proof.
  induction l as [|y l IH]; intros rest H.
  - cbn [hops flat_map app]. destruct rest as [|[k y| |c] rest]; cbn in H; try tauto; reflexivity.
  - change (hops (y :: l)) with (TArrow :: TId Quoted y :: hops l). cbn [app parse_path]. rewrite (IH rest H).
    destruct l as [|z l]; [|reflexivity]. cbn [hops flat_map app]. destruct rest as [|[k' y'| |c] [|[k'' y''| |c'] rest]]; auto.
    cbn in H. destruct H as [->|[->| ->]]; reflexivity.
Qed.
Lemma parse_path_simple x l rest : stops rest -> parse_simple Quoted x (hops l ++ rest)%list = Some (path_dot (x :: l), rest).
Proof.
  intro H.
  assert (E : parse_node Quoted x (hops l ++ rest)%list = Some (path_dot (x :: l), rest)).
  { unfold parse_node. assert (Ep : skip_port (hops l ++ rest)%list = (hops l ++ rest)%list).
    { destruct l as [|y l]; [|reflexivity]. cbn [hops flat_map app]. destruct rest as [|[k' y'| |c] [|[k'' y''| |c'] rest]]; auto.
      cbn in H. destruct H as [->|[->| ->]]; reflexivity. }
    rewrite Ep, (parse_path_hops l rest H).
    assert (Ea : parse_attrs rest = Some ([], rest)).
    { destruct rest as [|[k' y'| |c] rest]; auto. cbn in H. destruct H as [->|[->| ->]]; reflexivity. }
    rewrite Ea. destruct l; reflexivity. }
  destruct l as [|y l]; [|exact E]. cbn [hops flat_map app] in *. unfold parse_simple.
  destruct rest as [|[k' y'| |c] [|[k'' y''| |c'] rest]]; auto. cbn in H. destruct H as [->|[->| ->]]; exact E.
Qed.

(** ** Text, tokens, statements *)
Definition reads (s : string) (ds : list dot) : Prop :=
  exists ts k, runs Normal s ts Normal /\ parses k ts ds /\ k <= List.length ts.
Lemma reads_nil s : runs Normal s [] Normal -> reads s [].
Proof. intro H. exists [], 0. split; [exact H|]. split; [apply parses_nil|cbn; lia]. Qed.
Lemma reads_app s ds s' ds' : reads s ds -> reads s' ds' -> reads (s ++ s') (ds ++ ds')%list.
Proof.
  intros (ts & k & R & P & L) (ts' & k' & R' & P' & L'). exists (ts ++ ts')%list, (k + k'). rewrite app_length.
  split; [now apply (runs_app _ _ _ Normal)|]. split; [now apply parses_app|lia].
Qed.
Lemma reads_skip s s' ds : runs Normal s [] Normal -> reads s' ds -> reads (s ++ s') ds.
Proof. intros H H'. apply (reads_app s [] s' ds); [now apply reads_nil|exact H']. Qed.
Lemma reads_sub body ds : reads body ds -> reads (line 1 "{" ++ body ++ line 1 "}") [Sub ds].
Proof.
  intros (ts & k & R & P & L). exists (TPunct lbrace :: ts ++ [TPunct rbrace])%list, (S (S k)).
  split.
  - apply (runs_app _ _ [TPunct lbrace] Normal); [reflexivity|]. apply (runs_app _ _ _ Normal); [exact R|reflexivity].
  - split; [now apply parses_sub|]. cbn [List.length]. rewrite app_length. cbn [List.length]. lia.
Qed.
Lemma reads_lines {A} (f : A -> string) (t : A -> list dot) l : (forall x, In x l -> reads (f x) (t x)) ->
  reads (lines (map f l)) (flat_map t l).
Proof.
  induction l as [|x l IH]; intro H; cbn [map flat_map]; [apply reads_nil, runs_nil|]. rewrite lines_cons.
  apply reads_app; [apply H; now left|apply IH; intros; apply H; now right].
Qed.
(** a line with a statement that ends in a semicolon *)
Lemma reads_semi i s k x ts d : runs Normal s (TId k x :: ts ++ [TPunct semi])%list Normal ->
  (forall rest, parse_simple k x (ts ++ TPunct semi :: rest)%list = Some (d, TPunct semi :: rest)) -> reads (line i s) [d].
Proof.
  intros R P. exists (TId k x :: ts ++ [TPunct semi])%list, 1. split; [now apply runs_line|]. split; [now apply parses_semi|cbn; lia].
Qed.
Lemma reads_open i s k x ts d : runs Normal s (TId k x :: ts)%list Normal ->
  (forall rest, next rest -> parse_simple k x (ts ++ rest)%list = Some (d, rest)) -> reads (line i s) [d].
Proof.
  intros R P. exists (TId k x :: ts), 1. split; [now apply runs_line|]. split; [now apply parses_open|cbn; lia].
Qed.

(** ** The lines of the output *)
Ltac after_word := eexists; eexists; split; [reflexivity|reflexivity].
Ltac lexes :=
  lazymatch goal with
  | |- runs Normal (quoted _ ++ _) _ _ => eapply runs_app; [apply runs_quoted; solve [eauto]|lexes]
  | |- runs Normal (quoted _) _ _ => apply runs_quoted; solve [eauto]
  | |- runs Normal (_ ++ _) _ _ => first [eapply runs_app; [reflexivity|lexes] | apply runs_label; [solve [eauto]|after_word|lexes]
                                          | apply runs_word; [solve [eauto]|after_word|lexes]]
  | |- runs Normal _ _ _ => reflexivity
  end.
Ltac tokens := eapply (eq_ind _ (fun ts => runs Normal _ ts Normal)); [lexes|reflexivity].
Ltac simple_line := lazymatch goal with
  | |- reads (line _ ?s) [_] =>
      let s' := eval compute in (run Normal s) in
      lazymatch s' with Some (TId ?k ?x :: ?ts, Normal) =>
        let ts' := eval compute in (removelast ts) in apply (reads_semi _ _ k x ts'); [reflexivity|intro; reflexivity] end
  end.

Section Lines.
Variable conf : dot_config.
Variable addr : bdd -> string.
Hypothesis Hnode_sep : quotable (node_seperation conf).
Hypothesis Hrank_sep : quotable (rank_seperation conf).
Hypothesis Hnode : valid_word (node_shape conf) = true.
Hypothesis Hnode_w : valid_word (node_width conf) = true.
Hypothesis Hterm : valid_word (terminal_shape conf) = true.
Hypothesis Hterm_w : valid_word (terminal_width conf) = true.
Hypothesis Hfun : valid_word (function_name_shape conf) = true.
Hypothesis Hfun_w : valid_word (function_name_width conf) = true.
Hypothesis Haddr : forall x, quotable (addr x).

Lemma reads_function name : written name -> reads (line 2 (quoted name ++ " [label = " ++ name ++ "];")) [Node name [("label", inner_text name)]].
Proof.
  intro W. destruct (label_text name W) as [k E]. assert (Q : quotable name) by apply W.
  apply (reads_semi 2 _ Quoted name [TPunct lbracket; TId Word "label"; TPunct equals; label_tok name; TPunct rbracket]).
  - tokens.
  - intro rest. rewrite E. reflexivity.
Qed.
Lemma reads_default_shape : reads (line 2 ("node [shape = " ++ function_name_shape conf ++ ", fixedsize = true, width = " ++ function_name_width conf ++ "];"))
  [Default "node" [("shape", function_name_shape conf); ("fixedsize", "true"); ("width", function_name_width conf)]].
Proof.
  apply (reads_semi 2 _ Word "node" [TPunct lbracket; TId Word "shape"; TPunct equals; TId Word (function_name_shape conf); TPunct comma;
    TId Word "fixedsize"; TPunct equals; TId Word "true"; TPunct comma; TId Word "width"; TPunct equals; TId Word (function_name_width conf); TPunct rbracket]).
  - tokens.
  - reflexivity.
Qed.
Definition invis : dot := Default "edge" [("style", "invis")].
Lemma reads_invis : reads (line 2 "edge [style = invis];") [invis].
Proof. simple_line. Qed.
Lemma runs_arrows names : (forall x, In x names -> quotable x) -> runs Normal (arrows names) (path_tokens names) Normal.
Proof.
  induction names as [|x l IH]; intro H; [apply runs_nil|]. destruct l as [|y l].
  - apply runs_quoted, H. now left.
  - change (arrows (x :: y :: l)) with (quoted x ++ " -> " ++ arrows (y :: l)).
    change (path_tokens (x :: y :: l)) with ([TId Quoted x] ++ [TArrow] ++ path_tokens (y :: l))%list.
    apply (runs_app _ _ _ Normal); [apply runs_quoted, H; now left|]. apply (runs_app _ _ _ Normal); [reflexivity|].
    apply IH. intros; apply H; now right.
Qed.
Lemma reads_arrows x l : (forall y, In y (x :: l) -> quotable y) -> reads (line 2 (arrows (x :: l))) [path_dot (x :: l)].
Proof.
  intro H. apply (reads_open 2 _ Quoted x (hops l)); [exact (runs_arrows (x :: l) H)|].
  intros rest N. apply parse_path_simple. now apply next_stops.
Qed.

(** lines 152-194 *)
Definition function_dots (names : list string) (order : bool) : list dot :=
  ([Assign "rank" "source";
    Default "node" [("shape", function_name_shape conf); ("fixedsize", "true"); ("width", function_name_width conf)]; invis]
   ++ map (fun name => Node name [("label", inner_text name)]) names
   ++ (if order && (1 <? List.length names) then [path_dot names] else []))%list.
Lemma reads_function_block names order : (forall x, In x names -> written x) ->
  reads (function_block conf names order) [Sub (function_dots names order)].
Proof.
  intro W. unfold function_block, function_dots. apply reads_skip; [reflexivity|]. apply reads_skip; [reflexivity|].
  assert (B : reads (line 2 "rank = source;"
    ++ line 2 ("node [shape = " ++ function_name_shape conf ++ ", fixedsize = true, width = " ++ function_name_width conf ++ "];")
    ++ line 2 "edge [style = invis];"
    ++ lines (map (fun name => line 2 (quoted name ++ " [label = " ++ name ++ "];")) names)
    ++ (if order && (1 <? List.length names)
        then endl ++ line 2 "# Arrange function name nodes in correct order" ++ line 2 (arrows names)
        else "")) (function_dots names order)).
  { unfold function_dots. apply (reads_app _ [Assign "rank" "source"] _ (_ :: _)); [simple_line|].
    apply (reads_app _ [Default "node" _] _ (_ :: _)); [apply reads_default_shape|].
    apply (reads_app _ [invis]); [apply reads_invis|].
    apply reads_app.
    - replace (map (fun name => Node name [("label", inner_text name)]) names) with (flat_map (fun name => [Node name [("label", inner_text name)]]) names)
        by (clear; induction names as [|x l IH]; cbn; congruence).
      apply (reads_lines _ (fun name => [Node name [("label", inner_text name)]])). intros x I. apply reads_function. now apply W.
    - destruct (order && (1 <? List.length names)) eqn:E; [|apply reads_nil, runs_nil].
      apply reads_skip; [reflexivity|]. apply reads_skip; [reflexivity|]. destruct names as [|x l]; [destruct order; discriminate|].
      apply reads_arrows. intros y I. apply (W y I). }
  apply reads_sub in B. rewrite !string_app_assoc in B. exact B.
Qed.

(** lines 200-215 *)
Lemma reads_link name b : quotable name ->
  reads (line 2 (quoted name ++ ":s -> " ++ quoted (addr b) ++ ":n [arrowhead = none, weight = 10];"))
        [Edge [name; addr b] [("arrowhead", "none"); ("weight", "10")]].
Proof.
  intro Q. apply (reads_semi 2 _ Quoted name [TPunct colon; TId Word "s"; TArrow; TId Quoted (addr b); TPunct colon; TId Word "n";
    TPunct lbracket; TId Word "arrowhead"; TPunct equals; TId Word "none"; TPunct comma; TId Word "weight"; TPunct equals; TId Word "10"; TPunct rbracket]).
  - tokens.
  - reflexivity.
Qed.
(** edges as statements of the graph *)
Definition plain_edge (st : stmt) : dot :=
  match st with
  | SEdge x y Solid => Edge [x; y] [("arrowhead", "none"); ("weight", "10")]
  | SEdge x y _ => Edge [x; y] []
  | SNode x l _ => Node x []
  end.
Lemma reads_links names bdds : (forall x, In x names -> quotable x) -> forall i,
  match links addr names bdds i with
  | Ok S0 => exists s, link_lines addr names bdds i = Ok s /\ reads s (map plain_edge S0) /\ forall st, In st S0 -> exists x y, st = SEdge x y Solid
  | UB => link_lines addr names bdds i = UB
  | Throw => link_lines addr names bdds i = Throw
  | Abort => link_lines addr names bdds i = Abort
  end.
Proof.
  induction names as [|name names IH]; intros Q i; cbn [links link_lines].
  - exists "". split; [reflexivity|]. split; [apply reads_nil, runs_nil|intros st []].
  - destruct (vget bdds i) as [b| | |]; cbn [bind]; auto.
    assert (Q' : forall x, In x names -> quotable x) by (intros; apply Q; now right). specialize (IH Q' (S i)).
    destruct (links addr names bdds (S i)) as [S0| | |]; cbn [bind]; try (rewrite IH; reflexivity).
    destruct IH as (s & -> & R & E). cbn [bind]. eexists. split; [reflexivity|]. split.
    + cbn [map]. apply (reads_app _ [_]); [apply reads_link, Q; now left|exact R].
    + intros st [<-|I]; [eauto|auto].
Qed.

(** lines 221-244 *)
Definition heads (level_nodes : list (list bdd)) : list string :=
  flat_map (fun nodes => match nodes with [] => [] | x :: _ => [addr x] end) level_nodes.
Definition chain_names (names : list string) (level_nodes : list (list bdd)) : list string :=
  ((match names with [] => [] | name :: _ => [name] end) ++ heads level_nodes ++ [addr bone])%list.
Lemma path_tokens_snoc l z : path_tokens (l ++ [z]) = (flat_map (fun y => [TId Quoted y; TArrow]) l ++ [TId Quoted z])%list.
Proof.
  destruct l as [|x l]; [reflexivity|]. cbn [app path_tokens flat_map]. revert x. induction l as [|y l IH]; intro x; [reflexivity|].
  cbn [app hops flat_map]. f_equal. f_equal. specialize (IH y). cbn [app] in IH. exact IH.
Qed.
Lemma runs_chain names level_nodes : (forall x, In x names -> quotable x) ->
  runs Normal ((match names with [] => "" | name :: _ => indent 2 ++ quoted name ++ " -> " end) ++ indent 2
    ++ lines (map (fun nodes => match nodes with [] => "" | x :: _ => quoted (addr x) ++ " -> " end) level_nodes)
    ++ quoted (addr bone) ++ ";" ++ endl) (path_tokens (chain_names names level_nodes) ++ [TPunct semi])%list Normal.
Proof.
  intro Q. unfold chain_names. rewrite app_assoc, path_tokens_snoc, flat_map_app, <- !app_assoc.
  apply (runs_app _ _ _ Normal).
  { destruct names as [|name names]; [apply runs_nil|]. cbn [flat_map app]. assert (quotable name) by (apply Q; now left). tokens. }
  apply (runs_app _ _ [] Normal); [reflexivity|]. apply (runs_app _ _ _ Normal).
  { clear Q. induction level_nodes as [|nodes l IH]; [apply runs_nil|]. cbn [map heads flat_map]. rewrite lines_cons, flat_map_app.
    apply (runs_app _ _ _ Normal); [|exact IH]. destruct nodes as [|x nodes]; [apply runs_nil|]. cbn [flat_map app]. tokens. }
  tokens.
Qed.
Lemma reads_chain names level_nodes : (forall x, In x names -> quotable x) ->
  reads (chain_block addr names level_nodes) [Sub [invis; path_dot (chain_names names level_nodes)]].
Proof.
  intro Q. unfold chain_block.
  assert (B : reads (line 2 "edge [style = invis];"
    ++ (match names with [] => "" | name :: _ => indent 2 ++ quoted name ++ " -> " end) ++ indent 2
    ++ lines (map (fun nodes => match nodes with [] => "" | x :: _ => quoted (addr x) ++ " -> " end) level_nodes)
    ++ quoted (addr bone) ++ ";" ++ endl) [invis; path_dot (chain_names names level_nodes)]).
  { apply (reads_app _ [invis]); [apply reads_invis|].
    destruct (chain_names names level_nodes) as [|x l] eqn:E.
    { exfalso. apply (f_equal (@List.length string)) in E. unfold chain_names in E. rewrite !app_length in E. cbn in E. lia. }
    exists (path_tokens (x :: l) ++ [TPunct semi])%list, 1. rewrite <- E at 1. split; [now apply runs_chain|].
    split; [|cbn; lia]. apply (parses_semi Quoted x (hops l)). intro rest. apply parse_path_simple. cbn. auto. }
  apply reads_sub in B. rewrite !string_app_assoc in B. destruct names; rewrite ?string_app_assoc in *; exact B.
Qed.

(** lines 250-274 *)
Lemma reads_inner x name : balanced name ->
  reads (line 2 (quoted (addr x) ++ " [label = <" ++ name ++ ">, shape = " ++ node_shape conf ++ ", fixedsize=true, width=" ++ node_width conf ++ "];"))
        [Node (addr x) [("label", name); ("shape", node_shape conf); ("fixedsize", "true"); ("width", node_width conf)]].
Proof.
  intro B. apply (reads_semi 2 _ Quoted (addr x) [TPunct lbracket; TId Word "label"; TPunct equals; TId Html name; TPunct comma;
    TId Word "shape"; TPunct equals; TId Word (node_shape conf); TPunct comma; TId Word "fixedsize"; TPunct equals; TId Word "true"; TPunct comma;
    TId Word "width"; TPunct equals; TId Word (node_width conf); TPunct rbracket]).
  - apply (runs_app _ _ [TId Quoted (addr x)] Normal); [now apply runs_quoted|].
    replace (" [label = <" ++ name ++ ">, shape = " ++ node_shape conf ++ ", fixedsize=true, width=" ++ node_width conf ++ "];")
      with (" [label = " ++ ("<" ++ name ++ ">") ++ ", shape = " ++ node_shape conf ++ ", fixedsize=true, width=" ++ node_width conf ++ "];")
      by (rewrite !string_app_assoc; reflexivity).
    apply (runs_app _ _ [TPunct lbracket; TId Word "label"; TPunct equals] Normal); [reflexivity|].
    apply (runs_app _ _ [TId Html name] Normal); [now apply runs_html|]. tokens.
  - reflexivity.
Qed.
Definition inner_dots (nodes : list bdd) (name : string) : list dot :=
  (Assign "rank" "same" :: map (fun x => Node (addr x) [("label", name); ("shape", node_shape conf); ("fixedsize", "true"); ("width", node_width conf)]) nodes).
Fixpoint level_dots (levels : list (list bdd)) (names : list string) (i : nat) : list dot :=
  match levels with
  | [] => []
  | nodes :: levels' => ((match nodes with [] => [] | _ => [Sub (inner_dots nodes (nth i names ""))] end) ++ level_dots levels' names (S i))%list
  end.
Lemma digits_plain s : digits s -> all_chars (fun c => negb (Ascii.eqb c "010")) s = true.
Proof.
  induction s as [|c s IH]; cbn [digits all_chars]; [reflexivity|]. intros [H1 H2]. rewrite (IH H2), andb_true_r. apply negb_true_iff.
  destruct (Ascii.eqb_spec c "010"); [subst c; vm_compute in H1; exfalso; destruct H1 as [H1 _]; now apply H1|reflexivity].
Qed.
Lemma all_chars_app p s t : all_chars p (s ++ t) = all_chars p s && all_chars p t.
Proof. induction s as [|c s IH]; cbn [append all_chars]; [reflexivity|]. now rewrite IH, andb_assoc. Qed.
Lemma reads_level_block i nodes name : balanced name ->
  reads (endl ++ line 1 ("# create nodes for level " ++ to_string (N.of_nat i)) ++ line 1 "{" ++ line 2 "rank = same;"
    ++ lines (map (fun x => line 2 (quoted (addr x) ++ " [label = <" ++ name ++ ">, shape = " ++ node_shape conf
                                     ++ ", fixedsize=true, width=" ++ node_width conf ++ "];")) nodes)
    ++ line 1 "}") [Sub (inner_dots nodes name)].
Proof.
  intro B. apply reads_skip; [reflexivity|]. apply reads_skip.
  { apply (runs_comment 1 (" create nodes for level " ++ to_string (N.of_nat i))). rewrite all_chars_app, (digits_plain _ (to_string_digits _)). reflexivity. }
  assert (R : reads (line 2 "rank = same;" ++ lines (map (fun x => line 2 (quoted (addr x) ++ " [label = <" ++ name ++ ">, shape = " ++ node_shape conf
      ++ ", fixedsize=true, width=" ++ node_width conf ++ "];")) nodes)) (inner_dots nodes name)).
  { apply (reads_app _ [Assign "rank" "same"]); [simple_line|].
    replace (map (fun x => Node (addr x) [("label", name); ("shape", node_shape conf); ("fixedsize", "true"); ("width", node_width conf)]) nodes)
      with (flat_map (fun x => [Node (addr x) [("label", name); ("shape", node_shape conf); ("fixedsize", "true"); ("width", node_width conf)]]) nodes)
      by (clear; induction nodes as [|x l IH]; cbn; congruence).
    apply (reads_lines _ (fun x => [Node (addr x) _])). intros x _. now apply reads_inner. }
  apply reads_sub in R. rewrite !string_app_assoc in R. exact R.
Qed.
Lemma reads_levels names : (forall x, In x names -> balanced x) -> forall levels i,
  match level_statements addr levels names i with
  | Ok S0 => exists s, level_blocks conf addr levels names i = Ok s /\ reads s (level_dots levels names i)
  | UB => level_blocks conf addr levels names i = UB
  | Throw => level_blocks conf addr levels names i = Throw
  | Abort => level_blocks conf addr levels names i = Abort
  end.
Proof.
  intro B. induction levels as [|nodes levels IH]; intro i; cbn [level_statements level_blocks level_dots].
  - exists "". split; [reflexivity|apply reads_nil, runs_nil].
  - specialize (IH (S i)). destruct nodes as [|x nodes].
    + cbn [bind]. destruct (level_statements addr levels names (S i)) as [S0| | |]; cbn [bind]; try (rewrite IH; reflexivity).
      destruct IH as (s & -> & R). cbn [bind]. eexists. split; [reflexivity|]. apply reads_skip; [apply runs_nil|exact R].
    + unfold vget. destruct (nth_error names i) as [name|] eqn:E; cbn [bind]; [|reflexivity].
      destruct (level_statements addr levels names (S i)) as [S0| | |]; cbn [bind]; try (rewrite IH; reflexivity).
      destruct IH as (s & -> & R). cbn [bind]. eexists. split; [reflexivity|].
      rewrite (nth_error_nth _ _ "" E). apply (reads_app _ [Sub _]); [|exact R]. apply reads_level_block. apply B. now apply nth_error_In in E.
Qed.

(** lines 280-312 *)
Definition terminal_dots (left_terminal : option bool) : list dot :=
  ([Assign "rankdir" "LR"; Assign "rank" "same";
    Node (addr bone) [("label", "&#8868;"); ("shape", terminal_shape conf); ("width", terminal_width conf); ("fixedsize", "true")];
    Node (addr bzero) [("label", "&#8869;"); ("shape", terminal_shape conf); ("width", terminal_width conf); ("fixedsize", "true")]]
   ++ (match left_terminal with
       | None => []
       | Some left_one => [invis; Edge [addr (if left_one then bone else bzero); addr (if left_one then bzero else bone)] []]
       end))%list.
Lemma reads_top : reads (line 2 (quoted (addr bone) ++ " [label = <&#8868;>, shape = " ++ terminal_shape conf
             ++ ", width=" ++ terminal_width conf ++ ", fixedsize=true;]"))
  [Node (addr bone) [("label", "&#8868;"); ("shape", terminal_shape conf); ("width", terminal_width conf); ("fixedsize", "true")]].
Proof.
  apply (reads_open 2 _ Quoted (addr bone) [TPunct lbracket; TId Word "label"; TPunct equals; TId Html "&#8868;"; TPunct comma;
    TId Word "shape"; TPunct equals; TId Word (terminal_shape conf); TPunct comma; TId Word "width"; TPunct equals; TId Word (terminal_width conf); TPunct comma;
    TId Word "fixedsize"; TPunct equals; TId Word "true"; TPunct semi; TPunct rbracket]).
  - tokens.
  - reflexivity.
Qed.
Lemma reads_bottom : reads (line 2 (quoted (addr bzero) ++ " [label = <&#8869;>, shape = " ++ terminal_shape conf
             ++ ", width=" ++ terminal_width conf ++ ", fixedsize=true];"))
  [Node (addr bzero) [("label", "&#8869;"); ("shape", terminal_shape conf); ("width", terminal_width conf); ("fixedsize", "true")]].
Proof.
  apply (reads_semi 2 _ Quoted (addr bzero) [TPunct lbracket; TId Word "label"; TPunct equals; TId Html "&#8869;"; TPunct comma;
    TId Word "shape"; TPunct equals; TId Word (terminal_shape conf); TPunct comma; TId Word "width"; TPunct equals; TId Word (terminal_width conf); TPunct comma;
    TId Word "fixedsize"; TPunct equals; TId Word "true"; TPunct rbracket]).
  - tokens.
  - reflexivity.
Qed.
Lemma reads_pair i x y : reads (line i (quoted (addr x) ++ " -> " ++ quoted (addr y) ++ ";")) [Edge [addr x; addr y] []].
Proof. apply (reads_semi i _ Quoted (addr x) [TArrow; TId Quoted (addr y)]); [tokens|intro rest; apply (parse_path_simple (addr x) [addr y]); cbn; auto]. Qed.
Lemma reads_terminals left_terminal : reads (terminal_block conf addr left_terminal) [Sub (terminal_dots left_terminal)].
Proof.
  unfold terminal_block. apply reads_skip; [reflexivity|]. apply reads_skip; [reflexivity|].
  assert (R : reads (line 2 ("rankdir=" ++ quoted "LR" ++ "; rank = same;")
    ++ line 2 (quoted (addr bone) ++ " [label = <&#8868;>, shape = " ++ terminal_shape conf ++ ", width=" ++ terminal_width conf ++ ", fixedsize=true;]")
    ++ line 2 (quoted (addr bzero) ++ " [label = <&#8869;>, shape = " ++ terminal_shape conf ++ ", width=" ++ terminal_width conf ++ ", fixedsize=true];")
    ++ (match left_terminal with
        | None => ""
        | Some left_one =>
            endl ++ line 2 "# Arrange terminal nodes in correct order" ++ line 2 "edge [style = invis];"
            ++ line 2 (quoted (addr (if left_one then bone else bzero)) ++ " -> " ++ quoted (addr (if left_one then bzero else bone)) ++ ";")
        end)) (terminal_dots left_terminal)).
  { unfold terminal_dots. apply (reads_app _ [_; _] _ (_ :: _)).
    { change (line 2 ("rankdir=" ++ quoted "LR" ++ "; rank = same;")) with ((indent 2 ++ "rankdir=" ++ quoted "LR" ++ ";") ++ line 0 " rank = same;").
      apply (reads_app _ [Assign "rankdir" "LR"] _ [Assign "rank" "same"]); [|simple_line].
      exists [TId Word "rankdir"; TPunct equals; TId Quoted "LR"; TPunct semi], 1. split; [reflexivity|].
      split; [apply (parses_semi Word "rankdir" [TPunct equals; TId Quoted "LR"]); reflexivity|cbn; lia]. }
    apply (reads_app _ [_] _ (_ :: _)); [apply reads_top|]. apply (reads_app _ [_] _ _); [apply reads_bottom|].
    destruct left_terminal as [b|]; [|apply reads_nil, runs_nil]. apply reads_skip; [reflexivity|]. apply reads_skip; [reflexivity|].
    apply (reads_app _ [invis] _ [_]); [apply reads_invis|apply reads_pair]. }
  apply reads_sub in R. rewrite !string_app_assoc in R. exact R.
Qed.

(** lines 318-342 without the closing brace *)
Definition child_dots (level_nodes : list (list bdd)) : list dot :=
  flat_map (fun nodes => flat_map (fun x => [Edge [addr x; addr (then_child x)] [("arrowhead", "none")];
    Edge [addr x; addr (else_child x)] [("arrowhead", "none"); ("style", "dashed")]]) nodes) level_nodes.
Lemma reads_children level_nodes : reads (lines (map (fun nodes => lines (map (fun x =>
       line 1 (quoted (addr x) ++ " -> " ++ quoted (addr (then_child x)) ++ " [arrowhead = none];")
       ++ line 1 (quoted (addr x) ++ " -> " ++ quoted (addr (else_child x)) ++ " [arrowhead = none, style = dashed];")) nodes)) level_nodes))
  (child_dots level_nodes).
Proof.
  apply (reads_lines _ (fun nodes => flat_map _ nodes)). intros nodes _. apply (reads_lines _ (fun x => [_; _])). intros x _.
  apply (reads_app _ [_] _ [_]).
  - apply (reads_semi 1 _ Quoted (addr x) [TArrow; TId Quoted (addr (then_child x)); TPunct lbracket; TId Word "arrowhead"; TPunct equals; TId Word "none"; TPunct rbracket]);
      [tokens|reflexivity].
  - apply (reads_semi 1 _ Quoted (addr x) [TArrow; TId Quoted (addr (else_child x)); TPunct lbracket; TId Word "arrowhead"; TPunct equals; TId Word "none"; TPunct comma;
      TId Word "style"; TPunct equals; TId Word "dashed"; TPunct rbracket]); [tokens|reflexivity].
Qed.

(** lines 131-145 *)
Definition header_dots : list dot :=
  [Assign "center" "true"; Default "edge" [("dir", "non")]; Assign "nodesep" (node_seperation conf);
   Assign "ranksep" (rank_seperation conf); Assign "margin" "0"].
Lemma reads_header : reads (line 1 "center = true;" ++ line 1 "edge [dir = non];" ++ line 1 ("nodesep = " ++ quoted (node_seperation conf) ++ ";")
  ++ line 1 ("ranksep = " ++ quoted (rank_seperation conf) ++ ";") ++ line 1 "margin=0;") header_dots.
Proof.
  unfold header_dots. apply (reads_app _ [_] _ (_ :: _)); [simple_line|]. apply (reads_app _ [_] _ (_ :: _)); [simple_line|].
  apply (reads_app _ [_] _ (_ :: _)).
  { apply (reads_semi 1 _ Word "nodesep" [TPunct equals; TId Quoted (node_seperation conf)]); [tokens|reflexivity]. }
  apply (reads_app _ [_] _ (_ :: _)).
  { apply (reads_semi 1 _ Word "ranksep" [TPunct equals; TId Quoted (rank_seperation conf)]); [tokens|reflexivity]. }
  simple_line.
Qed.
End Lines.
