(** Reading the dot text: tokens *)
From Coq Require Import Ascii String List Bool Arith NArith Lia.
From Verif Require Import Res Cudd Benchmark DumpDot SpecDot SpecDotText DotText DumpDotFacts.
Import ListNotations.
Open Scope string_scope.
Open Scope nat_scope.

(** ** Partial runs of the lexer *)
Fixpoint run (m : mode) (s : string) : option (list token * mode) :=
  match s with
  | EmptyString => Some ([], m)
  | String c s' =>
      match step m c with
      | Some (ts, m') => match run m' s' with Some (ts', m'') => Some ((ts ++ ts')%list, m'') | None => None end
      | None => None
      end
  end.
Definition runs (m : mode) (s : string) (ts : list token) (m' : mode) : Prop := run m s = Some (ts, m').

Lemma runs_nil m : runs m "" [] m.
Proof. reflexivity. Qed.
Lemma runs_app s : forall m ts m' s' ts' m'', runs m s ts m' -> runs m' s' ts' m'' -> runs m (s ++ s') (ts ++ ts')%list m''.
Proof.
  unfold runs. induction s as [|c s IH]; intros m ts m' s' ts' m'' H H'; cbn [run append] in *.
  - injection H as <- <-. rewrite H'. reflexivity.
  - destruct (step m c) as [[t1 m1]|]; [|discriminate]. destruct (run m1 s) as [[t2 m2]|] eqn:E; [|discriminate].
    injection H as <- <-. rewrite (IH m1 t2 m2 s' ts' m'' E H'). now rewrite app_assoc.
Qed.
Lemma runs_cons m c s ts m' ts' m'' : step m c = Some (ts, m') -> runs m' s ts' m'' -> runs m (String c s) (ts ++ ts')%list m''.
Proof. unfold runs. cbn [run]. intros -> ->. reflexivity. Qed.
Lemma lex_runs s : forall m ts, runs m s ts Normal -> lex m s = Some ts.
Proof.
  unfold runs. induction s as [|c s IH]; intros m ts; cbn [run lex].
  - intros [= <- ->]. reflexivity.
  - destruct (step m c) as [[t1 m1]|]; [|discriminate]. destruct (run m1 s) as [[t2 m2]|] eqn:E; [|discriminate].
    intros [= <- ->]. rewrite (IH m1 t2 E). reflexivity.
Qed.

Lemma snoc_app s c s' : snoc s c ++ s' = s ++ String c s'.
Proof. unfold snoc. rewrite string_app_assoc. reflexivity. Qed.
Lemma append_nil s : s ++ "" = s.
Proof. induction s as [|c s IH]; cbn [append]; congruence. Qed.

(** quoted text *)
Lemma runs_quotes : forall n s acc, String.length s <= n -> quotable s -> runs (InQuotes acc) s [] (InQuotes (acc ++ s)).
Proof.
  unfold quotable. induction n as [|n IH]; intros [|c s] acc L H; cbn [String.length] in L; try lia; try (rewrite append_nil; apply runs_nil).
  cbn [quotable_text] in H. destruct (Ascii.eqb c "034") eqn:E1; [discriminate|]. destruct (Ascii.eqb c "\") eqn:E2.
  - destruct s as [|c' s]; [discriminate|]. cbn [String.length] in L. apply andb_true_iff in H. destruct H as [E3 H]. apply negb_true_iff in E3.
    apply (runs_cons _ _ _ [] (InEscape acc) [] _); [cbn [step]; now rewrite E1, E2|].
    apply (runs_cons _ _ _ [] (InQuotes (snoc (snoc acc "\") c')) [] _); [cbn [step]; now rewrite E3|].
    apply Ascii.eqb_eq in E2. subst c. rewrite <- (snoc_app acc "\" (String c' s)), <- (snoc_app (snoc acc "\") c' s). apply IH; [lia|exact H].
  - apply (runs_cons _ _ _ [] (InQuotes (snoc acc c)) [] _); [cbn [step]; now rewrite E1, E2|].
    rewrite <- (snoc_app acc c s). apply IH; [lia|exact H].
Qed.
Lemma quotable_html : forall n s, String.length s <= n -> no_quote s -> quotable (s ++ ">").
Proof.
  unfold quotable, no_quote. induction n as [|n IH]; intros [|c s] L H; cbn [String.length] in L; try lia; try reflexivity.
  cbn [all_chars] in H. apply andb_true_iff in H. destruct H as [H1 H2]. apply negb_true_iff in H1. cbn [append quotable_text]. rewrite H1.
  destruct (Ascii.eqb c "\"); [|apply IH; [lia|exact H2]]. destruct s as [|c' s]; [reflexivity|]. cbn [String.length] in L.
  cbn [all_chars append] in H2 |- *. apply andb_true_iff in H2. destruct H2 as [H2 H3]. rewrite H2. cbn [andb]. apply IH; [lia|exact H3].
Qed.
Lemma runs_quoted s : quotable s -> runs Normal (quoted s) [TId Quoted s] Normal.
Proof.
  intro H. unfold quoted. apply (runs_app quote Normal [] (InQuotes "") (s ++ quote) [TId Quoted s] Normal); [reflexivity|].
  apply (runs_app s (InQuotes "") [] (InQuotes s) quote [TId Quoted s] Normal); [exact (runs_quotes _ s "" (le_n _) H)|reflexivity].
Qed.

(** HTML text *)
Lemma runs_html_aux s : forall d acc, balanced_from d s = true -> runs (InHtml d acc) s [] (InHtml 0 (acc ++ s)).
Proof.
  induction s as [|c s IH]; intros d acc H; cbn [balanced_from] in H.
  - apply Nat.eqb_eq in H. subst d. rewrite append_nil. apply runs_nil.
  - rewrite <- (snoc_app acc c s). destruct (Ascii.eqb c "<") eqn:E1.
    + apply (runs_cons _ _ _ [] (InHtml (S d) (snoc acc c)) [] _); [cbn [step]; now rewrite E1|now apply IH].
    + destruct (Ascii.eqb c ">") eqn:E2.
      * destruct d as [|d]; [discriminate|].
        apply (runs_cons _ _ _ [] (InHtml d (snoc acc c)) [] _); [cbn [step]; now rewrite E1, E2|now apply IH].
      * apply (runs_cons _ _ _ [] (InHtml d (snoc acc c)) [] _); [cbn [step]; now rewrite E1, E2|now apply IH].
Qed.
Lemma runs_html s : balanced s -> runs Normal ("<" ++ s ++ ">") [TId Html s] Normal.
Proof.
  intro H. apply (runs_app "<" Normal [] (InHtml 0 "") (s ++ ">") [TId Html s] Normal); [reflexivity|].
  apply (runs_app s (InHtml 0 "") [] (InHtml 0 s) ">" [TId Html s] Normal); [exact (runs_html_aux s 0 "" H)|reflexivity].
Qed.

(** words *)
Lemma numeral_chars s : forall d, numeral d s = true -> all_chars word_char s = true.
Proof.
  induction s as [|c s IH]; intros d H; cbn [numeral all_chars] in *; auto. unfold word_char at 1.
  destruct (digit c) eqn:E.
  - rewrite orb_true_r. cbn [orb andb]. eapply IH; exact H.
  - apply andb_true_iff in H. destruct H as [H1 H2]. apply andb_true_iff in H1. destruct H1 as [H1 _]. rewrite H1.
    rewrite orb_true_r. cbn [andb]. eapply IH; exact H2.
Qed.
Lemma all_chars_weaken p q s : (forall c, p c = true -> q c = true) -> all_chars p s = true -> all_chars q s = true.
Proof.
  intro H. induction s as [|c s IH]; cbn [all_chars]; auto. intro E. apply andb_true_iff in E. destruct E as [E1 E2].
  rewrite (H c E1), (IH E2). reflexivity.
Qed.
Lemma valid_word_chars w : valid_word w = true -> exists c w', w = String c w' /\ all_chars word_char w = true.
Proof.
  destruct w as [|c w]; cbn [valid_word]; [discriminate|]. intro H. exists c, w. split; [reflexivity|].
  apply orb_true_iff in H. destruct H as [H|H]; apply andb_true_iff in H; destruct H as [H1 H2].
  - cbn [all_chars]. apply andb_true_iff. split; [unfold word_char; now rewrite H1|].
    apply (all_chars_weaken (fun c => letter c || digit c)); [|exact H2]. intros x E. unfold word_char. now rewrite E.
  - eapply numeral_chars; exact H1.
Qed.
Lemma runs_word_aux s : forall w, all_chars word_char s = true -> runs (InWord w) s [] (InWord (w ++ s)).
Proof.
  induction s as [|c s IH]; intros w H; cbn [all_chars] in H.
  - rewrite append_nil. apply runs_nil.
  - apply andb_true_iff in H. destruct H as [H1 H2]. rewrite <- (snoc_app w c s).
    apply (runs_cons _ _ _ [] (InWord (snoc w c)) [] _); [cbn [step]; now rewrite H1|now apply IH].
Qed.
Lemma start_word c : word_char c = true -> start c = Some ([], InWord (String c "")).
Proof. destruct c as [[] [] [] [] [] [] [] []]; intro H; vm_compute in H; try discriminate; reflexivity. Qed.
Lemma runs_word w s ts m : valid_word w = true -> (exists c s', s = String c s' /\ word_char c = false) ->
  runs Normal s ts m -> runs Normal (w ++ s) (TId Word w :: ts) m.
Proof.
  intros V (c & s' & -> & NC) H. destruct (valid_word_chars w V) as (x & w' & E & A).
  assert (H1 : runs Normal w [] (InWord w)).
  { subst w. cbn [all_chars] in A. apply andb_true_iff in A. destruct A as [A1 A2].
    apply (runs_cons _ _ _ [] (InWord (String x "")) [] _); [cbn [step]; now apply start_word|].
    exact (runs_word_aux w' (String x "") A2). }
  apply (runs_app w Normal [] (InWord w) (String c s') (TId Word w :: ts) m H1).
  unfold runs in H |- *. cbn [run step] in H |- *. rewrite NC, V. destruct (start c) as [[t1 m1]|]; [|discriminate].
  destruct (run m1 s') as [[t2 m2]|]; [|discriminate]. injection H as <- <-. reflexivity.
Qed.

(** indentation, lines, comments *)
Lemma runs_indent n : runs Normal (indent n) [] Normal.
Proof.
  induction n as [|n IH]; cbn [indent]; [apply runs_nil|]. exact (runs_app tab Normal [] Normal (indent n) [] Normal eq_refl IH).
Qed.
Lemma runs_endl : runs Normal endl [] Normal.
Proof. reflexivity. Qed.
Lemma runs_line n s ts : runs Normal s ts Normal -> runs Normal (line n s) ts Normal.
Proof.
  intro H. unfold line. rewrite <- (app_nil_r ts). change (ts ++ [])%list with ([] ++ (ts ++ []))%list.
  apply (runs_app _ _ _ Normal); [apply runs_indent|]. now apply (runs_app _ _ _ Normal).
Qed.
Lemma runs_comment_aux s : all_chars (fun c => negb (Ascii.eqb c "010")) s = true -> runs InComment s [] InComment.
Proof.
  induction s as [|c s IH]; cbn [all_chars]; intro H; [apply runs_nil|]. apply andb_true_iff in H. destruct H as [H1 H2].
  apply negb_true_iff in H1. apply (runs_cons _ _ _ [] InComment [] _); [cbn [step]; now rewrite H1|auto].
Qed.
Lemma runs_comment n s : all_chars (fun c => negb (Ascii.eqb c "010")) s = true -> runs Normal (line n (String "#" s)) [] Normal.
Proof.
  intro H. unfold line. apply (runs_app (indent n) Normal [] Normal (String "#" s ++ endl) [] Normal); [apply runs_indent|].
  apply (runs_cons _ _ _ [] InComment [] _); [reflexivity|]. apply (runs_app s InComment [] InComment endl [] Normal); [|reflexivity].
  now apply runs_comment_aux.
Qed.
Lemma runs_lit s ts s' ts' m : runs Normal s ts Normal -> runs Normal s' ts' m -> runs Normal (s ++ s') (ts ++ ts')%list m.
Proof. apply runs_app. Qed.
Lemma lines_cons x l : lines (x :: l) = x ++ lines l.
Proof. unfold lines. destruct l as [|y l]; cbn [String.concat]; [now rewrite append_nil|]. reflexivity. Qed.
Lemma runs_lines {A} (f : A -> string) (t : A -> list token) l : (forall x, In x l -> runs Normal (f x) (t x) Normal) ->
  runs Normal (lines (map f l)) (flat_map t l) Normal.
Proof.
  induction l as [|x l IH]; intro H; cbn [map flat_map]; [apply runs_nil|]. rewrite lines_cons.
  apply (runs_app _ _ _ Normal); [apply H; now left|apply IH; intros; apply H; now right].
Qed.

(** ** Names *)
Definition label_tok (name : string) : token :=
  match name with String "<" _ => TId Html (inner_text name) | _ => TId Word name end.
Definition written (name : string) : Prop := quotable name /\ (valid_word name = true \/ exists n, name = "<" ++ n ++ ">" /\ balanced n).

Lemma substring_app s t : substring 0 (String.length s) (s ++ t) = s.
Proof. induction s as [|c s IH]; cbn [String.length append substring]; [now destruct t|]. now rewrite IH. Qed.
Lemma length_append s t : String.length (s ++ t) = String.length s + String.length t.
Proof. induction s as [|c s IH]; [reflexivity|]. cbn [append String.length]. now rewrite IH. Qed.
Lemma inner_html n : inner_text ("<" ++ n ++ ">") = n.
Proof.
  cbn [append inner_text]. rewrite length_append. cbn [String.length]. replace (String.length n + 1 - 1) with (String.length n) by lia.
  apply substring_app.
Qed.
Lemma word_not_html c s : valid_word (String c s) = true -> label_tok (String c s) = TId Word (String c s) /\ inner_text (String c s) = String c s.
Proof.
  intro H. destruct (valid_word_chars _ H) as (c' & s' & [= <- <-] & A). cbn [all_chars] in A. apply andb_true_iff in A. destruct A as [A _].
  destruct c as [[] [] [] [] [] [] [] []]; vm_compute in A; try discriminate; split; reflexivity.
Qed.
Lemma runs_label name s ts : written name -> (exists c s', s = String c s' /\ word_char c = false) -> runs Normal s ts Normal ->
  runs Normal (name ++ s) (label_tok name :: ts) Normal.
Proof.
  intros [_ [V|(n & -> & B)]] D H.
  - destruct name as [|c name]; [discriminate|]. rewrite (proj1 (word_not_html c name V)). now apply runs_word.
  - change (label_tok ("<" ++ n ++ ">")) with (TId Html (inner_text ("<" ++ n ++ ">"))). rewrite inner_html.
    apply (runs_app _ _ [TId Html n] Normal); [now apply runs_html|exact H].
Qed.
Lemma label_text name : written name -> exists k, label_tok name = TId k (inner_text name).
Proof.
  intros [_ [V|(n & -> & B)]].
  - destruct name as [|c name]; [discriminate|]. destruct (word_not_html c name V) as [-> ->]. eauto.
  - exists Html. reflexivity.
Qed.
