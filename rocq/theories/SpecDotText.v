(** Reading a text in the DOT language: the part of the grammar without subgraph names, strict graphs, undirected
    edges and concatenated strings. https://graphviz.org/doc/info/lang.html *)
From Coq Require Import Ascii String List Bool Arith NArith.
From Verif Require Import Cudd DumpDot SpecDot DotText.
Import ListNotations.
Open Scope string_scope.
Open Scope nat_scope.

(** ** Tokens *)
Inductive quoting := Word | Quoted | Html.
Inductive token :=
| TId (k : quoting) (s : string)
| TArrow
| TPunct (c : ascii). (* { } [ ] ; , = : *)
Inductive mode :=
| Normal | InWord (w : string) | InQuotes (s : string) | InEscape (s : string) | InHtml (depth : nat) (s : string)
| InComment | InMinus.

Definition letter (c : ascii) : bool :=
  let n := N_of_ascii c in
  ((65 <=? n) && (n <=? 90) || (97 <=? n) && (n <=? 122) || (n =? 95) || (128 <=? n))%N.
Definition digit (c : ascii) : bool := let n := N_of_ascii c in ((48 <=? n) && (n <=? 57))%N.
Fixpoint all_chars (p : ascii -> bool) (s : string) : bool :=
  match s with EmptyString => true | String c s' => p c && all_chars p s' end.
(** digits with at most one dot *)
Fixpoint numeral (dot : bool) (s : string) : bool :=
  match s with
  | EmptyString => true
  | String c s' => if digit c then numeral dot s' else Ascii.eqb c "." && dot && numeral false s'
  end.
Definition word_char (c : ascii) : bool := letter c || digit c || Ascii.eqb c ".".
Definition valid_word (s : string) : bool :=
  match s with
  | EmptyString => false
  | String c s' => letter c && all_chars (fun c => letter c || digit c) s'
                   || numeral true s && negb (String.eqb s ".")
  end.
Definition snoc (s : string) (c : ascii) : string := s ++ String c "".

Definition start (c : ascii) : option (list token * mode) :=
  if existsb (Ascii.eqb c) [" "; "009"; "010"; "013"]%char then Some ([], Normal)
  else if existsb (Ascii.eqb c) ["{"; "}"; "["; "]"; ";"; ","; "="; ":"]%char then Some ([TPunct c], Normal)
  else if Ascii.eqb c "#" then Some ([], InComment)
  else if Ascii.eqb c "034" then Some ([], InQuotes "")
  else if Ascii.eqb c "<" then Some ([], InHtml 0 "")
  else if Ascii.eqb c "-" then Some ([], InMinus)
  else if word_char c then Some ([], InWord (String c "")) else None.
Definition step (m : mode) (c : ascii) : option (list token * mode) :=
  match m with
  | Normal => start c
  | InWord w =>
      if word_char c then Some ([], InWord (snoc w c))
      else if valid_word w then
        match start c with Some (ts, m') => Some (TId Word w :: ts, m') | None => None end
      else None
  | InQuotes s =>
      if Ascii.eqb c "034" then Some ([TId Quoted s], Normal)
      else if Ascii.eqb c "\" then Some ([], InEscape s) else Some ([], InQuotes (snoc s c))
  | InEscape s =>
      if Ascii.eqb c "034" then Some ([], InQuotes (snoc s c)) else Some ([], InQuotes (snoc (snoc s "\") c))
  | InHtml d s =>
      if Ascii.eqb c "<" then Some ([], InHtml (S d) (snoc s c))
      else if Ascii.eqb c ">" then
        match d with O => Some ([TId Html s], Normal) | S d' => Some ([], InHtml d' (snoc s c)) end
      else Some ([], InHtml d (snoc s c))
  | InComment => if Ascii.eqb c "010" then Some ([], Normal) else Some ([], InComment)
  | InMinus => if Ascii.eqb c ">" then Some ([TArrow], Normal) else None
  end.
Fixpoint lex (m : mode) (s : string) : option (list token) :=
  match s with
  | EmptyString =>
      match m with
      | Normal | InComment => Some []
      | InWord w => if valid_word w then Some [TId Word w] else None
      | _ => None
      end
  | String c s' =>
      match step m c with
      | Some (ts, m') => option_map (fun l => ts ++ l)%list (lex m' s')
      | None => None
      end
  end.

(** ** Grammar *)
Definition attributes := list (string * string).
Inductive dot :=
| Node (id : string) (attr : attributes)
| Edge (path : list string) (attr : attributes) (* at least two nodes *)
| Default (kind : string) (attr : attributes)   (* graph, node or edge *)
| Assign (x y : string)
| Sub (body : list dot).

Definition lbrace := "{"%char. Definition rbrace := "}"%char. Definition lbracket := "["%char. Definition rbracket := "]"%char.
Definition semi := ";"%char. Definition comma := ","%char. Definition equals := "="%char. Definition colon := ":"%char.

(** after the opening bracket *)
Fixpoint parse_attr (ts : list token) : option (attributes * list token) :=
  match ts with
  | TPunct c :: rest => if Ascii.eqb c rbracket then Some ([], rest) else None
  | TId _ x :: TPunct c :: TId _ y :: rest =>
      if Ascii.eqb c equals then
        match rest with
        | TPunct d :: rest' =>
            if Ascii.eqb d semi || Ascii.eqb d comma
            then match parse_attr rest' with Some (l, r) => Some ((x, y) :: l, r) | None => None end
            else match parse_attr rest with Some (l, r) => Some ((x, y) :: l, r) | None => None end
        | _ => match parse_attr rest with Some (l, r) => Some ((x, y) :: l, r) | None => None end
        end
      else None
  | _ => None
  end.
Definition parse_attrs (ts : list token) : option (attributes * list token) :=
  match ts with
  | TPunct c :: rest => if Ascii.eqb c lbracket then parse_attr rest else Some ([], ts)
  | _ => Some ([], ts)
  end.
(** [:port] *)
Definition skip_port (ts : list token) : list token :=
  match ts with
  | TPunct c :: TId _ _ :: rest => if Ascii.eqb c colon then rest else ts
  | _ => ts
  end.
(** [-> node -> node ...] *)
Fixpoint parse_path (ts : list token) : list string * list token :=
  match ts with
  | TArrow :: TId _ y :: rest =>
      match rest with
      | TPunct c :: TId k z :: rest' =>
          if Ascii.eqb c colon then let '(l, r) := parse_path rest' in (y :: l, r)
          else let '(l, r) := parse_path rest in (y :: l, r)
      | _ => let '(l, r) := parse_path rest in (y :: l, r)
      end
  | _ => ([], ts)
  end.
Definition skip_semi (ts : list token) : list token :=
  match ts with TPunct c :: rest => if Ascii.eqb c semi then rest else ts | _ => ts end.
Definition keyword (k : quoting) (x : string) : bool :=
  match k with Word => existsb (String.eqb x) ["graph"; "node"; "edge"] | _ => false end.
(** a statement that is not a subgraph, after its first identifier *)
Definition parse_node (k : quoting) (x : string) (ts : list token) : option (dot * list token) :=
  let '(p, r) := parse_path (skip_port ts) in
  match parse_attrs r with
  | Some (a, r') => Some (match p with [] => if keyword k x then Default x a else Node x a | _ => Edge (x :: p) a end, r')
  | None => None
  end.
Definition parse_simple (k : quoting) (x : string) (ts : list token) : option (dot * list token) :=
  match ts with
  | TPunct c :: TId _ y :: rest => if Ascii.eqb c equals then Some (Assign x y, rest) else parse_node k x ts
  | _ => parse_node k x ts
  end.
(** statements up to the closing brace *)
Fixpoint parse (fuel : nat) (ts : list token) : option (list dot * list token) :=
  match fuel with
  | O => None
  | S n =>
      match ts with
      | TPunct c :: rest =>
          if Ascii.eqb c rbrace then Some ([], rest)
          else if Ascii.eqb c lbrace then
            match parse n rest with
            | Some (body, r) =>
                match parse n (skip_semi r) with Some (l, r') => Some (Sub body :: l, r') | None => None end
            | None => None
            end
          else None
      | TId k x :: rest =>
          match parse_simple k x rest with
          | Some (s, r) => match parse n (skip_semi r) with Some (l, r') => Some (s :: l, r') | None => None end
          | None => None
          end
      | _ => None
      end
  end.
Definition parse_graph (ts : list token) : option (list dot) :=
  match ts with
  | TId Word d :: TId _ _ :: TPunct c :: rest =>
      if String.eqb d "digraph" && Ascii.eqb c lbrace then
        match parse (List.length rest) rest with Some (body, []) => Some body | _ => None end
      else None
  | _ => None
  end.

(** ** Meaning: nodes with label and rank, edges with style. A node without a label is only mentioned. *)
Inductive item :=
| INode (id label : string) (r : option string)
| IEdge (from to : string) (s : style).
Fixpoint lookup (x : string) (l : attributes) : option string :=
  match l with
  | [] => None
  | (y, v) :: l' => match lookup x l' with Some w => Some w | None => if String.eqb x y then Some v else None end
  end.
Definition style_of (attr : attributes) : style :=
  match lookup "style" attr with
  | Some s => if String.eqb s "invis" then Invisible else if String.eqb s "dashed" then Dashed else Solid
  | None => Solid
  end.
Fixpoint pairs (p : list string) (s : style) : list item :=
  match p with
  | x :: (y :: _) as rest => IEdge x y s :: pairs rest s
  | _ => []
  end.
(** the rank of a subgraph: its last assignment *)
Fixpoint rank_of (body : list dot) : option string :=
  match body with
  | [] => None
  | s :: body' =>
      match rank_of body' with
      | Some r => Some r
      | None => match s with Assign x y => if String.eqb x "rank" then Some y else None | _ => None end
      end
  end.
(** the defaults for edges hold from their statement to the end of the subgraph *)
Fixpoint items_of (s : dot) (defaults : attributes) (r : option string) : list item * attributes :=
  match s with
  | Node x a => (match lookup "label" a with Some l => [INode x l r] | None => [] end, defaults)
  | Edge p a => (pairs p (style_of (defaults ++ a)%list), defaults)
  | Default k a => ([], if String.eqb k "edge" then (defaults ++ a)%list else defaults)
  | Assign _ _ => ([], defaults)
  | Sub body =>
      ((fix go (l : list dot) (d : attributes) : list item :=
          match l with
          | [] => []
          | s' :: l' => let '(is, d') := items_of s' d (rank_of body) in (is ++ go l' d')%list
          end) body defaults, defaults)
  end.
Definition read_dot (text : string) : option (list item) :=
  match lex Normal text with
  | Some ts => match parse_graph ts with Some body => Some (fst (items_of (Sub body) [] None)) | None => None end
  | None => None
  end.

(** ** Names that can be written into the text *)
Definition no_quote (s : string) : Prop := all_chars (fun c => negb (Ascii.eqb c "034")) s = true.
(** moreover no backslash at the end, where it would escape the closing quote; two make one *)
Fixpoint quotable_text (s : string) : bool :=
  match s with
  | EmptyString => true
  | String c s' =>
      if Ascii.eqb c "034" then false
      else if Ascii.eqb c "\"
      then match s' with EmptyString => false | String c' s'' => negb (Ascii.eqb c' "034") && quotable_text s'' end
      else quotable_text s'
  end.
Definition quotable (s : string) : Prop := quotable_text s = true.
(** every [<] has its [>] *)
Fixpoint balanced_from (d : nat) (s : string) : bool :=
  match s with
  | EmptyString => d =? 0
  | String c s' =>
      if Ascii.eqb c "<" then balanced_from (S d) s'
      else if Ascii.eqb c ">" then match d with O => false | S d' => balanced_from d' s' end
      else balanced_from d s'
  end.
Definition balanced (s : string) : Prop := balanced_from 0 s = true.

(** what a reader sees of a statement: the text of the label, [rank = source] or [rank = same] *)
Definition inner_text (s : string) : string :=
  match s with String "<" s' => String.substring 0 (String.length s' - 1) s' | _ => s end.
Definition seen (st : stmt) : item :=
  match st with
  | SNode id label Source => INode id (inner_text label) (Some "source")
  | SNode id label _ => INode id label (Some "same")
  | SEdge x y s => IEdge x y s
  end.

(** the names shown for the variables *)
Definition shown_label (variable_names : list string) (i : nat) : option string :=
  match variable_names with [] => Some (variable_name i) | _ => nth_error variable_names i end.
(** the value of a node, read off the picture: the labels name the variables *)
Inductive picture_value (G : list item) (name : nat -> option string) (a : asg) : string -> bool -> Prop :=
| picture_top id : In (INode id "&#8868;" (Some "same")) G -> picture_value G name a id true
| picture_bottom id : In (INode id "&#8869;" (Some "same")) G -> picture_value G name a id false
| picture_inner id i label id' b : name i = Some label -> In (INode id label (Some "same")) G ->
    In (IEdge id id' (if a i then Solid else Dashed)) G -> picture_value G name a id' b -> picture_value G name a id b.
(** the shapes and widths are words, the distances fit between quotes *)
Definition readable_config (conf : dot_config) : Prop :=
  quotable (node_seperation conf) /\ quotable (rank_seperation conf)
  /\ Forall (fun w => valid_word w = true) [node_shape conf; node_width conf; terminal_shape conf; terminal_width conf;
       function_name_shape conf; function_name_width conf].
(** the labels tell the variables and the terminals apart *)
Definition distinct_labels (vn : list string) : Prop :=
  vn = [] \/ NoDup vn /\ ~ In "&#8868;" vn /\ ~ In "&#8869;" vn.
