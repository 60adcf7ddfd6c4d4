(** Model of /repo/src/util/dump_dot.cpp. The text is a sequence of statements; those that only set
    presentation attributes (shapes, widths, distances, comments) are left out. [addr] is the text
    that is printed for a pointer. The variants that open a file are not modelled. *)
From Coq Require Import Ascii String List Bool Arith NArith ZArith.
From Verif Require Import Res Cudd Benchmark.
Import ListNotations.
Open Scope string_scope.
Open Scope nat_scope.

(** the subgraph a node is declared in: [rank = source], [rank = same] of a variable, terminals *)
Inductive rank := Source | Level (i : nat) | Bottom.
Inductive style := Solid | Dashed | Invisible.
Inductive stmt :=
| SNode (id label : string) (r : rank)
| SEdge (from to : string) (s : style).

(** lines 13-42 *)
Fixpoint resize_push (levels : list (list bdd)) (level : nat) (x : bdd) : list (list bdd) :=
  match level, levels with
  | O, [] => [[x]]
  | O, l :: levels' => (l ++ [x])%list :: levels'
  | S level', [] => [] :: resize_push [] level' x
  | S level', l :: levels' => l :: resize_push levels' level' x
  end.
Fixpoint collect_nodes_rec (x : node) (c : bool) (st : list bdd * list (list bdd)) {struct x} : list bdd * list (list bdd) :=
  let '(visited, level_nodes) := st in
  if existsb (bdd_eqb (c, x)) visited then st
  else
    match x with
    | One => ((c, x) :: visited, level_nodes)
    | Nd v t ce e =>
        let st := ((c, x) :: visited, resize_push level_nodes v (c, x)) in
        collect_nodes_rec e (xorb ce c) (collect_nodes_rec t c st)
    end.
Definition collect_nodes (bdds : list bdd) : list bdd * list (list bdd) :=
  fold_left (fun st b => collect_nodes_rec (snd b) (fst b) st) bdds ([], []).

(** lines 60-68; the digit is printed as a number *)
Definition digit_value (c : ascii) : N := (N_of_ascii c - 48)%N.
Fixpoint subscript_of (s : string) : string :=
  match s with
  | EmptyString => EmptyString
  | String c s' => "&#832" ++ to_string (digit_value c) ++ ";" ++ subscript_of s'
  end.
Definition subscript (n : nat) : string := subscript_of (to_string (N.of_nat n)).

(** lines 73-98 *)
Definition function_name (i : nat) : string := "<<I>f" ++ subscript i ++ "</I>>".
Definition all_function_names (count : nat) (function_names : list string) : list string :=
  match function_names with
  | [] => if 1 <? count then map function_name (seq 0 count) else if count =? 1 then ["f"] else []
  | _ => map (fun name => "<" ++ name ++ ">") function_names
  end.
(** lines 107-122 *)
Definition variable_name (i : nat) : string := "<I>x" ++ subscript (i + 1) ++ "</I>".
Definition all_variable_names (levels : nat) (variable_names : list string) : list string :=
  match variable_names with
  | [] => map variable_name (seq 0 levels)
  | _ => variable_names
  end.

Definition then_child (x : bdd) : bdd := match snd x with One => x | Nd _ t _ _ => (fst x, t) end.
Definition else_child (x : bdd) : bdd := match snd x with One => x | Nd _ _ ce e => (xorb ce (fst x), e) end.

Section Dump.
Variable addr : bdd -> string.

(** a path [n1 -> n2 -> ...] of invisible edges *)
Fixpoint path (names : list string) : list stmt :=
  match names with
  | x :: (y :: _) as rest => SEdge x y Invisible :: path rest
  | _ => []
  end.
(** lines 207-212 *)
Fixpoint links (names : list string) (bdds : list bdd) (i : nat) : res (list stmt) :=
  match names with
  | [] => Ok []
  | name :: names' =>
      b <- vget bdds i ;;
      rest <- links names' bdds (S i) ;;
      Ok (SEdge name (addr b) Solid :: rest)
  end.
(** lines 250-274 *)
Fixpoint level_statements (levels : list (list bdd)) (variable_names : list string) (i : nat) : res (list stmt) :=
  match levels with
  | [] => Ok []
  | nodes :: levels' =>
      here <- (match nodes with
               | [] => Ok []
               | _ => name <- vget variable_names i ;; Ok (map (fun x => SNode (addr x) name (Level i)) nodes)
               end) ;;
      rest <- level_statements levels' variable_names (S i) ;;
      Ok (here ++ rest)%list
  end.

(** lines 44-343 *)
Definition dump_dot_readable (bdds : list bdd) (function_names variable_names : list string)
    (enforce_function_order : bool) (left_terminal : option bool) : res (list stmt) :=
  _ <- assert_ ((List.length bdds =? List.length function_names) || (List.length function_names =? 0)) ;;
  let function_names_ := all_function_names (List.length bdds) function_names in
  let '(_, level_nodes) := collect_nodes bdds in
  let variable_names_ := all_variable_names (List.length level_nodes) variable_names in
  _ <- assert_ ((List.length variable_names =? 0) || (List.length level_nodes <=? List.length variable_names)) ;;
  let functions := map (fun name => SNode name name Source) function_names_ in
  let order := if enforce_function_order then path function_names_ else [] in
  connections <- links function_names_ bdds 0 ;;
  let chain := path ((match function_names_ with [] => [] | name :: _ => [name] end)
      ++ flat_map (fun nodes => match nodes with [] => [] | x :: _ => [addr x] end) level_nodes
      ++ [addr bone])%list in
  inner <- level_statements level_nodes variable_names_ 0 ;;
  let terminals := [SNode (addr bone) "&#8868;" Bottom; SNode (addr bzero) "&#8869;" Bottom] in
  let terminal_order :=
    match left_terminal with
    | None => []
    | Some true => [SEdge (addr bone) (addr bzero) Invisible]
    | Some false => [SEdge (addr bzero) (addr bone) Invisible]
    end in
  let edges := flat_map (fun nodes => flat_map (fun x =>
      [SEdge (addr x) (addr (then_child x)) Solid; SEdge (addr x) (addr (else_child x)) Dashed]) nodes) level_nodes in
  Ok (functions ++ order ++ connections ++ chain ++ inner ++ terminals ++ terminal_order ++ edges)%list.

(** lines 365-381 *)
Definition dump_dot_readable_single (b : bdd) (function_names variable_names : list string) (left_terminal : option bool)
  : res (list stmt) := dump_dot_readable [b] function_names variable_names false left_terminal.
End Dump.
