(** Model of the text that /repo/src/util/dump_dot.cpp writes. [addr] is the text printed for a pointer;
    the numbers of the configuration are given as printed. The statements in the text are those of
    DumpDot.v; here they are written out together with the attributes and comments. *)
From Coq Require Import Ascii String List Bool Arith NArith.
From Verif Require Import Res Cudd Benchmark DumpDot.
Import ListNotations.
Open Scope string_scope.
Open Scope nat_scope.

(** dump_dot.hpp 11-31 *)
Record dot_config := {
  node_shape : string; node_width : string;
  terminal_shape : string; terminal_width : string;
  function_name_shape : string; function_name_width : string;
  node_seperation : string; rank_seperation : string }.
Definition default_config : dot_config :=
  {| node_shape := "circle"; node_width := "0.35"; terminal_shape := "square"; terminal_width := "0.35";
     function_name_shape := "none"; function_name_width := "0.2"; node_seperation := "0.2"; rank_seperation := "0.25" |}.

Definition endl : string := String "010" "".
Definition tab : string := String "009" "".
Definition quote : string := String "034" "".
Definition quoted (s : string) : string := quote ++ s ++ quote.
(** dump_dot.cpp 124-128 *)
Fixpoint indent (indentation : nat) : string := match indentation with O => "" | S n => tab ++ indent n end.
(** an indented line *)
Definition line (indentation : nat) (s : string) : string := indent indentation ++ s ++ endl.
Definition lines (l : list string) : string := String.concat "" l.

Section Text.
Variable conf : dot_config.
Variable addr : bdd -> string.

(** dump_dot.cpp 130-145 *)
Definition header : string :=
  "digraph " ++ quoted "DD" ++ "{" ++ endl
  ++ line 1 "center = true;"
  ++ line 1 "edge [dir = non];"
  ++ line 1 ("nodesep = " ++ quoted (node_seperation conf) ++ ";")
  ++ line 1 ("ranksep = " ++ quoted (rank_seperation conf) ++ ";")
  ++ line 1 "margin=0;".

(** dump_dot.cpp 183-187: the separator follows all names but the last *)
Fixpoint arrows (names : list string) : string :=
  match names with
  | [] => ""
  | [x] => quoted x
  | x :: rest => quoted x ++ " -> " ++ arrows rest
  end.
(** dump_dot.cpp 152-194 *)
Definition function_block (names : list string) (enforce_function_order : bool) : string :=
  endl ++ line 1 "# create function name nodes"
  ++ line 1 "{"
  ++ line 2 "rank = source;"
  ++ line 2 ("node [shape = " ++ function_name_shape conf ++ ", fixedsize = true, width = " ++ function_name_width conf ++ "];")
  ++ line 2 "edge [style = invis];"
  ++ lines (map (fun name => line 2 (quoted name ++ " [label = " ++ name ++ "];")) names)
  ++ (if enforce_function_order && (1 <? List.length names)
      then endl ++ line 2 "# Arrange function name nodes in correct order" ++ line 2 (arrows names)
      else "")
  ++ line 1 "}".

(** dump_dot.cpp 207-212 *)
Fixpoint link_lines (names : list string) (bdds : list bdd) (i : nat) : res string :=
  match names with
  | [] => Ok ""
  | name :: names' =>
      b <- vget bdds i ;;
      rest <- link_lines names' bdds (S i) ;;
      Ok (line 2 (quoted name ++ ":s -> " ++ quoted (addr b) ++ ":n [arrowhead = none, weight = 10];") ++ rest)
  end.
(** dump_dot.cpp 200-215 *)
Definition link_block (names : list string) (bdds : list bdd) : res string :=
  body <- link_lines names bdds 0 ;;
  Ok (endl ++ line 1 "# link function name nodes to the BDDs" ++ line 1 "{" ++ body ++ line 1 "}").

(** dump_dot.cpp 221-244 *)
Definition chain_block (names : list string) (level_nodes : list (list bdd)) : string :=
  line 1 "{"
  ++ line 2 "edge [style = invis];"
  ++ (match names with [] => "" | name :: _ => indent 2 ++ quoted name ++ " -> " end)
  ++ indent 2
  ++ lines (map (fun nodes => match nodes with [] => "" | x :: _ => quoted (addr x) ++ " -> " end) level_nodes)
  ++ quoted (addr bone) ++ ";" ++ endl
  ++ line 1 "}".

(** dump_dot.cpp 250-274 *)
Fixpoint level_blocks (levels : list (list bdd)) (variable_names : list string) (i : nat) : res string :=
  match levels with
  | [] => Ok ""
  | nodes :: levels' =>
      here <- (match nodes with
               | [] => Ok ""
               | _ =>
                   name <- vget variable_names i ;;
                   Ok (endl ++ line 1 ("# create nodes for level " ++ to_string (N.of_nat i))
                       ++ line 1 "{"
                       ++ line 2 "rank = same;"
                       ++ lines (map (fun x => line 2 (quoted (addr x) ++ " [label = <" ++ name ++ ">, shape = " ++ node_shape conf
                                                        ++ ", fixedsize=true, width=" ++ node_width conf ++ "];")) nodes)
                       ++ line 1 "}")
               end) ;;
      rest <- level_blocks levels' variable_names (S i) ;;
      Ok (here ++ rest)
  end.

(** dump_dot.cpp 280-312 *)
Definition terminal_block (left_terminal : option bool) : string :=
  endl ++ line 1 "# create terminal nodes"
  ++ line 1 "{"
  ++ line 2 ("rankdir=" ++ quoted "LR" ++ "; rank = same;")
  ++ line 2 (quoted (addr bone) ++ " [label = <&#8868;>, shape = " ++ terminal_shape conf
             ++ ", width=" ++ terminal_width conf ++ ", fixedsize=true;]")
  ++ line 2 (quoted (addr bzero) ++ " [label = <&#8869;>, shape = " ++ terminal_shape conf
             ++ ", width=" ++ terminal_width conf ++ ", fixedsize=true];")
  ++ (match left_terminal with
      | None => ""
      | Some left_one =>
          endl ++ line 2 "# Arrange terminal nodes in correct order"
          ++ line 2 "edge [style = invis];"
          ++ line 2 (quoted (addr (if left_one then bone else bzero)) ++ " -> " ++ quoted (addr (if left_one then bzero else bone)) ++ ";")
      end)
  ++ line 1 "}".

(** dump_dot.cpp 318-342 *)
Definition edge_lines (level_nodes : list (list bdd)) : string :=
  endl ++ line 1 "# create inter-node high-/low-child connections"
  ++ lines (map (fun nodes => lines (map (fun x =>
       line 1 (quoted (addr x) ++ " -> " ++ quoted (addr (then_child x)) ++ " [arrowhead = none];")
       ++ line 1 (quoted (addr x) ++ " -> " ++ quoted (addr (else_child x)) ++ " [arrowhead = none, style = dashed];")) nodes)) level_nodes)
  ++ "}" ++ endl.

(** dump_dot.cpp 44-343 *)
Definition dump_dot_text (bdds : list bdd) (function_names variable_names : list string)
    (enforce_function_order : bool) (left_terminal : option bool) : res string :=
  _ <- assert_ ((List.length bdds =? List.length function_names) || (List.length function_names =? 0)) ;;
  let function_names_ := all_function_names (List.length bdds) function_names in
  let '(_, level_nodes) := collect_nodes bdds in
  let variable_names_ := all_variable_names (List.length level_nodes) variable_names in
  _ <- assert_ ((List.length variable_names =? 0) || (List.length level_nodes <=? List.length variable_names)) ;;
  connections <- link_block function_names_ bdds ;;
  inner <- level_blocks level_nodes variable_names_ 0 ;;
  Ok (header ++ function_block function_names_ enforce_function_order ++ connections
      ++ chain_block function_names_ level_nodes ++ inner ++ terminal_block left_terminal ++ edge_lines level_nodes).
End Text.
