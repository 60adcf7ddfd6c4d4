(** Reading a dot graph as a decision diagram. *)
From Coq Require Import Ascii String List Bool Arith.
From Verif Require Import Cudd DumpDot.
Import ListNotations.
Open Scope string_scope.
Open Scope nat_scope.

(** the variable of an inner node *)
Definition top (x : bdd) : option nat := match snd x with One => None | Nd v _ _ _ => Some v end.
(** functions reachable from a function by taking cofactors; complement edges are resolved *)
Inductive reach : bdd -> bdd -> Prop :=
| reach_refl x : reach x x
| reach_then c v t ce e y : reach (c, t) y -> reach (c, Nd v t ce e) y
| reach_else c v t ce e y : reach (xorb ce c, e) y -> reach (c, Nd v t ce e) y.

(** the value of a node of the graph: the label tells the terminals, the rank the variable; the solid
    edge is for the value true of the variable, the dashed one for false *)
Inductive graph_value (G : list stmt) (a : asg) : string -> bool -> Prop :=
| value_top id : In (SNode id "&#8868;" Bottom) G -> graph_value G a id true
| value_bottom id : In (SNode id "&#8869;" Bottom) G -> graph_value G a id false
| value_inner id label i id' b : In (SNode id label (Level i)) G ->
    In (SEdge id id' (if a i then Solid else Dashed)) G -> graph_value G a id' b -> graph_value G a id b.

(** the nodes that stand for functions, in the order of the text *)
Definition diagram_nodes (G : list stmt) : list string :=
  flat_map (fun st => match st with SNode id _ Source => [] | SNode id _ _ => [id] | SEdge _ _ _ => [] end) G.
(** the names of the functions *)
Definition name_nodes (G : list stmt) : list string :=
  flat_map (fun st => match st with SNode id _ Source => [id] | _ => [] end) G.

(** pointers are printed in hexadecimal, different ones differently *)
Definition prints_pointers (addr : bdd -> string) : Prop :=
  (forall x y, addr x = addr y -> x = y) /\ (forall x, exists s, addr x = "0x" ++ s).

(** names for all functions or none, and for all variables or none *)
Definition fits (bdds : list bdd) (function_names variable_names : list string) : Prop :=
  (function_names = [] \/ List.length function_names = List.length bdds)
  /\ (variable_names = [] \/ forall f y i, In f bdds -> reach f y -> top y = Some i -> i < List.length variable_names).
(** the text of a node for a variable *)
Definition label_of (variable_names : list string) (i : nat) : string :=
  match variable_names with [] => variable_name i | _ => nth i variable_names ""%string end.
