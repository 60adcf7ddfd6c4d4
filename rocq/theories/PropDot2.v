(** Property C64 for the overload that takes one function (src/util/dump_dot.cpp:365-381). *)
From Coq Require Import Ascii String List Bool Arith.
From Verif Require Import Res Cudd Benchmark DumpDot SpecDot DumpDotFacts DumpDotFacts2 DumpDotFacts3.
Import ListNotations.
Open Scope string_scope.
Open Scope nat_scope.

(** C64: one name, linked to the function; following the edges evaluates it *)
Theorem C64_single : forall (addr : bdd -> string) (b : bdd) (function_names variable_names : list string) (left_terminal : option bool),
  prints_pointers addr ->
  let dump := dump_dot_readable_single addr b function_names variable_names left_terminal in
  (fits [b] function_names variable_names -> exists G name, dump = Ok G
    /\ name_nodes G = [name] /\ [name] = all_function_names 1 function_names
    /\ In (SEdge name (addr b) Solid) G /\ (forall id s, In (SEdge name id s) G -> s <> Invisible -> id = addr b)
    /\ (forall a v, graph_value G a (addr b) v <-> ev b a = v)
    /\ NoDup (diagram_nodes G) /\ (forall id, In id (diagram_nodes G) <-> exists x, id = addr x /\ (x = bone \/ x = bzero \/ reach b x))
    /\ (In (SEdge (addr bone) (addr bzero) Invisible) G <-> left_terminal = Some true)
    /\ (In (SEdge (addr bzero) (addr bone) Invisible) G <-> left_terminal = Some false))
  /\ (~ fits [b] function_names variable_names -> dump = Abort).
Proof. exact dump_single. Qed.
Print Assumptions C64_single.
Example C64_single_case : let M := id_mgr 2 in let f := bxor M (bvar 0) (bvar 1) in
  fits [f] ["g"] [] /\ match dump_dot_readable_single print_pointer f ["g"] [] (Some true) with
     | Ok G => name_nodes G = ["<g>"] /\ List.length (diagram_nodes G) = 5
     | _ => False
     end
  /\ dump_dot_readable_single print_pointer f ["a"; "b"] [] None = Abort.
Proof. split; [split; [now right|now left]|]. vm_compute. auto. Qed.
