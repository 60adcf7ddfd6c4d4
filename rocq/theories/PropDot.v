(** Property C64: the dot output (src/util/dump_dot.cpp). *)
From Coq Require Import Ascii String List Bool Arith.
From Verif Require Import Res Cudd Benchmark DumpDot SpecDot DumpDotFacts DumpDotFacts2.
Import ListNotations.
Open Scope string_scope.
Open Scope nat_scope.

(** C64: the graph has one node per function reachable from the outputs (and the terminals), in the rank and
    with the name of its variable; every name is linked to its output; following the edges evaluates every node *)
Theorem C64_dump_dot : forall (addr : bdd -> string) (bdds : list bdd) (function_names variable_names : list string)
    (order : bool) (left_terminal : option bool), prints_pointers addr ->
  let names := all_function_names (List.length bdds) function_names in
  let dump := dump_dot_readable addr bdds function_names variable_names order left_terminal in
  let shown x := exists f, In f bdds /\ reach f x in
  (fits bdds function_names variable_names -> exists G, dump = Ok G
    /\ name_nodes G = names /\ List.length names = List.length bdds
    /\ NoDup (diagram_nodes G)
    /\ (forall id, In id (diagram_nodes G) <-> exists x, id = addr x /\ (x = bone \/ x = bzero \/ shown x))
    /\ (forall id label i, In (SNode id label (Level i)) G <->
          exists x, shown x /\ top x = Some i /\ id = addr x /\ label = label_of variable_names i)
    /\ (forall k name f, nth_error names k = Some name -> nth_error bdds k = Some f ->
          In (SEdge name (addr f) Solid) G
          /\ (NoDup names -> forall id s, In (SEdge name id s) G -> s <> Invisible -> id = addr f))
    /\ (forall x a b, shown x -> (graph_value G a (addr x) b <-> ev x a = b)))
  /\ (~ fits bdds function_names variable_names -> dump = Abort).
Proof. exact dump_full. Qed.
Print Assumptions C64_dump_dot.
(** the invisible edges put the terminals into the requested order, and the names into the order of the outputs *)
Theorem C64_order : forall (addr : bdd -> string), prints_pointers addr ->
  forall (bdds : list bdd) (function_names variable_names : list string) (order : bool) (left_terminal : option bool) (G : list stmt),
  dump_dot_readable addr bdds function_names variable_names order left_terminal = Ok G ->
  let names := all_function_names (List.length bdds) function_names in
  (In (SEdge (addr bone) (addr bzero) Invisible) G <-> left_terminal = Some true)
  /\ (In (SEdge (addr bzero) (addr bone) Invisible) G <-> left_terminal = Some false)
  /\ (forall x y, In x names -> In y names ->
       (In (SEdge x y Invisible) G <-> order = true /\ exists k, nth_error names k = Some x /\ nth_error names (S k) = Some y)).
Proof. exact dump_order_full. Qed.
Print Assumptions C64_order.
Example C64_order_case : match dump_dot_readable print_pointer [bvar 0; bvar 1] ["a"; "b"] [] true (Some false) with
  | Ok G => existsb (fun st => match st with SEdge "<a>" "<b>" Invisible => true | _ => false end) G = true
      /\ existsb (fun st => match st with SEdge "<b>" "<a>" Invisible => true | _ => false end) G = false
  | _ => False
  end.
Proof. vm_compute. auto. Qed.
(** the default names are different, and different given names stay different *)
Theorem C64_default_names : forall count, NoDup (all_function_names count []).
Proof. exact default_names_nodup. Qed.
Print Assumptions C64_default_names.
Theorem C64_given_names : forall count x l, NoDup (x :: l) -> NoDup (all_function_names count (x :: l)).
Proof. exact given_names_nodup. Qed.
Print Assumptions C64_given_names.
(** x0 xor x1 and its complement: both share their nodes *)
Example C64_case : let M := id_mgr 2 in let f := bxor M (bvar 0) (bvar 1) in
  prints_pointers print_pointer /\ fits [f; bnot f] [] []
  /\ match dump_dot_readable print_pointer [f; bnot f] [] [] true (Some false) with
     | Ok G => name_nodes G = ["<<I>f&#8320;</I>>"; "<<I>f&#8321;</I>>"] /\ List.length (diagram_nodes G) = 6
         /\ List.length (filter (fun st => match st with SNode _ "<I>x&#8322;</I>" (Level 1) => true | _ => false end) G) = 2
     | _ => False
     end
  /\ dump_dot_readable print_pointer [f] ["a"; "b"] [] true None = Abort
  /\ dump_dot_readable print_pointer [f] ["a"] ["x"] true None = Abort.
Proof.
  cbn zeta. split; [exact print_pointer_ok|]. split; [split; auto|]. vm_compute. repeat split.
Qed.
