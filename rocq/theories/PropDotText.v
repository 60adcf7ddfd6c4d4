(** Property C113: the text of the dot output (src/util/dump_dot.cpp). *)
From Coq Require Import Ascii String List Bool Arith.
From Verif Require Import Res Cudd Benchmark DumpDot SpecDot SpecDotText DotText DumpDotFacts DotTextFacts3 DotTextFacts4.
Import ListNotations.
Open Scope string_scope.
Open Scope nat_scope.

(** C113: a reader of the dot language finds in the text the nodes with their labels and ranks and the edges with
    their styles, in the order of the statements of C64 and nothing else *)
Theorem C113_dot_text : forall (conf : dot_config) (addr : bdd -> string) (bdds : list bdd) (function_names variable_names : list string)
    (order : bool) (left_terminal : option bool), readable_config conf -> (forall x, quotable (addr x)) ->
  Forall (fun name => no_quote name /\ balanced name) function_names -> Forall balanced variable_names ->
  match dump_dot_readable addr bdds function_names variable_names order left_terminal with
  | Ok G => exists text, dump_dot_text conf addr bdds function_names variable_names order left_terminal = Ok text
      /\ read_dot text = Some (map seen G)
  | UB => dump_dot_text conf addr bdds function_names variable_names order left_terminal = UB
  | Throw => dump_dot_text conf addr bdds function_names variable_names order left_terminal = Throw
  | Abort => dump_dot_text conf addr bdds function_names variable_names order left_terminal = Abort
  end.
Proof. exact text_full. Qed.
Print Assumptions C113_dot_text.
(** every name is shown, linked to one node only, and following the labels and edges from there evaluates its function *)
Theorem C113_picture : forall (conf : dot_config) (addr : bdd -> string) (bdds : list bdd) (function_names variable_names : list string)
    (order : bool) (left_terminal : option bool), prints_pointers addr -> readable_config conf -> (forall x, quotable (addr x)) ->
  Forall (fun name => no_quote name /\ balanced name) function_names -> Forall balanced variable_names ->
  distinct_labels variable_names -> fits bdds function_names variable_names ->
  exists text G, dump_dot_text conf addr bdds function_names variable_names order left_terminal = Ok text /\ read_dot text = Some G
    /\ (forall k name f, nth_error (all_function_names (List.length bdds) function_names) k = Some name -> nth_error bdds k = Some f ->
          In (INode name (inner_text name) (Some "source")) G /\ In (IEdge name (addr f) Solid) G
          /\ (NoDup (all_function_names (List.length bdds) function_names) ->
               forall id s, In (IEdge name id s) G -> s <> Invisible -> id = addr f)
          /\ forall a b, picture_value G (shown_label variable_names) a (addr f) b <-> ev f a = b).
Proof. exact text_picture. Qed.
Print Assumptions C113_picture.
(** names are not escaped: a quote in a name leaves a text that is not in the language *)
Theorem C113_quote_unreadable : exists (function_names : list string) (G : list stmt) (text : string),
  fits [bvar 0] function_names [] /\ dump_dot_readable print_pointer [bvar 0] function_names [] true None = Ok G
  /\ dump_dot_text default_config print_pointer [bvar 0] function_names [] true None = Ok text /\ read_dot text = None.
Proof. exact quote_breaks. Qed.
Print Assumptions C113_quote_unreadable.
(** sum and carry of a half adder *)
Example C113_case : let M := id_mgr 2 in let bdds := [bxor M (bvar 0) (bvar 1); band M (bvar 0) (bvar 1)] in
  prints_pointers print_pointer /\ readable_config default_config /\ (forall x, quotable (print_pointer x))
  /\ Forall (fun name => no_quote name /\ balanced name) ["sum"; "<I>carry</I>"] /\ Forall balanced ["a"; "b"]
  /\ distinct_labels ["a"; "b"] /\ fits bdds ["sum"; "<I>carry</I>"] ["a"; "b"]
  /\ match dump_dot_text default_config print_pointer bdds ["sum"; "<I>carry</I>"] ["a"; "b"] true (Some true) with
     | Ok text => match read_dot text with
         | Some G => List.length G = 23 /\ existsb (fun i => match i with INode "<<I>carry</I>>" "<I>carry</I>" (Some "source") => true | _ => false end) G = true
         | None => False
         end
     | _ => False
     end.
Proof.
  cbn zeta. split; [exact print_pointer_ok|]. split; [repeat constructor|]. split; [exact print_pointer_quotable|].
  split; [repeat constructor|]. split; [repeat constructor|].
  split; [right; split; [repeat constructor; cbn; intuition discriminate|split; cbn; intuition discriminate]|].
  split; [split; [right; reflexivity|right]|vm_compute; auto].
  intros f y i [<-|[<-|[]]] R T; vm_compute in R;
    repeat match goal with H : reach _ _ |- _ => inversion H; clear H; subst end; cbn in T; try discriminate; injection T as <-; cbn; repeat constructor.
Qed.
