(** The overload of dump_dot_readable for one function *)
From Coq Require Import Ascii String List Bool Arith Lia.
From Verif Require Import Res Cudd Benchmark DumpDot SpecDot DumpDotFacts DumpDotFacts2.
Import ListNotations.
Open Scope string_scope.
Open Scope nat_scope.

Lemma dump_single addr b function_names variable_names left_terminal : prints_pointers addr ->
  let dump := dump_dot_readable_single addr b function_names variable_names left_terminal in
  (fits [b] function_names variable_names -> exists G name, dump = Ok G
    /\ name_nodes G = [name] /\ [name] = all_function_names 1 function_names
    /\ In (SEdge name (addr b) Solid) G /\ (forall id s, In (SEdge name id s) G -> s <> Invisible -> id = addr b)
    /\ (forall a v, graph_value G a (addr b) v <-> ev b a = v)
    /\ NoDup (diagram_nodes G) /\ (forall id, In id (diagram_nodes G) <-> exists x, id = addr x /\ (x = bone \/ x = bzero \/ reach b x))
    /\ (In (SEdge (addr bone) (addr bzero) Invisible) G <-> left_terminal = Some true)
    /\ (In (SEdge (addr bzero) (addr bone) Invisible) G <-> left_terminal = Some false))
  /\ (~ fits [b] function_names variable_names -> dump = Abort).
Proof.
  intro HA. cbv zeta. destruct (dump_full addr [b] function_names variable_names false left_terminal HA) as [D1 D2]. cbv zeta in D1, D2.
  split; [|exact D2]. intro F. destruct (D1 F) as (G & E & N1 & N2 & N3 & N4 & _ & N6 & N7). clear D1 D2.
  change (List.length [b]) with 1 in *. destruct (all_function_names 1 function_names) as [|name [|x l]] eqn:AN; try discriminate N2.
  assert (SH : forall x, (exists f, In f [b] /\ reach f x) <-> reach b x).
  { intro x. split; [intros (f & [<-|[]] & H); auto|]. intro H. exists b. split; [now left|auto]. }
  destruct (N6 0 name b eq_refl eq_refl) as [K1 K2].
  destruct (dump_order_full addr HA [b] function_names variable_names false left_terminal G E) as (O1 & O2 & _).
  exists G, name. split; [exact E|]. split; [exact N1|]. split; [reflexivity|]. split; [exact K1|].
  split; [apply K2; constructor; [intros []|constructor]|]. split; [intros a v; apply N7; apply SH; apply reach_refl|]. split; [exact N3|].
  split; [|split; auto]. intro id. rewrite N4. split; intros (x & X1 & X2); exists x; split; auto; destruct X2 as [X|[X|X]]; auto; right; right; now apply SH.
Qed.
