(** Specification: the text that /repo/experiments/testing.cpp and /repo/experiments/misc/improved_sampling.cpp print *)
From Coq Require Import Ascii String List Bool Arith ZArith QArith.
From Verif Require Import Cudd CuddFacts Spec SpecBenchmark SpecPrinting.
Import ListNotations.
Open Scope string_scope.

(** lines with tabs in front *)
Definition tabulator : string := String "009" "".
Definition in0 (s : string) : string := s.
Definition in1 (s : string) : string := tabulator ++ s.
Definition in2 (s : string) : string := tabulator ++ tabulator ++ s.
Fixpoint text_of (lines : list string) : string :=
  match lines with [] => "" | l :: lines' => l ++ String newline (text_of lines') end.

(** the graph of the rounded example: [r0] is x0 -> x1 or not x2, [r1] is x0 or (x1 -> x2), [u] is x1 or not x2, [w] is x1 -> x2, [x] is x2;
    all of them are the texts of pointers *)
Definition rounded_dot (one zero x not_x u w r0 r1 : string) : string := text_of [
    in0 "digraph ""DD""{";
    in1 "center = true;";
    in1 "edge [dir = non];";
    in1 "nodesep = ""0.2"";";
    in1 "ranksep = ""0.25"";";
    in1 "margin=0;";
    "";
    in1 "# create function name nodes";
    in1 "{";
    in2 "rank = source;";
    in2 "node [shape = none, fixedsize = true, width = 0.2];";
    in2 "edge [style = invis];";
    in2 """<<I>f&#8320;</I>>"" [label = <<I>f&#8320;</I>>];";
    in2 """<<I>f&#8321;</I>>"" [label = <<I>f&#8321;</I>>];";
    "";
    in2 "# Arrange function name nodes in correct order";
    in2 """<<I>f&#8320;</I>>"" -> ""<<I>f&#8321;</I>>""";
    in1 "}";
    "";
    in1 "# link function name nodes to the BDDs";
    in1 "{";
    in2 ("""<<I>f&#8320;</I>>"":s -> """ ++ r0 ++ """:n [arrowhead = none, weight = 10];");
    in2 ("""<<I>f&#8321;</I>>"":s -> """ ++ r1 ++ """:n [arrowhead = none, weight = 10];");
    in1 "}";
    in1 "{";
    in2 "edge [style = invis];";
    in2 ("""<<I>f&#8320;</I>>"" -> " ++ tabulator ++ tabulator ++ """" ++ r0 ++ """ -> """ ++ u ++ """ -> """ ++ not_x ++ """ -> """ ++ one ++ """;");
    in1 "}";
    "";
    in1 "# create nodes for level 0";
    in1 "{";
    in2 "rank = same;";
    in2 ("""" ++ r0 ++ """ [label = <<I>x&#8321;</I>>, shape = circle, fixedsize=true, width=0.35];");
    in2 ("""" ++ r1 ++ """ [label = <<I>x&#8321;</I>>, shape = circle, fixedsize=true, width=0.35];");
    in1 "}";
    "";
    in1 "# create nodes for level 1";
    in1 "{";
    in2 "rank = same;";
    in2 ("""" ++ u ++ """ [label = <<I>x&#8322;</I>>, shape = circle, fixedsize=true, width=0.35];");
    in2 ("""" ++ w ++ """ [label = <<I>x&#8322;</I>>, shape = circle, fixedsize=true, width=0.35];");
    in1 "}";
    "";
    in1 "# create nodes for level 2";
    in1 "{";
    in2 "rank = same;";
    in2 ("""" ++ not_x ++ """ [label = <<I>x&#8323;</I>>, shape = circle, fixedsize=true, width=0.35];");
    in2 ("""" ++ x ++ """ [label = <<I>x&#8323;</I>>, shape = circle, fixedsize=true, width=0.35];");
    in1 "}";
    "";
    in1 "# create terminal nodes";
    in1 "{";
    in2 "rankdir=""LR""; rank = same;";
    in2 ("""" ++ one ++ """ [label = <&#8868;>, shape = square, width=0.35, fixedsize=true;]");
    in2 ("""" ++ zero ++ """ [label = <&#8869;>, shape = square, width=0.35, fixedsize=true];");
    in1 "}";
    "";
    in1 "# create inter-node high-/low-child connections";
    in1 ("""" ++ r0 ++ """ -> """ ++ u ++ """ [arrowhead = none];");
    in1 ("""" ++ r0 ++ """ -> """ ++ one ++ """ [arrowhead = none, style = dashed];");
    in1 ("""" ++ r1 ++ """ -> """ ++ one ++ """ [arrowhead = none];");
    in1 ("""" ++ r1 ++ """ -> """ ++ w ++ """ [arrowhead = none, style = dashed];");
    in1 ("""" ++ u ++ """ -> """ ++ one ++ """ [arrowhead = none];");
    in1 ("""" ++ u ++ """ -> """ ++ not_x ++ """ [arrowhead = none, style = dashed];");
    in1 ("""" ++ w ++ """ -> """ ++ x ++ """ [arrowhead = none];");
    in1 ("""" ++ w ++ """ -> """ ++ one ++ """ [arrowhead = none, style = dashed];");
    in1 ("""" ++ not_x ++ """ -> """ ++ zero ++ """ [arrowhead = none];");
    in1 ("""" ++ not_x ++ """ -> """ ++ one ++ """ [arrowhead = none, style = dashed];");
    in1 ("""" ++ x ++ """ -> """ ++ one ++ """ [arrowhead = none];");
    in1 ("""" ++ x ++ """ -> """ ++ zero ++ """ [arrowhead = none, style = dashed];");
    in0 "}"].
(** the graph of the example itself: [same] is x1 = x2, [nand] is not (x1 and x2), [both] is x1 and x2,
    [f0] is x0 ? same : nand, [f1] is x0 ? nand : both *)
Definition running_dot (one zero x not_x same nand both f0 f1 : string) : string := text_of [
    in0 "digraph ""DD""{";
    in1 "center = true;";
    in1 "edge [dir = non];";
    in1 "nodesep = ""0.2"";";
    in1 "ranksep = ""0.25"";";
    in1 "margin=0;";
    "";
    in1 "# create function name nodes";
    in1 "{";
    in2 "rank = source;";
    in2 "node [shape = none, fixedsize = true, width = 0.2];";
    in2 "edge [style = invis];";
    in2 """<<I>f&#8320;</I>>"" [label = <<I>f&#8320;</I>>];";
    in2 """<<I>f&#8321;</I>>"" [label = <<I>f&#8321;</I>>];";
    "";
    in2 "# Arrange function name nodes in correct order";
    in2 """<<I>f&#8320;</I>>"" -> ""<<I>f&#8321;</I>>""";
    in1 "}";
    "";
    in1 "# link function name nodes to the BDDs";
    in1 "{";
    in2 ("""<<I>f&#8320;</I>>"":s -> """ ++ f0 ++ """:n [arrowhead = none, weight = 10];");
    in2 ("""<<I>f&#8321;</I>>"":s -> """ ++ f1 ++ """:n [arrowhead = none, weight = 10];");
    in1 "}";
    in1 "{";
    in2 "edge [style = invis];";
    in2 ("""<<I>f&#8320;</I>>"" -> " ++ tabulator ++ tabulator ++ """" ++ f0 ++ """ -> """ ++ same ++ """ -> """ ++ x ++ """ -> """ ++ one ++ """;");
    in1 "}";
    "";
    in1 "# create nodes for level 0";
    in1 "{";
    in2 "rank = same;";
    in2 ("""" ++ f0 ++ """ [label = <<I>x&#8321;</I>>, shape = circle, fixedsize=true, width=0.35];");
    in2 ("""" ++ f1 ++ """ [label = <<I>x&#8321;</I>>, shape = circle, fixedsize=true, width=0.35];");
    in1 "}";
    "";
    in1 "# create nodes for level 1";
    in1 "{";
    in2 "rank = same;";
    in2 ("""" ++ same ++ """ [label = <<I>x&#8322;</I>>, shape = circle, fixedsize=true, width=0.35];");
    in2 ("""" ++ nand ++ """ [label = <<I>x&#8322;</I>>, shape = circle, fixedsize=true, width=0.35];");
    in2 ("""" ++ both ++ """ [label = <<I>x&#8322;</I>>, shape = circle, fixedsize=true, width=0.35];");
    in1 "}";
    "";
    in1 "# create nodes for level 2";
    in1 "{";
    in2 "rank = same;";
    in2 ("""" ++ x ++ """ [label = <<I>x&#8323;</I>>, shape = circle, fixedsize=true, width=0.35];");
    in2 ("""" ++ not_x ++ """ [label = <<I>x&#8323;</I>>, shape = circle, fixedsize=true, width=0.35];");
    in1 "}";
    "";
    in1 "# create terminal nodes";
    in1 "{";
    in2 "rankdir=""LR""; rank = same;";
    in2 ("""" ++ one ++ """ [label = <&#8868;>, shape = square, width=0.35, fixedsize=true;]");
    in2 ("""" ++ zero ++ """ [label = <&#8869;>, shape = square, width=0.35, fixedsize=true];");
    in1 "}";
    "";
    in1 "# create inter-node high-/low-child connections";
    in1 ("""" ++ f0 ++ """ -> """ ++ same ++ """ [arrowhead = none];");
    in1 ("""" ++ f0 ++ """ -> """ ++ nand ++ """ [arrowhead = none, style = dashed];");
    in1 ("""" ++ f1 ++ """ -> """ ++ nand ++ """ [arrowhead = none];");
    in1 ("""" ++ f1 ++ """ -> """ ++ both ++ """ [arrowhead = none, style = dashed];");
    in1 ("""" ++ same ++ """ -> """ ++ x ++ """ [arrowhead = none];");
    in1 ("""" ++ same ++ """ -> """ ++ not_x ++ """ [arrowhead = none, style = dashed];");
    in1 ("""" ++ nand ++ """ -> """ ++ not_x ++ """ [arrowhead = none];");
    in1 ("""" ++ nand ++ """ -> """ ++ one ++ """ [arrowhead = none, style = dashed];");
    in1 ("""" ++ both ++ """ -> """ ++ x ++ """ [arrowhead = none];");
    in1 ("""" ++ both ++ """ -> """ ++ zero ++ """ [arrowhead = none, style = dashed];");
    in1 ("""" ++ x ++ """ -> """ ++ one ++ """ [arrowhead = none];");
    in1 ("""" ++ x ++ """ -> """ ++ zero ++ """ [arrowhead = none, style = dashed];");
    in1 ("""" ++ not_x ++ """ -> """ ++ zero ++ """ [arrowhead = none];");
    in1 ("""" ++ not_x ++ """ -> """ ++ one ++ """ [arrowhead = none, style = dashed];");
    in0 "}"].

(** ** improved_sampling.cpp *)
(** the share of wrong inputs among the first [samples] ones drawn from [draws] *)
Definition drawn_share (draws : nat -> Z) (n : nat) (f g : list bdd) (samples : nat) : Q :=
  (inject_Z (Z.of_nat (List.length (filter (fun k => differ f g (sample draws n k)) (seq 0 samples)))) / inject_Z (Z.of_nat samples))%Q.
(** row [k]: the number of samples, the plain estimate, and an estimate between the largest loss of an output and the sum of the losses *)
Definition estimates_row (draws : nat -> nat -> Z) (n : nat) (f g : list bdd) (k : nat) (cells : list string) : Prop :=
  exists a b c y, cells = [a; b; c] /\ decimal a (Z.of_nat (100 * (k + 1))) /\ shows b (drawn_share (draws (2 * k)%nat) n f g (100 * (k + 1))%nat) /\ shows c y
    /\ (y <= 1)%Q /\ (forall i, i < List.length f -> (density n (nth i f bzero) - density n (nth i g bzero) <= y)%Q)%nat
    /\ (y <= sumQ (map (density n) f) - sumQ (map (density n) g))%Q.
