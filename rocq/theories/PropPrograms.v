(** Property C173: the output of the programs experiments/testing.cpp and experiments/misc/improved_sampling.cpp *)
From Coq Require Import Ascii String List Bool Arith ZArith QArith Lia.
From Verif Require Import Res Cudd CuddFacts Spec SpecFacts SpecBenchmark SpecPrinting SpecPrograms Helpers HelpersFacts Counting Operators RelMetrics RelFacts3 RelFacts6 FromPapers Metrics MinimizeMains SpecMains ProgramText ProgramFacts ProgramFacts2.
Import ListNotations.
Open Scope nat_scope.
Open Scope string_scope.

(** C173: testing prints the rounded graph and the original one, and writes them to those of the two files that can be opened *)
Theorem C173_testing : forall (opens : string -> bool) (addr : bdd -> string),
  let M := id_mgr 3 in let x0 := bvar 0 in let x1 := bvar 1 in let x2 := bvar 2 in
  let u := bor M x1 (bnot x2) in let w := bor M (bnot x1) x2 in
  let same := bnot (bxor M x1 x2) in let both := band M x1 x2 in let nand := bnot both in
  let rounded := rounded_dot (addr bone) (addr bzero) (addr x2) (addr (bnot x2)) (addr u) (addr w) (addr (bor M (bnot x0) u)) (addr (bor M x0 w)) in
  let running := running_dot (addr bone) (addr bzero) (addr x2) (addr (bnot x2)) (addr same) (addr nand) (addr both)
    (addr (ite M x0 same nand)) (addr (ite M x0 nand both)) in
  testing opens addr = Ok (rounded ++ running, filter (fun p => opens (fst p)) [("rounded.dot", rounded); ("running.dot", running)]).
Proof. exact testing_output. Qed.
Print Assumptions C173_testing.
(** improved_sampling prints the number of outputs, the error rate and 200 rows of estimates if there is one output or the rounding
    changes at least two of them; otherwise it is undefined *)
Theorem C173_improved_sampling : forall (M : mgr) (sort : list (nat * Q) -> list (nat * Q)) (rand_max : Z) (draws : nat -> nat -> Z)
    (first last : nat) (f : list bdd),
  sorts_down sort -> Forall (wf M) f ->
  let n := read_size M in below n f -> 1 <= n -> (forall k i, 0 <= draws k i)%Z ->
  exists g, mapM (fun b => subset_light_child M b first last) f = Ok g
  /\ Forall2 (fun x y => forall a, ev y a = true -> ev x a = true) f g
  /\ let two_wrong := exists i j, i < List.length f /\ j < List.length f /\ i <> j
       /\ (exists a, wrong f g i a = true) /\ (exists a, wrong f g j a = true) in
     (List.length f = 1 \/ two_wrong -> exists text size s body, improved_sampling_text M sort rand_max draws first last f = Ok text
        /\ table ";" text = Some (["Read file: " ++ size ++ " outputs"] :: ["Approximated the function"] :: ["error rate: " ++ s] :: body)
        /\ decimal size (Z.of_nat (List.length f)) /\ shows s (average n (fun a => b2q (uval g a <? uval f a)%Z))
        /\ List.length body = 200 /\ forall k, k < 200 -> exists cells, nth_error body k = Some cells /\ estimates_row draws n f g k cells)
     /\ (List.length f <> 1 -> ~ two_wrong -> improved_sampling_text M sort rand_max draws first last f = UB).
Proof. exact improved_text. Qed.
Print Assumptions C173_improved_sampling.
(** the functions are those of the file c880.aig; without the file there is an exception *)
Theorem C173_file : forall (files : aiger_files) (M : mgr) (sort : list (nat * Q) -> list (nat * Q)) (rand_max : Z) (draws : nat -> nat -> Z) (first last : nat),
  (files "./iscas85/c880.aig" = None -> improved_sampling_main files M sort rand_max draws first last = Throw)
  /\ (forall i o evs, holds_complete files "./iscas85/c880.aig" i o evs ->
        exists f, improved_sampling_main files M sort rand_max draws first last = improved_sampling_text M sort rand_max draws first last f
          /\ Forall (wf M) f /\ circuit o evs f /\ below (N.to_nat i) f).
Proof. exact improved_main. Qed.
Print Assumptions C173_file.
Example C173_case :
  let M := id_mgr 4 in let f := example1a M in
  sorts_down sort_down /\ Forall (wf M) f /\ below 4 f /\ List.length f = 3
  /\ (exists g, mapM (fun b => subset_light_child M b 1 5) f = Ok g
        /\ exists i j, i < 3 /\ j < 3 /\ i <> j /\ (exists a, wrong f g i a = true) /\ (exists a, wrong f g j a = true))
  /\ improved_sampling_row M sort_down 100 (fun i => Z.of_nat (i / 5)) (fun i => Z.of_nat (37 * i mod 101)) f (repeat bzero 3) 8 = Ok ("8;0.75;0.875" ++ String newline "")
  /\ (* nothing changes *) improved_sampling_text M sort_down 100 (fun _ => Z.of_nat) 5 5 f = UB.
Proof.
  cbv zeta. split; [exact sort_down_ok|]. split; [unfold example1a; auto 20 with wf|].
  split; [|split; [reflexivity|]].
  { apply Forall_forall. intros b Hb. apply vars_depends_below. intros i Hi. unfold example1a in Hb.
    destruct Hb as [<-|[<-|[<-|[]]]]; vm_compute in Hi; repeat destruct Hi as [<-|Hi]; try lia; contradiction. }
  split; [|split; vm_compute; reflexivity]. eexists. split; [vm_compute; reflexivity|]. exists 1, 2. repeat split; try lia.
  - exists (asg_of [true; true; true; true]). vm_compute. reflexivity.
  - exists (asg_of [true; true; false; true]). vm_compute. reflexivity.
Qed.
