(** The text of testing.cpp *)
From Coq Require Import Ascii String List Bool Arith ZArith QArith.
From Verif Require Import Res Cudd CuddFacts Helpers Operators FromPapers Experiments DotText ProgramText SpecPrograms.
Import ListNotations.
Open Scope string_scope.

(** ** Equality of concatenations with pointers *)
Inductive tree := Lit (s : string) | Ptr (b : bdd) | App (x y : tree).
Section Tree.
Variable addr : bdd -> string.
Fixpoint meaning (t : tree) : string := match t with Lit s => s | Ptr b => addr b | App x y => meaning x ++ meaning y end.
Fixpoint chars (s : string) : list (ascii + bdd) := match s with EmptyString => [] | String c s' => inl c :: chars s' end.
Fixpoint flat (t : tree) : list (ascii + bdd) := match t with Lit s => chars s | Ptr b => [inr b] | App x y => (flat x ++ flat y)%list end.
Fixpoint shown (l : list (ascii + bdd)) : string :=
  match l with [] => "" | inl c :: l' => String c (shown l') | inr b :: l' => addr b ++ shown l' end.
Lemma shown_app x y : shown (x ++ y) = shown x ++ shown y.
Proof.
  induction x as [|[c|b] x IH]; cbn [app shown]; [reflexivity| |]; rewrite IH; [reflexivity|].
  induction (addr b) as [|c s IHs]; cbn [String.append]; [reflexivity|]. now rewrite IHs.
Qed.
Lemma shown_chars s : shown (chars s) = s.
Proof. induction s as [|c s IH]; cbn [chars shown]; congruence. Qed.
Lemma shown_flat t : meaning t = shown (flat t).
Proof.
  induction t as [s|b|x IHx y IHy]; cbn [meaning flat].
  - now rewrite shown_chars.
  - cbn [shown]. induction (addr b) as [|c s IH]; cbn [String.append]; congruence.
  - now rewrite shown_app, IHx, IHy.
Qed.
Lemma same_text x y : flat x = flat y -> meaning x = meaning y.
Proof. intro H. now rewrite !shown_flat, H. Qed.
End Tree.
Ltac reify addr s :=
  lazymatch s with
  | String.append ?a ?b => let x := reify addr a in let y := reify addr b in constr:(App x y)
  | String ?c (String.append ?a ?b) => let x := reify addr (String.append a b) in constr:(App (Lit (String c "")) x)
  | String ?c (String ?d ?a) => lazymatch a with context[addr _] => let x := reify addr (String d a) in constr:(App (Lit (String c "")) x) | _ => constr:(Lit s) end
  | addr ?b => constr:(Ptr b)
  | _ => constr:(Lit s)
  end.
Ltac compare_texts addr :=
  lazymatch goal with |- Ok ?s = Ok ?t =>
    let x := reify addr s in let y := reify addr t in
    change (Ok (meaning addr x) = Ok (meaning addr y)); f_equal; apply same_text; vm_compute; reflexivity
  end.

Lemma rounded_value : let M := id_mgr 3 in
  testing_rounded M = Ok [bor M (bnot (bvar 0)) (bor M (bvar 1) (bnot (bvar 2))); bor M (bvar 0) (bor M (bnot (bvar 1)) (bvar 2))].
Proof. vm_compute. reflexivity. Qed.
Lemma running_value : let M := id_mgr 3 in let both := band M (bvar 1) (bvar 2) in
  running_example M = [ite M (bvar 0) (bnot (bxor M (bvar 1) (bvar 2))) (bnot both); ite M (bvar 0) (bnot both) both].
Proof. vm_compute. reflexivity. Qed.

Lemma testing_output (opens : string -> bool) (addr : bdd -> string) :
  let M := id_mgr 3 in let x0 := bvar 0 in let x1 := bvar 1 in let x2 := bvar 2 in
  let u := bor M x1 (bnot x2) in let w := bor M (bnot x1) x2 in
  let same := bnot (bxor M x1 x2) in let both := band M x1 x2 in let nand := bnot both in
  let rounded := rounded_dot (addr bone) (addr bzero) (addr x2) (addr (bnot x2)) (addr u) (addr w) (addr (bor M (bnot x0) u)) (addr (bor M x0 w)) in
  let running := running_dot (addr bone) (addr bzero) (addr x2) (addr (bnot x2)) (addr same) (addr nand) (addr both)
    (addr (ite M x0 same nand)) (addr (ite M x0 nand both)) in
  testing opens addr = Ok (rounded ++ running, filter (fun p => opens (fst p)) [("rounded.dot", rounded); ("running.dot", running)]).
Proof.
  intros M x0 x1 x2 u w same both nand rounded running.
  assert (A : dump_dot_text default_config addr [bor M (bnot x0) u; bor M x0 w] [] [] true None = Ok rounded).
  { unfold rounded, u, w, x0, x1, x2, M. cbv -[String.append]. compare_texts addr. }
  assert (B : dump_dot_text default_config addr [ite M x0 same nand; ite M x0 nand both] [] [] true None = Ok running).
  { unfold running, same, nand, both, x0, x1, x2, M. cbv -[String.append]. compare_texts addr. }
  clearbody rounded running.
  unfold testing. cbv zeta. rewrite rounded_value, running_value. cbn [bind]. unfold dump_dot_to_file.
  fold M. fold x0 x1 x2. fold u w both. fold same nand. rewrite A, B. cbn [filter fst].
  destruct (opens "rounded.dot"), (opens "running.dot"); reflexivity.
Qed.
