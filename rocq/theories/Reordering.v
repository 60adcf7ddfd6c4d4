(** Model of /repo/src/approximation_operators/approximation_operators.cpp if the variables may be reordered during the calls of
    [Cudd_bddIte] (dynamic reordering, see the comments in nsga2_minimize_epfl.cpp 27 and nsga2_minimize_iscas.cpp 24).

    A node keeps its function when the variables are reordered, as long as it is referenced, but its variable and its children may
    change, and nodes that are no longer needed are collected. A pointer to a regular node is named by the node with the same function
    in the initial order [M]. In every order the regular nodes are those whose function is true if all variables are true, so a name
    stands for a regular node in every order. [reorder k] is the order after call number [k] of [Cudd_bddIte]. Not modelled: the reuse
    of the address of a collected node. *)
From Coq Require Import List Bool Arith ZArith QArith.
From Verif Require Import Res Cudd Helpers Counting Operators RefCount.
Import ListNotations.
Open Scope nat_scope.

(** the BDD of the same function in the order of [N] (external: the result of reordering is the BDD of the new order) *)
Fixpoint in_order (N : mgr) (n : node) : bdd :=
  match n with
  | One => bone
  | Nd v t c e => ite N (bvar v) (in_order N t) (if c then bnot (in_order N e) else in_order N e)
  end.
Definition node_in (N : mgr) (n : node) : node := snd (in_order N n).

Record state := St { counts : heap; now : mgr; calls : nat }.

Section Reordering.
Variable M : mgr.
Variable reorder : nat -> mgr.

(** as [RefCount.alive], in the present order *)
Definition alive_now (N : mgr) (h : heap) (n : node) : bool :=
  match n with
  | One | Nd _ One true One => true
  | _ => existsb (fun m => existsb (node_eqb (node_in N n)) (subnodes (node_in N m))) (refs h ++ fresh h)
  end.
Definition c_Ref_now (f : bdd) (s : state) : res state :=
  if alive_now (now s) (counts s) (snd f) then Ok (St (Heap (snd f :: refs (counts s)) (fresh (counts s))) (now s) (calls s)) else UB.
Definition c_RecursiveDeref_now (f : bdd) (s : state) : res state :=
  h <- c_RecursiveDeref f (counts s) ;; Ok (St h (now s) (calls s)).
Definition c_bddIte_now (f g k : bdd) (s : state) : res (bdd * state) :=
  let used := Heap (refs (counts s)) [] in
  if alive_now (now s) used (snd f) && alive_now (now s) used (snd g) && alive_now (now s) used (snd k) then
    let r := ite M f g k in Ok (r, St (Heap (refs (counts s)) [snd r]) (reorder (calls s)) (S (calls s)))
  else UB.

(** lines 180-193, the same in 236-249 and 355-368 *)
Definition rebuild_now (varId : nat) (then_branch else_branch : bdd) (s : state) : res (bdd * state) :=
  s <- c_Ref_now then_branch s ;;
  s <- c_Ref_now else_branch s ;;
  let topv := bvar varId in
  s <- c_Ref_now topv s ;;
  '(neW, s) <- c_bddIte_now topv then_branch else_branch s ;;
  s <- c_Ref_now neW s ;;
  s <- c_RecursiveDeref_now topv s ;;
  s <- c_RecursiveDeref_now then_branch s ;;
  s <- c_RecursiveDeref_now else_branch s ;;
  Ok (neW, s).

(** lines 105-198 remove_children_rec. The children are read once, before the recursive calls (lines 126-131). The recursion ends as
    the children depend on fewer variables; without [fuel] the outcome is [Abort], which is none of the code *)
Fixpoint remove_children_now (fuel : nat) (n : node) (c : bool) (level_start level_end : nat) (minterm_count : bmap Q)
         (round_map : bmap bdd) (remove_heavy subset : bool) (s : state) : res (bdd * bmap bdd * state) :=
  match fuel with
  | O => Abort
  | S fuel' =>
      _ <- require_ (alive_now (now s) (counts s) n) ;;
      match node_in (now s) n with
      | One => Ok ((c, n), round_map, s)
      | Nd varId Nv d Nnv =>
          let t := node_in M Nv in
          let e := node_in M Nnv in
          match blookup (c, n) round_map with
          | Some r => Ok (r, round_map, s)
          | None =>
              let replacement := if subset then bnot bone else bone in
              if varId <? level_start then
                '(then_branch, m1, s) <- remove_children_now fuel' t c level_start level_end minterm_count round_map remove_heavy subset s ;;
                '(else_branch, m2, s) <- remove_children_now fuel' e (xorb c d) level_start level_end minterm_count m1 remove_heavy subset s ;;
                '(neW, s) <- rebuild_now varId then_branch else_branch s ;;
                Ok (neW, ((c, n), neW) :: m2, s)
              else if varId <=? level_end then
                then_minterm_count <- bmap_at minterm_count (c, t) ;;
                else_minterm_count <- bmap_at minterm_count (xorb c d, e) ;;
                let then_is_heavy := qgtb then_minterm_count else_minterm_count in
                if Bool.eqb remove_heavy then_is_heavy then
                  '(else_branch, m1, s) <- remove_children_now fuel' e (xorb c d) level_start level_end minterm_count round_map remove_heavy subset s ;;
                  '(neW, s) <- rebuild_now varId replacement else_branch s ;;
                  Ok (neW, ((c, n), neW) :: m1, s)
                else
                  '(then_branch, m1, s) <- remove_children_now fuel' t c level_start level_end minterm_count round_map remove_heavy subset s ;;
                  '(neW, s) <- rebuild_now varId then_branch replacement s ;;
                  Ok (neW, ((c, n), neW) :: m1, s)
              else Ok ((c, n), round_map, s)
          end
      end
  end.

(** lines 200-262 round_rec *)
Fixpoint round_now (fuel : nat) (n : node) (c : bool) (level_start : nat) (minterm_count : bmap Q) (round_map : bmap bdd) (s : state)
  : res (bdd * bmap bdd * state) :=
  match fuel with
  | O => Abort
  | S fuel' =>
      _ <- require_ (alive_now (now s) (counts s) n) ;;
      match node_in (now s) n with
      | One => Ok ((c, n), round_map, s)
      | Nd varId Nv d Nnv =>
          let t := node_in M Nv in
          let e := node_in M Nnv in
          match blookup (c, n) round_map with
          | Some r => Ok (r, round_map, s)
          | None =>
              if varId <? level_start then
                '(then_branch, m1, s) <- round_now fuel' t c level_start minterm_count round_map s ;;
                '(else_branch, m2, s) <- round_now fuel' e (xorb c d) level_start minterm_count m1 s ;;
                '(neW, s) <- rebuild_now varId then_branch else_branch s ;;
                Ok (neW, ((c, n), neW) :: m2, s)
              else
                match blookup (c, n) minterm_count with
                | None => UB
                | Some count =>
                    let replace := if qgtb count (1#2) then bone else bnot bone in
                    Ok (replace, ((c, n), replace) :: round_map, s)
                end
          end
      end
  end.

(** lines 264-373 round_best_rec *)
Fixpoint round_best_now (fuel : nat) (n : node) (c : bool) (level_start level_end : nat) (minterm_count : bmap Q)
         (round_map : bmap bdd) (s : state) : res (bdd * bmap bdd * state) :=
  match fuel with
  | O => Abort
  | S fuel' =>
      _ <- require_ (alive_now (now s) (counts s) n) ;;
      match node_in (now s) n with
      | One => Ok ((c, n), round_map, s)
      | Nd varId Nv d Nnv =>
          let t := node_in M Nv in
          let e := node_in M Nnv in
          match blookup (c, n) round_map with
          | Some r => Ok (r, round_map, s)
          | None =>
              let finish then_branch else_branch m s :=
                '(neW, s) <- rebuild_now varId then_branch else_branch s ;;
                Ok (neW, ((c, n), neW) :: m, s) in
              if varId <? level_start then
                '(then_branch, m1, s) <- round_best_now fuel' t c level_start level_end minterm_count round_map s ;;
                '(else_branch, m2, s) <- round_best_now fuel' e (xorb c d) level_start level_end minterm_count m1 s ;;
                finish then_branch else_branch m2 s
              else if varId <=? level_end then
                tc <- bmap_at minterm_count (c, t) ;;
                ec <- bmap_at minterm_count (xorb c d, e) ;;
                if qgtb ec tc && qgtb (1 - ec) tc then
                  '(else_branch, m1, s) <- round_best_now fuel' e (xorb c d) level_start level_end minterm_count round_map s ;;
                  finish (bnot bone) else_branch m1 s
                else if qgtb tc ec && qgtb (1 - tc) ec then
                  '(then_branch, m1, s) <- round_best_now fuel' t c level_start level_end minterm_count round_map s ;;
                  finish then_branch (bnot bone) m1 s
                else if qgtb tc ec && qgtb tc (1 - ec) then
                  '(else_branch, m1, s) <- round_best_now fuel' e (xorb c d) level_start level_end minterm_count round_map s ;;
                  finish bone else_branch m1 s
                else if qgtb ec tc && qgtb ec (1 - tc) then
                  '(then_branch, m1, s) <- round_best_now fuel' t c level_start level_end minterm_count round_map s ;;
                  finish then_branch bone m1 s
                else
                  finish (if qgtb tc (1#2) then bone else bnot bone)
                         (if qgtb ec (1#2) then bone else bnot bone) round_map s
              else Ok ((c, n), round_map, s)
          end
      end
  end.

Definition new_BDD_now (f : bdd) (s : state) : res (bdd * state) := s <- c_Ref_now f s ;; Ok (f, s).

(** lines 375-388 round_any *)
Definition round_any_now (fuel : nat) (f : bdd) (level_start level_end : nat) (remove_heavy subset : bool) (s : state) : res (bdd * state) :=
  '(node, _, s) <- remove_children_now fuel (snd f) (fst f) level_start level_end (count_minterms f) [] remove_heavy subset s ;;
  new_BDD_now node s.
(** lines 64-70 round_bdd *)
Definition round_bdd_now (fuel : nat) (f : bdd) (level : nat) (s : state) : res (bdd * state) :=
  '(node, _, s) <- round_now fuel (snd f) (fst f) level (count_minterms f) [] s ;;
  new_BDD_now node s.
(** lines 72-81 round_best *)
Definition round_best_op_now (fuel : nat) (f : bdd) (level_start level_end : nat) (s : state) : res (bdd * state) :=
  '(node, _, s) <- round_best_now fuel (snd f) (fst f) level_start level_end (count_minterms f) [] s ;;
  new_BDD_now node s.
(** lines 83-92 round_up (no subset), 94-103 round_down (subset) *)
Definition round_down_up_now (fuel : nat) (f : bdd) (level_start level_end : nat) (subset : bool) (s : state) : res (bdd * state) :=
  '(node, _, s) <- remove_children_now fuel (snd f) (fst f) level_start level_end (count_solutions f) [] false subset s ;;
  new_BDD_now node s.

(** all operators, in the order of [SpecOperators.the_operators] *)
Definition operators_now (fuel ls le : nat) : list (bdd -> state -> res (bdd * state)) :=
  [fun f => round_any_now fuel f ls le false true; fun f => round_any_now fuel f ls le true true;
   fun f => round_any_now fuel f ls le false false; fun f => round_any_now fuel f ls le true false;
   fun f => round_down_up_now fuel f ls le true; fun f => round_down_up_now fuel f ls le false;
   fun f => round_bdd_now fuel f ls; fun f => round_best_op_now fuel f ls le].
End Reordering.
