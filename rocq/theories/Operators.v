(** Model of /repo/src/approximation_operators/approximation_operators.cpp.

    An edge [(c, n)] stands for the [DdNode*] [n], complemented if [c]. [round_map] is threaded
    through the calls. The reference counts ([Cudd_Ref], [Cudd_RecursiveDeref], lines
    180-193, 236-249, 355-368) are in RefCount.v. A null result of [Cudd_bddIte] (out of memory) is in OutOfMemory.v. *)
From Coq Require Import List Bool Arith ZArith QArith.
From Verif Require Import Res Cudd Helpers Counting.
Import ListNotations.
Open Scope nat_scope.

(** [x > y] on doubles *)
Definition qgtb (x y : Q) : bool := negb (Qle_bool x y).

Section Operators.
Variable M : mgr.

(** lines 105-198 remove_children_rec *)
Fixpoint remove_children_rec (n : node) (c : bool) (level_start level_end : nat) (minterm_count : bmap Q)
         (round_map : bmap bdd) (remove_heavy subset : bool) : res (bdd * bmap bdd) :=
  match n with
  | One => Ok ((c, n), round_map)
  | Nd varId t d e =>
      match blookup (c, n) round_map with
      | Some r => Ok (r, round_map)
      | None =>
          let replacement := if subset then bnot bone else bone in
          if varId <? level_start then
            '(then_branch, m1) <- remove_children_rec t c level_start level_end minterm_count round_map remove_heavy subset ;;
            '(else_branch, m2) <- remove_children_rec e (xorb c d) level_start level_end minterm_count m1 remove_heavy subset ;;
            let neW := ite M (bvar varId) then_branch else_branch in
            Ok (neW, ((c, n), neW) :: m2)
          else if varId <=? level_end then
            then_minterm_count <- bmap_at minterm_count (c, t) ;;
            else_minterm_count <- bmap_at minterm_count (xorb c d, e) ;;
            let then_is_heavy := qgtb then_minterm_count else_minterm_count in
            if Bool.eqb remove_heavy then_is_heavy then
              '(else_branch, m1) <- remove_children_rec e (xorb c d) level_start level_end minterm_count round_map remove_heavy subset ;;
              let neW := ite M (bvar varId) replacement else_branch in
              Ok (neW, ((c, n), neW) :: m1)
            else
              '(then_branch, m1) <- remove_children_rec t c level_start level_end minterm_count round_map remove_heavy subset ;;
              let neW := ite M (bvar varId) then_branch replacement in
              Ok (neW, ((c, n), neW) :: m1)
          else Ok ((c, n), round_map)
      end
  end.

(** lines 200-262 round_rec. [count->second] is read without a check, dereferencing the end
    iterator is undefined. *)
Fixpoint round_rec (n : node) (c : bool) (level_start : nat) (minterm_count : bmap Q) (round_map : bmap bdd)
  : res (bdd * bmap bdd) :=
  match n with
  | One => Ok ((c, n), round_map)
  | Nd varId t d e =>
      match blookup (c, n) round_map with
      | Some r => Ok (r, round_map)
      | None =>
          if varId <? level_start then
            '(then_branch, m1) <- round_rec t c level_start minterm_count round_map ;;
            '(else_branch, m2) <- round_rec e (xorb c d) level_start minterm_count m1 ;;
            let neW := ite M (bvar varId) then_branch else_branch in
            Ok (neW, ((c, n), neW) :: m2)
          else
            match blookup (c, n) minterm_count with
            | None => UB
            | Some count =>
                let replace := if qgtb count (1#2) then bone else bnot bone in
                Ok (replace, ((c, n), replace) :: round_map)
            end
      end
  end.

(** lines 264-373 round_best_rec *)
Fixpoint round_best_rec (n : node) (c : bool) (level_start level_end : nat) (minterm_count : bmap Q)
         (round_map : bmap bdd) : res (bdd * bmap bdd) :=
  match n with
  | One => Ok ((c, n), round_map)
  | Nd varId t d e =>
      match blookup (c, n) round_map with
      | Some r => Ok (r, round_map)
      | None =>
          let finish then_branch else_branch m :=
            let neW := ite M (bvar varId) then_branch else_branch in
            Ok (neW, ((c, n), neW) :: m) in
          if varId <? level_start then
            '(then_branch, m1) <- round_best_rec t c level_start level_end minterm_count round_map ;;
            '(else_branch, m2) <- round_best_rec e (xorb c d) level_start level_end minterm_count m1 ;;
            finish then_branch else_branch m2
          else if varId <=? level_end then
            tc <- bmap_at minterm_count (c, t) ;;
            ec <- bmap_at minterm_count (xorb c d, e) ;;
            if qgtb ec tc && qgtb (1 - ec) tc then
              '(else_branch, m1) <- round_best_rec e (xorb c d) level_start level_end minterm_count round_map ;;
              finish (bnot bone) else_branch m1
            else if qgtb tc ec && qgtb (1 - tc) ec then
              '(then_branch, m1) <- round_best_rec t c level_start level_end minterm_count round_map ;;
              finish then_branch (bnot bone) m1
            else if qgtb tc ec && qgtb tc (1 - ec) then
              '(else_branch, m1) <- round_best_rec e (xorb c d) level_start level_end minterm_count round_map ;;
              finish bone else_branch m1
            else if qgtb ec tc && qgtb ec (1 - tc) then
              '(then_branch, m1) <- round_best_rec t c level_start level_end minterm_count round_map ;;
              finish then_branch bone m1
            else
              finish (if qgtb tc (1#2) then bone else bnot bone)
                     (if qgtb ec (1#2) then bone else bnot bone) round_map
          else Ok ((c, n), round_map)
      end
  end.

(** lines 375-388 round_any *)
Definition round_any (f : bdd) (level_start level_end : nat) (remove_heavy subset : bool) : res bdd :=
  '(node, _) <- remove_children_rec (snd f) (fst f) level_start level_end (count_minterms f) [] remove_heavy subset ;;
  Ok node.

(** lines 36-62 *)
Definition subset_light_child (f : bdd) (level_start level_end : nat) : res bdd :=
  round_any f level_start level_end false true.
Definition superset_heavy_child (f : bdd) (level_start level_end : nat) : res bdd :=
  round_any f level_start level_end true false.
Definition superset_light_child (f : bdd) (level_start level_end : nat) : res bdd :=
  round_any f level_start level_end false false.
Definition subset_heavy_child (f : bdd) (level_start level_end : nat) : res bdd :=
  round_any f level_start level_end true true.

(** lines 64-70 round_bdd *)
Definition round_bdd (f : bdd) (level : nat) : res bdd :=
  '(node, _) <- round_rec (snd f) (fst f) level (count_minterms f) [] ;;
  Ok node.

(** lines 72-81 round_best *)
Definition round_best (f : bdd) (level_start level_end : nat) : res bdd :=
  '(node, _) <- round_best_rec (snd f) (fst f) level_start level_end (count_minterms f) [] ;;
  Ok node.

(** lines 83-92 round_up *)
Definition round_up (f : bdd) (level_start level_end : nat) : res bdd :=
  '(node, _) <- remove_children_rec (snd f) (fst f) level_start level_end (count_solutions f) [] false false ;;
  Ok node.

(** lines 94-103 round_down *)
Definition round_down (f : bdd) (level_start level_end : nat) : res bdd :=
  '(node, _) <- remove_children_rec (snd f) (fst f) level_start level_end (count_solutions f) [] false true ;;
  Ok node.
End Operators.
