(** Model of /repo/src/approximation_operators/approximation_operators.cpp if CUDD may run out of memory: [Cudd_bddIte] then returns
    a null pointer (lines 185-189, 241-245, 360-364). [fails k]: the call number [k] of [Cudd_bddIte] in the operator returns null.
    A pointer is an [option bdd]. Reference counts are left to [RefCount]; here only the access through a null pointer matters. *)
From Coq Require Import List Bool Arith ZArith QArith.
From Verif Require Import Res Cudd Helpers Counting Operators.
Import ListNotations.
Open Scope nat_scope.

Section OutOfMemory.
Variable M : mgr.
Variable fails : nat -> bool.

Definition pointer := option bdd.

(** lines 180-195, the same in 236-251 and 355-370: [Cudd_Ref] of the branches reads the counter of the node, also if the pointer is
    null. [k] calls were made before *)
Definition rebuild_oom (varId : nat) (then_branch else_branch : pointer) (k : nat) : res (pointer * nat) :=
  match then_branch, else_branch with
  | Some t, Some e => Ok (if fails k then None else Some (ite M (bvar varId) t e), S k)
  | _, _ => UB
  end.

(** lines 105-198 remove_children_rec *)
Fixpoint remove_children_oom (n : node) (c : bool) (level_start level_end : nat) (minterm_count : bmap Q)
         (round_map : bmap pointer) (remove_heavy subset : bool) (k : nat) : res (pointer * bmap pointer * nat) :=
  match n with
  | One => Ok (Some (c, n), round_map, k)
  | Nd varId t d e =>
      match blookup (c, n) round_map with
      | Some r => Ok (r, round_map, k)
      | None =>
          let replacement := if subset then bnot bone else bone in
          if varId <? level_start then
            '(then_branch, m1, k) <- remove_children_oom t c level_start level_end minterm_count round_map remove_heavy subset k ;;
            '(else_branch, m2, k) <- remove_children_oom e (xorb c d) level_start level_end minterm_count m1 remove_heavy subset k ;;
            '(neW, k) <- rebuild_oom varId then_branch else_branch k ;;
            Ok (neW, ((c, n), neW) :: m2, k)
          else if varId <=? level_end then
            then_minterm_count <- bmap_at minterm_count (c, t) ;;
            else_minterm_count <- bmap_at minterm_count (xorb c d, e) ;;
            let then_is_heavy := qgtb then_minterm_count else_minterm_count in
            if Bool.eqb remove_heavy then_is_heavy then
              '(else_branch, m1, k) <- remove_children_oom e (xorb c d) level_start level_end minterm_count round_map remove_heavy subset k ;;
              '(neW, k) <- rebuild_oom varId (Some replacement) else_branch k ;;
              Ok (neW, ((c, n), neW) :: m1, k)
            else
              '(then_branch, m1, k) <- remove_children_oom t c level_start level_end minterm_count round_map remove_heavy subset k ;;
              '(neW, k) <- rebuild_oom varId then_branch (Some replacement) k ;;
              Ok (neW, ((c, n), neW) :: m1, k)
          else Ok (Some (c, n), round_map, k)
      end
  end.

(** lines 200-262 round_rec *)
Fixpoint round_oom (n : node) (c : bool) (level_start : nat) (minterm_count : bmap Q) (round_map : bmap pointer) (k : nat)
  : res (pointer * bmap pointer * nat) :=
  match n with
  | One => Ok (Some (c, n), round_map, k)
  | Nd varId t d e =>
      match blookup (c, n) round_map with
      | Some r => Ok (r, round_map, k)
      | None =>
          if varId <? level_start then
            '(then_branch, m1, k) <- round_oom t c level_start minterm_count round_map k ;;
            '(else_branch, m2, k) <- round_oom e (xorb c d) level_start minterm_count m1 k ;;
            '(neW, k) <- rebuild_oom varId then_branch else_branch k ;;
            Ok (neW, ((c, n), neW) :: m2, k)
          else
            match blookup (c, n) minterm_count with
            | None => UB
            | Some count =>
                let replace := if qgtb count (1#2) then bone else bnot bone in
                Ok (Some replace, ((c, n), Some replace) :: round_map, k)
            end
      end
  end.

(** lines 264-373 round_best_rec *)
Fixpoint round_best_oom (n : node) (c : bool) (level_start level_end : nat) (minterm_count : bmap Q)
         (round_map : bmap pointer) (k : nat) : res (pointer * bmap pointer * nat) :=
  match n with
  | One => Ok (Some (c, n), round_map, k)
  | Nd varId t d e =>
      match blookup (c, n) round_map with
      | Some r => Ok (r, round_map, k)
      | None =>
          let finish then_branch else_branch m k :=
            '(neW, k) <- rebuild_oom varId then_branch else_branch k ;;
            Ok (neW, ((c, n), neW) :: m, k) in
          if varId <? level_start then
            '(then_branch, m1, k) <- round_best_oom t c level_start level_end minterm_count round_map k ;;
            '(else_branch, m2, k) <- round_best_oom e (xorb c d) level_start level_end minterm_count m1 k ;;
            finish then_branch else_branch m2 k
          else if varId <=? level_end then
            tc <- bmap_at minterm_count (c, t) ;;
            ec <- bmap_at minterm_count (xorb c d, e) ;;
            if qgtb ec tc && qgtb (1 - ec) tc then
              '(else_branch, m1, k) <- round_best_oom e (xorb c d) level_start level_end minterm_count round_map k ;;
              finish (Some (bnot bone)) else_branch m1 k
            else if qgtb tc ec && qgtb (1 - tc) ec then
              '(then_branch, m1, k) <- round_best_oom t c level_start level_end minterm_count round_map k ;;
              finish then_branch (Some (bnot bone)) m1 k
            else if qgtb tc ec && qgtb tc (1 - ec) then
              '(else_branch, m1, k) <- round_best_oom e (xorb c d) level_start level_end minterm_count round_map k ;;
              finish (Some bone) else_branch m1 k
            else if qgtb ec tc && qgtb ec (1 - tc) then
              '(then_branch, m1, k) <- round_best_oom t c level_start level_end minterm_count round_map k ;;
              finish then_branch (Some bone) m1 k
            else
              finish (Some (if qgtb tc (1#2) then bone else bnot bone))
                     (Some (if qgtb ec (1#2) then bone else bnot bone)) round_map k
          else Ok (Some (c, n), round_map, k)
      end
  end.

(** lines 64-103 and 375-388; the constructor of BDD accepts a null pointer *)
Definition first_of {A B C} (r : res (A * B * C)) : res A := '(x, _, _) <- r ;; Ok x.
Definition round_any_oom (f : bdd) (level_start level_end : nat) (remove_heavy subset : bool) : res pointer :=
  first_of (remove_children_oom (snd f) (fst f) level_start level_end (count_minterms f) [] remove_heavy subset 0).
Definition round_bdd_oom (f : bdd) (level : nat) : res pointer :=
  first_of (round_oom (snd f) (fst f) level (count_minterms f) [] 0).
Definition round_best_op_oom (f : bdd) (level_start level_end : nat) : res pointer :=
  first_of (round_best_oom (snd f) (fst f) level_start level_end (count_minterms f) [] 0).
Definition round_down_up_oom (f : bdd) (level_start level_end : nat) (subset : bool) : res pointer :=
  first_of (remove_children_oom (snd f) (fst f) level_start level_end (count_solutions f) [] false subset 0).

(** all operators, in the order of [SpecOperators.the_operators] *)
Definition operators_oom (ls le : nat) : list (bdd -> res pointer) :=
  [fun f => round_any_oom f ls le false true; fun f => round_any_oom f ls le true true;
   fun f => round_any_oom f ls le false false; fun f => round_any_oom f ls le true false;
   fun f => round_down_up_oom f ls le true; fun f => round_down_up_oom f ls le false;
   fun f => round_bdd_oom f ls; fun f => round_best_op_oom f ls le].
End OutOfMemory.
