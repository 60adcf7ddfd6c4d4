(** Model of the counting and ADD helpers of src/util/cudd_helpers.cpp (lines 74-403).
    Doubles are exact rationals here (simplification: no rounding, no infinities). *)
From Coq Require Import List Bool Arith ZArith QArith Qabs Lia.
From Verif Require Import Res Cudd Helpers.
Import ListNotations.
Open Scope nat_scope.

(** [std::map<DdNode*, T>]: keys are edges (node and complement flag) *)
Definition bmap (T : Type) := list (bdd * T).
Definition blookup {T} (k : bdd) (m : bmap T) : option T :=
  match find (fun p => bdd_eqb (fst p) k) m with Some p => Some (snd p) | None => None end.

(** cudd_helpers.cpp 74-108 count_minterms_rec on the edge [(c, n)]; the map is the one passed
    by reference *)
Fixpoint count_minterms_rec (n : node) (c : bool) (minterms_map : bmap Q) : Q * bmap Q :=
  match blookup (c, n) minterms_map with
  | Some v => (v, minterms_map)
  | None =>
      match n with
      | One =>
          (* Cudd_V is 1; the complemented constant is 0 *)
          let value := if c then 0%Q else 1%Q in
          (value, ((c, n), value) :: minterms_map)
      | Nd _ t c' e =>
          let '(highResult, m1) := count_minterms_rec t c minterms_map in
          let '(lowResult, m2) := count_minterms_rec e (xorb c c') m1 in
          let minTerms := (highResult / 2 + lowResult / 2)%Q in
          (minTerms, ((c, n), minTerms) :: m2)
      end
  end.

(** cudd_helpers.cpp 110-116 count_minterms *)
Definition count_minterms (f : bdd) : bmap Q := snd (count_minterms_rec (snd f) (fst f) []).

(** [Cudd_IsConstant(n) ? terminal_level : Cudd_NodeReadIndex(n)], cudd_helpers.cpp 150-151 *)
Definition node_level (n : node) (terminal_level : nat) : nat :=
  match n with One => terminal_level | Nd v _ _ _ => v end.

(** [std::pow(2.0, a - b - 1)], cudd_helpers.cpp 154-155, with [unsigned long] subtraction: it wraps below zero (levels are
    32-bit, so never above) *)
Definition pow_levels (a b : nat) : Q :=
  let d := (Z.of_nat a - Z.of_nat b - 1)%Z in
  inject_Z (2 ^ (if (d <? 0)%Z then d + 2 ^ 64 else d)).

(** cudd_helpers.cpp 118-159 count_solutions_rec *)
Fixpoint count_solutions_rec (n : node) (c : bool) (solutions_map : bmap Q) (terminal_level : nat)
  : Q * bmap Q :=
  match blookup (c, n) solutions_map with
  | Some v => (v, solutions_map)
  | None =>
      match n with
      | One =>
          let value := if c then 0%Q else 1%Q in
          (value, ((c, n), value) :: solutions_map)
      | Nd own_level t c' e =>
          let '(high_result, m1) := count_solutions_rec t c solutions_map terminal_level in
          let '(low_result, m2) := count_solutions_rec e (xorb c c') m1 terminal_level in
          let solutions :=
            (high_result * pow_levels (node_level t terminal_level) own_level
             + low_result * pow_levels (node_level e terminal_level) own_level)%Q in
          (solutions, ((c, n), solutions) :: m2)
      end
  end.

(** cudd_helpers.cpp 161-167 count_solutions *)
Definition count_solutions (f : bdd) : bmap Q :=
  snd (count_solutions_rec (snd f) (fst f) [] (terminal_level [[f]])).

(** [std::map::at] *)
Definition bmap_at {T} (m : bmap T) (k : bdd) : res T :=
  match blookup k m with Some v => Ok v | None => Throw end.

(** [r <= then_weight / (then_weight + else_weight)], cudd_helpers.cpp 197-198; 0/0 is NaN and compares false *)
Definition le_ratio (r then_weight else_weight : Q) : bool :=
  if Qeq_bool (then_weight + else_weight) 0 then false
  else Qle_bool r (then_weight / (then_weight + else_weight)).

(** loop of random_satisfying_input, lines 177-210. [draws] are the successive results of
    rand() (one per iteration), [rand_max] is RAND_MAX, [n] the number of levels left. *)
Fixpoint rsi_loop (rand_max : Z) (minterm_count : bmap Q) (max_level : nat) (n level : nat)
         (c : bool) (nd : node) (draws : list Z) : res (list Z) :=
  match n, draws with
  | O, _ => Ok []
  | S n', d :: draws' =>
      let nl := node_level nd max_level in
      if level <? nl then
        l <- rsi_loop rand_max minterm_count max_level n' (S level) c nd draws' ;;
        Ok ((d mod 2)%Z :: l)
      else
        match nd with
        | One => Abort
        | Nd _ t c' e =>
            then_weight <- bmap_at minterm_count (c, t) ;;
            else_weight <- bmap_at minterm_count (xorb c c', e) ;;
            if le_ratio (inject_Z d / inject_Z rand_max) then_weight else_weight then
              l <- rsi_loop rand_max minterm_count max_level n' (S level) c t draws' ;;
              Ok (1%Z :: l)
            else
              l <- rsi_loop rand_max minterm_count max_level n' (S level) (xorb c c') e draws' ;;
              Ok (0%Z :: l)
        end
  | S _, [] => Abort (* not reached: the caller supplies a draw per level *)
  end.

(** cudd_helpers.cpp 169-213 random_satisfying_input *)
Definition random_satisfying_input (rand_max : Z) (f : bdd) (minterm_count : bmap Q)
           (max_level : nat) (draws : list Z) : res (list Z) :=
  rsi_loop rand_max minterm_count max_level max_level 0 (fst f) (snd f) draws.

(** cudd_helpers.cpp 215-223 const_ADD_value: conversion of the leaf to unsigned int, undefined
    outside its range *)
Definition const_ADD_value (f : add) : res Z :=
  match f with
  | Leaf q => let z := Z.quot (Qnum q) (Zpos (Qden q)) in
              if (-1 <? z)%Z && (z <? 2 ^ 32)%Z then Ok z else UB
  | AN _ _ _ => Ok 0%Z
  end.

(** ** Path counting *)
Definition amap (T : Type) := list (add * T).
Definition alookup {T} (k : add) (m : amap T) : option T :=
  match find (fun p => add_eqb (fst p) k) m with Some p => Some (snd p) | None => None end.
(** [map[k]] for counts: absent keys read as 0 *)
Definition aget (k : add) (m : amap Z) : Z :=
  match alookup k m with Some v => v | None => 0%Z end.
Fixpoint aset {T} (k : add) (x : T) (m : amap T) : amap T :=
  match m with
  | [] => [(k, x)]
  | (k', y) :: m' => if add_eqb k' k then (k', x) :: m' else (k', y) :: aset k x m'
  end.
Definition avisited (k : add) (l : list add) : bool := existsb (fun x => add_eqb x k) l.

Definition alevel (n : add) (terminal_level : nat) : nat :=
  match n with Leaf _ => terminal_level | AN v _ _ => v end.

(** [count << bits] on unsigned long *)
Definition shl_ulong (count : Z) (bits : Z) : res Z :=
  if (0 <=? bits)%Z && (bits <? 64)%Z then Ok ((count * 2 ^ bits) mod 2 ^ 64)%Z else UB.

(** [levels.resize(max(levels.size(), l+1)); levels[l].push(n)]; a stack is a list, top first *)
Fixpoint push_level (levels : list (list add)) (l : nat) (n : add) : list (list add) :=
  match l, levels with
  | O, [] => [[n]]
  | O, s :: ls => (n :: s) :: ls
  | S l', [] => [] :: push_level [] l' n
  | S l', s :: ls => s :: push_level ls l' n
  end.

(** lines 254-280: one child *)
Record pstate := PState { p_levels : list (list add); p_count : amap Z; p_visited : list add }.

Definition visit_child (terminal_level level : nat) (current_count : Z) (child : add) (st : pstate)
  : res pstate :=
  let cl := alevel child terminal_level in
  s <- shl_ulong current_count (Z.of_nat cl - Z.of_nat level - 1) ;;
  let count := aset child ((aget child (p_count st) + s) mod 2 ^ 64)%Z (p_count st) in
  if avisited child (p_visited st) then Ok (PState (p_levels st) count (p_visited st))
  else Ok (PState (push_level (p_levels st) cl child) count (child :: p_visited st)).

(** lines 245-281: the nodes of a level *)
Fixpoint level_loop (terminal_level level : nat) (nodes : list add) (st : pstate) : res pstate :=
  match nodes with
  | [] => Ok st
  | Leaf _ :: nodes' => level_loop terminal_level level nodes' st
  | (AN v t e as current) :: nodes' =>
      let current_count := aget current (p_count st) in
      st <- visit_child terminal_level level current_count t st ;;
      st <- visit_child terminal_level level current_count e st ;;
      level_loop terminal_level level nodes' st
  end.

(** line 241: the loop over the levels; [fuel] bounds the number of levels (the theorem shows
    that terminal_level + 2 is enough; running out is reported as UB) *)
Fixpoint levels_loop (terminal_level : nat) (fuel level : nat) (st : pstate) : res pstate :=
  match fuel with
  | O => UB
  | S fuel' =>
      if level <? length (p_levels st) then
        st <- level_loop terminal_level level (nth level (p_levels st) []) st ;;
        levels_loop terminal_level fuel' (S level) st
      else Ok st
  end.

(** cudd_helpers.cpp 225-285 count_paths *)
Definition count_paths (f : add) (terminal_level : nat) : res (amap Z) :=
  match f with
  | Leaf _ => Ok [(f, 1%Z)]
  | AN _ _ _ =>
      st <- levels_loop terminal_level (terminal_level + 2) 0
              (PState [[f]] [(f, 1%Z)] [f]) ;;
      Ok (p_count st)
  end.

(** lines 302-328 of add_terminal_values: depth first traversal with an explicit stack; [fuel]
    bounds the number of nodes *)
Fixpoint terminals_loop (path_count : amap Z) (fuel : nat) (toVisit visited : list add)
  : res (list (Q * Z)) :=
  match toVisit with
  | [] => Ok []
  | nd :: stack =>
      match fuel with
      | O => UB
      | S fuel' =>
          match nd with
          | Leaf q =>
              l <- terminals_loop path_count fuel' stack visited ;;
              Ok ((q, aget nd path_count) :: l)
          | AN _ t e =>
              let '(stack1, visited1) :=
                if avisited t visited then (stack, visited) else (t :: stack, t :: visited) in
              let '(stack2, visited2) :=
                if avisited e visited1 then (stack1, visited1) else (e :: stack1, e :: visited1) in
              terminals_loop path_count fuel' stack2 visited2
          end
      end
  end.

(** [ADD::SupportIndices] and line 297 *)
Definition add_term_level (f : add) : nat :=
  list_max0 (sorted_set (avars f)) + 1.

Fixpoint asubs (f : add) : list add :=
  f :: match f with Leaf _ => [] | AN _ t e => asubs t ++ asubs e end.

(** cudd_helpers.cpp 287-330 add_terminal_values *)
Definition add_terminal_values (f : add) : res (list (Q * Z)) :=
  path_count <- count_paths f (add_term_level f) ;;
  terminals_loop path_count (length (asubs f)) [f] [f].

(** ** ADDs of vectors *)
(** ADD operators *)
Definition aadd (M : mgr) := apply M Qplus.
Definition asub (M : mgr) := apply M Qminus.
Definition amul (M : mgr) := apply M Qmult.
Definition adiv (M : mgr) := apply M Qdiv.

(** lines 346-351; the list is [bdds_] reversed, without its first element *)
Fixpoint forest_loop (M : mgr) (l : list bdd) (result signBitPower : add) : add * add :=
  match l with
  | [] => (result, signBitPower)
  | b :: l' =>
      let two := aadd M (aconst 1) (aconst 1) in
      let result := amul M result two in
      let signBitPower := amul M signBitPower two in
      let result := aadd M result (to_add b) in
      forest_loop M l' result signBitPower
  end.

(** cudd_helpers.cpp 332-356 bdd_forest_to_add *)
Definition bdd_forest_to_add (M : mgr) (bdds : list bdd) (num_rep : NumberRepresentation) : res add :=
  let bdds_ := match num_rep with BaseTwo => bdds ++ [bzero] | TwosComplement => bdds end in
  match rev bdds_ with
  | [] => UB (* rbegin() + 1 and back() of an empty vector *)
  | sign :: rest =>
      let '(result, signBitPower) := forest_loop M rest (aconst 0) (aconst 1) in
      Ok (asub M result (amul M (to_add sign) signBitPower))
  end.

Fixpoint xor_vec (M : mgr) (f f_hat : list bdd) : res (list bdd) :=
  match f, f_hat with
  | [], _ => Ok []
  | _ :: _, [] => UB
  | x :: f', y :: g' => l <- xor_vec M f' g' ;; Ok (bxor M x y :: l)
  end.

(** cudd_helpers.cpp 358-369 xor_difference_add *)
Definition xor_difference_add (M : mgr) (f f_hat : list bdd) : res add :=
  diff <- xor_vec M f f_hat ;;
  bdd_forest_to_add M diff BaseTwo.

(** cudd_helpers.cpp 371-403 absolute_difference_add; the leaf operation is |F - G|, the operand
    swap on pointers (a cache optimisation for the symmetric operation) is left out *)
Definition qabsdiff (p q : Q) : Q := Qabs.Qabs (p - q).
Definition absolute_difference_add (M : mgr) (f f_hat : list bdd) (num_rep : NumberRepresentation)
  : res add :=
  a <- bdd_forest_to_add M f num_rep ;;
  b <- bdd_forest_to_add M f_hat num_rep ;;
  Ok (apply M qabsdiff a b).
