(** Third model of the functions that compute with doubles: IEEE 754 binary64 with subnormal numbers, infinities and NaN.
    Rounding is to nearest even; the sign of zero is left out (no function here divides by a negative zero). *)
From Coq Require Import List Bool Arith ZArith QArith Qabs.
From Verif Require Import Res Cudd Float Helpers Counting Metrics.
Import ListNotations.
Open Scope nat_scope.

Inductive dbl := DFin (q : Q) | DInf (negative : bool) | DNaN.

(** the nearest double: below 2^-1022 the multiples of 2^-1074, from 2^1024 on (after rounding) an infinity *)
Definition to_double (q : Q) : dbl :=
  let small := negb (Qeq_bool q 0) && (binary_exponent (Qabs q) <? -1022)%Z in
  let r := if small then (inject_Z (round_half_even (q / 2 ^ (-1074))) * 2 ^ (-1074))%Q else round_float 53 q in
  if Qle_bool (2 ^ 1024) r then DInf false else if Qle_bool r (- 2 ^ 1024) then DInf true else DFin r.

Definition dneg (x : dbl) : dbl := match x with DFin q => DFin (- q) | DInf s => DInf (negb s) | DNaN => DNaN end.
Definition dadd (x y : dbl) : dbl :=
  match x, y with
  | DNaN, _ | _, DNaN => DNaN
  | DFin a, DFin b => to_double (a + b)
  | DInf s, DInf s' => if Bool.eqb s s' then DInf s else DNaN
  | DInf s, _ | _, DInf s => DInf s
  end.
Definition dsub (x y : dbl) : dbl := dadd x (dneg y).
Definition negative (a : Q) : bool := (Qnum a <? 0)%Z.
Definition dmul (x y : dbl) : dbl :=
  match x, y with
  | DNaN, _ | _, DNaN => DNaN
  | DFin a, DFin b => to_double (a * b)
  | DInf s, DInf s' => DInf (xorb s s')
  | DInf s, DFin a | DFin a, DInf s => if Qeq_bool a 0 then DNaN else DInf (xorb s (negative a))
  end.
Definition ddiv (x y : dbl) : dbl :=
  match x, y with
  | DNaN, _ | _, DNaN => DNaN
  | DFin a, DFin b => if Qeq_bool b 0 then (if Qeq_bool a 0 then DNaN else DInf (negative a)) else to_double (a / b)
  | DInf s, DFin b => DInf (xorb s (negative b))
  | DFin _, DInf _ => DFin 0
  | DInf _, DInf _ => DNaN
  end.
(** [x <= y] and [x > y]; false if one of them is NaN *)
Definition dleb (x y : dbl) : bool :=
  match x, y with
  | DNaN, _ | _, DNaN => false
  | DFin a, DFin b => Qle_bool a b
  | DInf true, _ | _, DInf false => true
  | _, _ => false
  end.
Definition dgtb (x y : dbl) : bool :=
  match x, y with DNaN, _ | _, DNaN => false | _, _ => negb (dleb x y) end.
(** [std::pow(2.0, k)] for an integer [0 <= k] *)
Definition dpow2 (k : Z) : dbl := if (1024 <=? k)%Z then DInf false else DFin (inject_Z (2 ^ k)).

(** cudd_helpers.cpp 74-116 *)
Fixpoint count_minterms_rec_d (n : node) (c : bool) (minterms_map : bmap dbl) : dbl * bmap dbl :=
  match blookup (c, n) minterms_map with
  | Some v => (v, minterms_map)
  | None =>
      match n with
      | One =>
          let value := DFin (if c then 0%Q else 1%Q) in
          (value, ((c, n), value) :: minterms_map)
      | Nd _ t c' e =>
          let '(highResult, m1) := count_minterms_rec_d t c minterms_map in
          let '(lowResult, m2) := count_minterms_rec_d e (xorb c c') m1 in
          let minTerms := dadd (ddiv highResult (DFin 2)) (ddiv lowResult (DFin 2)) in
          (minTerms, ((c, n), minTerms) :: m2)
      end
  end.
Definition count_minterms_d (f : bdd) : bmap dbl := snd (count_minterms_rec_d (snd f) (fst f) []).

(** [std::pow(2.0, a - b - 1)], cudd_helpers.cpp 154-155, with [unsigned long] subtraction *)
Definition dpow_levels (a b : nat) : dbl := dpow2 ((Z.of_nat a - Z.of_nat b - 1) mod 2 ^ 64).
(** cudd_helpers.cpp 118-167 *)
Fixpoint count_solutions_rec_d (n : node) (c : bool) (solutions_map : bmap dbl) (terminal_level : nat) : dbl * bmap dbl :=
  match blookup (c, n) solutions_map with
  | Some v => (v, solutions_map)
  | None =>
      match n with
      | One =>
          let value := DFin (if c then 0%Q else 1%Q) in
          (value, ((c, n), value) :: solutions_map)
      | Nd own_level t c' e =>
          let '(high_result, m1) := count_solutions_rec_d t c solutions_map terminal_level in
          let '(low_result, m2) := count_solutions_rec_d e (xorb c c') m1 terminal_level in
          let solutions :=
            dadd (dmul high_result (dpow_levels (node_level t terminal_level) own_level))
                 (dmul low_result (dpow_levels (node_level e terminal_level) own_level)) in
          (solutions, ((c, n), solutions) :: m2)
      end
  end.
Definition count_solutions_d (f : bdd) : bmap dbl :=
  snd (count_solutions_rec_d (snd f) (fst f) [] (terminal_level [[f]])).

(** cudd_helpers.cpp 169-213 random_satisfying_input, as in Counting.v *)
Fixpoint rsi_loop_d (rand_max : Z) (minterm_count : bmap dbl) (max_level : nat) (n level : nat)
         (c : bool) (nd : node) (draws : list Z) : res (list Z) :=
  match n, draws with
  | O, _ => Ok []
  | S n', d :: draws' =>
      let nl := node_level nd max_level in
      if level <? nl then
        l <- rsi_loop_d rand_max minterm_count max_level n' (S level) c nd draws' ;;
        Ok ((d mod 2)%Z :: l)
      else
        match nd with
        | One => Abort
        | Nd _ t c' e =>
            then_weight <- bmap_at minterm_count (c, t) ;;
            else_weight <- bmap_at minterm_count (xorb c c', e) ;;
            let r := ddiv (DFin (inject_Z d)) (DFin (inject_Z rand_max)) in
            if dleb r (ddiv then_weight (dadd then_weight else_weight)) then
              l <- rsi_loop_d rand_max minterm_count max_level n' (S level) c t draws' ;;
              Ok (1%Z :: l)
            else
              l <- rsi_loop_d rand_max minterm_count max_level n' (S level) (xorb c c') e draws' ;;
              Ok (0%Z :: l)
        end
  | S _, [] => Abort (* not reached: the caller supplies a draw per level *)
  end.
Definition random_satisfying_input_d (rand_max : Z) (f : bdd) (minterm_count : bmap dbl)
           (max_level : nat) (draws : list Z) : res (list Z) :=
  rsi_loop_d rand_max minterm_count max_level max_level 0 (fst f) (snd f) draws.

(** error_rate.cpp 10-29; [count] is [Cudd_CountMinterm] *)
Definition error_rate_d (count : bdd -> nat -> dbl) (M : mgr) (f f_hat : list bdd) : res dbl :=
  miter_bdd <- miter M f f_hat bzero ;;
  let num_variables := terminal_level [f; f_hat] - 1 in
  Ok (ddiv (count miter_bdd num_variables) (dpow2 (Z.of_nat num_variables))).

(** ** approximation_operators.cpp *)
Section Operators.
Variable M : mgr.
(** lines 105-198 *)
Fixpoint remove_children_rec_d (n : node) (c : bool) (level_start level_end : nat) (minterm_count : bmap dbl)
         (round_map : bmap bdd) (remove_heavy subset : bool) : res (bdd * bmap bdd) :=
  match n with
  | One => Ok ((c, n), round_map)
  | Nd varId t d e =>
      match blookup (c, n) round_map with
      | Some r => Ok (r, round_map)
      | None =>
          let replacement := if subset then bnot bone else bone in
          if varId <? level_start then
            '(then_branch, m1) <- remove_children_rec_d t c level_start level_end minterm_count round_map remove_heavy subset ;;
            '(else_branch, m2) <- remove_children_rec_d e (xorb c d) level_start level_end minterm_count m1 remove_heavy subset ;;
            let neW := ite M (bvar varId) then_branch else_branch in
            Ok (neW, ((c, n), neW) :: m2)
          else if varId <=? level_end then
            then_minterm_count <- bmap_at minterm_count (c, t) ;;
            else_minterm_count <- bmap_at minterm_count (xorb c d, e) ;;
            let then_is_heavy := dgtb then_minterm_count else_minterm_count in
            if Bool.eqb remove_heavy then_is_heavy then
              '(else_branch, m1) <- remove_children_rec_d e (xorb c d) level_start level_end minterm_count round_map remove_heavy subset ;;
              let neW := ite M (bvar varId) replacement else_branch in
              Ok (neW, ((c, n), neW) :: m1)
            else
              '(then_branch, m1) <- remove_children_rec_d t c level_start level_end minterm_count round_map remove_heavy subset ;;
              let neW := ite M (bvar varId) then_branch replacement in
              Ok (neW, ((c, n), neW) :: m1)
          else Ok ((c, n), round_map)
      end
  end.

(** lines 200-262 *)
Fixpoint round_rec_d (n : node) (c : bool) (level_start : nat) (minterm_count : bmap dbl) (round_map : bmap bdd)
  : res (bdd * bmap bdd) :=
  match n with
  | One => Ok ((c, n), round_map)
  | Nd varId t d e =>
      match blookup (c, n) round_map with
      | Some r => Ok (r, round_map)
      | None =>
          if varId <? level_start then
            '(then_branch, m1) <- round_rec_d t c level_start minterm_count round_map ;;
            '(else_branch, m2) <- round_rec_d e (xorb c d) level_start minterm_count m1 ;;
            let neW := ite M (bvar varId) then_branch else_branch in
            Ok (neW, ((c, n), neW) :: m2)
          else
            match blookup (c, n) minterm_count with
            | None => UB
            | Some count =>
                let replace := if dgtb count (DFin (1#2)) then bone else bnot bone in
                Ok (replace, ((c, n), replace) :: round_map)
            end
      end
  end.

(** lines 264-373 *)
Fixpoint round_best_rec_d (n : node) (c : bool) (level_start level_end : nat) (minterm_count : bmap dbl)
         (round_map : bmap bdd) : res (bdd * bmap bdd) :=
  match n with
  | One => Ok ((c, n), round_map)
  | Nd varId t d e =>
      match blookup (c, n) round_map with
      | Some r => Ok (r, round_map)
      | None =>
          let finish then_branch else_branch m :=
            let neW := ite M (bvar varId) then_branch else_branch in
            Ok (neW, ((c, n), neW) :: m) in
          if varId <? level_start then
            '(then_branch, m1) <- round_best_rec_d t c level_start level_end minterm_count round_map ;;
            '(else_branch, m2) <- round_best_rec_d e (xorb c d) level_start level_end minterm_count m1 ;;
            finish then_branch else_branch m2
          else if varId <=? level_end then
            tc <- bmap_at minterm_count (c, t) ;;
            ec <- bmap_at minterm_count (xorb c d, e) ;;
            if dgtb ec tc && dgtb (dsub (DFin 1) ec) tc then
              '(else_branch, m1) <- round_best_rec_d e (xorb c d) level_start level_end minterm_count round_map ;;
              finish (bnot bone) else_branch m1
            else if dgtb tc ec && dgtb (dsub (DFin 1) tc) ec then
              '(then_branch, m1) <- round_best_rec_d t c level_start level_end minterm_count round_map ;;
              finish then_branch (bnot bone) m1
            else if dgtb tc ec && dgtb tc (dsub (DFin 1) ec) then
              '(else_branch, m1) <- round_best_rec_d e (xorb c d) level_start level_end minterm_count round_map ;;
              finish bone else_branch m1
            else if dgtb ec tc && dgtb ec (dsub (DFin 1) tc) then
              '(then_branch, m1) <- round_best_rec_d t c level_start level_end minterm_count round_map ;;
              finish then_branch bone m1
            else
              finish (if dgtb tc (DFin (1#2)) then bone else bnot bone)
                     (if dgtb ec (DFin (1#2)) then bone else bnot bone) round_map
          else Ok ((c, n), round_map)
      end
  end.

(** lines 375-388, 36-62 *)
Definition round_any_d (f : bdd) (level_start level_end : nat) (remove_heavy subset : bool) : res bdd :=
  '(node, _) <- remove_children_rec_d (snd f) (fst f) level_start level_end (count_minterms_d f) [] remove_heavy subset ;;
  Ok node.
Definition subset_light_child_d (f : bdd) (level_start level_end : nat) : res bdd :=
  round_any_d f level_start level_end false true.
Definition superset_heavy_child_d (f : bdd) (level_start level_end : nat) : res bdd :=
  round_any_d f level_start level_end true false.
Definition superset_light_child_d (f : bdd) (level_start level_end : nat) : res bdd :=
  round_any_d f level_start level_end false false.
Definition subset_heavy_child_d (f : bdd) (level_start level_end : nat) : res bdd :=
  round_any_d f level_start level_end true true.
(** lines 64-103 *)
Definition round_bdd_d (f : bdd) (level : nat) : res bdd :=
  '(node, _) <- round_rec_d (snd f) (fst f) level (count_minterms_d f) [] ;; Ok node.
Definition round_best_d (f : bdd) (level_start level_end : nat) : res bdd :=
  '(node, _) <- round_best_rec_d (snd f) (fst f) level_start level_end (count_minterms_d f) [] ;; Ok node.
Definition round_up_d (f : bdd) (level_start level_end : nat) : res bdd :=
  '(node, _) <- remove_children_rec_d (snd f) (fst f) level_start level_end (count_solutions_d f) [] false false ;; Ok node.
Definition round_down_d (f : bdd) (level_start level_end : nat) : res bdd :=
  '(node, _) <- remove_children_rec_d (snd f) (fst f) level_start level_end (count_solutions_d f) [] false true ;; Ok node.
(** in the order of [SpecOperators.the_operators] *)
Definition operators_d (ls le : nat) : list (bdd -> res bdd) :=
  [fun f => subset_light_child_d f ls le; fun f => subset_heavy_child_d f ls le;
   fun f => superset_light_child_d f ls le; fun f => superset_heavy_child_d f ls le;
   fun f => round_down_d f ls le; fun f => round_up_d f ls le;
   fun f => round_bdd_d f ls; fun f => round_best_d f ls le].
End Operators.
