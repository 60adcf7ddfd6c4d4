(** Second model of the functions that compute with doubles: the result of every floating point
    operation is rounded by [rnd]. Powers of two, the constants and products with 0.5 as part of a
    sum are treated like all other operations. Overflow and underflow are not modelled. *)
From Coq Require Import List Bool Arith ZArith QArith.
From Verif Require Import Res Cudd Helpers Counting Metrics Operators.
Import ListNotations.
Open Scope nat_scope.

Section Rounded.
Variable rnd : Q -> Q.

(** cudd_helpers.cpp 74-108, line 104 *)
Fixpoint count_minterms_rec_fl (n : node) (c : bool) (minterms_map : bmap Q) : Q * bmap Q :=
  match blookup (c, n) minterms_map with
  | Some v => (v, minterms_map)
  | None =>
      match n with
      | One =>
          let value := if c then 0%Q else 1%Q in
          (value, ((c, n), value) :: minterms_map)
      | Nd _ t c' e =>
          let '(highResult, m1) := count_minterms_rec_fl t c minterms_map in
          let '(lowResult, m2) := count_minterms_rec_fl e (xorb c c') m1 in
          let minTerms := rnd (rnd (highResult / 2) + rnd (lowResult / 2))%Q in
          (minTerms, ((c, n), minTerms) :: m2)
      end
  end.
Definition count_minterms_fl (f : bdd) : bmap Q := snd (count_minterms_rec_fl (snd f) (fst f) []).

(** cudd_helpers.cpp 118-167, lines 154-155 *)
Fixpoint count_solutions_rec_fl (n : node) (c : bool) (solutions_map : bmap Q) (terminal_level : nat) : Q * bmap Q :=
  match blookup (c, n) solutions_map with
  | Some v => (v, solutions_map)
  | None =>
      match n with
      | One =>
          let value := if c then 0%Q else 1%Q in
          (value, ((c, n), value) :: solutions_map)
      | Nd own_level t c' e =>
          let '(high_result, m1) := count_solutions_rec_fl t c solutions_map terminal_level in
          let '(low_result, m2) := count_solutions_rec_fl e (xorb c c') m1 terminal_level in
          let solutions :=
            rnd (rnd (high_result * pow_levels (node_level t terminal_level) own_level)
                 + rnd (low_result * pow_levels (node_level e terminal_level) own_level))%Q in
          (solutions, ((c, n), solutions) :: m2)
      end
  end.
Definition count_solutions_fl (f : bdd) : bmap Q :=
  snd (count_solutions_rec_fl (snd f) (fst f) [] (terminal_level [[f]])).

(** [Cudd_CountMinterm] (external): starts with 2^n at the leaves and halves at every node *)
Fixpoint countn_fl (max : Q) (n : node) (c : bool) : Q :=
  match n with
  | One => if c then 0 else max
  | Nd _ t c' e => rnd (rnd (countn_fl max t c * (1#2)) + rnd (countn_fl max e (xorb c c') * (1#2)))
  end%Q.
Definition CountMinterm_fl (f : bdd) (n : nat) : Q := countn_fl (inject_Z (pow2 n)) (snd f) (fst f).

(** error_rate.cpp 10-29 *)
Definition error_rate_fl (M : mgr) (f f_hat : list bdd) : res Q :=
  miter_bdd <- miter M f f_hat bzero ;;
  let num_variables := terminal_level [f; f_hat] - 1 in
  let minterms := CountMinterm_fl miter_bdd num_variables in
  Ok (rnd (minterms / inject_Z (pow2 num_variables)))%Q.

(** average_bit_flip_error.cpp 9-32 *)
Fixpoint flip_sum_fl (M : mgr) (f f_hat : list bdd) (s : nat) (result : Q) : res Q :=
  match f with
  | [] => Ok result
  | x :: f' =>
      match f_hat with
      | [] => UB
      | y :: g' => flip_sum_fl M f' g' s (rnd (result + CountMinterm_fl (bxor M x y) s))%Q
      end
  end.
Definition average_bit_flip_error_fl (M : mgr) (f f_hat : list bdd) : res Q :=
  _ <- assert_ (length f =? length f_hat) ;;
  let max_support_size := max_support f_hat (max_support f 0) in
  result <- flip_sum_fl M f f_hat max_support_size 0 ;;
  Ok (rnd (result / inject_Z (pow2 max_support_size)))%Q.

(** approximation_operators.cpp; the counts are rounded, and so is [1 - count] in round_best *)
Section Operators.
Variable M : mgr.
(** lines 264-373 *)
Fixpoint round_best_rec_fl (n : node) (c : bool) (level_start level_end : nat) (minterm_count : bmap Q)
         (round_map : bmap bdd) : res (bdd * bmap bdd) :=
  match n with
  | One => Ok ((c, n), round_map)
  | Nd varId t d e =>
      match blookup (c, n) round_map with
      | Some r => Ok (r, round_map)
      | None =>
          let finish then_branch else_branch m :=
            let neW := ite M (bvar varId) then_branch else_branch in
            Ok (neW, ((c, n), neW) :: m) in
          if varId <? level_start then
            '(then_branch, m1) <- round_best_rec_fl t c level_start level_end minterm_count round_map ;;
            '(else_branch, m2) <- round_best_rec_fl e (xorb c d) level_start level_end minterm_count m1 ;;
            finish then_branch else_branch m2
          else if varId <=? level_end then
            tc <- bmap_at minterm_count (c, t) ;;
            ec <- bmap_at minterm_count (xorb c d, e) ;;
            if qgtb ec tc && qgtb (rnd (1 - ec)) tc then
              '(else_branch, m1) <- round_best_rec_fl e (xorb c d) level_start level_end minterm_count round_map ;;
              finish (bnot bone) else_branch m1
            else if qgtb tc ec && qgtb (rnd (1 - tc)) ec then
              '(then_branch, m1) <- round_best_rec_fl t c level_start level_end minterm_count round_map ;;
              finish then_branch (bnot bone) m1
            else if qgtb tc ec && qgtb tc (rnd (1 - ec)) then
              '(else_branch, m1) <- round_best_rec_fl e (xorb c d) level_start level_end minterm_count round_map ;;
              finish bone else_branch m1
            else if qgtb ec tc && qgtb ec (rnd (1 - tc)) then
              '(then_branch, m1) <- round_best_rec_fl t c level_start level_end minterm_count round_map ;;
              finish then_branch bone m1
            else
              finish (if qgtb tc (1#2) then bone else bnot bone)
                     (if qgtb ec (1#2) then bone else bnot bone) round_map
          else Ok ((c, n), round_map)
      end
  end.

(** lines 375-388, 36-62 *)
Definition round_any_fl (f : bdd) (level_start level_end : nat) (remove_heavy subset : bool) : res bdd :=
  '(node, _) <- remove_children_rec M (snd f) (fst f) level_start level_end (count_minterms_fl f) [] remove_heavy subset ;;
  Ok node.
Definition subset_light_child_fl (f : bdd) (level_start level_end : nat) : res bdd :=
  round_any_fl f level_start level_end false true.
Definition superset_heavy_child_fl (f : bdd) (level_start level_end : nat) : res bdd :=
  round_any_fl f level_start level_end true false.
Definition superset_light_child_fl (f : bdd) (level_start level_end : nat) : res bdd :=
  round_any_fl f level_start level_end false false.
Definition subset_heavy_child_fl (f : bdd) (level_start level_end : nat) : res bdd :=
  round_any_fl f level_start level_end true true.
(** lines 64-103 *)
Definition round_bdd_fl (f : bdd) (level : nat) : res bdd :=
  '(node, _) <- round_rec M (snd f) (fst f) level (count_minterms_fl f) [] ;; Ok node.
Definition round_best_fl (f : bdd) (level_start level_end : nat) : res bdd :=
  '(node, _) <- round_best_rec_fl (snd f) (fst f) level_start level_end (count_minterms_fl f) [] ;; Ok node.
Definition round_up_fl (f : bdd) (level_start level_end : nat) : res bdd :=
  '(node, _) <- remove_children_rec M (snd f) (fst f) level_start level_end (count_solutions_fl f) [] false false ;; Ok node.
Definition round_down_fl (f : bdd) (level_start level_end : nat) : res bdd :=
  '(node, _) <- remove_children_rec M (snd f) (fst f) level_start level_end (count_solutions_fl f) [] false true ;; Ok node.
End Operators.
End Rounded.
