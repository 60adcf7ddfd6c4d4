(** Model of the reference counting in /repo/src/approximation_operators/approximation_operators.cpp (lines 180-193, 236-249,
    355-368) and of the class BDD of CUDD.

    [refs]: the nodes with external references ([Cudd_Ref], BDD objects), as often as they are referenced. [fresh]: the result of
    the last call of CUDD, which need not be referenced until the next call. A node may be used if it is reachable from one of
    these, or is the constant or a projection function (both are referenced by the manager). All other nodes may have been
    collected: using them is undefined. Not modelled: saturation of the counters (such nodes are never collected) and a null
    result of [Cudd_bddIte] (out of memory). *)
From Coq Require Import List Bool Arith ZArith QArith.
From Verif Require Import Res Cudd Helpers Counting Operators.
Import ListNotations.
Open Scope nat_scope.

Record heap := Heap { refs : list node; fresh : list node }.

Definition alive (h : heap) (n : node) : bool :=
  match n with
  | One | Nd _ One true One => true
  | _ => existsb (fun m => existsb (node_eqb n) (subnodes m)) (refs h ++ fresh h)
  end.

(** [Cudd_Ref] *)
Definition c_Ref (f : bdd) (h : heap) : res heap :=
  if alive h (snd f) then Ok (Heap (snd f :: refs h) (fresh h)) else UB.

Fixpoint remove_one (n : node) (l : list node) : option (list node) :=
  match l with
  | [] => None
  | m :: l' => if node_eqb n m then Some l' else match remove_one n l' with Some r => Some (m :: r) | None => None end
  end.
(** [Cudd_RecursiveDeref]: giving back a reference that nobody holds corrupts the counters *)
Definition c_RecursiveDeref (f : bdd) (h : heap) : res heap :=
  match remove_one (snd f) (refs h) with Some l => Ok (Heap l (fresh h)) | None => UB end.

(** [Cudd_bddIte]: unreferenced nodes may be collected before and during the call *)
Definition c_bddIte (M : mgr) (f g k : bdd) (h : heap) : res (bdd * heap) :=
  let used := Heap (refs h) [] in
  if alive used (snd f) && alive used (snd g) && alive used (snd k) then
    let r := ite M f g k in Ok (r, Heap (refs h) [snd r])
  else UB.

Section RefCount.
Variable M : mgr.

(** lines 180-193, the same in 236-249 and 355-368 *)
Definition rebuild (varId : nat) (then_branch else_branch : bdd) (h : heap) : res (bdd * heap) :=
  h <- c_Ref then_branch h ;;
  h <- c_Ref else_branch h ;;
  let topv := bvar varId in
  h <- c_Ref topv h ;;
  '(neW, h) <- c_bddIte M topv then_branch else_branch h ;;
  h <- c_Ref neW h ;;
  h <- c_RecursiveDeref topv h ;;
  h <- c_RecursiveDeref then_branch h ;;
  h <- c_RecursiveDeref else_branch h ;;
  Ok (neW, h).

(** lines 105-198 remove_children_rec; reading the node needs it to be alive *)
Fixpoint remove_children_rc (n : node) (c : bool) (level_start level_end : nat) (minterm_count : bmap Q)
         (round_map : bmap bdd) (remove_heavy subset : bool) (h : heap) : res (bdd * bmap bdd * heap) :=
  _ <- require_ (alive h n) ;;
  match n with
  | One => Ok ((c, n), round_map, h)
  | Nd varId t d e =>
      match blookup (c, n) round_map with
      | Some r => Ok (r, round_map, h)
      | None =>
          let replacement := if subset then bnot bone else bone in
          if varId <? level_start then
            '(then_branch, m1, h) <- remove_children_rc t c level_start level_end minterm_count round_map remove_heavy subset h ;;
            '(else_branch, m2, h) <- remove_children_rc e (xorb c d) level_start level_end minterm_count m1 remove_heavy subset h ;;
            '(neW, h) <- rebuild varId then_branch else_branch h ;;
            Ok (neW, ((c, n), neW) :: m2, h)
          else if varId <=? level_end then
            then_minterm_count <- bmap_at minterm_count (c, t) ;;
            else_minterm_count <- bmap_at minterm_count (xorb c d, e) ;;
            let then_is_heavy := qgtb then_minterm_count else_minterm_count in
            if Bool.eqb remove_heavy then_is_heavy then
              '(else_branch, m1, h) <- remove_children_rc e (xorb c d) level_start level_end minterm_count round_map remove_heavy subset h ;;
              '(neW, h) <- rebuild varId replacement else_branch h ;;
              Ok (neW, ((c, n), neW) :: m1, h)
            else
              '(then_branch, m1, h) <- remove_children_rc t c level_start level_end minterm_count round_map remove_heavy subset h ;;
              '(neW, h) <- rebuild varId then_branch replacement h ;;
              Ok (neW, ((c, n), neW) :: m1, h)
          else Ok ((c, n), round_map, h)
      end
  end.

(** lines 200-262 round_rec *)
Fixpoint round_rc (n : node) (c : bool) (level_start : nat) (minterm_count : bmap Q) (round_map : bmap bdd) (h : heap)
  : res (bdd * bmap bdd * heap) :=
  _ <- require_ (alive h n) ;;
  match n with
  | One => Ok ((c, n), round_map, h)
  | Nd varId t d e =>
      match blookup (c, n) round_map with
      | Some r => Ok (r, round_map, h)
      | None =>
          if varId <? level_start then
            '(then_branch, m1, h) <- round_rc t c level_start minterm_count round_map h ;;
            '(else_branch, m2, h) <- round_rc e (xorb c d) level_start minterm_count m1 h ;;
            '(neW, h) <- rebuild varId then_branch else_branch h ;;
            Ok (neW, ((c, n), neW) :: m2, h)
          else
            match blookup (c, n) minterm_count with
            | None => UB
            | Some count =>
                let replace := if qgtb count (1#2) then bone else bnot bone in
                Ok (replace, ((c, n), replace) :: round_map, h)
            end
      end
  end.

(** lines 264-373 round_best_rec *)
Fixpoint round_best_rc (n : node) (c : bool) (level_start level_end : nat) (minterm_count : bmap Q)
         (round_map : bmap bdd) (h : heap) : res (bdd * bmap bdd * heap) :=
  _ <- require_ (alive h n) ;;
  match n with
  | One => Ok ((c, n), round_map, h)
  | Nd varId t d e =>
      match blookup (c, n) round_map with
      | Some r => Ok (r, round_map, h)
      | None =>
          let finish then_branch else_branch m h :=
            '(neW, h) <- rebuild varId then_branch else_branch h ;;
            Ok (neW, ((c, n), neW) :: m, h) in
          if varId <? level_start then
            '(then_branch, m1, h) <- round_best_rc t c level_start level_end minterm_count round_map h ;;
            '(else_branch, m2, h) <- round_best_rc e (xorb c d) level_start level_end minterm_count m1 h ;;
            finish then_branch else_branch m2 h
          else if varId <=? level_end then
            tc <- bmap_at minterm_count (c, t) ;;
            ec <- bmap_at minterm_count (xorb c d, e) ;;
            if qgtb ec tc && qgtb (1 - ec) tc then
              '(else_branch, m1, h) <- round_best_rc e (xorb c d) level_start level_end minterm_count round_map h ;;
              finish (bnot bone) else_branch m1 h
            else if qgtb tc ec && qgtb (1 - tc) ec then
              '(then_branch, m1, h) <- round_best_rc t c level_start level_end minterm_count round_map h ;;
              finish then_branch (bnot bone) m1 h
            else if qgtb tc ec && qgtb tc (1 - ec) then
              '(else_branch, m1, h) <- round_best_rc e (xorb c d) level_start level_end minterm_count round_map h ;;
              finish bone else_branch m1 h
            else if qgtb ec tc && qgtb ec (1 - tc) then
              '(then_branch, m1, h) <- round_best_rc t c level_start level_end minterm_count round_map h ;;
              finish then_branch bone m1 h
            else
              finish (if qgtb tc (1#2) then bone else bnot bone)
                     (if qgtb ec (1#2) then bone else bnot bone) round_map h
          else Ok ((c, n), round_map, h)
      end
  end.

(** the constructor [BDD(mgr, node)] takes a reference, the destructor gives it back *)
Definition new_BDD (f : bdd) (h : heap) : res (bdd * heap) := h <- c_Ref f h ;; Ok (f, h).
Definition delete_BDD (f : bdd) (h : heap) : res heap := c_RecursiveDeref f h.

(** lines 375-388 round_any *)
Definition round_any_rc (f : bdd) (level_start level_end : nat) (remove_heavy subset : bool) (h : heap) : res (bdd * heap) :=
  '(node, _, h) <- remove_children_rc (snd f) (fst f) level_start level_end (count_minterms f) [] remove_heavy subset h ;;
  new_BDD node h.
(** lines 64-70 round_bdd *)
Definition round_bdd_rc (f : bdd) (level : nat) (h : heap) : res (bdd * heap) :=
  '(node, _, h) <- round_rc (snd f) (fst f) level (count_minterms f) [] h ;;
  new_BDD node h.
(** lines 72-81 round_best *)
Definition round_best_op_rc (f : bdd) (level_start level_end : nat) (h : heap) : res (bdd * heap) :=
  '(node, _, h) <- round_best_rc (snd f) (fst f) level_start level_end (count_minterms f) [] h ;;
  new_BDD node h.
(** lines 83-92 round_up (no subset), 94-103 round_down (subset) *)
Definition round_down_up_rc (f : bdd) (level_start level_end : nat) (subset : bool) (h : heap) : res (bdd * heap) :=
  '(node, _, h) <- remove_children_rc (snd f) (fst f) level_start level_end (count_solutions f) [] false subset h ;;
  new_BDD node h.

(** all operators, in the order of [SpecOperators.the_operators] *)
Definition operators_rc (ls le : nat) : list (bdd -> heap -> res (bdd * heap)) :=
  [fun f => round_any_rc f ls le false true; fun f => round_any_rc f ls le true true;
   fun f => round_any_rc f ls le false false; fun f => round_any_rc f ls le true false;
   fun f => round_down_up_rc f ls le true; fun f => round_down_up_rc f ls le false;
   fun f => round_bdd_rc f ls; fun f => round_best_op_rc f ls le].
End RefCount.
