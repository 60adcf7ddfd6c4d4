(** Outcomes of C++ functions.

    [Ok v]   the function returns [v];
    [UB]     undefined behaviour (out-of-bounds access, shift by too much,
             division by zero, unrepresentable conversion, ...);
    [Throw]  a C++ exception leaves the function;
    [Abort]  an [assert] fails (the repository is built without NDEBUG unless a
             build type is chosen). *)
From Coq Require Import List.
Import ListNotations.

Inductive res (A : Type) : Type :=
| Ok (a : A)
| UB
| Throw
| Abort.
Arguments Ok {A} a.
Arguments UB {A}.
Arguments Throw {A}.
Arguments Abort {A}.

Definition bind {A B} (m : res A) (k : A -> res B) : res B :=
  match m with
  | Ok a => k a
  | UB => UB
  | Throw => Throw
  | Abort => Abort
  end.

Declare Scope res_scope.
Notation "x <- m ;; k" := (bind m (fun x => k))
  (at level 61, m at next level, right associativity) : res_scope.
Notation "' p <- m ;; k" := (bind m (fun p => k))
  (at level 61, p pattern, m at next level, right associativity) : res_scope.
Open Scope res_scope.

(** [std::vector::operator[]]: reading outside the vector is undefined. *)
Definition vget {A} (l : list A) (i : nat) : res A :=
  match nth_error l i with
  | Some x => Ok x
  | None => UB
  end.

(** [std::vector::back] *)
Definition vback {A} (l : list A) : res A :=
  match rev l with
  | x :: _ => Ok x
  | [] => UB
  end.

(** writing [v[i] = x] *)
Fixpoint vset {A} (l : list A) (i : nat) (x : A) : res (list A) :=
  match l, i with
  | [], _ => UB
  | _ :: l', O => Ok (x :: l')
  | y :: l', S i' => l'' <- vset l' i' x ;; Ok (y :: l'')
  end.

(** [assert(b)] *)
Definition assert_ (b : bool) : res unit := if b then Ok tt else Abort.

(** undefined unless [b] *)
Definition require_ (b : bool) : res unit := if b then Ok tt else UB.
