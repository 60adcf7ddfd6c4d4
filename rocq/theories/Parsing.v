(** Model of the readers in src/parsing and of the Function class (src/util/function.cpp).

    The text files are read by lorina; its readers call one method per construct of the file.
    A file is therefore modelled as the list of these calls (events). Characters are [ascii]. *)
From Coq Require Import Ascii String List Bool Arith NArith.
From Verif Require Import Res Cudd Helpers.
Import ListNotations.
Open Scope list_scope.
Open Scope nat_scope.

(** ** string_helpers.hpp 41-47 split: reading tokens with [operator>>] in the "C" locale *)
Definition is_space (c : ascii) : bool :=
  match nat_of_ascii c with 32 | 9 | 10 | 11 | 12 | 13 => true | _ => false end.
(** [cur]: the characters of the current token *)
Fixpoint tokens (s : list ascii) (cur : list ascii) : list (list ascii) :=
  match s with
  | [] => match cur with [] => [] | _ => [cur] end
  | c :: s' =>
      if is_space c then match cur with [] => tokens s' [] | _ => cur :: tokens s' [] end
      else tokens s' (cur ++ [c])
  end.
Definition split (str : list ascii) (cont : list (list ascii)) : list (list ascii) := cont ++ tokens str [].

(** ** pla_parser.cpp *)
Inductive pla_event :=
| Inputs (number_of_inputs : nat)
| Outputs (number_of_outputs : nat)
| Terms (number_of_terms : nat)
| Keyword (keyword value : list ascii)
| Term (term out : list ascii).

(** [variable_names]: arguments of [Cudd::pushVariableName] so far *)
Record pla := Pla {
  bdd_vars : list bdd;
  output_bdds : list bdd;
  innames : list (list ascii);
  outnames : list (list ascii);
  variable_names : list (list ascii)
}.

Definition ch (s : string) : list ascii := list_ascii_of_string s.
Fixpoint str_eqb (x y : list ascii) : bool :=
  match x, y with
  | [], [] => true
  | a :: x', b :: y' => Ascii.eqb a b && str_eqb x' y'
  | _, _ => false
  end.

Section Pla.
Variable M : mgr.

(** lines 72-80 *)
Fixpoint cube_loop (vars : list bdd) (term : list ascii) (i : nat) (cube : bdd) : res bdd :=
  match term with
  | [] => Ok cube
  | c :: term' =>
      if Ascii.eqb c "0" then v <- vget vars i ;; cube_loop vars term' (S i) (band M cube (bnot v))
      else if Ascii.eqb c "1" then v <- vget vars i ;; cube_loop vars term' (S i) (band M cube v)
      else cube_loop vars term' (S i) cube
  end.
(** lines 82-88 *)
Fixpoint out_loop (outs : list bdd) (out : list ascii) (i : nat) (cube : bdd) : res (list bdd) :=
  match out with
  | [] => Ok outs
  | c :: out' =>
      if Ascii.eqb c "1" then b <- vget outs i ;; outs <- vset outs i (bor M b cube) ;; out_loop outs out' (S i) cube
      else out_loop outs out' (S i) cube
  end.

(** lines 11-89 *)
Definition pla_step (st : pla) (e : pla_event) : res pla :=
  match e with
  | Inputs n => Ok (Pla (bdd_vars st ++ map bvar (seq 0 n)) (output_bdds st) (innames st) (outnames st) (variable_names st))
  | Outputs n => Ok (Pla (bdd_vars st) (output_bdds st ++ repeat bzero n) (innames st) (outnames st) (variable_names st))
  | Terms _ => Ok st
  | Keyword k v =>
      if str_eqb k (ch "ilb") then
        let names := split v (innames st) in
        Ok (Pla (bdd_vars st) (output_bdds st) names (outnames st) (variable_names st ++ names))
      else if str_eqb k (ch "ob") then
        Ok (Pla (bdd_vars st) (output_bdds st) (innames st) (split v (outnames st)) (variable_names st))
      else Ok st
  | Term term out =>
      cube <- cube_loop (bdd_vars st) term 0 bone ;;
      outs <- out_loop (output_bdds st) out 0 cube ;;
      Ok (Pla (bdd_vars st) outs (innames st) (outnames st) (variable_names st))
  end.
Fixpoint pla_run (evs : list pla_event) (st : pla) : res pla :=
  match evs with
  | [] => Ok st
  | e :: evs' => st' <- pla_step st e ;; pla_run evs' st'
  end.
(** a new parser with empty result vectors *)
Definition pla_start : pla := Pla [] [] [] [] [].
End Pla.

(** ** aig_parser.cpp; [unsigned] (32 bits) and [size_t] (64 bits) values are in [N] *)
Definition unsigned_ (x : N) : N := (x mod 2 ^ 32)%N.
Definition size_t_ (x : N) : N := (x mod 2 ^ 64)%N.

Inductive aig_event :=
| Input (index lit : N)
| Output (index lit : N)
| And (index left_lit right_lit : N)
| InputName (index : N) (name : list ascii)
| OutputName (index : N) (name : list ascii)
| Unsupported.  (* latches, bad states, constraints, fairness, justice *)

Record aig := Aig {
  num_literals : N;
  num_inputs : N;
  num_outputs : N;
  output_indices : list N;
  input_names : list (list ascii);
  output_names : list (list ascii);
  literals : list (option bdd)
}.

Section Aig.
Variable M : mgr.

(** [vector::resize] on an empty vector; memory is not limited *)
Definition resized {A} (n : N) (x : A) : list A := repeat x (N.to_nat n).
(** lines 11-27 on a new parser *)
Definition on_header (m i o : N) : res aig :=
  let n := size_t_ (m * 2 + 2)%N in
  let lits := resized n None in
  lits <- vset lits 0 (Some bzero) ;;
  lits <- vset lits 1 (Some bone) ;;
  Ok (Aig n i o (resized o 0%N) (resized i []) (resized o []) lits).

(** lines 84-101: the literals change, as inverted ones are stored *)
Definition find_literal (lits : list (option bdd)) (literal : N) : res (list (option bdd) * bdd) :=
  l <- vget lits (N.to_nat literal) ;;
  match l with
  | Some b => Ok (lits, b)
  | None =>
      if N.odd literal then
        p <- vget lits (N.to_nat (literal - 1)%N) ;;
        match p with
        | Some original =>
            lits <- vset lits (N.to_nat literal) (Some (bnot original)) ;;
            Ok (lits, bnot original)
        | None => Throw
        end
      else Throw
  end.

Definition set_literals (st : aig) (lits : list (option bdd)) : aig :=
  Aig (num_literals st) (num_inputs st) (num_outputs st) (output_indices st) (input_names st) (output_names st) lits.

(** lines 29-70 and 103-127 *)
Definition aig_step (st : aig) (e : aig_event) : res aig :=
  match e with
  | Input index lit =>
      _ <- assert_ (index <? num_inputs st)%N ;;
      _ <- assert_ (lit <? num_literals st)%N ;;
      lits <- vset (literals st) (N.to_nat lit) (Some (bvar (N.to_nat index))) ;;
      Ok (set_literals st lits)
  | Output index lit =>
      _ <- assert_ (index <? num_outputs st)%N ;;
      _ <- assert_ (lit <? num_literals st)%N ;;
      outs <- vset (output_indices st) (N.to_nat index) lit ;;
      Ok (Aig (num_literals st) (num_inputs st) (num_outputs st) outs (input_names st) (output_names st) (literals st))
  | And index left_lit right_lit =>
      let target := unsigned_ (index * 2)%N in
      _ <- assert_ (target <=? num_literals st)%N ;;
      _ <- assert_ ((left_lit <? num_literals st) && (right_lit <? num_literals st))%N ;;
      t <- vget (literals st) (N.to_nat target) ;;
      _ <- assert_ (match t with Some _ => false | None => true end) ;;
      '(lits, lb) <- find_literal (literals st) left_lit ;;
      '(lits, rb) <- find_literal lits right_lit ;;
      lits <- vset lits (N.to_nat target) (Some (band M lb rb)) ;;
      Ok (set_literals st lits)
  | InputName index name =>
      _ <- assert_ (index <=? num_inputs st)%N ;;
      names <- vset (input_names st) (N.to_nat index) name ;;
      Ok (Aig (num_literals st) (num_inputs st) (num_outputs st) (output_indices st) names (output_names st) (literals st))
  | OutputName index name =>
      _ <- assert_ (index <=? num_outputs st)%N ;;
      names <- vset (output_names st) (N.to_nat index) name ;;
      Ok (Aig (num_literals st) (num_inputs st) (num_outputs st) (output_indices st) (input_names st) names (literals st))
  | Unsupported => Abort
  end.
Fixpoint aig_run (evs : list aig_event) (st : aig) : res aig :=
  match evs with
  | [] => Ok st
  | e :: evs' => st' <- aig_step st e ;; aig_run evs' st'
  end.

(** lines 72-82 *)
Fixpoint outputs_loop (indices : list N) (lits : list (option bdd)) (result : list bdd) : res (list bdd) :=
  match indices with
  | [] => Ok result
  | output :: indices' => '(lits, b) <- find_literal lits output ;; outputs_loop indices' lits (result ++ [b])
  end.
Definition get_outputs (st : aig) : res (list bdd) := outputs_loop (output_indices st) (literals st) [].
(** reading a whole file *)
Definition aig_file (m i o : N) (evs : list aig_event) : res (list bdd) :=
  st <- on_header m i o ;;
  st <- aig_run evs st ;;
  get_outputs st.
End Aig.

(** ** function.cpp 7-45 *)
Record Function_ := Fun { value : list bdd; representation : NumberRepresentation }.
Section FunctionClass.
Variable M : mgr.
Definition function_make (value : list bdd) (r : NumberRepresentation) : res Function_ :=
  _ <- assert_ (0 <? length value) ;; Ok (Fun value r).
(** [vector::at] throws *)
Definition function_get (f : Function_) (index : nat) : res bdd :=
  match nth_error (value f) index with Some b => Ok b | None => Throw end.
(** [f[index] = b] through the returned reference *)
Definition function_set (f : Function_) (index : nat) (b : bdd) : res Function_ :=
  match vset (value f) index b with Ok l => Ok (Fun l (representation f)) | _ => Throw end.
Definition function_and (f : Function_) (b : bdd) : Function_ := Fun (map (fun own => band M own b) (value f)) (representation f).
Definition function_or (f : Function_) (b : bdd) : Function_ := Fun (map (fun own => bor M own b) (value f)) (representation f).
Definition num_bits (f : Function_) : nat := length (value f).
Definition is_signed (f : Function_) : bool := match representation f with TwosComplement => true | BaseTwo => false end.
End FunctionClass.
