(** Properties C57-C59 and C72-C74: the readers (src/parsing, src/util/string_helpers.hpp) and the Function class
    (src/util/function.cpp). *)
From Coq Require Import Ascii String List Bool Arith NArith ZArith.
From Verif Require Import Res Cudd Spec Helpers Parsing SpecParsing ParsingFacts ParsingFacts2 ParsingCases.
Import ListNotations.
Open Scope list_scope.
Open Scope nat_scope.

(** C57: every output is the disjunction of its terms *)
Theorem C57_pla_sum_of_cubes : forall (M : mgr) (evs : list pla_event) (st : pla),
  pla_run M evs pla_start = Ok st -> input_declarations evs <= 1 ->
  length (output_bdds st) = declared_outputs evs
  /\ forall j f, nth_error (output_bdds st) j = Some f -> wf M f /\ forall a, (ev f a = true <->
       exists term out, In (Term term out) evs /\ nth_error out j = Some "1"%char /\ matches a term).
Proof. exact pla_sum_of_cubes. Qed.
Print Assumptions C57_pla_sum_of_cubes.
(** a column beyond the declared ones is an access out of bounds; there is no other failure *)
Theorem C57_pla_outcome : forall (M : mgr) (evs : list pla_event),
  (pla_run M evs pla_start = UB <-> exists pre term out post, evs = pre ++ Term term out :: post
     /\ ~ fits (declared_inputs pre) (declared_outputs pre) term out)
  /\ (pla_run M evs pla_start <> UB -> exists st, pla_run M evs pla_start = Ok st).
Proof. exact pla_outcome. Qed.
Print Assumptions C57_pla_outcome.
Example C57_case : input_declarations ex_pla = 1 /\ declared_outputs ex_pla = 3
  /\ match pla_run (id_mgr 2) ex_pla pla_start with
     | Ok st => map (fun a => map (fun f => ev f a) (output_bdds st)) [asg2 false false; asg2 false true; asg2 true false; asg2 true true]
                = [[false; false; false]; [true; false; true]; [true; false; false]; [true; true; true]]
     | _ => False
     end
  /\ pla_run (id_mgr 2) [Inputs 1; Outputs 1; Term (ch "-1") (ch "1")] pla_start = UB
  /\ pla_run (id_mgr 2) [Inputs 1; Outputs 1; Term (ch "0-") (ch "01")] pla_start = UB.
Proof. vm_compute. repeat split. Qed.

(** C58: a correct file is read, and the outputs are the functions of the graph *)
Theorem C58_aig_correct : forall (M : mgr) (m i o : N) (evs : list aig_event), ok_file m i o evs ->
  exists outs, aig_file M m i o evs = Ok outs /\ length outs = N.to_nat o
    /\ forall j, (j < o)%N -> exists f lit, nth_error outs (N.to_nat j) = Some f /\ wf M f /\ output_literal evs j lit
         /\ forall a b, lit_value evs a lit b <-> ev f a = b.
Proof. exact aig_correct. Qed.
Print Assumptions C58_aig_correct.
(** also for incorrect files (inputs declared several times, gates with the number of an input, ...), if they are read *)
Theorem C58_aig_sound : forall (M : mgr) (m i o : N) (evs : list aig_event) (outs : list bdd),
  (forall index l r, In (And index l r) evs -> (index < 2 ^ 31)%N) -> aig_file M m i o evs = Ok outs ->
  length outs = N.to_nat o
  /\ forall j f lit, nth_error outs (N.to_nat j) = Some f -> output_literal evs j lit ->
       wf M f /\ forall a, lit_value evs a lit (ev f a).
Proof. exact aig_sound. Qed.
Print Assumptions C58_aig_sound.
(** the exception: exactly for operands and outputs that have not been declared *)
Theorem C58_aig_undeclared : forall (M : mgr) (m i o : N) (evs : list aig_event) (st : aig),
  (forall index l r, In (And index l r) evs -> (index < 2 ^ 31)%N) -> bind (on_header m i o) (aig_run M evs) = Ok st ->
  (forall index l r, (index < 2 ^ 31)%N -> (2 * index < (2 * m + 2) mod 2 ^ 64)%N ->
     (l < (2 * m + 2) mod 2 ^ 64)%N -> (r < (2 * m + 2) mod 2 ^ 64)%N -> ~ declared evs (2 * index) ->
     (aig_step M st (And index l r) = Throw <-> ~ (declared evs l /\ declared evs r))
     /\ ((exists st', aig_step M st (And index l r) = Ok st') <-> declared evs l /\ declared evs r))
  /\ (get_outputs st = Throw <-> exists j lit, (j < o)%N /\ output_literal evs j lit /\ ~ declared evs lit)
  /\ ((exists outs, get_outputs st = Ok outs) <-> forall j lit, (j < o)%N -> output_literal evs j lit -> declared evs lit).
Proof. exact aig_undeclared. Qed.
Print Assumptions C58_aig_undeclared.
Example C58_case : ok_file 5 2 2 ex_aig
  /\ match aig_file (id_mgr 2) 5 2 2 ex_aig with
     | Ok outs => map (fun a => map (fun f => ev f a) outs) [asg2 false false; asg2 false true; asg2 true false; asg2 true true]
                  = [[false; false]; [true; false]; [true; false]; [false; true]]
     | _ => False
     end
  /\ aig_file (id_mgr 2) 5 2 1 [Input 0 2; And 3 2 4] = Throw
  /\ aig_file (id_mgr 2) 5 2 1 [Input 0 2; Output 0 4] = Throw.
Proof. split; [exact ex_aig_ok|]. vm_compute. repeat split. Qed.

(** C59: no access out of bounds. Wrong: three assertions admit the index behind the last entry *)
Theorem C59_accesses_refuted : forall M : mgr, exists (m i o : N) (evs : list aig_event) (st : aig) (name : list ascii),
  bind (on_header m i o) (aig_run M evs) = Ok st
  /\ aig_step M st (InputName i name) = UB /\ aig_step M st (OutputName o name) = UB /\ aig_step M st (And (m + 1) 0 1) = UB.
Proof. exact accesses_wrong. Qed.
Print Assumptions C59_accesses_refuted.
(** these are the only ones after the header; [get_outputs] is never affected *)
Theorem C59_accesses_partial : forall (M : mgr) (m i o : N) (evs : list aig_event) (st : aig) (e : aig_event),
  bind (on_header m i o) (aig_run M evs) = Ok st ->
  (aig_step M st e = UB <->
     (exists name, e = InputName i name) \/ (exists name, e = OutputName o name)
     \/ (exists index l r, e = And index l r /\ (index * 2) mod 2 ^ 32 = (2 * m + 2) mod 2 ^ 64
           /\ l < (2 * m + 2) mod 2 ^ 64 /\ r < (2 * m + 2) mod 2 ^ 64)%N)
  /\ get_outputs st <> UB.
Proof. exact accesses_partial. Qed.
Print Assumptions C59_accesses_partial.
(** the header itself fails only if the number of literals wraps to zero *)
Theorem C59_header_partial : forall m i o : N, (m < 2 ^ 64)%N ->
  (on_header m i o = UB <-> m = 2 ^ 63 - 1 \/ m = 2 ^ 64 - 1)%N
  /\ (on_header m i o <> UB -> exists st, on_header m i o = Ok st).
Proof. exact header_partial. Qed.
Print Assumptions C59_header_partial.
Example C59_case : match bind (on_header 3 2 1) (aig_run (id_mgr 2) [Input 0 2; Input 1 4]) with
  | Ok st => aig_step (id_mgr 2) st (And 4 2 5) = UB /\ aig_step (id_mgr 2) st (And 3 2 5) <> UB
             /\ aig_step (id_mgr 2) st (And 5 2 5) = Abort /\ aig_step (id_mgr 2) st (InputName 1 (ch "b")) <> UB
             /\ aig_step (id_mgr 2) st (InputName 3 (ch "b")) = Abort
  | _ => False
  end.
Proof. vm_compute. repeat split; discriminate. Qed.

(** C72: the operators of Function work on all bits; the access is checked *)
Theorem C72_function_operations : forall (M : mgr) (bits : list bdd) (r : NumberRepresentation) (b : bdd), bits <> [] ->
  exists f, function_make bits r = Ok f /\ num_bits f = length bits /\ (is_signed f = true <-> r = TwosComplement)
    /\ (forall i, (function_get f i = Throw <-> length bits <= i) /\ (forall x, function_get f i = Ok x <-> nth_error bits i = Some x))
    /\ (forall i x, function_get (function_and M f b) i = Ok x <-> exists y, nth_error bits i = Some y /\ x = band M y b)
    /\ (forall i x, function_get (function_or M f b) i = Ok x <-> exists y, nth_error bits i = Some y /\ x = bor M y b)
    /\ num_bits (function_and M f b) = length bits /\ num_bits (function_or M f b) = length bits
    /\ is_signed (function_and M f b) = is_signed f /\ is_signed (function_or M f b) = is_signed f.
Proof. exact function_operations. Qed.
Print Assumptions C72_function_operations.
(** as numbers: the condition selects between the value and 0, or between all ones and the value *)
Theorem C72_function_value : forall (M : mgr) (f : Function_) (b : bdd) (a : asg),
  uval (value (function_and M f b)) a = (if ev b a then uval (value f) a else 0)%Z
  /\ sval (value (function_and M f b)) a = (if ev b a then sval (value f) a else 0)%Z
  /\ uval (value (function_or M f b)) a = (if ev b a then 2 ^ Z.of_nat (num_bits f) - 1 else uval (value f) a)%Z
  /\ (value f <> [] -> sval (value (function_or M f b)) a = (if ev b a then -1 else sval (value f) a)%Z).
Proof. exact function_value. Qed.
Print Assumptions C72_function_value.
Theorem C72_function_write : forall (f : Function_) (i : nat) (b : bdd),
  (function_set f i b = Throw <-> num_bits f <= i)
  /\ (forall f', function_set f i b = Ok f' -> num_bits f' = num_bits f /\ is_signed f' = is_signed f
       /\ forall j, function_get f' j = if j =? i then Ok b else function_get f j)
  /\ (i < num_bits f -> exists f', function_set f i b = Ok f').
Proof. exact function_write. Qed.
Print Assumptions C72_function_write.
Theorem C72_function_empty : forall r : NumberRepresentation, function_make [] r = Abort.
Proof. exact function_empty. Qed.
Print Assumptions C72_function_empty.
Example C72_case : match function_make [bvar 0; bvar 1] TwosComplement with
  | Ok f => sval (value (function_and (id_mgr 3) f (bvar 2))) (fun _ => true) = (-1)%Z
            /\ sval (value (function_or (id_mgr 3) f (bvar 2))) (fun i => i =? 2) = (-1)%Z
            /\ function_get f 2 = Throw /\ function_get f 1 = Ok (bvar 1) /\ is_signed f = true
  | _ => False
  end.
Proof. vm_compute. repeat split. Qed.

(** C73: [split] appends the words of the string *)
Theorem C73_split_words : forall (str : list ascii) (cont result : list (list ascii)),
  split str cont = result <-> exists ws, words_of str ws /\ result = cont ++ ws.
Proof. exact split_words. Qed.
Print Assumptions C73_split_words.
Example C73_case : split (ch "  ab  c d ") [ch "x"] = [ch "x"; ch "ab"; ch "c"; ch "d"] /\ split (ch "   ") [] = [].
Proof. vm_compute. repeat split. Qed.

(** C74: the names of the file. The names given to the manager are wrong if there are several .ilb lines *)
Theorem C74_variable_names_refuted : forall M : mgr, exists (evs : list pla_event) (st : pla),
  pla_run M evs pla_start = Ok st /\ variable_names st <> innames st.
Proof. exact names_wrong. Qed.
Print Assumptions C74_variable_names_refuted.
Theorem C74_variable_names_partial : forall (M : mgr) (evs : list pla_event) (st : pla), pla_run M evs pla_start = Ok st ->
  (exists ni no, Forall2 words_of (values_of "ilb" evs) ni /\ Forall2 words_of (values_of "ob" evs) no
    /\ innames st = concat ni /\ outnames st = concat no)
  /\ (length (values_of "ilb" evs) <= 1 -> variable_names st = innames st).
Proof. exact (fun M evs st => run_names M evs st). Qed.
Print Assumptions C74_variable_names_partial.
Example C74_case : match pla_run (id_mgr 2) [Keyword (ch "ilb") (ch "a b"); Keyword (ch "ob") (ch "f g"); Keyword (ch "type") (ch "fr")] pla_start with
  | Ok st => innames st = [ch "a"; ch "b"] /\ outnames st = [ch "f"; ch "g"] /\ variable_names st = [ch "a"; ch "b"]
  | _ => False
  end.
Proof. vm_compute. repeat split. Qed.
