(** The assertions of /repo/tests evaluated on the model. These are tests of the model, not
    proofs of properties. The managers have the identity order; [bvar] extends them on demand as
    in CUDD. *)
From Coq Require Import Ascii String List Bool Arith ZArith QArith.
From Verif Require Import Res Cudd Spec Helpers Counting Metrics RelMetrics Operators Examples FromPapers Parsing.
Import ListNotations.
Open Scope nat_scope.

Definition eq_vec (f g : list bdd) : bool := (List.length f =? List.length g) && forallb (fun p => bdd_eqb (fst p) (snd p)) (combine f g).
Definition ok_q (r : res Q) (q : Q) : bool := match r with Ok p => Qeq_bool p q | _ => false end.
Definition ok_num (r : res num) (q : Q) : bool := match r with Ok (Fin p) => Qeq_bool p q | _ => false end.
Definition ok_vec (r : res (list bdd)) (g : list bdd) : bool := match r with Ok f => eq_vec f g | _ => false end.

(** CUDD's cuddBddConstrainRecur (cuddGenCof.c): the tests call [Constrain], the code does not *)
Fixpoint constrain_fuel (M : mgr) (n : nat) (f c : bdd) : bdd :=
  match n with
  | O => f
  | S n' =>
      if is_one c then f
      else if is_zero c then bzero
      else if is_one f || is_zero f then f
      else if bdd_eqb f c then bone
      else if bdd_eqb f (bnot c) then bzero
      else
        let v := match top f with Some x => upper M x (top c) | None => 0 end in
        if is_zero (cof1 v c) then constrain_fuel M n' (cof0 v f) (cof0 v c)
        else if is_zero (cof0 v c) then constrain_fuel M n' (cof1 v f) (cof1 v c)
        else mk v (constrain_fuel M n' (cof1 v f) (cof1 v c)) (constrain_fuel M n' (cof0 v f) (cof0 v c))
  end.
Definition constrain (M : mgr) (f c : bdd) : bdd := constrain_fuel M (bsize f + bsize c) f c.
(** [Cofactor] by a cube of literals *)
Definition cofactor_cube (M : mgr) (f : bdd) (l : list (nat * bool)) : bdd :=
  fold_left (fun r p => cofactor M r (fst p) (snd p)) l f.

(** ** approximation_operations_test.cpp *)
(** lines 24-45 *)
Example test_asp_dac_rounding : let M := id_mgr 4 in
  ok_vec (mapM (fun b => round_down M b 2 4) (example1a M)) (example1b M)
  && ok_vec (mapM (fun b => round_up M b 2 4) (example1a M)) (example1c M)
  && ok_vec (mapM (fun b => round_bdd M b 2) (example1a M)) (example1d M) = true.
Proof. vm_compute. reflexivity. Qed.

(** ** error_metrics_test.cpp *)
(** lines 20-55 *)
Example test_error_rate : let M := id_mgr 3 in
  let x := bvar 0 in let y := bvar 1 in let z := bvar 2 in
  let and_bdd := band M (band M x y) z in
  let a1 := constrain M and_bdd y in
  let a2 := constrain M a1 x in
  let a3 := constrain M a2 z in
  ok_q (error_rate_single M and_bdd a1) (1 # 8) && ok_q (error_rate_single M and_bdd a2) (3 # 8)
  && ok_q (error_rate_single M and_bdd a3) (7 # 8) = true.
Proof. vm_compute. reflexivity. Qed.
(** lines 61-74 *)
Example test_max_value : get_max_value (id_mgr 2) (example3 (id_mgr 2)) = 13%Z.
Proof. vm_compute. reflexivity. Qed.
(** lines 87-124, for three of the thirty numbers of restricted variables: all numbers are in C111 *)
Definition constrain_steps (M : mgr) (neg : bool) (f : bdd) (n : nat) : bdd :=
  fold_left (fun r i => constrain M r (if neg then bnot (bvar i) else bvar i)) (seq 0 n) f.
Example test_or_constrain : let M := id_mgr 30 in let f := or_bdd M 30 in
  ok_q (error_rate_single M f f) 0
  && forallb (fun i =>
       ok_q (error_rate_single M f (constrain_steps M true f (S i))) (inject_Z (pow2 (S i) - 1) / inject_Z (pow2 30))
       && ok_q (error_rate_single M f (constrain_steps M false f (S i))) (1 / inject_Z (pow2 30))) [0; 14; 29] = true.
Proof. vm_compute. reflexivity. Qed.
(** lines 128-160, for three of the twenty numbers *)
Example test_and_constrain : let M := id_mgr 20 in let f := and_bdd M 20 in
  ok_q (error_rate_single M f f) 0
  && forallb (fun i =>
       let p := constrain_steps M false f (S i) in
       let e := (inject_Z (pow2 (S i) - 1) / inject_Z (pow2 20))%Q in
       ok_q (error_rate_single M f p) e && ok_q (error_rate_single M f (constrain M p (bnot (bvar i)))) e) [0; 9; 19] = true.
Proof. vm_compute. reflexivity. Qed.
(** lines 163-172 *)
Example test_average_case_error : ok_num (average_case_error (id_mgr 3) [bone; bone] [bzero; bzero] BaseTwo) 3 = true.
Proof. vm_compute. reflexivity. Qed.
(** lines 174-212; the vectors of equal length built in lines 176-181 are not used by the test. [wcre_search] (line 196) is left out
    here, the exact fractions of its bisection are too long for the conversion of the independent checker; it is
    evaluated in the examples beside its theorems. *)
Definition check_wcr_values (f g : list bdd) (desired_wcr : Z) : bool :=
  let M := id_mgr 256 in
  let clog2 := fun z => Z.to_nat (Z.log2_up z) in
  match wcre_randomized_search M clog2 100 (fun i => Z.of_nat (37 * i mod 101)) f g 1 BaseTwo 100 with
     | Some (Ok (c, d)) => (desired_wcr * d =? c)%Z | _ => false end
  && ok_q (wcre_symbolic_division M f g 16 BaseTwo) (inject_Z desired_wcr)
  && ok_q (wcre_add M f g BaseTwo) (inject_Z desired_wcr).
Example test_wcr_values :
  forallb (fun f2val => check_wcr_values (number_to_bdds 1) (number_to_bdds (f2val + 1)) f2val) [0; 1; 5; 21; 1232345]%Z
  && check_wcr_values (number_to_bdds 0) (number_to_bdds 1) 1
  && check_wcr_values (number_to_bdds 3) (number_to_bdds 18) 5 = true.
Proof. vm_compute. reflexivity. Qed.

(** ** operations_test.cpp *)
(** lines 8-42 *)
Example test_children : let M := id_mgr 2 in
  match example3 M with
  | [f0; _; _; _; f4] => high f0 = Ok bzero /\ low f0 = Ok (bnot (bvar 1)) /\ low f4 = Throw /\ high f4 = Throw
  | _ => False
  end.
Proof. vm_compute. auto. Qed.
(** lines 114-150 *)
Example test_cofactor : let M := id_mgr 3 in
  let x := bvar 0 in let y := bvar 1 in
  let o := bor M x y in let a := band M x y in
  is_one (cofactor M o 0 true) && negb (is_zero (cofactor M o 0 true)) && negb (is_one (cofactor M a 0 true))
  && negb (is_zero (cofactor M a 0 true)) && negb (is_one (cofactor M o 0 false)) && negb (is_zero (cofactor M o 0 false))
  && negb (is_one (cofactor M a 0 false)) && is_zero (cofactor M a 0 false) = true.
Proof. vm_compute. reflexivity. Qed.
(** lines 152-206, for four of the thirty cubes; the loop over [i] only bounds [j]. The function called xor_bdd there is zero. *)
Example test_constrain_cofactor : let M := id_mgr 30 in
  forallb (fun j =>
    forallb (fun b =>
      let cube := fold_left (fun r k => band M r (if b : bool then bvar k else bnot (bvar k))) (seq 0 (S j)) bone in
      forallb (fun f => bdd_eqb (constrain M f cube) (cofactor_cube M f (map (fun k => (k, b)) (seq 0 (S j)))))
        [or_bdd M 30; and_bdd M 30; bzero]) [true; false]) [0; 1; 14; 29] = true.
Proof. vm_compute. reflexivity. Qed.

(** ** function_test.cpp *)
(** lines 7-23 *)
Example test_function_index :
  match function_make [bone; bvar 1] BaseTwo with
  | Ok f => function_get f 0 = Ok bone /\ function_get f 1 = Ok (bvar 1)
      /\ match function_set f 0 (bvar 2) with
         | Ok g => function_get g 0 = Ok (bvar 2) /\ function_get g 1 = Ok (bvar 1)
         | _ => False
         end
  | _ => False
  end.
Proof. vm_compute. auto. Qed.
(** lines 25-71: the variants with assignment compute the same *)
Example test_function_and_or : let M := id_mgr 3 in
  match function_make [bvar 0; bvar 1] BaseTwo with
  | Ok f =>
      function_get (function_and M f (bvar 2)) 0 = Ok (band M (bvar 0) (bvar 2)) /\ function_get (function_and M f (bvar 2)) 1 = Ok (band M (bvar 1) (bvar 2))
      /\ function_get (function_or M f (bvar 2)) 0 = Ok (bor M (bvar 0) (bvar 2)) /\ function_get (function_or M f (bvar 2)) 1 = Ok (bor M (bvar 1) (bvar 2))
  | _ => False
  end.
Proof. vm_compute. auto. Qed.
(** lines 73-90 *)
Example test_function_bits_sign : let f := bvar 1 in
  match function_make [f; f; f; f] BaseTwo, function_make [f; f] BaseTwo, function_make [f; f] TwosComplement with
  | Ok f4, Ok fu, Ok fs => num_bits f4 = 4 /\ is_signed fu = false /\ is_signed fs = true
  | _, _, _ => False
  end.
Proof. vm_compute. auto. Qed.

(** ** parsing_test.cpp: the events of the three files in the order of the lines *)
Definition or_pla : list pla_event :=
  [Inputs 2; Outputs 1; Terms 3; Keyword (ch "ilb") (ch "a b"); Keyword (ch "ob") (ch "f");
   Term (ch "01") (ch "1"); Term (ch "10") (ch "1"); Term (ch "11") (ch "1")].
Definition funs_pla : list pla_event :=
  [Keyword (ch "ilb") (ch "x y"); Keyword (ch "ob") (ch "or and id_y"); Inputs 2; Outputs 3;
   Term (ch "01") (ch "101"); Term (ch "10") (ch "100"); Term (ch "11") (ch "111")].
Definition dc_pla : list pla_event :=
  [Keyword (ch "ilb") (ch "x y"); Keyword (ch "ob") (ch "f "); Inputs 2; Outputs 1;
   Term (ch "00") (ch "1"); Term (ch "01") (ch "0"); Term (ch "1-") (ch "1")].
(** lines 14-52 *)
Example test_or_pla :
  match pla_run (id_mgr 2) or_pla pla_start with
  | Ok st => innames st = [ch "a"; ch "b"] /\ outnames st = [ch "f"] /\ variable_names st = [ch "a"; ch "b"]
      /\ match output_bdds st with
         | [f] => nodeCount [f] = 3 /\ support_size f = 2
         | _ => False
         end
  | _ => False
  end.
Proof. vm_compute. repeat split. Qed.
(** lines 54-95 *)
Example test_funs_pla :
  match pla_run (id_mgr 2) funs_pla pla_start with
  | Ok st => innames st = [ch "x"; ch "y"] /\ outnames st = [ch "or"; ch "and"; ch "id_y"] /\ variable_names st = [ch "x"; ch "y"]
      /\ match output_bdds st with
         | [f; g; h] => nodeCount [f] = 3 /\ nodeCount [g] = 3 /\ nodeCount [h] = 2 /\ nodeCount [f; g; h] = 4
             /\ support_size f = 2 /\ support_size g = 2 /\ support_size h = 1
         | _ => False
         end
  | _ => False
  end.
Proof. vm_compute. repeat split. Qed.
(** lines 97-124 *)
Example test_dc_pla :
  match pla_run (id_mgr 2) dc_pla pla_start with
  | Ok st => match output_bdds st with
             | [f] => map (fun l => Eval f l) [[0; 0]; [0; 1]; [1; 0]; [1; 1]]%Z = [Ok bone; Ok bzero; Ok bone; Ok bone]
             | _ => False
             end
  | _ => False
  end.
Proof. vm_compute. reflexivity. Qed.
