(** Model of the part of the CUDD decision diagram package used by /repo.

    CUDD is external to the repository (fetched by cmake/AddCudd.cmake), so this
    file is a model of its documented data structure and not of code in /repo.
    BDD nodes carry complement edges; the then edge of a stored node is never
    complemented; the unique table makes pointer equality coincide with structural
    equality, so a node is modelled as a tree. *)
From Coq Require Import List Bool Arith ZArith QArith Lia.
From Verif Require Import Res.
Import ListNotations.
Open Scope nat_scope.

(** An input assignment: the value of every variable index. *)
Definition asg := nat -> bool.

Definition upd (a : asg) (v : nat) (b : bool) : asg :=
  fun i => if i =? v then b else a i.

(** The manager: position of every variable in the current order, and the number
    of variables ([Cudd::ReadSize]). *)
Record mgr := Mgr {
  lv : nat -> nat;
  lv_inj : forall i j, lv i = lv j -> i = j;
  read_size : nat
}.

(** The manager whose variable order is the index order (no reordering). *)
Definition id_mgr (n : nat) : mgr := Mgr (fun i => i) (fun i j H => H) n.

(** Regular nodes and BDDs (edges). The flag of a BDD is [Cudd_IsComplement]. *)
Inductive node :=
| One
| Nd (v : nat) (t : node) (c : bool) (e : node).

Definition bdd : Type := bool * node.

Fixpoint node_eqb (m n : node) : bool :=
  match m, n with
  | One, One => true
  | Nd v t c e, Nd v' t' c' e' =>
      (v =? v') && Bool.eqb c c' && node_eqb t t' && node_eqb e e'
  | _, _ => false
  end.

Definition bdd_eqb (f g : bdd) : bool :=
  Bool.eqb (fst f) (fst g) && node_eqb (snd f) (snd g).

(** Value of a node / BDD under an assignment. *)
Fixpoint evn (n : node) (a : asg) : bool :=
  match n with
  | One => true
  | Nd v t c e => if a v then evn t a else xorb c (evn e a)
  end.

Definition ev (f : bdd) (a : asg) : bool := xorb (fst f) (evn (snd f) a).

Definition bone : bdd := (false, One).
Definition bzero : bdd := (true, One).
(** [Cudd::bddVar(i)] *)
Definition bvar (i : nat) : bdd := (false, Nd i One true One).
(** [BDD::operator!] *)
Definition bnot (f : bdd) : bdd := (negb (fst f), snd f).
(** [BDD::IsZero], [BDD::IsOne] *)
Definition is_zero (f : bdd) : bool := bdd_eqb f bzero.
Definition is_one (f : bdd) : bool := bdd_eqb f bone.

(** unique-table lookup: reduction and complement-edge normalisation *)
Definition mk (v : nat) (t e : bdd) : bdd :=
  if bdd_eqb t e then t
  else if fst t then (true, Nd v (snd t) (negb (fst e)) (snd e))
       else (false, Nd v (snd t) (fst e) (snd e)).

Fixpoint nsize (n : node) : nat :=
  match n with
  | One => 0
  | Nd _ t _ e => S (nsize t + nsize e)
  end.
Definition bsize (f : bdd) : nat := nsize (snd f).

Definition top (f : bdd) : option nat :=
  match snd f with One => None | Nd v _ _ _ => Some v end.

(** cofactors with respect to a variable at or above the top of the BDD *)
Definition cof1 (v : nat) (f : bdd) : bdd :=
  match snd f with
  | One => f
  | Nd w t c e => if w =? v then (fst f, t) else f
  end.
Definition cof0 (v : nat) (f : bdd) : bdd :=
  match snd f with
  | One => f
  | Nd w t c e => if w =? v then (xorb (fst f) c, e) else f
  end.

(** the variable closer to the root *)
Definition upper (M : mgr) (v : nat) (o : option nat) : nat :=
  match o with
  | None => v
  | Some w => if lv M w <? lv M v then w else v
  end.

(** [Cudd_bddIte] *)
Fixpoint ite_fuel (M : mgr) (n : nat) (f g h : bdd) : bdd :=
  match n with
  | O => if fst f then h else g
  | S n' =>
      match snd f with
      | One => if fst f then h else g
      | Nd v _ _ _ =>
          if bdd_eqb g h then g
          else
            let w := upper M (upper M v (top g)) (top h) in
            mk w (ite_fuel M n' (cof1 w f) (cof1 w g) (cof1 w h))
                 (ite_fuel M n' (cof0 w f) (cof0 w g) (cof0 w h))
      end
  end.

Definition ite (M : mgr) (f g h : bdd) : bdd :=
  ite_fuel M (S (bsize f + bsize g + bsize h)) f g h.

(** [BDD::operator&] / [*], [|] / [+], [^] *)
Definition band (M : mgr) (f g : bdd) : bdd := ite M f g bzero.
Definition bor (M : mgr) (f g : bdd) : bdd := ite M f bone g.
Definition bxor (M : mgr) (f g : bdd) : bdd := ite M f (bnot g) g.

(** [Cudd_bddLeq] and [BDD::operator>] (strict containment) *)
Definition bleq (M : mgr) (f g : bdd) : bool := is_zero (band M f (bnot g)).
Definition bgt (M : mgr) (f g : bdd) : bool := negb (bdd_eqb f g) && bleq M g f.

(** [BDD::Cofactor] with a single literal of variable [v] ([b]: the polarity) *)
Fixpoint cofn (M : mgr) (v : nat) (b : bool) (n : node) : bdd :=
  match n with
  | One => bone
  | Nd w t c e =>
      if w =? v then (if b then (false, t) else (c, e))
      else let e' := cofn M v b e in
           mk w (cofn M v b t) (xorb c (fst e'), snd e')
  end.
Definition cofactor (M : mgr) (f : bdd) (v : nat) (b : bool) : bdd :=
  let r := cofn M v b (snd f) in (xorb (fst f) (fst r), snd r).

(** [Cudd_Eval] on an [int] array: a variable counts as true iff its entry is 1;
    reading outside the array is undefined. The result is the constant reached. *)
Fixpoint evaln (n : node) (c : bool) (l : list Z) : res bdd :=
  match n with
  | One => Ok (c, One)
  | Nd v t c' e =>
      x <- vget l v ;;
      if (x =? 1)%Z then evaln t c l else evaln e (xorb c c') l
  end.
Definition Eval (f : bdd) (l : list Z) : res bdd := evaln (snd f) (fst f) l.

(** variables occurring in a node; [BDD::SupportIndices] (ascending),
    [BDD::SupportSize] *)
Fixpoint varsn (n : node) : list nat :=
  match n with
  | One => []
  | Nd v t _ e => v :: varsn t ++ varsn e
  end.
Definition mem (i : nat) (l : list nat) : bool := existsb (Nat.eqb i) l.
Definition list_max0 (l : list nat) : nat := fold_right Nat.max 0 l.
Definition sorted_set (l : list nat) : list nat :=
  match l with
  | [] => []
  | _ => filter (fun i => mem i l) (seq 0 (S (list_max0 l)))
  end.
Definition support (f : bdd) : list nat := sorted_set (varsn (snd f)).
Definition support_size (f : bdd) : nat := length (support f).
(** [Cudd::SupportIndices(vector<BDD>)] *)
Definition support_vec (fs : list bdd) : list nat :=
  sorted_set (flat_map (fun f => varsn (snd f)) fs).

(** [Cudd_CountMinterm]: each level halves the count, leaves count [2^n]. The
    computation is done in exact arithmetic here. *)
Fixpoint fracn (n : node) (c : bool) : Q :=
  match n with
  | One => if c then 0 else 1
  | Nd _ t c' e => fracn t c * (1#2) + fracn e (xorb c c') * (1#2)
  end.
Definition frac (f : bdd) : Q := fracn (snd f) (fst f).
Definition pow2 (n : nat) : Z := 2 ^ Z.of_nat n.
Definition CountMinterm (f : bdd) (n : nat) : Q := frac f * inject_Z (pow2 n).

(** number of distinct nodes of a forest ([Cudd::nodeCount], [Cudd_SharingSize]) *)
Definition node_eq_dec (m n : node) : {m = n} + {m <> n}.
Proof. decide equality; try apply Nat.eq_dec; apply Bool.bool_dec. Defined.
Fixpoint subnodes (n : node) : list node :=
  n :: match n with One => [] | Nd _ t _ e => subnodes t ++ subnodes e end.
Definition nodeCount (fs : list bdd) : nat :=
  length (nodup node_eq_dec (flat_map (fun f => subnodes (snd f)) fs)).

(** Well-formed nodes: ordered with respect to the manager and reduced. *)
Fixpoint okn (M : mgr) (k : nat) (n : node) : Prop :=
  match n with
  | One => True
  | Nd v t c e =>
      k <= lv M v /\ okn M (S (lv M v)) t /\ okn M (S (lv M v)) e
      /\ ~ (c = false /\ t = e)
  end.
Definition wf (M : mgr) (f : bdd) : Prop := okn M 0 (snd f).

(** ** ADDs: no complement edges, numeric leaves. Leaves are kept in lowest terms
    so that leaf equality is equality of rationals. *)
Inductive add :=
| Leaf (q : Q)
| AN (v : nat) (t e : add).

Definition q_eqb (p q : Q) : bool :=
  (Qnum p =? Qnum q)%Z && (Qden p =? Qden q)%positive.

Fixpoint add_eqb (f g : add) : bool :=
  match f, g with
  | Leaf p, Leaf q => q_eqb p q
  | AN v t e, AN v' t' e' => (v =? v') && add_eqb t t' && add_eqb e e'
  | _, _ => false
  end.

Fixpoint aev (f : add) (a : asg) : Q :=
  match f with
  | Leaf q => q
  | AN v t e => if a v then aev t a else aev e a
  end.

(** [Cudd_addConst] *)
Definition aconst (q : Q) : add := Leaf (Qred q).
Definition amk (v : nat) (t e : add) : add := if add_eqb t e then t else AN v t e.

Fixpoint asize (f : add) : nat :=
  match f with Leaf _ => 0 | AN _ t e => S (asize t + asize e) end.
Definition atop (f : add) : option nat :=
  match f with Leaf _ => None | AN v _ _ => Some v end.
Definition acof (b : bool) (v : nat) (f : add) : add :=
  match f with
  | Leaf _ => f
  | AN w t e => if w =? v then (if b then t else e) else f
  end.

(** [Cudd_addApply] *)
Fixpoint apply_fuel (M : mgr) (op : Q -> Q -> Q) (n : nat) (f g : add) : add :=
  match n with
  | O => f
  | S n' =>
      match f, g with
      | Leaf p, Leaf q => aconst (op p q)
      | _, _ =>
          let w := match atop f with
                   | Some v => upper M v (atop g)
                   | None => match atop g with Some w => w | None => 0 end
                   end in
          amk w (apply_fuel M op n' (acof true w f) (acof true w g))
                (apply_fuel M op n' (acof false w f) (acof false w g))
      end
  end.
Definition apply (M : mgr) (op : Q -> Q -> Q) (f g : add) : add :=
  apply_fuel M op (S (asize f + asize g)) f g.

(** [BDD::Add]: the 0/1 ADD of a BDD *)
Fixpoint ton (n : node) (c : bool) : add :=
  match n with
  | One => Leaf (if c then 0 else 1)%Q
  | Nd v t c' e => amk v (ton t c) (ton e (xorb c c'))
  end.
Definition to_add (f : bdd) : add := ton (snd f) (fst f).

(** [ADD::FindMax] *)
Fixpoint amax (f : add) : Q :=
  match f with
  | Leaf q => q
  | AN _ t e => let x := amax t in let y := amax e in
                if Qle_bool x y then y else x
  end.

Fixpoint avars (f : add) : list nat :=
  match f with Leaf _ => [] | AN v t e => v :: avars t ++ avars e end.

Fixpoint aok (M : mgr) (k : nat) (f : add) : Prop :=
  match f with
  | Leaf q => Qred q = q
  | AN v t e => k <= lv M v /\ aok M (S (lv M v)) t /\ aok M (S (lv M v)) e /\ t <> e
  end.
