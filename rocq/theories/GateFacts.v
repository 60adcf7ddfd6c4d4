(** Error rates of the gates after cofactors. *)
From Coq Require Import List Bool Arith ZArith QArith Lia Lqa Permutation.
From Verif Require Import Res Cudd CuddFacts Spec SpecFacts Helpers Metrics MetricsFacts MetricsFacts2 MinimizeFacts3 Examples AdderFacts.
Import ListNotations.
Open Scope nat_scope.

(** [Cofactor] by one literal after the other *)
Definition cofactors (M : mgr) (f : bdd) (l : list (nat * bool)) : bdd := fold_left (fun r p => cofactor M r (fst p) (snd p)) l f.
Definition assign (l : list (nat * bool)) (a : asg) : asg := fold_right (fun p a => upd a (fst p) (snd p)) a l.

Lemma cofactors_spec M l : forall f, wf M f -> wf M (cofactors M f l) /\ forall a, ev (cofactors M f l) a = ev f (assign l a).
Proof.
  unfold cofactors. induction l as [|[v b] l IH]; intros f W; [split; auto|]. cbn [fold_left assign fold_right fst snd].
  destruct (cofactor_spec M f v b W) as [W1 V1]. destruct (IH _ W1) as [W2 V2]. split; auto. intro a. rewrite V2, V1. reflexivity.
Qed.
Lemma assign_out l a i : ~ In i (map fst l) -> assign l a i = a i.
Proof.
  induction l as [|[v b] l IH]; intro H; [reflexivity|]. cbn [assign fold_right fst snd]. unfold upd at 1.
  cbn [map In fst] in H. destruct (Nat.eqb_spec i v); [subst; tauto|]. apply IH. tauto.
Qed.
Lemma assign_in l a i b : NoDup (map fst l) -> In (i, b) l -> assign l a i = b.
Proof.
  induction l as [|[v c] l IH]; intros N H; [easy|]. cbn [map fst] in N. apply NoDup_cons_iff in N as [Nv N].
  cbn [assign fold_right fst snd]. unfold upd at 1. destruct H as [[= -> ->]|H]; [now rewrite Nat.eqb_refl|].
  destruct (Nat.eqb_spec i v) as [->|]; [|now apply IH]. destruct Nv. now apply (in_map fst) in H.
Qed.

(** all variables of a list have the value [b] *)
Definition allv (b : bool) (vs : list nat) (a : asg) : bool := forallb (fun i => Bool.eqb (a i) b) vs.
Lemma allv_ext b vs a a' : (forall i, In i vs -> a i = a' i) -> allv b vs a = allv b vs a'.
Proof.
  induction vs as [|v vs IH]; intro H; [reflexivity|]. cbn [allv forallb]. rewrite (H v (or_introl eq_refl)).
  f_equal. apply IH. intros i Hi. apply H. now right.
Qed.
Lemma average_allv n b vs : NoDup vs -> (forall i, In i vs -> i < n) ->
  (average n (fun a => b2q (allv b vs a)) == 1 / inject_Z (pow2 (length vs)))%Q.
Proof.
  induction vs as [|v vs IH]; intros N H.
  - cbn [length]. unfold allv. cbn [forallb b2q]. rewrite average_const. reflexivity.
  - apply NoDup_cons_iff in N as [Nv N].
    assert (X : extQ (fun a => b2q (allv b (v :: vs) a))).
    { intros a a' E. rewrite (allv_ext b (v :: vs) a a'); [reflexivity|]. intros; apply E. }
    rewrite (average_split n v _ X) by (apply H; now left).
    assert (K : forall c a, allv b (v :: vs) (upd a v c) = Bool.eqb c b && allv b vs a).
    { intros c a. cbn [allv forallb]. unfold upd at 1. rewrite Nat.eqb_refl. f_equal. apply allv_ext. intros i Hi.
      unfold upd. destruct (Nat.eqb_spec i v); [subst; tauto|reflexivity]. }
    assert (I := IH N (fun i Hi => H i (or_intror Hi))).
    assert (P : (inject_Z (pow2 (length (v :: vs))) == 2 * inject_Z (pow2 (length vs)))%Q).
    { cbn [length]. unfold pow2. rewrite Nat2Z.inj_succ, Z.pow_succ_r, inject_Z_mult by lia. reflexivity. }
    rewrite P. pose proof (pow2Q_nz (length vs)).
    assert (E : (1 / (2 * inject_Z (pow2 (length vs))) == (1 # 2) * (1 / inject_Z (pow2 (length vs))))%Q) by (field; auto).
    rewrite E, <- I.
    assert (A1 : (average n (fun a => b2q (allv b (v :: vs) (upd a v true))) == if b then average n (fun a => b2q (allv b vs a)) else 0)%Q).
    { destruct b.
      - apply average_ext. intro a. now rewrite K.
      - rewrite <- (average_const n 0). apply average_ext. intro a. now rewrite K. }
    assert (A2 : (average n (fun a => b2q (allv b (v :: vs) (upd a v false))) == if b then 0 else average n (fun a => b2q (allv b vs a)))%Q).
    { destruct b.
      - rewrite <- (average_const n 0). apply average_ext. intro a. now rewrite K.
      - apply average_ext. intro a. now rewrite K. }
    rewrite A1, A2. destruct b; ring.
Qed.

Definition inb (i : nat) (vs : list nat) : bool := existsb (Nat.eqb i) vs.
Lemma inb_spec i vs : inb i vs = true <-> In i vs.
Proof.
  unfold inb. rewrite existsb_exists. split; [intros (x & Hx & E); apply Nat.eqb_eq in E; now subst|].
  intro H. exists i. split; auto. apply Nat.eqb_refl.
Qed.
Definition rest (n : nat) (vs : list nat) : list nat := filter (fun i => negb (inb i vs)) (seq 0 n).
Lemma rest_length n vs : NoDup vs -> (forall i, In i vs -> i < n) -> length (rest n vs) + length vs = n.
Proof.
  intros N H. assert (L : length (filter (fun i => inb i vs) (seq 0 n)) = length vs).
  { apply Permutation_length, NoDup_Permutation; auto.
    - apply NoDup_filter, seq_NoDup.
    - intro x. rewrite filter_In, in_seq, inb_spec. split; [tauto|]. intro Hx. specialize (H x Hx). split; [lia|auto]. }
  unfold rest. rewrite <- L. clear. rewrite <- (seq_length n 0) at 3. generalize (seq 0 n). intro s.
  induction s as [|x s IH]; [reflexivity|]. cbn [filter]. destruct (inb x vs); cbn [negb length]; lia.
Qed.

Definition literals_below (n : nat) (l : list (nat * bool)) : Prop := NoDup (map fst l) /\ forall p, In p l -> fst p < n.
Lemma fst_below n l : literals_below n l -> forall i, In i (map fst l) -> i < n.
Proof. intros [_ H] i Hi. apply in_map_iff in Hi as (p & <- & Hp). now apply H. Qed.

Lemma allv_assign n b l a : literals_below n l ->
  allv b (seq 0 n) (assign l a) = forallb (fun p => Bool.eqb (snd p) b) l && allv b (rest n (map fst l)) a.
Proof.
  intros [N H]. apply eq_iff_eq_true. rewrite andb_true_iff. unfold allv. rewrite !forallb_forall. split.
  - intro K. split.
    + intros [i c] Hi. specialize (K i). rewrite (assign_in l a i c N Hi) in K. apply K. apply in_seq. specialize (H _ Hi). cbn in H. lia.
    + intros i Hi. unfold rest in Hi. apply filter_In in Hi as [Hi E]. specialize (K i Hi). rewrite assign_out in K; auto.
      intro C. apply inb_spec in C. rewrite C in E. discriminate.
  - intros [K1 K2] i Hi. destruct (inb i (map fst l)) eqn:E.
    + apply inb_spec, in_map_iff in E as ([j c] & Ej & Hp). cbn [fst] in Ej. subst j. rewrite (assign_in l a i c N Hp).
      apply (K1 (i, c) Hp).
    + rewrite assign_out; [|intro C; apply inb_spec in C; congruence]. apply K2. unfold rest. apply filter_In. now rewrite E.
Qed.
Lemma allv_sub n b vs a : allv b (seq 0 n) a = true -> allv b (rest n vs) a = true.
Proof. unfold allv. rewrite !forallb_forall. intros H i Hi. apply H. unfold rest in Hi. now apply filter_In in Hi. Qed.

Lemma b2q_diff x y : (x = true -> y = true) -> (b2q (xorb x y) == b2q y + (-1) * b2q x)%Q.
Proof. destruct x, y; intro H; try reflexivity. now discriminate H. Qed.
Lemma average_gate n b l : literals_below n l ->
  (average n (fun a => b2q (xorb (allv b (seq 0 n) a) (allv b (seq 0 n) (assign l a))))
   == if forallb (fun p => Bool.eqb (snd p) b) l then inject_Z (pow2 (length l) - 1) / inject_Z (pow2 n) else 1 / inject_Z (pow2 n))%Q.
Proof.
  intros H. pose proof (average_allv n b (seq 0 n) (seq_NoDup n 0) ltac:(intros i Hi; apply in_seq in Hi; lia)) as A.
  rewrite seq_length in A. destruct (forallb (fun p => Bool.eqb (snd p) b) l) eqn:E.
  - assert (average n (fun a => b2q (xorb (allv b (seq 0 n) a) (allv b (seq 0 n) (assign l a))))
      == average n (fun a => b2q (allv b (rest n (map fst l)) a) + (-1) * b2q (allv b (seq 0 n) a)))%Q as ->.
    { apply average_ext. intro a. rewrite allv_assign, E by auto. cbn [andb]. apply b2q_diff. apply allv_sub. }
    rewrite average_plus, average_scale, A. rewrite average_allv.
    + pose proof (rest_length n (map fst l) (proj1 H) (fst_below n l H)) as L. rewrite map_length in L.
      set (r := length (rest n (map fst l))) in *. replace n with (r + length l) by lia.
      assert (P : (inject_Z (pow2 (r + length l)) == inject_Z (pow2 r) * inject_Z (pow2 (length l)))%Q).
      { unfold pow2. rewrite Nat2Z.inj_add, Z.pow_add_r, inject_Z_mult by lia. reflexivity. }
      rewrite P. unfold Z.sub. rewrite inject_Z_plus. change (inject_Z (-(1))) with (-1)%Q. pose proof (pow2Q_nz r). pose proof (pow2Q_nz (length l)).
      field. auto.
    + apply NoDup_filter, seq_NoDup.
    + intros i Hi. unfold rest in Hi. apply filter_In in Hi as [Hi _]. apply in_seq in Hi. lia.
  - rewrite <- A. apply average_ext. intro a. rewrite allv_assign, E by auto. cbn [andb]. now rewrite xorb_false_r.
Qed.

Lemma or_allv M n a : ev (or_bdd M n) a = negb (allv false (seq 0 n) a).
Proof.
  apply eq_iff_eq_true. rewrite gate_or, negb_true_iff. split.
  - intros (i & Hi & E). apply not_true_iff_false. unfold allv. rewrite forallb_forall. intro K. specialize (K i ltac:(apply in_seq; lia)).
    rewrite E in K. discriminate.
  - intro K. unfold allv in K. assert (X : existsb (fun i => a i) (seq 0 n) = true).
    { apply not_false_iff_true. intro C. apply not_true_iff_false in K. apply K. apply forallb_forall. intros i Hi.
      destruct (a i) eqn:Ei; auto. assert (existsb (fun i => a i) (seq 0 n) = true) by (apply existsb_exists; eauto). congruence. }
    apply existsb_exists in X as (i & Hi & E). apply in_seq in Hi. exists i. split; [lia|auto].
Qed.
Lemma and_allv M n a : ev (and_bdd M n) a = allv true (seq 0 n) a.
Proof.
  apply eq_iff_eq_true. rewrite gate_and. unfold allv. rewrite forallb_forall. split.
  - intros H i Hi. apply in_seq in Hi. rewrite H by lia. reflexivity.
  - intros H i Hi. specialize (H i ltac:(apply in_seq; lia)). now apply eqb_prop in H.
Qed.
Definition parity_of (n : nat) (a : asg) : bool := Nat.odd (length (filter a (seq 0 n))).
Lemma parity_S n a : parity_of (S n) a = xorb (parity_of n a) (a n).
Proof.
  unfold parity_of. rewrite seq_S, filter_app, app_length. cbn [filter Nat.add]. destruct (a n); cbn [length].
  - rewrite Nat.add_1_r, Nat.odd_succ, <- Nat.negb_odd. now destruct (Nat.odd _).
  - rewrite Nat.add_0_r. now destruct (Nat.odd _).
Qed.
Lemma parity_ext n a a' : (forall i, i < n -> a i = a' i) -> parity_of n a = parity_of n a'.
Proof. induction n as [|n IH]; intro H; [reflexivity|]. rewrite !parity_S, IH, H by auto. reflexivity. Qed.
Lemma parity_upd n a v b : v < n -> parity_of n (upd a v b) = xorb b (parity_of n (upd a v false)).
Proof.
  intro Hv. induction n as [|n IH]; [lia|]. rewrite !parity_S. destruct (Nat.eq_dec v n) as [->|D].
  - rewrite (parity_ext n (upd a n b) (upd a n false)).
    + unfold upd at 2 4. rewrite Nat.eqb_refl. now destruct b, (parity_of n (upd a n false)).
    + intros i Hi. unfold upd. destruct (Nat.eqb_spec i n); [lia|reflexivity].
  - rewrite IH by lia. unfold upd at 2 4. destruct (Nat.eqb_spec n v); [lia|]. now rewrite xorb_assoc.
Qed.
Lemma average_half n v (F : asg -> bool) : v < n -> (forall a a', (forall i, a i = a' i) -> F a = F a') ->
  (forall a, F (upd a v true) = negb (F (upd a v false))) -> (average n (fun a => b2q (F a)) == 1 # 2)%Q.
Proof.
  intros Hv X H. rewrite (average_split n v); auto.
  - rewrite <- average_plus.
    assert (average n (fun a => b2q (F (upd a v true)) + b2q (F (upd a v false))) == average n (fun _ => 1))%Q as ->.
    { apply average_ext. intro a. rewrite H. now destruct (F (upd a v false)). }
    rewrite average_const. reflexivity.
  - intros a a' E. now rewrite (X a a' E).
Qed.
Lemma assign_cons w b l a i : assign ((w, b) :: l) a i = if i =? w then b else assign l a i.
Proof. reflexivity. Qed.
Lemma assign_upd l a v c i : In v (map fst l) -> assign l (upd a v c) i = assign l a i.
Proof.
  intro H. destruct (inb i (map fst l)) eqn:E.
  - clear H. apply inb_spec in E. induction l as [|[w b] l IH]; [easy|]. rewrite !assign_cons.
    destruct (Nat.eqb_spec i w); auto. apply IH. destruct E as [E|E]; [cbn in E; congruence|auto].
  - assert (~ In i (map fst l)) by (intro C; apply inb_spec in C; congruence). rewrite !assign_out by auto.
    unfold upd. destruct (Nat.eqb_spec i v); [subst; tauto|reflexivity].
Qed.
Lemma assign_ext l a a' : (forall i, a i = a' i) -> forall i, assign l a i = assign l a' i.
Proof. intros E. induction l as [|[v b] l IH]; intro i; [apply E|]. rewrite !assign_cons. destruct (i =? v); auto. Qed.
Lemma average_parity n l : literals_below n l -> l <> [] ->
  (average n (fun a => b2q (xorb (parity_of n a) (parity_of n (assign l a)))) == 1 # 2)%Q.
Proof.
  intros H NE. destruct l as [|[v b] l]; [easy|].
  assert (Hv : v < n) by (apply (proj2 H (v, b)); now left).
  apply (average_half n v (fun a => xorb (parity_of n a) (parity_of n (assign ((v, b) :: l) a)))); auto.
  - intros a a' E. f_equal; apply parity_ext; intros; auto. now apply assign_ext.
  - intro a. rewrite (parity_upd n a v true Hv).
    rewrite (parity_ext n (assign ((v, b) :: l) (upd a v true)) (assign ((v, b) :: l) (upd a v false))).
    + now destruct (parity_of n (upd a v false)), (parity_of n (assign ((v, b) :: l) (upd a v false))).
    + intros i _. rewrite !assign_upd; auto; now left.
Qed.

Lemma differ_single f g a : differ [f] [g] a = xorb (ev f a) (ev g a).
Proof. unfold differ. cbn. now destruct (ev f a), (ev g a). Qed.
Lemma gate_rate M n f l : wf M f -> depends_below n f -> literals_below n l ->
  exists q, error_rate_single M f (cofactors M f l) = Ok q
    /\ (q == average n (fun a => b2q (xorb (ev f a) (ev f (assign l a)))))%Q.
Proof.
  intros W D H. destruct (cofactors_spec M l f W) as [Wc V].
  assert (Dc : depends_below n (cofactors M f l)).
  { intros a a' E. rewrite !V. apply D. intros i Hi. clear - E Hi. induction l as [|[v b] l IH]; [now apply E|].
    cbn [assign fold_right fst snd]. unfold upd. destruct (i =? v); auto. }
  destruct (error_rate_full M n [f] [cofactors M f l]) as [K _]; try (constructor; auto; fail).
  destruct (K eq_refl) as (q & E & Eq & _). exists q. split; [exact E|]. rewrite Eq. apply average_ext. intro a.
  now rewrite differ_single, V.
Qed.
Lemma gates_below M n : depends_below n (and_bdd M n) /\ depends_below n (or_bdd M n) /\ depends_below n (xor_bdd M n).
Proof.
  split; [|split]; intros a a' E.
  - rewrite !and_allv. apply allv_ext. intros i Hi. apply in_seq in Hi. apply E. lia.
  - rewrite !or_allv. f_equal. apply allv_ext. intros i Hi. apply in_seq in Hi. apply E. lia.
  - rewrite !gate_xor. apply (parity_ext n a a' E).
Qed.

Lemma gate_rates M n l : NoDup (map fst l) -> (forall p, In p l -> fst p < n) ->
  let k := length l in
  let rate f e := exists q, error_rate_single M f (cofactors M f l) = Ok q /\ (q == e)%Q in
  let grown := (inject_Z (pow2 k - 1) / inject_Z (pow2 n))%Q in
  let one := (1 / inject_Z (pow2 n))%Q in
  ((forall p, In p l -> snd p = false) -> rate (or_bdd M n) grown)
  /\ ((exists p, In p l /\ snd p = true) -> rate (or_bdd M n) one)
  /\ ((forall p, In p l -> snd p = true) -> rate (and_bdd M n) grown)
  /\ ((exists p, In p l /\ snd p = false) -> rate (and_bdd M n) one)
  /\ (l <> [] -> rate (xor_bdd M n) (1 # 2)%Q).
Proof.
  intros N H. assert (L : literals_below n l) by (split; auto). cbn zeta.
  destruct (gates_wf M n) as (Wa & Wo & Wx). destruct (gates_below M n) as (Da & Do & Dx).
  assert (O : exists q, error_rate_single M (or_bdd M n) (cofactors M (or_bdd M n) l) = Ok q
    /\ (q == average n (fun a => b2q (xorb (allv false (seq 0 n) a) (allv false (seq 0 n) (assign l a)))))%Q).
  { destruct (gate_rate M n _ l Wo Do L) as (q & E & Eq). exists q. split; auto. rewrite Eq. apply average_ext. intro a.
    rewrite !or_allv. now destruct (allv false (seq 0 n) a), (allv false (seq 0 n) (assign l a)). }
  assert (A : exists q, error_rate_single M (and_bdd M n) (cofactors M (and_bdd M n) l) = Ok q
    /\ (q == average n (fun a => b2q (xorb (allv true (seq 0 n) a) (allv true (seq 0 n) (assign l a)))))%Q).
  { destruct (gate_rate M n _ l Wa Da L) as (q & E & Eq). exists q. split; auto. rewrite Eq. apply average_ext. intro a.
    now rewrite !and_allv. }
  destruct O as (qo & Eo & Vo). destruct A as (qa & Ea & Va).
  rewrite (average_gate n false l L) in Vo. rewrite (average_gate n true l L) in Va.
  split; [|split; [|split; [|split]]].
  - intro K. exists qo. split; auto.
    replace (forallb (fun p => Bool.eqb (snd p) false) l) with true in Vo; auto.
    symmetry. apply forallb_forall. intros p Hp. rewrite (K p Hp). reflexivity.
  - intros (p & Hp & Kp). exists qo. split; auto.
    replace (forallb (fun p => Bool.eqb (snd p) false) l) with false in Vo; auto.
    symmetry. apply not_true_iff_false. rewrite forallb_forall. intro C. specialize (C p Hp). rewrite Kp in C. discriminate.
  - intro K. exists qa. split; auto.
    replace (forallb (fun p => Bool.eqb (snd p) true) l) with true in Va; auto.
    symmetry. apply forallb_forall. intros p Hp. rewrite (K p Hp). reflexivity.
  - intros (p & Hp & Kp). exists qa. split; auto.
    replace (forallb (fun p => Bool.eqb (snd p) true) l) with false in Va; auto.
    symmetry. apply not_true_iff_false. rewrite forallb_forall. intro C. specialize (C p Hp). rewrite Kp in C. discriminate.
  - intro NE. destruct (gate_rate M n _ l Wx Dx L) as (q & E & Eq). exists q. split; auto. rewrite Eq.
    rewrite <- (average_parity n l L NE). apply average_ext. intro a. now rewrite !gate_xor.
Qed.
