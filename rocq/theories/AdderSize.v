(** The number of nodes of the exact adder in the index order (lowest bits first). *)
From Coq Require Import List Bool Arith ZArith Lia.
From Verif Require Import Res Cudd CuddFacts Spec SpecFacts Helpers HelpersFacts Examples AdderFacts.
Import ListNotations.
Open Scope nat_scope.

(** ** the nodes
    [b] is the node of the function wanted if the carry into position [i + d] is one, its complement
    is the function for carry zero. [hi] and [lo]: the nodes for the carries one and zero into
    position [i]; [mid]: exactly one of the carry into [i] and the first operand is one. *)
Fixpoint chain (b : node) (d i : nat) : node * node :=
  match d with
  | O => (b, b)
  | S d' =>
      let '(n1, n0) := chain b d' (S i) in
      let t := Nd (2 * i + 1) n1 (d' =? 0) n0 in
      (Nd (2 * i) n1 false t, Nd (2 * i) t (d' =? 0) n0)
  end.
Definition hi b d i := fst (chain b d i).
Definition lo b d i := snd (chain b d i).
Definition mid b d i := Nd (2 * i + 1) (hi b d (S i)) (d =? 0) (lo b d (S i)).
Lemma hi_S b d i : hi b (S d) i = Nd (2 * i) (hi b d (S i)) false (mid b d i).
Proof. unfold hi, mid, lo, hi. cbn [chain]. destruct (chain b d (S i)) as [n1 n0]. reflexivity. Qed.
Lemma lo_S b d i : lo b (S d) i = Nd (2 * i) (mid b d i) (d =? 0) (lo b d (S i)).
Proof. unfold hi, mid, lo, hi. cbn [chain]. destruct (chain b d (S i)) as [n1 n0]. reflexivity. Qed.

(** the carry into position [i + d] for carry [c] into position [i] *)
Fixpoint carry_on (x y : nat -> bool) (d i : nat) (c : bool) : bool :=
  match d with O => c | S d' => carry_on x y d' (S i) (maj (x i) (y i) c) end.
Lemma carry_on_last x y d i c : carry_on x y (S d) i c = maj (x (i + d)) (y (i + d)) (carry_on x y d i c).
Proof.
  revert i c. induction d as [|d IH]; intros i c; [cbn [carry_on]; rewrite Nat.add_0_r; reflexivity|].
  change (carry_on x y (S (S d)) i c) with (carry_on x y (S d) (S i) (maj (x i) (y i) c)). rewrite IH.
  replace (i + S d) with (S i + d) by lia. reflexivity.
Qed.
Lemma carry_on_cf x y d : carry_on x y d 0 false = cf x y 0 d.
Proof.
  induction d as [|d IH]; [reflexivity|]. rewrite carry_on_last, IH. cbn [cf]. change (d <? 0) with false. reflexivity.
Qed.

Lemma chain_ev b a : forall d i,
  evn (hi b d i) a = xorb (negb (carry_on (op1 a) (op2 a) d i true)) (evn b a)
  /\ xorb (d =? 0) (evn (lo b d i) a) = xorb (negb (carry_on (op1 a) (op2 a) d i false)) (evn b a).
Proof.
  induction d as [|d IH]; intro i.
  - unfold hi, lo. cbn [chain fst snd carry_on negb Nat.eqb]. rewrite xorb_false_l. split; reflexivity.
  - destruct (IH (S i)) as [H1 H0]. rewrite hi_S, lo_S. cbn [Nat.eqb evn carry_on]. rewrite xorb_false_l.
    assert (T : evn (mid b d i) a = if a (2 * i + 1) then evn (hi b d (S i)) a else xorb (d =? 0) (evn (lo b d (S i)) a)) by reflexivity.
    rewrite T, H1, H0. change (op1 a i) with (a (2 * i)). change (op2 a i) with (a (2 * i + 1)).
    destruct (a (2 * i)), (a (2 * i + 1)); cbn [maj andb orb]; rewrite ?xorb_false_l; split; reflexivity.
Qed.

(** ** they are reduced and ordered *)
Section Order.
Variable M : mgr.
Hypothesis HM : index_order M.
Lemma chain_ok b : forall d i, okn M (2 * (i + d)) b ->
  okn M (2 * i) (hi b d i) /\ okn M (2 * i) (lo b d i) /\ (hi b d i = lo b d i -> d = 0).
Proof.
  induction d as [|d IH]; intros i Hb.
  - unfold hi, lo. cbn [chain fst snd]. rewrite Nat.add_0_r in Hb. auto.
  - destruct (IH (S i)) as (H1 & H0 & Hne); [replace (S i + d) with (i + S d) by lia; exact Hb|].
    assert (Up : forall n k k', k <= k' -> okn M k' n -> okn M k n).
    { intros [|v t c e] k k' L; cbn [okn]; [auto|]. intros (A & B). split; [lia|exact B]. }
    assert (T : okn M (S (2 * i)) (mid b d i)).
    { unfold mid. cbn [okn]. rewrite HM. replace (S (2 * i + 1)) with (2 * S i) by lia. split; [lia|]. split; [exact H1|]. split; [exact H0|].
      intros [E1 E2]. apply Hne in E2. subst d. discriminate E1. }
    assert (Tv : forall n, okn M (2 * S i) n -> n <> mid b d i).
    { intros n Hn ->. unfold mid in Hn. cbn [okn] in Hn. rewrite HM in Hn. lia. }
    rewrite hi_S, lo_S. split; [|split].
    + cbn [okn]. rewrite HM. split; [lia|]. split; [apply Up with (k' := 2 * S i); [lia|exact H1]|]. split; [exact T|].
      intros [_ E]. exact (Tv _ H1 E).
    + cbn [okn]. rewrite HM. split; [lia|]. split; [exact T|]. split; [apply Up with (k' := 2 * S i); [lia|exact H0]|].
      intros [_ E]. exact (Tv _ H0 (eq_sym E)).
    + intro E. injection E as E1 _ _. exfalso. exact (Tv _ H1 E1).
Qed.
End Order.

(** the last operand and the complement of the exclusive or of the operands at position [k] *)
Definition yn (k : nat) : node := Nd (2 * k + 1) One true One.
Definition xn (k : nat) : node := Nd (2 * k) (yn k) true (yn k).

Definition adder_bdds (N : nat) : list bdd :=
  map (fun k => (k =? 0, lo (xn k) k 0)) (seq 0 N) ++ [(N =? 0, lo One N 0)].

Lemma xn_ev k a : evn (xn k) a = negb (xorb (op1 a k) (op2 a k)).
Proof. cbn [xn yn evn]. unfold op1, op2. destruct (a (2 * k)), (a (2 * k + 1)); reflexivity. Qed.

Lemma adder_explicit M N r : index_order M -> Forall (wf M) r -> length r = N + 1 ->
  (forall a, uval r a = (number N (op1 a) + number N (op2 a))%Z) -> r = adder_bdds N.
Proof.
  intros HM W L V.
  assert (B : forall i a, i <= N -> ev (nth i r bzero) a = sum_bit N (op1 a) (op2 a) i).
  { intros i a Hi. rewrite <- exact_testbit by exact Hi. rewrite <- V, uval_number, L, number_testbit by lia. reflexivity. }
  assert (LL : length (adder_bdds N) = N + 1) by (unfold adder_bdds; rewrite app_length, map_length, seq_length; reflexivity).
  apply (nth_ext _ _ bzero bzero); [lia|]. intros i Hi. rewrite L in Hi.
  apply (canonical M).
  - rewrite Forall_forall in W. apply W, nth_In. lia.
  - unfold adder_bdds. destruct (Nat.eq_dec i N) as [->|Hn].
    + rewrite app_nth2; rewrite map_length, seq_length; [|lia]. rewrite Nat.sub_diag. cbn [nth]. unfold wf. cbn [snd].
      change 0 with (2 * 0) at 1. apply (chain_ok M HM One N 0); exact I.
    + rewrite app_nth1; [|rewrite map_length, seq_length; lia].
      rewrite (nth_indep _ bzero ((fun k => (k =? 0, lo (xn k) k 0)) 0)) by (rewrite map_length, seq_length; lia).
      rewrite (map_nth (fun k => (k =? 0, lo (xn k) k 0))), seq_nth by lia. cbn [Nat.add]. unfold wf. cbn [snd].
      change 0 with (2 * 0) at 1. apply (chain_ok M HM (xn i) i 0).
      cbn [xn yn okn]. rewrite !HM. repeat split; try lia; intros [E _]; discriminate E.
  - intro a. rewrite B by lia. unfold sum_bit, adder_bdds. destruct (Nat.eq_dec i N) as [->|Hn].
    + rewrite app_nth2; rewrite map_length, seq_length; [|lia]. rewrite Nat.sub_diag, Nat.ltb_irrefl. cbn [nth]. unfold ev. cbn [fst snd].
      destruct (chain_ev One a N 0) as [_ E]. rewrite E, carry_on_cf. cbn [evn]. destruct (cf _ _ 0 N); reflexivity.
    + rewrite app_nth1; [|rewrite map_length, seq_length; lia].
      rewrite (nth_indep _ bzero ((fun k => (k =? 0, lo (xn k) k 0)) 0)) by (rewrite map_length, seq_length; lia).
      rewrite (map_nth (fun k => (k =? 0, lo (xn k) k 0))), seq_nth by lia. cbn [Nat.add]. unfold ev. cbn [fst snd].
      destruct (chain_ev (xn i) a i 0) as [_ E]. rewrite E, carry_on_cf, xn_ev.
      destruct (Nat.ltb_spec i N); [|lia]. destruct (op1 a i), (op2 a i), (cf _ _ 0 i); reflexivity.
Qed.

(** ** counting them *)
Fixpoint chain_nodes (b : node) (d i : nat) : list node :=
  match d with
  | O => []
  | S d' => hi b (S d') i :: lo b (S d') i :: mid b d' i :: chain_nodes b d' (S i)
  end.
Definition output_nodes (b : node) (d : nat) : list node :=
  match d with O => [] | S d' => lo b (S d') 0 :: mid b d' 0 :: chain_nodes b d' 1 end.
(** without the last operand, which is shared with the last sum bit *)
Fixpoint carry_nodes (d i : nat) : list node :=
  match d with
  | O => []
  | S d' => hi One (S d') i :: lo One (S d') i :: (if d' =? 0 then [] else [mid One d' i]) ++ carry_nodes d' (S i)
  end.
Definition carry_output_nodes (d : nat) : list node :=
  match d with O => [] | S d' => lo One (S d') 0 :: (if d' =? 0 then [] else [mid One d' 0]) ++ carry_nodes d' 1 end.
Definition block (k : nat) : list node := yn k :: xn k :: output_nodes (xn k) k.
Definition adder_nodes (N : nat) : list node := One :: flat_map block (seq 0 N) ++ carry_output_nodes N.

Lemma subnodes_chain b n : forall d i,
  (In n (subnodes (hi b d i)) \/ In n (subnodes (lo b d i))) <-> In n (chain_nodes b d i) \/ In n (subnodes b).
Proof.
  induction d as [|d IH]; intro i.
  - unfold hi, lo. cbn [chain fst snd chain_nodes In]. tauto.
  - specialize (IH (S i)). rewrite hi_S at 1. rewrite lo_S at 1. cbn [subnodes chain_nodes In].
    assert (T : In n (subnodes (mid b d i)) <-> n = mid b d i \/ In n (subnodes (hi b d (S i))) \/ In n (subnodes (lo b d (S i)))).
    { unfold mid at 1. cbn [subnodes In]. rewrite in_app_iff. unfold mid. intuition congruence. }
    rewrite !in_app_iff, T, <- hi_S, <- lo_S. intuition congruence.
Qed.
Lemma subnodes_output b n d : In n (subnodes (lo b d 0)) <-> In n (output_nodes b d) \/ In n (subnodes b).
Proof.
  destruct d as [|d]; [unfold lo; cbn [chain fst snd output_nodes In]; tauto|].
  pose proof (subnodes_chain b n d 1) as H. rewrite lo_S at 1. cbn [subnodes output_nodes In].
  assert (T : In n (subnodes (mid b d 0)) <-> n = mid b d 0 \/ In n (subnodes (hi b d 1)) \/ In n (subnodes (lo b d 1))).
  { unfold mid at 1. cbn [subnodes In]. rewrite in_app_iff. unfold mid. intuition congruence. }
  rewrite in_app_iff, T, <- lo_S. intuition congruence.
Qed.
Lemma carry_nodes_in n : forall d i, 0 < d -> In n (chain_nodes One d i) <-> In n (carry_nodes d i) \/ n = yn (i + d - 1).
Proof.
  induction d as [|d IH]; intros i Hd; [lia|]. cbn [chain_nodes carry_nodes In]. destruct d as [|d].
  - cbn [Nat.eqb app chain_nodes carry_nodes In]. replace (i + 1 - 1) with i by lia. change (mid One 0 i) with (yn i). intuition congruence.
  - rewrite IH by lia. cbn [Nat.eqb app In]. replace (S i + S d - 1) with (i + S (S d) - 1) by lia. tauto.
Qed.
Lemma carry_output_in n d : 0 < d -> In n (output_nodes One d) <-> In n (carry_output_nodes d) \/ n = yn (d - 1).
Proof.
  destruct d as [|d]; [lia|]. intros _. cbn [output_nodes carry_output_nodes In]. destruct d as [|d].
  - cbn [Nat.eqb app chain_nodes carry_nodes In]. change (mid One 0 0) with (yn (1 - 1)). intuition congruence.
  - rewrite carry_nodes_in by lia. cbn [Nat.eqb app In]. replace (1 + S d - 1) with (S (S d) - 1) by lia. tauto.
Qed.

Lemma adder_subnodes N n : 0 < N -> In n (flat_map (fun f => subnodes (snd f)) (adder_bdds N)) <-> In n (adder_nodes N).
Proof.
  intro HN. unfold adder_bdds, adder_nodes. rewrite flat_map_app, in_app_iff. cbn [flat_map snd In]. rewrite app_nil_r, in_app_iff.
  rewrite subnodes_output, carry_output_in by exact HN. cbn [subnodes In].
  assert (E : In n (flat_map (fun f => subnodes (snd f)) (map (fun k => (k =? 0, lo (xn k) k 0)) (seq 0 N)))
              <-> In n (flat_map block (seq 0 N)) \/ n = One).
  { rewrite !in_flat_map. split.
    - intros (f & Hf & H). apply in_map_iff in Hf. destruct Hf as (k & <- & Hk). cbn [snd] in H. apply subnodes_output in H.
      destruct H as [H|H]; [left; exists k; split; [exact Hk|right; right; exact H]|]. 
      assert (X : n = xn k \/ n = yn k \/ n = One).
      { assert (L : subnodes (xn k) = [xn k; yn k; One; One; yn k; One; One]) by reflexivity. rewrite L in H. cbn [In] in H.
        repeat (destruct H as [H|H]; [subst n; auto|]). destruct H. }
      destruct X as [X|[X|X]]; [left; exists k; split; [exact Hk|right; left; auto]|left; exists k; split; [exact Hk|left; auto]|right; exact X].
    - intros H.
      assert (X : exists k, In k (seq 0 N) /\ (In n (output_nodes (xn k) k) \/ In n (subnodes (xn k)))).
      { destruct H as [(k & Hk & [H|[H|H]])|H].
        - exists k. split; [exact Hk|]. right. cbn [xn yn subnodes app In]. unfold yn in H. intuition.
        - exists k. split; [exact Hk|]. right. left. exact H.
        - exists k. split; [exact Hk|]. left. exact H.
        - exists 0. split; [apply in_seq; lia|]. right. cbn [xn yn subnodes app In]. intuition. }
      destruct X as (k & Hk & X). exists (k =? 0, lo (xn k) k 0). split; [apply in_map_iff; exists k; split; [reflexivity|exact Hk]|].
      cbn [snd]. apply subnodes_output. exact X. }
  rewrite E.
  assert (Y : n = yn (N - 1) -> In n (flat_map block (seq 0 N))).
  { intros ->. apply in_flat_map. exists (N - 1). split; [apply in_seq; lia|left; reflexivity]. }
  split.
  - intros [[H|H]|[[H|H]|[H|[]]]]; auto.
  - intros [H|[H|H]]; auto.
Qed.

(** distinct: by the variable of the node and the last variable on the path of then edges *)
Definition topv (n : node) : nat := match n with One => 0 | Nd v _ _ _ => v end.
Fixpoint lastv (n : node) : nat := match n with One => 0 | Nd v One _ _ => v | Nd _ t _ _ => lastv t end.
Lemma lastv_step v t c e : t <> One -> lastv (Nd v t c e) = lastv t.
Proof. destruct t; [congruence|reflexivity]. Qed.
Lemma hi_not_one b d i : b <> One -> hi b d i <> One.
Proof. intro H. destruct d; [exact H|]. rewrite hi_S. discriminate. Qed.
Lemma chain_last b : b <> One -> forall d i, lastv (hi b d i) = lastv b /\ lastv (mid b d i) = lastv b /\ lastv (lo b d i) = lastv b.
Proof.
  intros H d. induction d as [|d IH]; intro i.
  - unfold hi, lo, mid. cbn [chain fst snd]. rewrite lastv_step by exact H. auto.
  - assert (E : lastv (hi b (S d) i) = lastv b).
    { rewrite hi_S, lastv_step by (apply hi_not_one; exact H). apply IH. }
    assert (E' : forall j, lastv (hi b (S d) j) = lastv b).
    { intro j. rewrite hi_S, lastv_step by (apply hi_not_one; exact H). apply IH. }
    split; [exact E|]. split.
    + unfold mid. rewrite lastv_step by (apply hi_not_one; exact H). apply E'.
    + rewrite lo_S, lastv_step by discriminate. apply IH.
Qed.
Lemma carry_last d : forall i, lastv (hi One (S d) i) = 2 * (i + d).
Proof.
  induction d as [|d IH]; intro i; [unfold hi; cbn [chain fst lastv]; lia|].
  rewrite hi_S, lastv_step, IH by (rewrite hi_S; discriminate). lia.
Qed.

Lemma chain_tops b n : forall d i, In n (chain_nodes b d i) -> n <> One /\ 2 * i <= topv n < 2 * (i + d).
Proof.
  induction d as [|d IH]; intro i; [intros []|]. cbn [chain_nodes In]. intros [<-|[<-|[<-|H]]].
  - rewrite hi_S. cbn [topv]. split; [discriminate|lia].
  - rewrite lo_S. cbn [topv]. split; [discriminate|lia].
  - unfold mid. cbn [topv]. split; [discriminate|lia].
  - destruct (IH (S i) H). split; [assumption|lia].
Qed.
Fixpoint plen (n : node) : nat := match n with One => 0 | Nd _ t _ _ => S (plen t) end.
Lemma hi_plen b : forall d i, plen (hi b d i) = d + plen b.
Proof. induction d as [|d IH]; intro i; [reflexivity|]. rewrite hi_S. cbn [plen]. rewrite IH. reflexivity. Qed.
Lemma hi_lo b d i : hi b (S d) i <> lo b (S d) i.
Proof.
  intro E. apply (f_equal plen) in E. rewrite lo_S, hi_plen in E. cbn [plen] in E. unfold mid in E. cbn [plen] in E. rewrite hi_plen in E. lia.
Qed.
Lemma chain_nodup b : forall d i, NoDup (chain_nodes b d i).
Proof.
  induction d as [|d IH]; intro i; cbn [chain_nodes]; [constructor|].
  assert (Hm : ~ In (mid b d i) (chain_nodes b d (S i))).
  { intro H. apply chain_tops in H. unfold mid in H. cbn [topv] in H. lia. }
  constructor; [|constructor; [|constructor; [exact Hm|apply IH]]]; cbn [In].
  - intros [H|[H|H]]; [exact (hi_lo b d i (eq_sym H))| |].
    + apply (f_equal topv) in H. rewrite hi_S in H. unfold mid in H. cbn [topv] in H. lia.
    + apply chain_tops in H. rewrite hi_S in H. cbn [topv] in H. lia.
  - intros [H|H].
    + apply (f_equal topv) in H. rewrite lo_S in H. unfold mid in H. cbn [topv] in H. lia.
    + apply chain_tops in H. rewrite lo_S in H. cbn [topv] in H. lia.
Qed.
Lemma output_nodup b d : NoDup (output_nodes b d).
Proof.
  destruct d as [|d]; cbn [output_nodes]; [constructor|]. pose proof (chain_nodup b (S d) 0) as H. cbn [chain_nodes] in H.
  inversion_clear H. assumption.
Qed.
Lemma output_tops b d n : In n (output_nodes b d) -> n <> One /\ topv n < 2 * d.
Proof.
  destruct d as [|d]; [intros []|]. intro H. destruct (chain_tops b n (S d) 0) as [A B]; [cbn [chain_nodes]; right; exact H|]. split; [exact A|lia].
Qed.
Lemma chain_lasts b n : b <> One -> forall d i, In n (chain_nodes b d i) -> lastv n = lastv b.
Proof.
  intros Hb. induction d as [|d IH]; intro i; [intros []|]. cbn [chain_nodes In]. intros [<-|[<-|[<-|H]]].
  - apply (chain_last b Hb).
  - apply (chain_last b Hb).
  - apply (chain_last b Hb).
  - exact (IH (S i) H).
Qed.
Lemma output_lasts b d n : b <> One -> In n (output_nodes b d) -> lastv n = lastv b.
Proof. intros Hb H. destruct d as [|d]; [destruct H|]. apply (chain_lasts b n Hb (S d) 0). right. exact H. Qed.

Lemma block_spec k n : In n (block k) -> n <> One /\ lastv n = 2 * k + 1 /\ (topv n < 2 * k \/ n = xn k \/ n = yn k).
Proof.
  intros [<-|[<-|H]].
  - split; [discriminate|]. split; [reflexivity|auto].
  - split; [discriminate|]. split; [reflexivity|auto].
  - destruct (output_tops _ _ _ H) as [A B]. split; [exact A|]. split; [|auto]. apply (output_lasts (xn k) k n); [discriminate|exact H].
Qed.
Lemma block_nodup k : NoDup (block k).
Proof.
  constructor; [|constructor; [|apply output_nodup]].
  - intros [H|H]; [discriminate H|]. apply output_tops in H. cbn [yn topv] in H. lia.
  - intro H. apply output_tops in H. cbn [xn topv] in H. lia.
Qed.
Lemma nodup_app {A} (l m : list A) : NoDup l -> NoDup m -> (forall x, In x l -> ~ In x m) -> NoDup (l ++ m).
Proof.
  induction 1 as [|x l Hx Hl IH]; intros Hm H; [exact Hm|]. cbn [app]. constructor.
  - rewrite in_app_iff. intros [K|K]; [exact (Hx K)|]. exact (H x (or_introl eq_refl) K).
  - apply IH; [exact Hm|]. intros y Hy. apply H. right. exact Hy.
Qed.
Lemma blocks_nodup : forall N i, NoDup (flat_map block (seq i N)).
Proof.
  induction N as [|N IH]; intro i; cbn [seq flat_map]; [constructor|]. apply nodup_app; [apply block_nodup|apply IH|].
  intros n H1 H2. apply in_flat_map in H2. destruct H2 as (k & Hk & H2). apply in_seq in Hk. apply block_spec in H1, H2. lia.
Qed.
(** the carry output *)
Lemma carry_incl n : forall d i, In n (carry_nodes d i) -> In n (chain_nodes One d i).
Proof. intros d i H. destruct d as [|d]; [destruct H|]. apply carry_nodes_in; [lia|left; exact H]. Qed.
Lemma carry_nodup : forall d i, NoDup (carry_nodes d i).
Proof.
  induction d as [|d IH]; intro i; [constructor|]. pose proof (chain_nodup One (S d) i) as H. cbn [carry_nodes chain_nodes] in *.
  inversion_clear H as [|? ? H1 H2]. inversion_clear H2 as [|? ? H3 H4]. inversion_clear H4 as [|? ? H5 H6].
  assert (S : forall x, In x ((if d =? 0 then [] else [mid One d i]) ++ carry_nodes d (S i)) -> In x (mid One d i :: chain_nodes One d (S i))).
  { intros x. rewrite in_app_iff. intros [K|K]; [destruct (d =? 0); [destruct K|left; destruct K as [K|[]]; exact K]|right; apply carry_incl; exact K]. }
  constructor; [intros [K|K]; [apply H1; left; exact K|apply H1; right; apply S; exact K]|].
  constructor; [intro K; apply H3; apply S; exact K|].
  destruct (d =? 0); [apply IH|]. constructor; [intro K; apply H5, carry_incl, K|apply IH].
Qed.
Lemma carry_output_nodup d : NoDup (carry_output_nodes d).
Proof. destruct d as [|d]; [constructor|]. pose proof (carry_nodup (S d) 0) as H. cbn [carry_nodes] in H. inversion_clear H. assumption. Qed.
Lemma carry_lasts n : forall d i, In n (carry_nodes d i) -> n <> One /\ (n = Nd (2 * (i + d - 1)) (yn (i + d - 1)) true One \/ exists j, lastv n = 2 * j).
Proof.
  induction d as [|d IH]; intro i; [intros []|]. cbn [carry_nodes In]. rewrite in_app_iff.
  assert (Em : 0 < d -> lastv (mid One d i) = 2 * (i + d)).
  { intro Hd. destruct d as [|d]; [lia|]. unfold mid. rewrite lastv_step by (rewrite hi_S; discriminate). rewrite carry_last. lia. }
  intros [<-|[<-|[H|H]]].
  - split; [rewrite hi_S; discriminate|]. right. exists (i + d). apply carry_last.
  - split; [rewrite lo_S; discriminate|]. destruct d as [|d].
    + left. replace (i + 1 - 1) with i by lia. reflexivity.
    + right. exists (i + S d). rewrite lo_S, lastv_step by discriminate. apply Em. lia.
  - destruct (Nat.eqb_spec d 0); [destruct H|]. destruct H as [<-|[]]. split; [discriminate|]. right. exists (i + d). apply Em. lia.
  - destruct (IH (S i) H) as [A B]. split; [exact A|]. replace (i + S d - 1) with (S i + d - 1) by lia. exact B.
Qed.

Lemma adder_nodup N : 0 < N -> NoDup (adder_nodes N).
Proof.
  intro HN. assert (C : forall n, In n (carry_output_nodes N) -> n <> One /\ (n = Nd (2 * (N - 1)) (yn (N - 1)) true One \/ exists j, lastv n = 2 * j)).
  { intros n H. destruct N as [|N]; [lia|]. apply (carry_lasts n (S N) 0). cbn [carry_nodes]. right. exact H. }
  unfold adder_nodes. constructor.
  - rewrite in_app_iff, in_flat_map. intros [(k & _ & H)|H]; [apply block_spec in H|apply C in H]; tauto.
  - apply nodup_app; [apply blocks_nodup|apply carry_output_nodup|]. intros n H1 H2. apply in_flat_map in H1.
    destruct H1 as (k & Hk & H1). apply in_seq in Hk. apply block_spec in H1. destruct H1 as (_ & L & H1). apply C in H2.
    destruct H2 as [_ [->|(j & E)]]; [|lia]. cbn [yn lastv topv] in L, H1. destruct H1 as [H1|[H1|H1]]; [lia| |].
    + unfold xn in H1. injection H1 as _ _ H1. discriminate H1.
    + unfold yn in H1. discriminate H1.
Qed.

Lemma chain_length b : forall d i, length (chain_nodes b d i) = 3 * d.
Proof. induction d as [|d IH]; intro i; [reflexivity|]. cbn [chain_nodes length]. rewrite IH. lia. Qed.
Lemma carry_length : forall d i, 0 < d -> length (carry_nodes d i) = 3 * d - 1.
Proof.
  induction d as [|d IH]; intros i Hd; [lia|]. cbn [carry_nodes length]. rewrite app_length. destruct d as [|d]; [reflexivity|].
  cbn [Nat.eqb length]. rewrite IH by lia. lia.
Qed.
Lemma adder_length N : 0 < N -> 2 * length (adder_nodes N) = N * (3 * N + 5).
Proof.
  intro HN. unfold adder_nodes. cbn [length]. rewrite app_length.
  assert (B : forall n, 0 < n -> 2 * length (flat_map block (seq 0 n)) = 3 * n * n - n + 2).
  { induction n as [|n IH]; [lia|]. intros _. rewrite seq_S, flat_map_app, app_length. cbn [flat_map Nat.add]. rewrite app_nil_r.
    assert (L : length (block n) = if n =? 0 then 2 else 3 * n + 1).
    { unfold block. cbn [length]. destruct n as [|n]; [reflexivity|]. cbn [output_nodes length Nat.eqb]. rewrite chain_length. lia. }
    rewrite L. destruct n as [|n]; [reflexivity|]. cbn [Nat.eqb]. specialize (IH ltac:(lia)). nia. }
  specialize (B N HN).
  assert (L : length (carry_output_nodes N) = 3 * N - 2).
  { destruct N as [|N]; [lia|]. cbn [carry_output_nodes length]. rewrite app_length. destruct N as [|N]; [reflexivity|].
    cbn [Nat.eqb length]. rewrite carry_length by lia. lia. }
  rewrite L. nia.
Qed.

Lemma sum_size M N r : index_order M -> 0 < N -> Forall (wf M) r -> length r = N + 1 ->
  (forall a, uval r a = (number N (op1 a) + number N (op2 a))%Z) -> 2 * nodeCount r = N * (3 * N + 5).
Proof.
  intros HM HN W L V. rewrite (adder_explicit M N r HM W L V), <- adder_length by exact HN. f_equal. unfold nodeCount. apply Nat.le_antisymm.
  - apply NoDup_incl_length; [apply NoDup_nodup|]. intros n H. apply nodup_In in H. apply adder_subnodes in H; [exact H|exact HN].
  - apply NoDup_incl_length; [apply adder_nodup; exact HN|]. intros n H. apply nodup_In. apply adder_subnodes; [exact HN|exact H].
Qed.
Lemma regular_size M N r : index_order M -> 0 < N -> regular_adder M N = Ok r -> 2 * nodeCount r = N * (3 * N + 5).
Proof.
  intros HM HN E. destruct (regular_ok M N) as (r' & E' & W & L & V). rewrite E in E'. injection E' as <-.
  apply (sum_size M N r HM HN W L V).
Qed.
