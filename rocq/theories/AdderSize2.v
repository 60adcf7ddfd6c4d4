(** The number of nodes of the approximate adders in the index order. *)
From Coq Require Import List Bool Arith ZArith Lia.
From Verif Require Import Res Cudd CuddFacts Spec SpecFacts Helpers HelpersFacts Examples AdderFacts SpecAdder AdderErrorFacts SpecAdderSize AdderSize.
Import ListNotations.
Open Scope nat_scope.

(** ** one output: the chain starts at position [i] and has [d] positions *)
Definition out_nodes (b : node) (d i : nat) : list node :=
  match d with O => [] | S d' => lo b (S d') i :: mid b d' i :: chain_nodes b d' (S i) end.
Definition carry_out_nodes (d i : nat) : list node :=
  match d with O => [] | S d' => lo One (S d') i :: (if d' =? 0 then [] else [mid One d' i]) ++ carry_nodes d' (S i) end.
Lemma subnodes_out b n d i : In n (subnodes (lo b d i)) <-> In n (out_nodes b d i) \/ In n (subnodes b).
Proof.
  destruct d as [|d]; [unfold lo; cbn [chain fst snd out_nodes In]; tauto|].
  pose proof (subnodes_chain b n d (S i)) as H. rewrite lo_S at 1. cbn [subnodes out_nodes In].
  assert (T : In n (subnodes (mid b d i)) <-> n = mid b d i \/ In n (subnodes (hi b d (S i))) \/ In n (subnodes (lo b d (S i)))).
  { unfold mid at 1. cbn [subnodes In]. rewrite in_app_iff. unfold mid. intuition congruence. }
  rewrite in_app_iff, T, <- lo_S. intuition congruence.
Qed.
Lemma carry_out_in n d i : 0 < d -> In n (out_nodes One d i) <-> In n (carry_out_nodes d i) \/ n = yn (i + d - 1).
Proof.
  destruct d as [|d]; [lia|]. intros _. cbn [out_nodes carry_out_nodes In]. destruct d as [|d].
  - cbn [Nat.eqb app chain_nodes carry_nodes In]. replace (i + 1 - 1) with i by lia. change (mid One 0 i) with (yn i). intuition congruence.
  - rewrite carry_nodes_in by lia. cbn [Nat.eqb app In]. replace (S i + S d - 1) with (i + S (S d) - 1) by lia. tauto.
Qed.
Lemma out_nodup b d i : NoDup (out_nodes b d i).
Proof.
  destruct d as [|d]; cbn [out_nodes]; [constructor|]. pose proof (chain_nodup b (S d) i) as H. cbn [chain_nodes] in H.
  inversion_clear H. assumption.
Qed.
Lemma out_tops b d i n : In n (out_nodes b d i) -> n <> One /\ topv n < 2 * (i + d).
Proof.
  destruct d as [|d]; [intros []|]. intro H. destruct (chain_tops b n (S d) i) as [A B]; [cbn [chain_nodes]; right; exact H|]. split; [exact A|lia].
Qed.
Lemma out_lasts b d i n : b <> One -> In n (out_nodes b d i) -> lastv n = lastv b.
Proof. intros Hb H. destruct d as [|d]; [destruct H|]. apply (chain_lasts b n Hb (S d) i). right. exact H. Qed.
Lemma carry_out_nodup d i : NoDup (carry_out_nodes d i).
Proof. destruct d as [|d]; [constructor|]. pose proof (carry_nodup (S d) i) as H. cbn [carry_nodes] in H. inversion_clear H. assumption. Qed.
Lemma carry_on_cut x y l d : carry_on x y d l false = cf x y l (l + d).
Proof.
  induction d as [|d IH].
  - rewrite Nat.add_0_r, cf_low by lia. reflexivity.
  - rewrite carry_on_last, IH. replace (l + S d) with (l + d + 1) by lia. rewrite cf_step by lia. reflexivity.
Qed.

(** ** all outputs: the chain for the carry into position [k] starts at [s k] *)
Section Adder.
Variable s : nat -> nat.
Hypothesis Hs : forall k, s k <= k.
Definition cut_bdds (N : nat) : list bdd :=
  map (fun k => (k - s k =? 0, lo (xn k) (k - s k) (s k))) (seq 0 N) ++ [(N - s N =? 0, lo One (N - s N) (s N))].
Definition cut_block (k : nat) : list node := yn k :: xn k :: out_nodes (xn k) (k - s k) (s k).
Definition cut_nodes (N : nat) : list node := One :: flat_map cut_block (seq 0 N) ++ carry_out_nodes (N - s N) (s N).

Lemma cut_explicit M N r : index_order M -> Forall (wf M) r -> length r = N + 1 ->
  (forall a i, i <= N -> ev (nth i r bzero) a = xorb (if i <? N then xorb (op1 a i) (op2 a i) else false) (cf (op1 a) (op2 a) (s i) i)) ->
  r = cut_bdds N.
Proof.
  intros HM W L B.
  assert (LL : length (cut_bdds N) = N + 1) by (unfold cut_bdds; rewrite app_length, map_length, seq_length; reflexivity).
  assert (Up : forall n k k', k <= k' -> okn M k' n -> okn M k n).
  { intros [|v t c e] k k' H; cbn [okn]; [auto|]. intros (A & C). split; [lia|exact C]. }
  assert (Nt : forall i, i <= N -> nth i (cut_bdds N) bzero = (i - s i =? 0, lo (if i =? N then One else xn i) (i - s i) (s i))).
  { intros i Hi. unfold cut_bdds. destruct (Nat.eqb_spec i N) as [->|Hn].
    - rewrite app_nth2; rewrite map_length, seq_length; [|lia]. rewrite Nat.sub_diag. reflexivity.
    - rewrite app_nth1; [|rewrite map_length, seq_length; lia].
      rewrite (nth_indep _ bzero ((fun k => (k - s k =? 0, lo (xn k) (k - s k) (s k))) 0)) by (rewrite map_length, seq_length; lia).
      rewrite (map_nth (fun k => (k - s k =? 0, lo (xn k) (k - s k) (s k)))), seq_nth by lia. reflexivity. }
  apply (nth_ext _ _ bzero bzero); [lia|]. intros i Hi. rewrite L in Hi. pose proof (Hs i) as Hsi.
  apply (canonical M).
  - rewrite Forall_forall in W. apply W, nth_In. lia.
  - rewrite Nt by lia. unfold wf. cbn [snd]. apply Up with (k' := 2 * s i); [lia|].
    apply (chain_ok M HM (if i =? N then One else xn i) (i - s i) (s i)).
    replace (s i + (i - s i)) with i by lia. destruct (i =? N); [exact I|].
    cbn [xn yn okn]. rewrite !HM. repeat split; try lia; intros [E _]; discriminate E.
  - intro a. rewrite B, Nt by lia. unfold ev. cbn [fst snd].
    destruct (chain_ev (if i =? N then One else xn i) a (i - s i) (s i)) as [_ E]. rewrite E, carry_on_cut.
    replace (s i + (i - s i)) with i by lia. destruct (Nat.eqb_spec i N) as [->|Hn].
    + rewrite Nat.ltb_irrefl. cbn [evn]. destruct (cf _ _ _ N); reflexivity.
    + rewrite xn_ev. destruct (Nat.ltb_spec i N); [|lia]. destruct (op1 a i), (op2 a i), (cf _ _ _ i); reflexivity.
Qed.

Lemma cut_subnodes N n : 0 < N -> In n (flat_map (fun f => subnodes (snd f)) (cut_bdds N)) <-> In n (cut_nodes N).
Proof.
  intro HN. unfold cut_bdds, cut_nodes. rewrite flat_map_app, in_app_iff. cbn [flat_map snd In]. rewrite app_nil_r, in_app_iff.
  rewrite subnodes_out. cbn [subnodes In]. pose proof (Hs N) as HsN.
  assert (E : In n (flat_map (fun f => subnodes (snd f)) (map (fun k => (k - s k =? 0, lo (xn k) (k - s k) (s k))) (seq 0 N)))
              <-> In n (flat_map cut_block (seq 0 N)) \/ n = One).
  { rewrite !in_flat_map. split.
    - intros (f & Hf & H). apply in_map_iff in Hf. destruct Hf as (k & <- & Hk). cbn [snd] in H. apply subnodes_out in H.
      destruct H as [H|H]; [left; exists k; split; [exact Hk|right; right; exact H]|].
      assert (X : n = xn k \/ n = yn k \/ n = One).
      { assert (L : subnodes (xn k) = [xn k; yn k; One; One; yn k; One; One]) by reflexivity. rewrite L in H. cbn [In] in H.
        repeat (destruct H as [H|H]; [subst n; auto|]). destruct H. }
      destruct X as [X|[X|X]]; [left; exists k; split; [exact Hk|right; left; auto]|left; exists k; split; [exact Hk|left; auto]|right; exact X].
    - intros H.
      assert (X : exists k, In k (seq 0 N) /\ (In n (out_nodes (xn k) (k - s k) (s k)) \/ In n (subnodes (xn k)))).
      { destruct H as [(k & Hk & [H|[H|H]])|H].
        - exists k. split; [exact Hk|]. right. cbn [xn yn subnodes app In]. unfold yn in H. intuition.
        - exists k. split; [exact Hk|]. right. left. exact H.
        - exists k. split; [exact Hk|]. left. exact H.
        - exists 0. split; [apply in_seq; lia|]. right. cbn [xn yn subnodes app In]. intuition. }
      destruct X as (k & Hk & X). exists (k - s k =? 0, lo (xn k) (k - s k) (s k)). split; [apply in_map_iff; exists k; split; [reflexivity|exact Hk]|].
      cbn [snd]. apply subnodes_out. exact X. }
  rewrite E.
  assert (Y : n = yn (N - 1) -> In n (flat_map cut_block (seq 0 N))).
  { intros ->. apply in_flat_map. exists (N - 1). split; [apply in_seq; lia|left; reflexivity]. }
  destruct (Nat.eq_dec (N - s N) 0) as [Z|Z].
  - rewrite Z. cbn [out_nodes carry_out_nodes In]. intuition congruence.
  - rewrite carry_out_in by lia. replace (s N + (N - s N) - 1) with (N - 1) by lia. split.
    + intros [[H|H]|[[H|H]|[H|[]]]]; auto.
    + intros [H|[H|H]]; auto.
Qed.

Lemma cut_block_spec k n : In n (cut_block k) -> n <> One /\ lastv n = 2 * k + 1 /\ (topv n < 2 * k \/ n = xn k \/ n = yn k).
Proof.
  pose proof (Hs k) as Hk. intros [<-|[<-|H]].
  - split; [discriminate|]. split; [reflexivity|auto].
  - split; [discriminate|]. split; [reflexivity|auto].
  - destruct (out_tops _ _ _ _ H) as [A B]. split; [exact A|]. split; [|left; lia]. apply (out_lasts (xn k) (k - s k) (s k) n); [discriminate|exact H].
Qed.
Lemma cut_block_nodup k : NoDup (cut_block k).
Proof.
  pose proof (Hs k) as Hk. constructor; [|constructor; [|apply out_nodup]].
  - intros [H|H]; [discriminate H|]. apply out_tops in H. cbn [yn topv] in H. lia.
  - intro H. apply out_tops in H. cbn [xn topv] in H. lia.
Qed.
Lemma cut_blocks_nodup : forall N i, NoDup (flat_map cut_block (seq i N)).
Proof.
  induction N as [|N IH]; intro i; cbn [seq flat_map]; [constructor|]. apply nodup_app; [apply cut_block_nodup|apply IH|].
  intros n H1 H2. apply in_flat_map in H2. destruct H2 as (k & Hk & H2). apply in_seq in Hk. apply cut_block_spec in H1, H2. lia.
Qed.
Lemma cut_nodup N : 0 < N -> NoDup (cut_nodes N).
Proof.
  intro HN. pose proof (Hs N) as HsN.
  assert (C : forall n, In n (carry_out_nodes (N - s N) (s N)) -> n <> One /\ (n = Nd (2 * (N - 1)) (yn (N - 1)) true One \/ exists j, lastv n = 2 * j)).
  { intros n H. destruct (N - s N) as [|d] eqn:E; [destruct H|]. replace (N - 1) with (s N + S d - 1) by lia.
    apply (carry_lasts n (S d) (s N)). cbn [carry_nodes]. right. exact H. }
  unfold cut_nodes. constructor.
  - rewrite in_app_iff, in_flat_map. intros [(k & _ & H)|H]; [apply cut_block_spec in H|apply C in H]; tauto.
  - apply nodup_app; [apply cut_blocks_nodup|apply carry_out_nodup|]. intros n H1 H2. apply in_flat_map in H1.
    destruct H1 as (k & Hk & H1). apply in_seq in Hk. apply cut_block_spec in H1. destruct H1 as (_ & L & H1). apply C in H2.
    destruct H2 as [_ [->|(j & E)]]; [|lia]. cbn [yn lastv topv] in L, H1. destruct H1 as [H1|[H1|H1]]; [lia| |].
    + unfold xn in H1. injection H1 as _ _ H1. discriminate H1.
    + unfold yn in H1. discriminate H1.
Qed.
Lemma cut_length N : length (cut_nodes N) =
  1 + fold_right Nat.add 0 (map (fun k => sum_bit_size (k - s k)) (seq 0 N)) + carry_out_size (N - s N).
Proof.
  unfold cut_nodes. cbn [length]. rewrite app_length.
  assert (B : forall l, length (flat_map cut_block l) = fold_right Nat.add 0 (map (fun k => sum_bit_size (k - s k)) l)).
  { induction l as [|k l IH]; [reflexivity|]. cbn [flat_map map fold_right]. rewrite app_length, IH. f_equal.
    unfold cut_block, sum_bit_size. cbn [length]. destruct (k - s k) as [|d]; [reflexivity|]. cbn [out_nodes length Nat.eqb]. rewrite chain_length. lia. }
  rewrite B.
  assert (L : length (carry_out_nodes (N - s N) (s N)) = carry_out_size (N - s N)).
  { unfold carry_out_size. destruct (N - s N) as [|d]; [reflexivity|]. cbn [carry_out_nodes length Nat.eqb]. rewrite app_length.
    destruct d as [|d]; [reflexivity|]. cbn [Nat.eqb length]. rewrite carry_length by lia. lia. }
  rewrite L. lia.
Qed.
Lemma cut_count M N r : index_order M -> 0 < N -> Forall (wf M) r -> length r = N + 1 ->
  (forall a i, i <= N -> ev (nth i r bzero) a = xorb (if i <? N then xorb (op1 a i) (op2 a i) else false) (cf (op1 a) (op2 a) (s i) i)) ->
  nodeCount r = 1 + fold_right Nat.add 0 (map (fun k => sum_bit_size (k - s k)) (seq 0 N)) + carry_out_size (N - s N).
Proof.
  intros HM HN W L V. rewrite (cut_explicit M N r HM W L V), <- cut_length. unfold nodeCount. apply Nat.le_antisymm.
  - apply NoDup_incl_length; [apply NoDup_nodup|]. intros n H. apply nodup_In in H. apply cut_subnodes in H; [exact H|exact HN].
  - apply NoDup_incl_length; [apply cut_nodup; exact HN|]. intros n H. apply nodup_In. apply cut_subnodes; [exact HN|exact H].
Qed.
End Adder.

Lemma before_le restart P k : before restart P k <= k.
Proof.
  destruct k as [|k]; [reflexivity|]. cbn [before]. induction k as [|k IH]; cbn [lookback]; destruct (restart _); lia.
Qed.
Lemma approximate_adder_size M N restart P r : index_order M -> approximate_adder M N restart P r ->
  nodeCount r = approximate_size N restart P.
Proof.
  intros HM H. destruct (adder_cut M N restart P r H) as (HN & W & L & V).
  apply (cut_count (before restart P) (before_le restart P) M N r HM HN W L). intros a i Hi. rewrite V by exact Hi. unfold cut_bit. f_equal.
  destruct i; reflexivity.
Qed.
