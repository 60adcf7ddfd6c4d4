(** The memoisation bounds the work of the operators *)
From Coq Require Import List Bool Arith ZArith QArith Lia.
From Verif Require Import Res Cudd CuddFacts Spec Helpers Counting CountFacts Operators SpecOperators SpecRefs OutOfMemory OomFacts2.
Import ListNotations.
Open Scope nat_scope.

Lemma one_subnode n : In One (subnodes n).
Proof. induction n as [|v t IHt c e IHe]; cbn [subnodes]; [now left|]. right. apply in_or_app. auto. Qed.
Lemma edge_subnode n : forall c x, In x (edges n c) -> In (snd x) (subnodes n).
Proof.
  induction n as [|v t IHt c' e IHe]; intros c x H; cbn [edges subnodes] in *.
  - destruct H as [<-|[]]. now left.
  - destruct H as [<-|H]; [now left|]. right. apply in_or_app. apply in_app_or in H. destruct H as [H|H]; [left|right]; eauto.
Qed.
Lemma nodeCount_single f : nodeCount [f] = length (nodup node_eq_dec (subnodes (snd f))).
Proof. unfold nodeCount. cbn [flat_map]. now rewrite app_nil_r. Qed.

Definition inner (f : bdd) : list node := remove node_eq_dec One (nodup node_eq_dec (subnodes (snd f))).
Lemma remove_one l : NoDup l -> In One l -> S (length (remove node_eq_dec One l)) = length l.
Proof.
  induction l as [|x l IH]; intros HN HI; [destruct HI|]. inversion HN; subst. cbn [remove length].
  destruct (node_eq_dec One x) as [<-|Hx].
  - rewrite notin_remove by auto. reflexivity.
  - destruct HI as [E|HI]; [congruence|]. cbn [length]. now rewrite IH.
Qed.
Lemma inner_length f : S (length (inner f)) = nodeCount [f].
Proof. rewrite nodeCount_single. apply remove_one; [apply NoDup_nodup|apply nodup_In, one_subnode]. Qed.
Lemma pairs_length {A} (l : list A) : length (list_prod [true; false] l) = 2 * length l.
Proof. rewrite prod_length. reflexivity. Qed.

Lemma edges_bound f (L : list bdd) : NoDup L -> (forall x, In x L -> In x (reachable f)) -> length L <= 2 * nodeCount [f].
Proof.
  intros HN HI. rewrite nodeCount_single, <- pairs_length. apply NoDup_incl_length; auto. intros [c n] Hx.
  apply in_prod; [destruct c; cbn; auto|]. apply nodup_In. exact (edge_subnode _ _ _ (HI _ Hx)).
Qed.
Fixpoint height (n : node) : nat := match n with One => 0 | Nd _ t _ e => S (Nat.max (height t) (height e)) end.
Lemma edge_height n : forall c x, In x (edges n c) -> x = (c, n) \/ height (snd x) < height n.
Proof.
  induction n as [|v t IHt c' e IHe]; intros c x H; cbn [edges height] in *.
  - destruct H as [<-|[]]. now left.
  - destruct H as [<-|H]; [now left|]. right. apply in_app_or in H. destruct H as [H|H].
    + destruct (IHt _ _ H) as [->|]; cbn [snd]; lia.
    + destruct (IHe _ _ H) as [->|]; cbn [snd]; lia.
Qed.
Lemma root_once f : ~ In (bnot f) (reachable f).
Proof.
  intro H. destruct (edge_height _ _ _ H) as [E|E]; destruct f as [c n]; unfold bnot in E; cbn in E; [|lia].
  destruct c; discriminate.
Qed.
Lemma inner_bound f (L : list bdd) : NoDup L -> (forall x, In x L -> In x (reachable f) /\ snd x <> One) ->
  length L <= 2 * nodeCount [f] - 3.
Proof.
  intros HN HI. rewrite <- inner_length.
  assert (HP : forall x, In x (reachable f) -> snd x <> One -> In x (list_prod [true; false] (inner f))).
  { intros [c n] H1 H2. apply in_prod; [destruct c; cbn; auto|]. apply in_in_remove; auto. apply nodup_In. exact (edge_subnode _ _ _ H1). }
  destruct (node_eq_dec (snd f) One) as [E|E].
  - assert (L = []) as ->; [|cbn; lia]. destruct L as [|x L]; auto. exfalso. destruct (HI x (or_introl eq_refl)) as [H1 H2].
    unfold reachable in H1. rewrite E in H1. destruct H1 as [<-|[]]. now apply H2.
  - assert (B : length (bnot f :: L) <= length (list_prod [true; false] (inner f))).
    { apply NoDup_incl_length.
      - constructor; auto. intro H. now apply (root_once f), HI.
      - intros x [<-|Hx]; [|now apply HP; apply HI]. destruct f as [c n]. unfold bnot. cbn [fst snd].
        apply in_prod; [destruct c; cbn; auto|]. apply in_in_remove; auto. apply nodup_In. destruct n; now left. }
    rewrite pairs_length in B. cbn [length] in B. lia.
Qed.

Lemma operator_work M ls le i fails op op_oom f :
  nth_error (the_operators M ls le) i = Some op -> nth_error (operators_oom M fails ls le) i = Some op_oom ->
  (forall j, j < 2 * nodeCount [f] - 3 -> fails j = false) -> exists r, op f = Ok r /\ op_oom f = Ok (Some r).
Proof.
  intros H1 H2 HF. assert (HB : exists bound, nth_error (operator_bounds ls le) i = Some bound).
  { destruct (nth_error (operator_bounds ls le) i) eqn:E; eauto. apply nth_error_None in E. cbn in E.
    assert (i < 8) by (change 8 with (length (the_operators M ls le)); apply nth_error_Some; congruence). lia. }
  destruct HB as (bound & HB). destruct (operator_memory M ls le i fails op op_oom bound f H1 H2 HB) as (r & L & E & BA & OK & _).
  exists r. split; auto. apply OK. intros j Hj. apply HF. destruct BA as (ND & IN & _).
  pose proof (inner_bound f L ND) as B. cbv beta in IN. apply Nat.lt_le_trans with (1 := Hj). apply B. intros x Hx.
  destruct (IN x Hx) as [R (v & T & _)]. split; auto. intro E1. destruct x as [c n]. cbn in E1. subst n. cbn in T. discriminate.
Qed.

Lemma maps_work f : length (count_minterms f) <= 2 * nodeCount [f] /\ length (count_solutions f) <= 2 * nodeCount [f].
Proof.
  split.
  - destruct (count_minterms_good f) as (_ & G & _). rewrite <- (map_length fst). apply edges_bound; auto.
    intros x Hx. now apply count_minterms_keys.
  - pose proof (count_solutions_rec_spec (terminal_level [[f]]) (snd f) (fst f) [] (good_map_nil _)) as H.
    unfold count_solutions. destruct (count_solutions_rec (snd f) (fst f) [] (terminal_level [[f]])) as [v m]. cbn [snd].
    destruct H as (_ & (_ & G & _) & K). rewrite <- (map_length fst). apply edges_bound; auto.
    intros x Hx. apply K in Hx. destruct Hx as [[]|Hx]. exact Hx.
Qed.
