(** Proofs about the invisible edges of the dot output *)
From Coq Require Import Ascii String List Bool Arith Lia.
From Verif Require Import Res Cudd CuddFacts Benchmark DumpDot SpecDot DumpDotFacts.
Import ListNotations.
Open Scope string_scope.
Open Scope nat_scope.

Lemma path_edge l x y s : In (SEdge x y s) (path l) <-> s = Invisible /\ exists k, nth_error l k = Some x /\ nth_error l (S k) = Some y.
Proof.
  induction l as [|u [|v l] IH].
  - cbn. split; [intros []|]. intros (_ & k & H & _). destruct k; discriminate H.
  - cbn. split; [intros []|]. intros (_ & k & _ & H). destruct k; discriminate H.
  - cbn [path In]. rewrite IH. split.
    + intros [H|(H & k & H1 & H2)]; [injection H as -> -> <-; split; [reflexivity|]; now exists 0|]. split; auto. exists (S k). auto.
    + intros (-> & [|k] & H1 & H2); [left; injection H1 as ->; injection H2 as ->; reflexivity|]. right. split; auto. exists k. auto.
Qed.
Section Order.
Variable addr : bdd -> string.
Hypothesis Ha : prints_pointers addr.
Variables (bdds : list bdd) (function_names variable_names : list string) (order : bool) (left_terminal : option bool) (G : list stmt).
Hypothesis HG : dump_dot_readable addr bdds function_names variable_names order left_terminal = Ok G.
Let names := all_function_names (List.length bdds) function_names.

(** the elements of the chain after the first one *)
Lemma chain_node (lev : list (list bdd)) k y : (forall i z, In z (nth i lev []) -> top z = Some i) ->
  nth_error ((match names with [] => [] | name :: _ => [name] end)
      ++ flat_map (fun nodes => match nodes with [] => [] | x :: _ => [addr x] end) lev ++ [addr bone])%list k = Some y ->
  (k = 0 /\ In y names) \/ (exists z, y = addr z /\ top z <> None) \/ (y = addr bone /\
     nth_error ((match names with [] => [] | name :: _ => [name] end)
      ++ flat_map (fun nodes => match nodes with [] => [] | x :: _ => [addr x] end) lev ++ [addr bone])%list (S k) = None).
Proof.
  intros HT. set (A := match names with [] => [] | name :: _ => [name] end). set (B := flat_map _ lev). intro H.
  assert (LA : List.length A <= 1) by (unfold A; destruct names; cbn; lia).
  destruct (Nat.lt_ge_cases k (List.length A)) as [L|L].
  - rewrite nth_error_app1 in H by exact L. left. split; [lia|]. unfold A in H. destruct names; [destruct k; discriminate H|].
    destruct k as [|[|k]]; try discriminate H. injection H as ->. now left.
  - rewrite nth_error_app2 in H by exact L. destruct (Nat.lt_ge_cases (k - List.length A) (List.length B)) as [L2|L2].
    + rewrite nth_error_app1 in H by exact L2. right; left. apply nth_error_In in H. unfold B in H. apply in_flat_map in H.
      destruct H as ([|z nodes] & I & H); [destruct H|]. destruct H as [<-|[]]. exists z. split; auto.
      apply In_nth with (d := []) in I. destruct I as (i & _ & I). rewrite (HT i z); [discriminate|]. rewrite I. now left.
    + rewrite nth_error_app2 in H by exact L2. right; right. destruct (k - List.length A - List.length B) as [|m] eqn:E; [|destruct m; discriminate H].
      injection H as ->. split; [reflexivity|]. apply nth_error_None. rewrite !app_length. cbn [List.length]. lia.
Qed.

Lemma dump_order_full :
  (In (SEdge (addr bone) (addr bzero) Invisible) G <-> left_terminal = Some true)
  /\ (In (SEdge (addr bzero) (addr bone) Invisible) G <-> left_terminal = Some false)
  /\ (forall x y, In x names -> In y names ->
       (In (SEdge x y Invisible) G <-> order = true /\ exists k, nth_error names k = Some x /\ nth_error names (S k) = Some y)).
Proof.
  revert HG. unfold dump_dot_readable. pose proof (collect_full bdds) as C. 
  destruct (_ || _); [|discriminate]. cbn [assert_ bind].
  destruct (collect_nodes bdds) as [vis lev]. destruct C as (C1 & C2 & C3).
  destruct (_ || _); [|discriminate]. cbn [assert_ bind]. fold names.
  destruct (links addr names bdds 0) as [S1| | |] eqn:E1; try discriminate. cbn [bind].
  destruct (level_statements addr lev _ 0) as [S2| | |] eqn:E2; try discriminate. cbn [bind].
  set (chain := path (match names with [] => [] | name :: _ => [name] end ++ _)%list). set (edges := flat_map (fun nodes => flat_map _ nodes) lev). set (tord := match left_terminal with None => [] | Some true => _ | Some false => _ end).
  intro E. injection E as E.
  assert (HS1 : forall l i S0, links addr l bdds i = Ok S0 -> forall st, In st S0 -> exists x y, st = SEdge x y Solid).
  { induction l as [|nm l IH]; intros i S0; cbn [links]; [intro K; injection K as <-; intros st []|].
    destruct (vget bdds i); try discriminate. cbn [bind]. destruct (links addr l bdds (S i)) as [S3| | |] eqn:E3; try discriminate.
    cbn [bind]. intro K. injection K as <-. intros st [<-|I]; [eauto|]. exact (IH _ _ E3 st I). }
  assert (HS2 : forall l vn i S0, level_statements addr l vn i = Ok S0 -> forall st, In st S0 -> exists x y r, st = SNode x y r).
  { induction l as [|nodes l IH]; intros vn i S0; cbn [level_statements]; [intro K; injection K as <-; intros st []|].
    destruct (match nodes with [] => Ok [] | _ => _ end) as [here| | |] eqn:E4; try discriminate. cbn [bind].
    destruct (level_statements addr l vn (S i)) as [S3| | |] eqn:E3; try discriminate. cbn [bind]. intro K. injection K as <-.
    intros st I. apply in_app_iff in I. destruct I as [I|I]; [|exact (IH _ _ _ E3 st I)].
    destruct nodes as [|z nodes]; [injection E4 as <-; destruct I|]. destruct (vget vn i); try discriminate. cbn [bind] in E4. injection E4 as <-.
    destruct I as [<-|I]; [eauto|]. apply in_map_iff in I. destruct I as (w & <- & _). eauto. }
  assert (InG : forall x y, In (SEdge x y Invisible) G <-> (order = true /\ In (SEdge x y Invisible) (path names)) \/ In (SEdge x y Invisible) chain \/ In (SEdge x y Invisible) tord \/ In (SEdge x y Invisible) edges).
  { intros x y. rewrite <- E, !in_app_iff. cbn [In]. rewrite in_app_iff. split.
    - intros [I|[I|[I|[I|[I|[I|[I|[I|I]]]]]]]]; auto; try discriminate I.
      + apply in_map_iff in I. destruct I as (nm & K & _). discriminate K.
      + destruct order; [auto|destruct I].
      + destruct (HS1 _ _ _ E1 _ I) as (u & v & K). discriminate K.
      + destruct (HS2 _ _ _ _ E2 _ I) as (u & v & r & K). discriminate K.
    - intros [[-> I]|[I|[I|I]]]; auto 12. }
  assert (HE : forall x y, ~ In (SEdge x y Invisible) edges).
  { intros x y I. unfold edges in I. apply in_flat_map in I. destruct I as (nodes & _ & I). apply in_flat_map in I.
    destruct I as (z & _ & [I|[I|[]]]); discriminate I. }
  assert (HT : forall i z, In z (nth i lev []) -> top z = Some i) by (intros i z I; apply C1 in I; apply I).
  assert (Hnn : forall x, ~ In (addr x) names) by (intro x; apply addr_not_name; exact Ha).
  assert (Hin : forall x y, In (SEdge x y Invisible) (path names) -> In x names /\ In y names).
  { intros x y I. apply path_edge in I. destruct I as (_ & k & K1 & K2). split; eapply nth_error_In; eassumption. }
  split; [|split].
  - rewrite InG. split.
    + intros [[_ I]|[I|[I|I]]].
      * exfalso. apply Hin in I. apply (Hnn bone), I.
      * exfalso. apply path_edge in I. destruct I as (_ & k & K1 & K2). apply chain_node in K2; [|exact HT].
        destruct K2 as [[K2 _]|[(z & K2 & K3)|[K2 _]]]; [discriminate K2|apply (proj1 Ha) in K2; subst z; apply K3; reflexivity|].
        apply (proj1 Ha) in K2. discriminate K2.
      * unfold tord in I. destruct left_terminal as [[|]|]; [reflexivity| |destruct I]. exfalso. destruct I as [I|[]]. injection I as I _.
        apply (proj1 Ha) in I. discriminate I.
      * exfalso. exact (HE _ _ I).
    + intros ->. right; right; left. now left.
  - rewrite InG. split.
    + intros [[_ I]|[I|[I|I]]].
      * exfalso. apply Hin in I. apply (Hnn bone), I.
      * exfalso. apply path_edge in I. destruct I as (_ & k & K1 & K2). apply chain_node in K1; [|exact HT].
        destruct K1 as [[_ K1]|[(z & K1 & K3)|[K1 _]]]; [exact (Hnn _ K1)|apply (proj1 Ha) in K1; subst z; apply K3; reflexivity|].
        apply (proj1 Ha) in K1. discriminate K1.
      * unfold tord in I. destruct left_terminal as [[|]|]; [|reflexivity|destruct I]. exfalso. destruct I as [I|[]]. injection I as I _.
        apply (proj1 Ha) in I. discriminate I.
      * exfalso. exact (HE _ _ I).
    + intros ->. right; right; left. now left.
  - intros x y Ix Iy. rewrite InG, path_edge. split.
    + intros [[Ho (_ & K)]|[I|[I|I]]].
      * auto.
      * exfalso. apply path_edge in I. destruct I as (_ & k & K1 & K2). apply chain_node in K2; [|exact HT].
        destruct K2 as [[K2 _]|[(z & K2 & K3)|[K2 _]]]; [discriminate K2|subst y; exact (Hnn _ Iy)|subst y; exact (Hnn _ Iy)].
      * exfalso. unfold tord in I. destruct left_terminal as [[|]|]; [destruct I as [I|[]]..|destruct I]; injection I as <- _; exact (Hnn _ Ix).
      * exfalso. exact (HE _ _ I).
    + intros [Ho K]. auto.
Qed.
End Order.
