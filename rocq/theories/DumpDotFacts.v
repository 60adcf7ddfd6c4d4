(** collecting the nodes, and the resulting graph *)
From Coq Require Import Ascii String List Bool Arith NArith Lia.
From Verif Require Import Res Cudd CuddFacts Spec SpecFacts MinimizeFacts Benchmark SpecBenchmark BenchmarkFacts2 DumpDot SpecDot.
Import ListNotations.
Open Scope string_scope.
Open Scope nat_scope.
Open Scope list_scope.

(** ** collecting *)
Lemma resize_nth : forall lev i x j, nth j (resize_push lev i x) [] = if j =? i then nth i lev [] ++ [x] else nth j lev [].
Proof.
  intros lev i. revert lev. induction i as [|i IH]; intros [|l lev] x [|j]; cbn [resize_push nth Nat.eqb app]; try reflexivity.
  - destruct j; reflexivity.
  - rewrite IH. destruct (j =? i); [destruct i; reflexivity|destruct j; reflexivity].
  - apply IH.
Qed.
Lemma resize_length : forall lev i x, List.length (resize_push lev i x) = Nat.max (List.length lev) (S i).
Proof.
  intros lev i. revert lev. induction i as [|i IH]; intros [|l lev] x; cbn [resize_push List.length]; rewrite ?IH; cbn [List.length]; lia.
Qed.

Definition state_ok (vis : list bdd) (lev : list (list bdd)) : Prop :=
  (forall i y, In y (nth i lev []) <-> In y vis /\ top y = Some i)
  /\ (forall i, NoDup (nth i lev []))
  /\ (forall n, List.length lev <= n <-> forall y i, In y vis -> top y = Some i -> i < n).
Definition kids (x : bdd) : list bdd :=
  match snd x with One => [] | Nd _ t ce e => [(fst x, t); (xorb ce (fst x), e)] end.

Lemma visited_spec x vis : existsb (bdd_eqb x) vis = true <-> In x vis.
Proof.
  rewrite existsb_exists. split.
  - intros (y & I & E). apply bdd_eqb_spec in E. subst. exact I.
  - intro I. exists x. split; [exact I|]. apply bdd_eqb_spec. reflexivity.
Qed.

Lemma state_add_one vis lev c : state_ok vis lev -> state_ok ((c, One) :: vis) lev.
Proof.
  intros (H1 & H2 & H3). split; [|split; [exact H2|]].
  - intros i y. rewrite H1. cbn [In]. split; [tauto|]. intros [[<-|I] T]; [discriminate T|auto].
  - intro n. rewrite H3. split; intros H y i I T; apply (H y i); cbn [In] in *; auto. destruct I as [<-|I]; [discriminate T|exact I].
Qed.
Lemma state_add vis lev c v t ce e : let x := (c, Nd v t ce e) in ~ In x vis -> state_ok vis lev ->
  state_ok (x :: vis) (resize_push lev v x).
Proof.
  intros x Nx (H1 & H2 & H3). split; [|split].
  - intros i y. rewrite resize_nth. cbn [In]. destruct (Nat.eqb_spec i v) as [->|D].
    + rewrite in_app_iff, H1. cbn [In]. split.
      * intros [[I T]|[<-|[]]]; [auto|split; [auto|reflexivity]].
      * intros [[<-|I] T]; auto.
    + rewrite H1. split; [tauto|]. intros [[<-|I] T]; [|auto]. cbn in T. congruence.
  - intro i. rewrite resize_nth. destruct (Nat.eqb_spec i v) as [->|D]; [|apply H2].
    apply (Permutation.Permutation_NoDup (l := x :: nth v lev [])); [apply Permutation.Permutation_cons_append|].
    constructor; [|apply H2]. rewrite H1. tauto.
  - intro n. rewrite resize_length, Nat.max_lub_iff, H3. cbn [In]. split.
    + intros [K1 K2] y i [<-|I] T; [|exact (K1 y i I T)]. cbn in T. injection T as <-. lia.
    + intro K. split; [intros y i I T; exact (K y i (or_intror I) T)|]. specialize (K x v (or_introl eq_refl) eq_refl). lia.
Qed.

Lemma collect_rec_spec x : forall c vis lev, state_ok vis lev ->
  let '(vis', lev') := collect_nodes_rec x c (vis, lev) in
  state_ok vis' lev' /\ incl vis vis' /\ In (c, x) vis'
  /\ forall y, In y vis' -> In y vis \/ (reach (c, x) y /\ incl (kids y) vis').
Proof.
  induction x as [|v t IHt ce e IHe]; intros c vis lev Ok; cbn [collect_nodes_rec].
  - destruct (existsb _ vis) eqn:E.
    + apply visited_spec in E. split; [exact Ok|]. split; [apply incl_refl|]. split; [exact E|auto].
    + split; [apply state_add_one; exact Ok|]. split; [apply incl_tl, incl_refl|]. split; [left; reflexivity|].
      intros y [<-|I]; [right; split; [constructor|intros z []]|left; exact I].
  - destruct (existsb _ vis) eqn:E.
    + apply visited_spec in E. split; [exact Ok|]. split; [apply incl_refl|]. split; [exact E|auto].
    + assert (Nx : ~ In (c, Nd v t ce e) vis) by (rewrite <- visited_spec, E; discriminate).
      pose proof (IHt c _ _ (state_add vis lev c v t ce e Nx Ok)) as Ht.
      destruct (collect_nodes_rec t c _) as [vis2 lev2] eqn:Et. destruct Ht as (Ok2 & I2 & T2 & R2).
      pose proof (IHe (xorb ce c) vis2 lev2 Ok2) as He.
      destruct (collect_nodes_rec e (xorb ce c) (vis2, lev2)) as [vis3 lev3] eqn:Ee. destruct He as (Ok3 & I3 & T3 & R3).
      split; [exact Ok3|]. split; [intros y I; apply I3, I2; right; exact I|]. split; [apply I3, I2; left; reflexivity|].
      intros y I. destruct (R3 y I) as [I'|[Re K]]; [|right; split; [apply reach_else; exact Re|exact K]].
      destruct (R2 y I') as [[<-|I'']|[Re K]].
      * right. split; [constructor|]. cbn [kids snd fst]. intros z [<-|[<-|[]]]; [apply I3; exact T2|exact T3].
      * left. exact I''.
      * right. split; [apply reach_then; exact Re|]. intros z Iz. apply I3, K, Iz.
Qed.

Definition closed (vis : list bdd) : Prop := forall y, In y vis -> incl (kids y) vis.
Lemma closed_reach vis x y : closed vis -> In x vis -> reach x y -> In y vis.
Proof.
  intros C I R. revert I. induction R as [x|c v t ce e y R IH|c v t ce e y R IH]; intro I; [exact I| |]; apply IH; apply (C _ I); cbn; auto.
Qed.
Lemma collect_loop : forall bdds vis lev, state_ok vis lev -> closed vis ->
  let '(vis', lev') := fold_left (fun st b => collect_nodes_rec (snd b) (fst b) st) bdds (vis, lev) in
  state_ok vis' lev' /\ (forall y, In y vis' <-> In y vis \/ exists f, In f bdds /\ reach f y).
Proof.
  induction bdds as [|[c x] bdds IH]; intros vis lev Ok C; cbn [fold_left].
  - split; [exact Ok|]. intro y. split; [auto|]. intros [I|(f & [] & _)]. exact I.
  - cbn [fst snd]. pose proof (collect_rec_spec x c vis lev Ok) as H1.
    destruct (collect_nodes_rec x c (vis, lev)) as [vis1 lev1]. destruct H1 as (Ok1 & I1 & T1 & R1).
    assert (C1 : closed vis1). { intros y I. destruct (R1 y I) as [I'|[_ K]]; [|exact K]. intros z Iz. apply I1. exact (C y I' z Iz). }
    pose proof (IH vis1 lev1 Ok1 C1) as H2. destruct (fold_left _ bdds (vis1, lev1)) as [vis2 lev2]. destruct H2 as [Ok2 V2].
    split; [exact Ok2|]. intro y. rewrite V2. split.
    + intros [I|(f & I & R)]; [|right; exists f; split; [right; exact I|exact R]].
      destruct (R1 y I) as [I'|[R _]]; [auto|]. right. exists (c, x). split; [left; reflexivity|exact R].
    + intros [I|(f & [<-|I] & R)]; [left; apply I1; exact I|left; exact (closed_reach vis1 (c, x) y C1 T1 R)|right; exists f; auto].
Qed.
Lemma collect_full bdds : let '(_, lev) := collect_nodes bdds in
  (forall i y, In y (nth i lev []) <-> top y = Some i /\ exists f, In f bdds /\ reach f y)
  /\ (forall i, NoDup (nth i lev []))
  /\ (forall n, List.length lev <= n <-> forall f y i, In f bdds -> reach f y -> top y = Some i -> i < n).
Proof.
  unfold collect_nodes. pose proof (collect_loop bdds [] []) as H. destruct (fold_left (fun st b => collect_nodes_rec (snd b) (fst b) st) bdds ([], [])) as [vis lev].
  destruct H as ((H1 & H2 & H3) & V).
  { split; [intros [|i] y; cbn; tauto|]. split; [intros [|i]; constructor|]. intro n. cbn. split; [intros _ y i []|lia]. }
  { intros y []. }
  split; [|split; [exact H2|]].
  - intros i y. rewrite H1, V. cbn [In]. tauto.
  - intro n. rewrite H3. split; intros H.
    + intros f y i I R T. apply (H y i); [rewrite V; right; exists f; auto|exact T].
    + intros y i I T. rewrite V in I. destruct I as [[]|(f & If & R)]. exact (H f y i If R T).
Qed.

Lemma concat_in (lev : list (list bdd)) y : In y (concat lev) <-> exists i, In y (nth i lev []).
Proof.
  rewrite in_concat. split.
  - intros (l & Il & Iy). destruct (In_nth _ _ [] Il) as (i & _ & E). exists i. rewrite E. exact Iy.
  - intros (i & I). exists (nth i lev []). split; [|exact I]. destruct (Nat.lt_ge_cases i (List.length lev)) as [L|L]; [apply nth_In; exact L|].
    rewrite nth_overflow in I by exact L. destruct I.
Qed.
Lemma concat_nodup (lev : list (list bdd)) : (forall i, NoDup (nth i lev [])) ->
  (forall i j y, In y (nth i lev []) -> In y (nth j lev []) -> i = j) -> NoDup (concat lev).
Proof.
  induction lev as [|l lev IH]; intros N D; cbn [concat]; [constructor|].
  assert (Nl : NoDup (concat lev)).
  { apply IH; [intro i; exact (N (S i))|]. intros i j y I J. pose proof (D (S i) (S j) y I J). lia. }
  pose proof (N 0) as N0. cbn in N0. induction l as [|x l IHl]; cbn [app]; [exact Nl|]. inversion_clear N0 as [|? ? Nx Nl']. constructor.
  - rewrite in_app_iff. intros [I|I]; [exact (Nx I)|]. apply concat_in in I. destruct I as [i I].
    pose proof (D 0 (S i) x (or_introl eq_refl) I). lia.
  - apply IHl; [|intros [|i] [|j] y I J|exact Nl'].
    + intros [|i]; [exact Nl'|exact (N (S i))].
    + reflexivity.
    + apply (D 0 (S j) y); [right; exact I|exact J].
    + apply (D (S i) 0 y); [exact I|right; exact J].
    + apply (D (S i) (S j) y); [exact I|exact J].
Qed.

Section Graph.
Variable addr : bdd -> string.
Hypothesis Haddr : prints_pointers addr.

Lemma level_statements_spec lev names : forall i, (forall j y, In y (nth j lev []) -> i + j < List.length names) ->
  exists S0, level_statements addr lev names i = Ok S0
  /\ (forall st, In st S0 <-> exists j y name, In y (nth j lev []) /\ nth_error names (i + j) = Some name /\ st = SNode (addr y) name (Level (i + j)))
  /\ diagram_nodes S0 = map addr (concat lev) /\ name_nodes S0 = [].
Proof.
  induction lev as [|l lev IH]; intros i H; cbn [level_statements].
  - exists []. split; [reflexivity|]. split; [|split; reflexivity]. intro st. split; [intros []|]. intros ([|j] & y & name & [] & _).
  - assert (Here : exists S1, (match l with [] => Ok [] | _ => name <- vget names i ;; Ok (map (fun x => SNode (addr x) name (Level i)) l) end) = Ok S1
       /\ (forall st, In st S1 <-> exists y name, In y l /\ nth_error names i = Some name /\ st = SNode (addr y) name (Level i))
       /\ diagram_nodes S1 = map addr l /\ name_nodes S1 = []).
    { destruct l as [|x l0] eqn:El.
      - exists []. split; [reflexivity|]. split; [|split; reflexivity]. intro st. split; [intros []|]. intros (y & name & [] & _).
      - rewrite <- El in *. assert (L : i < List.length names). { specialize (H 0 x). rewrite Nat.add_0_r in H. apply H. cbn. rewrite El. left. reflexivity. }
        destruct (vget_ok names i L) as (name & Ev & En). rewrite Ev. cbn [bind].
        exists (map (fun x => SNode (addr x) name (Level i)) l). split; [reflexivity|]. clear -En. split; [|split].
        + intro st. rewrite in_map_iff. split.
          * intros (y & <- & I). exists y, name. auto.
          * intros (y & name' & I & E' & ->). rewrite En in E'. injection E' as <-. exists y. auto.
        + induction l as [|y l IHl]; cbn; [reflexivity|]. f_equal. exact IHl.
        + induction l as [|y l IHl]; cbn; [reflexivity|exact IHl]. }
    destruct Here as (S1 & E1 & V1 & D1 & N1).
    destruct (IH (S i)) as (S2 & E2 & V2 & D2 & N2).
    { intros j y I. specialize (H (S j) y I). lia. }
    rewrite E2. exists (S1 ++ S2). split; [destruct l; rewrite E1; reflexivity|]. split; [|split].
    + intro st. rewrite in_app_iff, V1, V2. split.
      * intros [(y & name & I & En & ->)|(j & y & name & I & En & ->)].
        -- exists 0, y, name. rewrite Nat.add_0_r. auto.
        -- exists (S j), y, name. rewrite <- Nat.add_succ_comm. auto.
      * intros ([|j] & y & name & I & En & ->).
        -- left. rewrite Nat.add_0_r in *. exists y, name. auto.
        -- right. rewrite <- Nat.add_succ_comm in *. exists j, y, name. auto.
    + unfold diagram_nodes in *. rewrite flat_map_app. unfold diagram_nodes in D1. rewrite D1, D2. cbn [concat]. rewrite map_app. reflexivity.
    + unfold name_nodes in *. rewrite flat_map_app, N1, N2. reflexivity.
Qed.

Lemma links_spec names bdds : forall i, i + List.length names <= List.length bdds -> exists S0, links addr names bdds i = Ok S0
  /\ diagram_nodes S0 = [] /\ name_nodes S0 = []
  /\ forall st, In st S0 <-> exists k name f, nth_error names k = Some name /\ nth_error bdds (i + k) = Some f /\ st = SEdge name (addr f) Solid.
Proof.
  induction names as [|name names IH]; intros i L; cbn [links List.length] in *.
  - exists []. split; [reflexivity|]. split; [reflexivity|]. split; [reflexivity|]. intro st. split; [intros []|]. intros ([|k] & name & f & E & _); discriminate E.
  - destruct (vget_ok bdds i) as (b & Eb & Nb); [lia|]. rewrite Eb. cbn [bind]. destruct (IH (S i)) as (S0 & E & D & N & V); [lia|]. rewrite E. cbn [bind].
    exists (SEdge name (addr b) Solid :: S0). split; [reflexivity|]. split; [exact D|]. split; [exact N|]. intro st. cbn [In]. rewrite V. split.
    + intros [<-|(k & name' & f & E1 & E2 & ->)].
      * exists 0, name, b. rewrite Nat.add_0_r. auto.
      * exists (S k), name', f. rewrite <- Nat.add_succ_comm. auto.
    + intros ([|k] & name' & f & E1 & E2 & ->); cbn [nth_error] in E1.
      * left. injection E1 as <-. rewrite Nat.add_0_r in E2. congruence.
      * right. rewrite <- Nat.add_succ_comm in E2. exists k, name', f. auto.
Qed.

Lemma path_spec names : diagram_nodes (path names) = [] /\ name_nodes (path names) = []
  /\ forall st, In st (path names) -> exists x y, st = SEdge x y Invisible.
Proof.
  induction names as [|x [|y names] (D & N & V)]; cbn [path]; [split; [reflexivity|split; [reflexivity|intros st []]]..|].
  split; [exact D|]. split; [exact N|]. intros st [<-|I]; [exists x, y; reflexivity|exact (V st I)].
Qed.

Lemma edges_spec (lev : list (list bdd)) : let E0 := flat_map (fun nodes => flat_map (fun x =>
      [SEdge (addr x) (addr (then_child x)) Solid; SEdge (addr x) (addr (else_child x)) Dashed]) nodes) lev in
  diagram_nodes E0 = [] /\ name_nodes E0 = []
  /\ forall st, In st E0 <-> exists x, In x (concat lev) /\ (st = SEdge (addr x) (addr (then_child x)) Solid \/ st = SEdge (addr x) (addr (else_child x)) Dashed).
Proof.
  cbn zeta. assert (V : forall l, let E1 := flat_map (fun x => [SEdge (addr x) (addr (then_child x)) Solid; SEdge (addr x) (addr (else_child x)) Dashed]) l in
    diagram_nodes E1 = [] /\ name_nodes E1 = []).
  { induction l as [|x l [H1 H2]]; cbn zeta in *; [split; reflexivity|]. split; [exact H1|exact H2]. }
  split; [|split].
  - induction lev as [|l lev IH]; cbn [flat_map]; [reflexivity|]. unfold diagram_nodes in *. rewrite flat_map_app, IH, app_nil_r. apply V.
  - induction lev as [|l lev IH]; cbn [flat_map]; [reflexivity|]. unfold name_nodes in *. rewrite flat_map_app, IH, app_nil_r. apply V.
  - intro st. rewrite in_flat_map. split.
    + intros (l & Il & I). apply in_flat_map in I. destruct I as (x & Ix & I). exists x. split; [apply in_concat; exists l; auto|].
      cbn [In] in I. destruct I as [<-|[<-|[]]]; auto.
    + intros (x & Ix & I). apply in_concat in Ix. destruct Ix as (l & Il & Ix). exists l. split; [exact Il|]. apply in_flat_map. exists x. split; [exact Ix|].
      cbn [In]. destruct I as [->| ->]; auto.
Qed.

Lemma names_length count function_names : function_names = [] \/ List.length function_names = count ->
  List.length (all_function_names count function_names) = count.
Proof.
  intro H. unfold all_function_names. destruct function_names as [|x l].
  - destruct (Nat.ltb_spec 1 count); [rewrite map_length, seq_length; reflexivity|]. destruct (Nat.eqb_spec count 1); [subst; reflexivity|]. cbn. lia.
  - rewrite map_length. destruct H as [H|H]; [discriminate H|exact H].
Qed.
Lemma names_shape count function_names name : In name (all_function_names count function_names) ->
  name = "f"%string \/ exists s, name = ("<" ++ s)%string.
Proof.
  unfold all_function_names. destruct function_names as [|x l].
  - destruct (1 <? count); [|destruct (count =? 1); [intros [<-|[]]; auto|intros []]].
    intro I. apply in_map_iff in I. destruct I as (i & <- & _). right. eexists. reflexivity.
  - intro I. apply in_map_iff in I. destruct I as (i & <- & _). right. eexists. reflexivity.
Qed.
Lemma addr_not_name count function_names x : ~ In (addr x) (all_function_names count function_names).
Proof.
  intro I. destruct Haddr as [_ H]. destruct (H x) as [s E]. rewrite E in I. apply names_shape in I. destruct I as [I|[s' I]]; discriminate I.
Qed.
End Graph.

(** ** names *)
Lemma to_string_digit n : (n < 10)%N -> exists c, to_string n = String c "" /\ digit_value c = n.
Proof.
  intro H. assert (E : (n = 0 \/ n = 1 \/ n = 2 \/ n = 3 \/ n = 4 \/ n = 5 \/ n = 6 \/ n = 7 \/ n = 8 \/ n = 9)%N) by lia.
  destruct E as [->|[->|[->|[->|[->|[->|[->|[->|[->| ->]]]]]]]]]; vm_compute; eexists; split; reflexivity.
Qed.
Fixpoint digits (s : string) : Prop :=
  match s with EmptyString => True | String c s' => (48 <= N_of_ascii c <= 57)%N /\ digits s' end.
Lemma to_string_digits n : digits (to_string n).
Proof.
  unfold to_string. induction (N.to_uint n) as [|u IH|u IH|u IH|u IH|u IH|u IH|u IH|u IH|u IH|u IH]; cbn [DecimalString.NilEmpty.string_of_uint digits];
    [exact I|split; [vm_compute; split; discriminate|exact IH]..].
Qed.
Lemma string_app_inj a : forall b c, (a ++ b)%string = (a ++ c)%string -> b = c.
Proof. induction a as [|x a IH]; intros b c H; cbn in H; [exact H|]. injection H as H. apply IH. exact H. Qed.
Lemma subscript_of_inj : forall s s' r r', digits s -> digits s' ->
  (subscript_of s ++ String "<" r)%string = (subscript_of s' ++ String "<" r')%string -> s = s'.
Proof.
  induction s as [|c s IH]; intros [|c' s'] r r' D D'; cbn [subscript_of append]; intro H; try reflexivity; try discriminate H.
  cbn [digits] in D, D'. destruct D as [D0 D], D' as [D0' D'].
  destruct (to_string_digit (digit_value c)) as (d & E & V); [unfold digit_value; lia|].
  destruct (to_string_digit (digit_value c')) as (d' & E' & V'); [unfold digit_value; lia|].
  rewrite E, E' in H. cbn [append] in H. injection H as Hd H. subst d'.
  assert (Ec : c = c'). { rewrite <- (ascii_N_embedding c), <- (ascii_N_embedding c'). f_equal. unfold digit_value in *. lia. }
  subst c'. f_equal. exact (IH s' r r' D D' H).
Qed.
Lemma subscript_inj i j r r' : (subscript i ++ String "<" r)%string = (subscript j ++ String "<" r')%string -> i = j.
Proof.
  intro H. apply subscript_of_inj in H; [|apply to_string_digits|apply to_string_digits]. apply to_string_inj in H. lia.
Qed.
Lemma string_app_assoc a b c : ((a ++ b) ++ c)%string = (a ++ (b ++ c))%string.
Proof. induction a as [|x a IH]; cbn; [reflexivity|]. f_equal. exact IH. Qed.
Lemma default_names_nodup count : NoDup (all_function_names count []).
Proof.
  unfold all_function_names. destruct (1 <? count); [|destruct (count =? 1); [constructor; [intros []|constructor]|constructor]].
  apply FinFun.Injective_map_NoDup; [|apply seq_NoDup]. intros i j H. unfold function_name in H. cbn [append] in H. injection H as H.
  exact (subscript_inj i j _ _ H).
Qed.
Lemma snoc_inj c : forall s t, (s ++ String c "")%string = (t ++ String c "")%string -> s = t.
Proof.
  induction s as [|a s IH]; intros [|b t] H; cbn in H; try reflexivity.
  - injection H as Ha H. destruct t; discriminate H.
  - injection H as Ha H. destruct s; discriminate H.
  - injection H as Ha H. f_equal; [exact Ha|]. apply IH. exact H.
Qed.
Lemma given_names_nodup count x l : NoDup (x :: l) -> NoDup (all_function_names count (x :: l)).
Proof.
  intro N. apply FinFun.Injective_map_NoDup; [|exact N]. intros s t H. cbn [append] in H. injection H as H. exact (snoc_inj ">" s t H).
Qed.

(** ** the graph *)
Lemma reach_trans x y z : reach x y -> reach y z -> reach x z.
Proof. induction 1 as [x|c v t ce e y R IH|c v t ce e y R IH]; intro H; [exact H|apply reach_then; auto|apply reach_else; auto]. Qed.
Lemma reach_then_child x : reach x (then_child x).
Proof. destruct x as [c [|v t ce e]]; cbn; [apply reach_refl|apply reach_then, reach_refl]. Qed.
Lemma reach_else_child x : reach x (else_child x).
Proof. destruct x as [c [|v t ce e]]; cbn; [apply reach_refl|apply reach_else, reach_refl]. Qed.
Lemma ev_children x i a : top x = Some i -> ev x a = if a i then ev (then_child x) a else ev (else_child x) a.
Proof.
  destruct x as [c [|v t ce e]]; cbn; [discriminate|]. injection 1 as ->. unfold ev. cbn [fst snd evn].
  destruct (a i); [reflexivity|]. destruct c, ce, (evn e a); reflexivity.
Qed.

Lemma dump_full addr bdds function_names variable_names order left_terminal : prints_pointers addr ->
  let names := all_function_names (List.length bdds) function_names in
  let dump := dump_dot_readable addr bdds function_names variable_names order left_terminal in
  let shown x := exists f, In f bdds /\ reach f x in
  (fits bdds function_names variable_names -> exists G, dump = Ok G
    /\ name_nodes G = names /\ List.length names = List.length bdds
    /\ NoDup (diagram_nodes G)
    /\ (forall id, In id (diagram_nodes G) <-> exists x, id = addr x /\ (x = bone \/ x = bzero \/ shown x))
    /\ (forall id label i, In (SNode id label (Level i)) G <->
          exists x, shown x /\ top x = Some i /\ id = addr x /\ label = label_of variable_names i)
    /\ (forall k name f, nth_error names k = Some name -> nth_error bdds k = Some f ->
          In (SEdge name (addr f) Solid) G
          /\ (NoDup names -> forall id s, In (SEdge name id s) G -> s <> Invisible -> id = addr f))
    /\ (forall x a b, shown x -> (graph_value G a (addr x) b <-> ev x a = b)))
  /\ (~ fits bdds function_names variable_names -> dump = Abort).
Proof.
  intros Ha names dump shown. pose proof (collect_full bdds) as C. subst dump. unfold dump_dot_readable.
  destruct (collect_nodes bdds) as [vis lev]. destruct C as (C1 & C2 & C3). split.
  - intros [F1 F2].
    assert (A1 : (List.length bdds =? List.length function_names) || (List.length function_names =? 0) = true).
    { destruct F1 as [->|<-]; [apply orb_true_r|rewrite Nat.eqb_refl; reflexivity]. }
    assert (A2 : (List.length variable_names =? 0) || (List.length lev <=? List.length variable_names) = true).
    { destruct F2 as [->|F2]; [reflexivity|]. apply orb_true_iff. right. apply Nat.leb_le, C3. exact F2. }
    rewrite A1, A2. cbn [assert_ bind].
    pose proof (names_length (List.length bdds) function_names F1) as Ln. fold names in Ln. fold names.
    destruct (links_spec addr names bdds 0) as (S1 & E1 & D1 & N1 & V1); [lia|]. rewrite E1. cbn [bind].
    set (vn := all_variable_names (List.length lev) variable_names).
    assert (Lab : forall i y, In y (nth i lev []) -> nth_error vn i = Some (label_of variable_names i)).
    { intros i y I. assert (Li : i < List.length lev). { destruct (Nat.lt_ge_cases i (List.length lev)) as [L|L]; [exact L|]. rewrite nth_overflow in I by exact L. destruct I. }
      unfold vn, all_variable_names, label_of. destruct variable_names as [|w ws].
      - rewrite (map_nth_error variable_name i (seq 0 (List.length lev)) (d := i)); [reflexivity|].
        rewrite (nth_error_nth' _ 0) by (rewrite seq_length; exact Li). rewrite seq_nth by exact Li. reflexivity.
      - apply nth_error_nth'. destruct F2 as [F2|F2]; [discriminate F2|]. apply C3 in F2. lia. }
    destruct (level_statements_spec addr lev vn 0) as (S2 & E2 & V2 & D2 & N2).
    { intros j y I. specialize (Lab j y I). apply nth_error_Some. cbn [Nat.add]. congruence. }
    rewrite E2. cbn [bind].
    set (ord := if order then path names else []).
    assert (Ho : diagram_nodes ord = [] /\ name_nodes ord = [] /\ forall st, In st ord -> exists x y, st = SEdge x y Invisible).
    { unfold ord. destruct order; [apply path_spec|]. split; [reflexivity|]. split; [reflexivity|intros st []]. }
    clearbody ord. destruct Ho as (D4 & N4 & V4).
    set (chain := path _). assert (Hc : diagram_nodes chain = [] /\ name_nodes chain = [] /\ forall st, In st chain -> exists x y, st = SEdge x y Invisible) by apply path_spec.
    clearbody chain. destruct Hc as (D3 & N3 & V3).
    set (tord := match left_terminal with None => [] | Some true => _ | Some false => _ end).
    assert (Ht : diagram_nodes tord = [] /\ name_nodes tord = [] /\ forall st, In st tord -> exists x y, st = SEdge x y Invisible).
    { unfold tord. destruct left_terminal as [[|]|]; (split; [reflexivity|split; [reflexivity|]]); intros st I; cbn [In] in I; destruct I as [<-|[]] || destruct I; eexists; eexists; reflexivity. }
    clearbody tord. destruct Ht as (D5 & N5 & V5).
    destruct (edges_spec addr lev) as (D6 & N6 & V6). set (edges := flat_map _ lev) in *. clearbody edges.
    set (fnodes := map (fun name => SNode name name Source) names).
    assert (Hf : diagram_nodes fnodes = [] /\ name_nodes fnodes = names /\ forall st, In st fnodes <-> exists name, In name names /\ st = SNode name name Source).
    { unfold fnodes. clear. split; [|split].
      - induction names as [|x l IH]; [reflexivity|exact IH].
      - induction names as [|x l IH]; [reflexivity|]. cbn. f_equal. exact IH.
      - intro st. rewrite in_map_iff. split; intros (x & H1 & H2); exists x; auto. }
    clearbody fnodes. destruct Hf as (D7 & N7 & V7).
    set (G := fnodes ++ _). exists G. split; [reflexivity|].
    assert (DG : diagram_nodes G = map addr (concat lev) ++ [addr bone; addr bzero]).
    { unfold G, diagram_nodes in *. rewrite !flat_map_app, D1, D2, D3, D4, D5, D6, D7. cbn [app flat_map]. reflexivity. }
    assert (NG : name_nodes G = names).
    { unfold G, name_nodes in *. rewrite !flat_map_app, N1, N2, N3, N4, N5, N6, N7. cbn [app flat_map]. apply app_nil_r. }
    assert (InG : forall st, In st G <-> In st fnodes \/ In st ord \/ In st S1 \/ In st chain \/ In st S2
       \/ (st = SNode (addr bone) "&#8868;"%string Bottom \/ st = SNode (addr bzero) "&#8869;"%string Bottom) \/ In st tord \/ In st edges).
    { intro st. unfold G. rewrite !in_app_iff. cbn [In]. split; intro H; decompose [or] H; try contradiction; auto 12 using eq_sym. }
    clearbody G.
    assert (Shown : forall x i, In x (nth i lev []) <-> top x = Some i /\ shown x) by (intros; apply C1).
    assert (Levels : forall id label i, In (SNode id label (Level i)) G <->
          exists x, shown x /\ top x = Some i /\ id = addr x /\ label = label_of variable_names i).
    { intros id label i. rewrite InG. split.
      - intros [H|[H|[H|[H|[H|[[H|H]|[H|H]]]]]]]; try discriminate H.
        + apply V7 in H. destruct H as (nm & _ & H). discriminate H.
        + apply V4 in H. destruct H as (u & v & H). discriminate H.
        + apply V1 in H. destruct H as (k & nm & f & _ & _ & H). discriminate H.
        + apply V3 in H. destruct H as (u & v & H). discriminate H.
        + apply V2 in H. destruct H as (j & y & nm & I & En & H). cbn [Nat.add] in En, H. injection H as -> -> ->.
          rewrite (Lab j y I) in En. injection En as <-. exists y. apply Shown in I. destruct I as [T S0]. auto.
        + apply V5 in H. destruct H as (u & v & H). discriminate H.
        + apply V6 in H. destruct H as (x & _ & [H|H]); discriminate H.
      - intros (x & S0 & T & -> & ->). right; right; right; right; left. apply V2. exists i, x, (label_of variable_names i).
        assert (I : In x (nth i lev [])) by (apply Shown; auto). split; [exact I|]. split; [exact (Lab i x I)|reflexivity]. }
    assert (Bottoms : forall id label, In (SNode id label Bottom) G -> (id = addr bone /\ label = "&#8868;"%string) \/ (id = addr bzero /\ label = "&#8869;"%string)).
    { intros id label H. apply InG in H. destruct H as [H|[H|[H|[H|[H|[[H|H]|[H|H]]]]]]].
      - apply V7 in H. destruct H as (nm & _ & H). discriminate H.
      - apply V4 in H. destruct H as (u & v & H). discriminate H.
      - apply V1 in H. destruct H as (k & nm & f & _ & _ & H). discriminate H.
      - apply V3 in H. destruct H as (u & v & H). discriminate H.
      - apply V2 in H. destruct H as (j & y & nm & I & En & H). discriminate H.
      - injection H as -> ->. auto.
      - injection H as -> ->. auto.
      - apply V5 in H. destruct H as (u & v & H). discriminate H.
      - apply V6 in H. destruct H as (x & _ & [H|H]); discriminate H. }
    assert (Edges : forall x y s, s <> Invisible -> (In (SEdge x y s) G <->
        (exists k f, nth_error names k = Some x /\ nth_error bdds k = Some f /\ y = addr f /\ s = Solid)
        \/ (exists z, In z (concat lev) /\ x = addr z /\ ((s = Solid /\ y = addr (then_child z)) \/ (s = Dashed /\ y = addr (else_child z)))))).
    { intros x y s Hs. rewrite InG. split.
      - intros [H|[H|[H|[H|[H|[[H|H]|[H|H]]]]]]]; try discriminate H.
        + apply V7 in H. destruct H as (nm & _ & H). discriminate H.
        + apply V4 in H. destruct H as (u & v & H). congruence.
        + apply V1 in H. destruct H as (k & nm & f & K1 & K2 & H). injection H as -> -> ->. left. exists k, f. auto.
        + apply V3 in H. destruct H as (u & v & H). congruence.
        + apply V2 in H. destruct H as (j & z & nm & I & En & H). discriminate H.
        + apply V5 in H. destruct H as (u & v & H). congruence.
        + apply V6 in H. destruct H as (z & I & [H|H]); injection H as -> -> ->; right; exists z; auto 6.
      - intros [(k & f & K1 & K2 & -> & ->)|(z & I & -> & [[-> ->]|[-> ->]])].
        + right; right; left. apply V1. exists k, x, f. auto.
        + do 7 right. apply V6. exists z. auto.
        + do 7 right. apply V6. exists z. auto. }
    assert (AddrEdge : forall x i id s, shown x -> top x = Some i -> s <> Invisible -> (In (SEdge (addr x) id s) G <->
        (s = Solid /\ id = addr (then_child x)) \/ (s = Dashed /\ id = addr (else_child x)))).
    { intros x i id s S0 T Hs. rewrite (Edges (addr x) id s Hs). split.
      - intros [(k & f & K1 & _)|(z & I & E & H)].
        + exfalso. apply (addr_not_name addr Ha (List.length bdds) function_names x). exact (nth_error_In _ _ K1).
        + apply (proj1 Ha) in E. subst z. exact H.
      - intro H. right. exists x. split; [|split; [reflexivity|exact H]]. apply concat_in. exists i. apply Shown. auto. }
    split; [exact NG|]. split; [exact Ln|]. split; [|split; [|split; [exact Levels|split]]].
    + rewrite DG. change [addr bone; addr bzero] with (map addr [bone; bzero]). rewrite <- map_app. apply FinFun.Injective_map_NoDup; [exact (proj1 Ha)|].
      assert (Nc : NoDup (concat lev)).
      { apply concat_nodup; [exact C2|]. intros i j y I J. apply Shown in I. apply Shown in J. destruct I as [I _], J as [J _]. congruence. }
      assert (Nt : forall x, In x (concat lev) -> top x <> None).
      { intros x I. apply concat_in in I. destruct I as [i I]. apply Shown in I. destruct I as [I _]. congruence. }
      apply (Permutation.Permutation_NoDup (l := bone :: bzero :: concat lev)).
      { apply (Permutation.Permutation_app_comm [bone; bzero]). }
      constructor; [intros [H|H]; [discriminate H|apply Nt in H; apply H; reflexivity]|].
      constructor; [intro H; apply Nt in H; apply H; reflexivity|exact Nc].
    + intro id. rewrite DG, in_app_iff, in_map_iff. cbn [In]. split.
      * intros [(x & <- & I)|[<-|[<-|[]]]].
        -- exists x. split; [reflexivity|]. apply concat_in in I. destruct I as [i I]. apply Shown in I. tauto.
        -- exists bone. auto.
        -- exists bzero. auto.
      * intros (x & -> & [->|[->|S0]]); auto. destruct x as [[|] [|v t ce e]]; auto.
        -- left. exists (true, Nd v t ce e). split; [reflexivity|]. apply concat_in. exists v. apply Shown. auto.
        -- left. exists (false, Nd v t ce e). split; [reflexivity|]. apply concat_in. exists v. apply Shown. auto.
    + intros k name f K1 K2. split.
      * apply Edges; [discriminate|]. left. exists k, f. auto.
      * intros Nd0 id s H Hs. apply Edges in H; [|exact Hs]. destruct H as [(k' & f' & J1 & J2 & -> & _)|(z & I & E & _)].
        -- assert (k = k'). { rewrite NoDup_nth_error in Nd0. apply Nd0; [apply nth_error_Some; congruence|congruence]. } subst k'. congruence.
        -- exfalso. apply (addr_not_name addr Ha (List.length bdds) function_names z). rewrite <- E. exact (nth_error_In _ _ K1).
    + assert (Sound : forall a id b, graph_value G a id b -> forall x, shown x -> id = addr x -> ev x a = b).
      { intros a id b H. induction H as [id H|id H|id label i id' b H1 H2 H3 IH]; intros x S0 ->.
        - apply Bottoms in H. destruct H as [[E _]|[E Hl]]; [|discriminate Hl]. apply (proj1 Ha) in E. subst x. reflexivity.
        - apply Bottoms in H. destruct H as [[E Hl]|[E _]]; [discriminate Hl|]. apply (proj1 Ha) in E. subst x. reflexivity.
        - apply Levels in H1. destruct H1 as (x' & _ & T & E & _). apply (proj1 Ha) in E. subst x'. rewrite (ev_children x i a T).
          destruct S0 as (f & If & R). apply (AddrEdge x i) in H2; [|exists f; auto|exact T|destruct (a i); discriminate].
          destruct (a i); destruct H2 as [[Hs ->]|[Hs ->]]; try discriminate Hs; apply IH; try reflexivity; exists f; (split; [exact If|]).
          + exact (reach_trans _ _ _ R (reach_then_child x)).
          + exact (reach_trans _ _ _ R (reach_else_child x)). }
      assert (Complete : forall (y : node) (a : asg) c, shown (c, y) -> graph_value G a (addr (c, y)) (ev (c, y) a)).
      { induction y as [|v t IHt ce e IHe]; intros a c S0.
        - destruct c.
          + apply value_bottom. apply InG. auto 12.
          + apply value_top. apply InG. auto 12.
        - rewrite (ev_children (c, Nd v t ce e) v a eq_refl). destruct S0 as (f & If & R).
          apply (value_inner G a _ (label_of variable_names v) v (if a v then addr (c, t) else addr (xorb ce c, e))).
          + apply Levels. exists (c, Nd v t ce e). split; [exists f; auto|auto].
          + apply (AddrEdge _ v); [exists f; auto|reflexivity|destruct (a v); discriminate|]. destruct (a v); auto.
          + destruct (a v).
            * apply IHt. exists f. split; [exact If|]. exact (reach_trans _ _ _ R (reach_then_child (c, Nd v t ce e))).
            * apply IHe. exists f. split; [exact If|]. exact (reach_trans _ _ _ R (reach_else_child (c, Nd v t ce e))). }
      intros [c y] a b S0. split; [intro H; exact (Sound a _ b H (c, y) S0 eq_refl)|]. intros <-. exact (Complete y a c S0).
  - intro F.
    destruct ((List.length bdds =? List.length function_names) || (List.length function_names =? 0)) eqn:A1; [|reflexivity]. cbn [assert_ bind].
    destruct ((List.length variable_names =? 0) || (List.length lev <=? List.length variable_names)) eqn:A2; [|reflexivity].
    exfalso. apply F. split.
    + apply orb_true_iff in A1. destruct A1 as [A1|A1]; apply Nat.eqb_eq in A1; [right; lia|left; destruct function_names; [reflexivity|discriminate A1]].
    + apply orb_true_iff in A2. destruct A2 as [A2|A2]; [apply Nat.eqb_eq in A2; left; destruct variable_names; [reflexivity|discriminate A2]|].
      right. apply Nat.leb_le in A2. apply C3. exact A2.
Qed.

(** ** a way to print pointers *)
Fixpoint print_node (x : node) (rest : string) : string :=
  match x with
  | One => String "1" rest
  | Nd v t c e => String "n" (to_string (N.of_nat v) ++ String (if c then "-" else "+") (print_node t (print_node e rest)))
  end.
Definition print_pointer (x : bdd) : string := "0x" ++ String (if fst x then "-" else "+") (print_node (snd x) "").
Lemma digits_stop s s' (x y : ascii) r r' : digits s -> digits s' -> ~ (48 <= N_of_ascii x <= 57)%N -> ~ (48 <= N_of_ascii y <= 57)%N ->
  (s ++ String x r)%string = (s' ++ String y r')%string -> s = s' /\ x = y /\ r = r'.
Proof.
  revert s'. induction s as [|c s IH]; intros [|c' s'] D D' Hx Hy H; cbn [append] in H.
  - injection H as -> ->. auto.
  - injection H as -> _. destruct D' as [D' _]. contradiction.
  - injection H as -> _. destruct D as [D _]. contradiction.
  - injection H as -> H. destruct (IH s' (proj2 D) (proj2 D') Hx Hy H) as (-> & K). auto.
Qed.
Lemma print_node_inj : forall x y r r', print_node x r = print_node y r' -> x = y /\ r = r'.
Proof.
  induction x as [|v t IHt c e IHe]; intros [|v' t' c' e'] r r' H; cbn [print_node] in H; try discriminate H.
  - injection H as ->. auto.
  - injection H as H. apply digits_stop in H; [|apply to_string_digits|apply to_string_digits|destruct c; vm_compute; intros [K1 K2]; (apply K1 || apply K2); reflexivity|destruct c'; vm_compute; intros [K1 K2]; (apply K1 || apply K2); reflexivity].
    destruct H as (Ev & Ec & H). apply to_string_inj in Ev. apply Nat2N.inj in Ev. assert (c = c') by (destruct c, c'; (reflexivity || discriminate Ec)).
    apply IHt in H. destruct H as [-> H]. apply IHe in H. destruct H as [-> ->]. subst. auto.
Qed.
Lemma print_pointer_ok : prints_pointers print_pointer.
Proof.
  split; [|intro x; eexists; reflexivity]. intros [c x] [c' y] H. unfold print_pointer in H. cbn [fst snd append] in H. injection H as Ec H.
  apply print_node_inj in H. destruct H as [-> _]. destruct c, c'; (reflexivity || discriminate Ec).
Qed.
