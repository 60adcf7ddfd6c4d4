(** Proofs about the AIGER reader. *)
From Coq Require Import Ascii String List Bool Arith NArith Lia.
From Verif Require Import Res Cudd CuddFacts Helpers Parsing SpecParsing MinimizeFacts ParsingFacts.
Import ListNotations.
Open Scope list_scope.
Open Scope nat_scope.

Lemma lit_value_mono evs evs' a lit b : incl evs evs' -> lit_value evs a lit b -> lit_value evs' a lit b.
Proof.
  intros Hi H. induction H as [| |index lit H|index l r x y H H1 IH1 H2 IH2|lit x H H1 IH].
  - constructor.
  - constructor.
  - apply lit_input. auto.
  - exact (lit_and evs' a index l r x y (Hi _ H) IH1 IH2).
  - apply lit_not; auto.
Qed.
Lemma defined_mono evs evs' lit : incl evs evs' -> defined evs lit -> defined evs' lit.
Proof.
  intros Hi [H|[H|[(i & H)|(i & l & r & H & E)]]]; [left; auto|right; left; auto|right; right; left; eauto|].
  right; right; right. exists i, l, r. auto.
Qed.
Lemma declared_mono evs evs' lit : incl evs evs' -> declared evs lit -> declared evs' lit.
Proof. intros Hi [H|[H1 H2]]; [left|right; split; auto]; exact (defined_mono _ _ _ Hi ltac:(eassumption)). Qed.

Section Aig.
Variable M : mgr.

(** ** Sizes and outcomes *)
Definition sizes (st : aig) : Prop :=
  (2 <= num_literals st)%N /\ length (literals st) = N.to_nat (num_literals st)
  /\ length (output_indices st) = N.to_nat (num_outputs st)
  /\ length (input_names st) = N.to_nat (num_inputs st) /\ length (output_names st) = N.to_nat (num_outputs st)
  /\ Forall (fun l => (l < num_literals st)%N) (output_indices st).

Lemma resized_length {A} n (x : A) : length (resized n x) = N.to_nat n.
Proof. apply repeat_length. Qed.
Lemma size_t_even m : (size_t_ (m * 2 + 2) = 0 \/ 2 <= size_t_ (m * 2 + 2))%N.
Proof.
  unfold size_t_. assert (((m * 2 + 2) mod 2 ^ 64) mod 2 = 0)%N as H.
  { replace (2 ^ 64)%N with (2 * 2 ^ 63)%N by reflexivity. rewrite N.mod_mul_r by discriminate.
    rewrite (N.mul_comm 2), N.mod_add by discriminate. rewrite N.mod_mod by discriminate.
    replace (m * 2 + 2)%N with ((m + 1) * 2)%N by lia. apply N.mod_mul. discriminate. }
  remember ((m * 2 + 2) mod 2 ^ 64)%N as k. destruct k as [|[p|p|]]; [left; auto|right; lia|right; lia|discriminate].
Qed.
Lemma on_header_cases m i o :
  (size_t_ (m * 2 + 2) = 0%N /\ on_header m i o = UB)
  \/ (exists st, on_header m i o = Ok st /\ sizes st /\ num_literals st = size_t_ (m * 2 + 2) /\ num_inputs st = i /\ num_outputs st = o
        /\ output_indices st = repeat 0%N (N.to_nat o)
        /\ forall k, nth_error (literals st) k = if (k <? N.to_nat (num_literals st)) then Some (match k with 0 => Some bzero | 1 => Some bone | _ => None end) else None).
Proof.
  unfold on_header. set (n := size_t_ (m * 2 + 2)). destruct (size_t_even m) as [H|H]; fold n in H.
  - left. split; auto. rewrite H. reflexivity.
  - right.
    assert (exists q, N.to_nat n = S (S q)) as (q & Hq) by (exists (N.to_nat n - 2); lia).
    unfold resized. rewrite Hq. cbn [repeat vset bind]. eexists. split; [reflexivity|].
    unfold sizes. cbn [num_literals num_inputs num_outputs output_indices literals input_names output_names].
    rewrite Hq. cbn [length]. rewrite !repeat_length. split; [|split; [auto|split; [auto|split; [auto|split; [auto|]]]]].
    + split; auto. split; auto. split; auto. split; auto. split; auto. apply Forall_forall. intros x Hx. apply repeat_spec in Hx. lia.
    + intros [|[|k]]; cbn [nth_error]; auto. destruct (Nat.ltb_spec (S (S k)) (S (S q))) as [Hk|Hk].
      * rewrite (nth_error_nth' _ None); [|rewrite repeat_length; lia]. rewrite nth_repeat. reflexivity.
      * apply nth_error_None. rewrite repeat_length. lia.
Qed.

Lemma find_literal_cases lits lit : N.to_nat lit < length lits ->
  (exists lits' f, find_literal lits lit = Ok (lits', f) /\ length lits' = length lits) \/ find_literal lits lit = Throw.
Proof.
  intro H. unfold find_literal. destruct (vget_ok lits (N.to_nat lit) H) as (x & E & _). rewrite E. cbn [bind].
  destruct x as [b|]; [left; eauto|]. destruct (N.odd lit); auto.
  destruct (vget_ok lits (N.to_nat (lit - 1)%N)) as (y & E' & _); [lia|]. rewrite E'. cbn [bind]. destruct y as [b|]; auto.
  destruct (vset_ok lits (N.to_nat lit) (Some (bnot b)) H) as (l' & E2). rewrite E2. cbn [bind]. left. do 2 eexists. split; [reflexivity|].
  apply (vset_spec _ _ _ _ E2).
Qed.

Definition boundary (st : aig) (e : aig_event) : Prop :=
  match e with
  | InputName index _ => index = num_inputs st
  | OutputName index _ => index = num_outputs st
  | And index l r => (index * 2) mod 2 ^ 32 = num_literals st /\ l < num_literals st /\ r < num_literals st
  | _ => False
  end%N.

Lemma step_cases st e : sizes st ->
  (aig_step M st e = UB <-> boundary st e)
  /\ (forall st', aig_step M st e = Ok st' -> sizes st' /\ num_literals st' = num_literals st /\ num_inputs st' = num_inputs st /\ num_outputs st' = num_outputs st).
Proof.
  intros (H1 & H2 & H3 & H4 & H5 & H6). destruct e as [index lit|index lit|index l r|index name|index name|]; cbn [aig_step boundary].
  - destruct (N.ltb_spec index (num_inputs st)) as [G1|G1]; cbn [assert_ bind]; [|split; [split; [discriminate|contradiction]|discriminate]].
    destruct (N.ltb_spec lit (num_literals st)) as [G2|G2]; cbn [assert_ bind]; [|split; [split; [discriminate|contradiction]|discriminate]].
    destruct (vset_ok (literals st) (N.to_nat lit) (Some (bvar (N.to_nat index)))) as (l' & E); [lia|]. rewrite E. cbn [bind].
    split; [split; [discriminate|contradiction]|]. intros st' Hs. injection Hs as <-. unfold sizes. cbn.
    destruct (vset_spec _ _ _ _ E) as (L & _). rewrite L. auto 10.
  - destruct (N.ltb_spec index (num_outputs st)) as [G1|G1]; cbn [assert_ bind]; [|split; [split; [discriminate|contradiction]|discriminate]].
    destruct (N.ltb_spec lit (num_literals st)) as [G2|G2]; cbn [assert_ bind]; [|split; [split; [discriminate|contradiction]|discriminate]].
    destruct (vset_ok (output_indices st) (N.to_nat index) lit) as (l' & E); [lia|]. rewrite E. cbn [bind].
    split; [split; [discriminate|contradiction]|]. intros st' Hs. injection Hs as <-. unfold sizes.
    cbn [num_literals num_inputs num_outputs output_indices literals input_names output_names].
    destruct (vset_spec _ _ _ _ E) as (L & _ & N1). rewrite L. split; [|auto].
    split; auto. split; auto. split; auto. split; auto. split; auto. apply Forall_forall. intros x Hx.
    apply In_nth_error in Hx. destruct Hx as (j & Ej). rewrite N1 in Ej. destruct (j =? N.to_nat index); [injection Ej as <-; auto|].
    apply (proj1 (Forall_forall _ _) H6). exact (nth_error_In _ _ Ej).
  - unfold unsigned_. set (t := ((index * 2) mod 2 ^ 32)%N). clearbody t.
    destruct (N.leb_spec t (num_literals st)) as [G1|G1]; cbn [assert_ bind];
      [|split; [split; [discriminate|intros [F _]; lia]|discriminate]].
    destruct ((l <? num_literals st) && (r <? num_literals st))%N eqn:G2; cbn [assert_ bind];
      [|split; [split; [discriminate|]|discriminate]; intros (_ & F1 & F2); apply N.ltb_lt in F1, F2; rewrite F1, F2 in G2; discriminate].
    apply andb_true_iff in G2. rewrite !N.ltb_lt in G2. destruct G2 as [G2 G3].
    destruct (N.eq_dec t (num_literals st)) as [->|Hne].
    + unfold vget. rewrite (proj2 (nth_error_None (literals st) (N.to_nat (num_literals st)))) by lia. cbn [bind].
      split; [|discriminate]. split; auto.
    + destruct (vget_ok (literals st) (N.to_nat t)) as (x & E & _); [lia|]. rewrite E. cbn [bind].
      destruct x as [b|]; cbn [assert_ bind]; [split; [split; [discriminate|intros [F _]; contradiction]|discriminate]|].
      destruct (find_literal_cases (literals st) l) as [(l1 & f1 & E1 & L1)|E1]; [lia|rewrite E1; cbn [bind]|rewrite E1; cbn [bind];
        split; [split; [discriminate|intros [F _]; contradiction]|discriminate]].
      destruct (find_literal_cases l1 r) as [(l2 & f2 & E2 & L2)|E2]; [lia|rewrite E2; cbn [bind]|rewrite E2; cbn [bind];
        split; [split; [discriminate|intros [F _]; contradiction]|discriminate]].
      destruct (vset_ok l2 (N.to_nat t) (Some (band M f1 f2))) as (l3 & E3); [lia|]. rewrite E3. cbn [bind].
      split; [split; [discriminate|intros [F _]; contradiction]|]. intros st' Hs. injection Hs as <-. unfold sizes. cbn.
      destruct (vset_spec _ _ _ _ E3) as (L & _). rewrite L. split; [|auto]. split; auto. split; [lia|auto].
  - destruct (N.leb_spec index (num_inputs st)) as [G1|G1]; cbn [assert_ bind]; [|split; [split; [discriminate|lia]|discriminate]].
    destruct (vset (input_names st) (N.to_nat index) name) as [l'| | |] eqn:E; cbn [bind].
    + destruct (vset_spec _ _ _ _ E) as (L & Hi & _). split; [split; [discriminate|lia]|]. intros st' Hs. injection Hs as <-.
      unfold sizes. cbn. rewrite L. auto 10.
    + split; [|discriminate]. split; auto. intros _. destruct (N.lt_ge_cases index (num_inputs st)) as [G2|G2]; [|lia].
      destruct (vset_ok (input_names st) (N.to_nat index) name) as (l' & E'); [lia|congruence].
    + destruct (Nat.lt_ge_cases (N.to_nat index) (length (input_names st))) as [G2|G2].
      * destruct (vset_ok (input_names st) (N.to_nat index) name G2) as (l' & E'); congruence.
      * exfalso. clear - E. revert E. generalize (N.to_nat index). induction (input_names st) as [|y ys IH]; intros k; [destruct k; discriminate|].
        destruct k as [|k]; cbn [vset]; [discriminate|]. specialize (IH k). destruct (vset ys k name); cbn [bind]; congruence.
    + destruct (Nat.lt_ge_cases (N.to_nat index) (length (input_names st))) as [G2|G2].
      * destruct (vset_ok (input_names st) (N.to_nat index) name G2) as (l' & E'); congruence.
      * exfalso. clear - E. revert E. generalize (N.to_nat index). induction (input_names st) as [|y ys IH]; intros k; [destruct k; discriminate|].
        destruct k as [|k]; cbn [vset]; [discriminate|]. specialize (IH k). destruct (vset ys k name); cbn [bind]; congruence.
  - destruct (N.leb_spec index (num_outputs st)) as [G1|G1]; cbn [assert_ bind]; [|split; [split; [discriminate|lia]|discriminate]].
    destruct (vset (output_names st) (N.to_nat index) name) as [l'| | |] eqn:E; cbn [bind].
    + destruct (vset_spec _ _ _ _ E) as (L & Hi & _). split; [split; [discriminate|lia]|]. intros st' Hs. injection Hs as <-.
      unfold sizes. cbn. rewrite L. auto 10.
    + split; [|discriminate]. split; auto. intros _. destruct (N.lt_ge_cases index (num_outputs st)) as [G2|G2]; [|lia].
      destruct (vset_ok (output_names st) (N.to_nat index) name) as (l' & E'); [lia|congruence].
    + exfalso. clear - E. revert E. generalize (N.to_nat index). induction (output_names st) as [|y ys IH]; intros k; [destruct k; discriminate|].
        destruct k as [|k]; cbn [vset]; [discriminate|]. specialize (IH k). destruct (vset ys k name); cbn [bind]; congruence.
    + exfalso. clear - E. revert E. generalize (N.to_nat index). induction (output_names st) as [|y ys IH]; intros k; [destruct k; discriminate|].
        destruct k as [|k]; cbn [vset]; [discriminate|]. specialize (IH k). destruct (vset ys k name); cbn [bind]; congruence.
  - split; [split; [discriminate|contradiction]|discriminate].
Qed.
Lemma run_sizes evs : forall st st', sizes st -> aig_run M evs st = Ok st' ->
  sizes st' /\ num_literals st' = num_literals st /\ num_inputs st' = num_inputs st /\ num_outputs st' = num_outputs st.
Proof.
  induction evs as [|e evs IH]; intros st st' Hs H; cbn [aig_run] in H; [injection H as <-; auto|].
  destruct (aig_step M st e) as [s| | |] eqn:E; cbn [bind] in H; try discriminate.
  destruct (proj2 (step_cases st e Hs) s E) as (S1 & S2 & S3 & S4). destruct (IH s st' S1 H) as (T1 & T2 & T3 & T4).
  rewrite S2 in T2. rewrite S3 in T3. rewrite S4 in T4. auto.
Qed.
Lemma outputs_loop_cases idx : forall lits res, Forall (fun l => N.to_nat l < length lits) idx ->
  (exists r, outputs_loop idx lits res = Ok r) \/ outputs_loop idx lits res = Throw.
Proof.
  induction idx as [|x idx IH]; intros lits r0 H; cbn [outputs_loop]; [eauto|]. inversion H as [|? ? Hx Hi]; subst.
  destruct (find_literal_cases lits x Hx) as [(l1 & f & E & L)|E]; rewrite E; cbn [bind]; auto.
  apply IH. rewrite L. auto.
Qed.
Lemma get_outputs_cases st : sizes st -> (exists r, get_outputs st = Ok r) \/ get_outputs st = Throw.
Proof.
  intros (H1 & H2 & H3 & H4 & H5 & H6). apply outputs_loop_cases. apply Forall_forall. intros x Hx.
  pose proof (proj1 (Forall_forall _ _) H6 x Hx) as Hl. cbn beta in Hl. lia.
Qed.
Theorem accesses_partial : forall m i o evs st e, bind (on_header m i o) (aig_run M evs) = Ok st ->
  (aig_step M st e = UB <->
     (exists name, e = InputName i name) \/ (exists name, e = OutputName o name)
     \/ (exists index l r, e = And index l r /\ (index * 2) mod 2 ^ 32 = (2 * m + 2) mod 2 ^ 64
           /\ l < (2 * m + 2) mod 2 ^ 64 /\ r < (2 * m + 2) mod 2 ^ 64)%N)
  /\ get_outputs st <> UB.
Proof.
  intros m i o evs st e H. destruct (on_header_cases m i o) as [(_ & E)|(s0 & E & S0 & N1 & N2 & N3 & _)]; rewrite E in H; cbn [bind] in H; [discriminate|].
  destruct (run_sizes evs s0 st S0 H) as (T1 & T2 & T3 & T4).
  assert (num_literals st = (2 * m + 2) mod 2 ^ 64)%N as Hn by (rewrite T2, N1; unfold size_t_; f_equal; lia).
  rewrite N2 in T3. rewrite N3 in T4. split.
  - rewrite (proj1 (step_cases st e T1)). rewrite <- Hn, <- T3, <- T4. destruct e as [index lit|index lit|index l r|index name|index name|]; cbn [boundary].
    1,2,6: split; [contradiction|intros [(x & F)|[(x & F)|(x & y & z & F & _)]]; discriminate].
    + split; [intro F; right; right; exists index, l, r; auto|].
      intros [(x & F)|[(x & F)|(x & y & z & F & G)]]; [discriminate..|]. injection F as -> -> ->. auto.
    + split; [intros ->; left; eauto|]. intros [(x & F)|[(x & F)|(x & y & z & F & _)]]; [congruence|discriminate..].
    + split; [intros ->; right; left; eauto|]. intros [(x & F)|[(x & F)|(x & y & z & F & _)]]; [discriminate|congruence|discriminate].
  - destruct (get_outputs_cases st T1) as [(r & Er)|Er]; rewrite Er; discriminate.
Qed.
Theorem header_partial : forall m i o, (m < 2 ^ 64)%N -> (on_header m i o = UB <-> m = 2 ^ 63 - 1 \/ m = 2 ^ 64 - 1)%N
  /\ (on_header m i o <> UB -> exists st, on_header m i o = Ok st).
Proof.
  intros m i o Hm. assert ((size_t_ (m * 2 + 2) = 0 <-> m = 2 ^ 63 - 1 \/ m = 2 ^ 64 - 1)%N) as Hz.
  { unfold size_t_. pose proof (N.div_mod (m * 2 + 2) (2 ^ 64) ltac:(discriminate)) as D.
    pose proof (N.mod_lt (m * 2 + 2) (2 ^ 64) ltac:(discriminate)) as L.
    remember ((m * 2 + 2) mod 2 ^ 64)%N as r. remember ((m * 2 + 2) / 2 ^ 64)%N as q. clear Heqr Heqq.
    change (2 ^ 64)%N with 18446744073709551616%N in *. change (2 ^ 63)%N with 9223372036854775808%N in *. lia. }
  destruct (on_header_cases m i o) as [(Z & E)|(s0 & E & S0 & N1 & _)]; rewrite E.
  - split; [split; auto; intros _; apply Hz; auto|congruence].
  - split; [|eauto]. split; [discriminate|]. intro H. apply Hz in H. destruct S0 as [S0 _]. rewrite N1 in S0. lia.
Qed.

(** ** Values *)
Definition lits_inv (evs : list aig_event) (n : N) (lits : list (option bdd)) : Prop :=
  length lits = N.to_nat n
  /\ (forall lit f, nth_error lits (N.to_nat lit) = Some (Some f) ->
        declared evs lit /\ wf M f /\ forall a, lit_value evs a lit (ev f a))
  /\ (forall lit, defined evs lit -> (lit < n)%N -> exists f, nth_error lits (N.to_nat lit) = Some (Some f)).

Lemma find_literal_spec evs n lits lit : lits_inv evs n lits -> (lit < n)%N ->
  (exists lits' f, find_literal lits lit = Ok (lits', f) /\ declared evs lit /\ lits_inv evs n lits' /\ wf M f
     /\ (forall a, lit_value evs a lit (ev f a)))
  \/ (find_literal lits lit = Throw /\ ~ declared evs lit).
Proof.
  intros (L & A & B) Hl. unfold find_literal. destruct (vget_ok lits (N.to_nat lit)) as (x & E & Ex); [lia|]. rewrite E. cbn [bind].
  destruct x as [f|].
  - left. exists lits, f. destruct (A lit f Ex) as (A1 & A2 & A3). split; auto. split; auto. split; [exact (conj L (conj A B))|auto].
  - destruct (N.odd lit) eqn:Ho.
    + destruct (vget_ok lits (N.to_nat (lit - 1)%N)) as (y & E' & Ey); [lia|]. rewrite E'. cbn [bind]. destruct y as [g|].
      * left. destruct (vset_ok lits (N.to_nat lit) (Some (bnot g))) as (l' & E2); [lia|]. rewrite E2. cbn [bind].
        destruct (vset_spec _ _ _ _ E2) as (L2 & _ & N2). destruct (A _ g Ey) as (A1 & A2 & A3).
        assert (forall a, lit_value evs a lit (ev (bnot g) a)) as Hv by (intro a; rewrite ev_not; apply lit_not; auto).
        assert (declared evs lit) as Hd.
        { destruct A1 as [A1|[A1 _]]; [right; auto|]. exfalso.
          rewrite N.odd_sub in A1; [rewrite Ho in A1; discriminate|]. destruct lit; [discriminate|lia]. }
        exists l', (bnot g). split; auto. split; auto. split; [|auto with wf]. split; [lia|]. split.
        -- intros k f Ek. rewrite N2 in Ek. destruct (Nat.eqb_spec (N.to_nat k) (N.to_nat lit)) as [H|H]; [|exact (A k f Ek)].
           apply N2Nat.inj in H. subst k. injection Ek as <-. auto with wf.
        -- intros k Hk Hkn. rewrite N2. destruct (Nat.eqb_spec (N.to_nat k) (N.to_nat lit)); eauto.
      * right. split; auto. intros [Hd|[_ Hd]].
        -- destruct (B lit Hd Hl) as (f & Ef). congruence.
        -- destruct (B (lit - 1)%N Hd) as (f & Ef); [lia|congruence].
    + right. split; auto. intros [Hd|[Hd _]]; [|congruence]. destruct (B lit Hd Hl) as (f & Ef). congruence.
Qed.
Lemma lits_inv_mono evs e n lits : (forall lit, defined (evs ++ [e]) lit -> defined evs lit) -> lits_inv evs n lits -> lits_inv (evs ++ [e]) n lits.
Proof.
  intros Hd (L & A & B). assert (incl evs (evs ++ [e])) as Hi by (intros x Hx; apply in_or_app; auto).
  split; auto. split.
  - intros lit f E. destruct (A lit f E) as (A1 & A2 & A3). split; [exact (declared_mono _ _ _ Hi A1)|]. split; auto.
    intro a. exact (lit_value_mono _ _ _ _ _ Hi (A3 a)).
  - intros lit H Hn. auto.
Qed.

Definition small (evs : list aig_event) : Prop := forall index l r, In (And index l r) evs -> (index < 2 ^ 31)%N.
Definition aig_inv (n i o : N) (evs : list aig_event) (st : aig) : Prop :=
  sizes st /\ num_literals st = n /\ num_inputs st = i /\ num_outputs st = o
  /\ lits_inv evs n (literals st)
  /\ (forall index lit, nth_error (output_indices st) (N.to_nat index) = Some lit -> output_literal evs index lit).

Lemma output_literal_other evs e index lit : (forall l, e <> Output index l) -> output_literal evs index lit -> output_literal (evs ++ [e]) index lit.
Proof.
  intros He [(pre & post & -> & H)|[H ->]].
  - left. exists pre, (post ++ [e]). split; [rewrite <- app_assoc; reflexivity|]. intros l Hl. apply in_app_or in Hl.
    destruct Hl as [Hl|[Hl|[]]]; [exact (H l Hl)|exact (He l Hl)].
  - right. split; auto. intros l Hl. apply in_app_or in Hl. destruct Hl as [Hl|[Hl|[]]]; [exact (H l Hl)|exact (He l Hl)].
Qed.

(** when a line is read successfully *)
Definition readable (n i o : N) (evs : list aig_event) (e : aig_event) : Prop :=
  match e with
  | Input index lit => index < i /\ lit < n
  | Output index lit => index < o /\ lit < n
  | And index l r => 2 * index < n /\ l < n /\ r < n /\ ~ declared evs (2 * index) /\ declared evs l /\ declared evs r
  | InputName index _ => index < i
  | OutputName index _ => index < o
  | Unsupported => False
  end%N.
Lemma unsigned_small index : (index < 2 ^ 31 -> unsigned_ (index * 2) = 2 * index)%N.
Proof. intro H. unfold unsigned_. rewrite N.mod_small; [lia|]. change (2 ^ 31)%N with 2147483648%N in H. change (2 ^ 32)%N with 4294967296%N. lia. Qed.

Lemma declared_even evs lit : N.odd lit = false -> declared evs lit -> defined evs lit.
Proof. intros H [Hd|[Hd _]]; [auto|congruence]. Qed.
Lemma odd_double k : N.odd (2 * k) = false.
Proof. rewrite N.odd_mul. reflexivity. Qed.

Lemma aig_step_inv n i o evs st e st' : aig_inv n i o evs st -> (forall index l r, e = And index l r -> (index < 2 ^ 31)%N) ->
  aig_step M st e = Ok st' -> aig_inv n i o (evs ++ [e]) st' /\ readable n i o evs e.
Proof.
  intros (S0 & N1 & N2 & N3 & LI & OI) Hsm H.
  destruct (proj2 (step_cases st e S0) st' H) as (S' & P1 & P2 & P3).
  assert (incl evs (evs ++ [e])) as Hi by (intros x Hx; apply in_or_app; auto).
  unfold aig_inv. rewrite P1, P2, P3, N1, N2, N3.
  destruct e as [index lit|index lit|index l r|index name|index name|]; cbn [aig_step readable] in *.
  - destruct (N.ltb_spec index (num_inputs st)) as [G1|G1]; cbn [assert_ bind] in H; [|discriminate].
    destruct (N.ltb_spec lit (num_literals st)) as [G2|G2]; cbn [assert_ bind] in H; [|discriminate].
    destruct (vset (literals st) (N.to_nat lit) (Some (bvar (N.to_nat index)))) as [l'| | |] eqn:E; cbn [bind] in H; try discriminate.
    injection H as <-. cbn [set_literals literals output_indices]. split; [|lia]. split; auto. repeat (split; [reflexivity|]).
    destruct LI as (L & A & B). destruct (vset_spec _ _ _ _ E) as (L2 & _ & N4). split.
    + split; [lia|]. split.
      * intros k f Ek. rewrite N4 in Ek. destruct (Nat.eqb_spec (N.to_nat k) (N.to_nat lit)) as [Hk|Hk].
        -- apply N2Nat.inj in Hk. subst k. injection Ek as <-.
           assert (In (Input index lit) (evs ++ [Input index lit])) as Hin by (apply in_or_app; right; left; reflexivity).
           split; [left; right; right; left; eauto|]. split; [apply wf_var|]. intro a. rewrite ev_var. apply lit_input. auto.
        -- destruct (A k f Ek) as (A1 & A2 & A3). split; [exact (declared_mono _ _ _ Hi A1)|]. split; auto.
           intro a. exact (lit_value_mono _ _ _ _ _ Hi (A3 a)).
      * intros k Hd Hk. rewrite N4. destruct (Nat.eqb_spec (N.to_nat k) (N.to_nat lit)) as [Hk2|Hk2]; [eauto|]. apply B; auto.
        destruct Hd as [Hd|[Hd|[(i' & Hd)|(i' & l & r & Hd & Ed)]]]; [left; auto|right; left; auto| |].
        -- apply in_app_or in Hd. destruct Hd as [Hd|[Hd|[]]]; [right; right; left; eauto|]. injection Hd as -> ->. contradiction.
        -- apply in_app_or in Hd. destruct Hd as [Hd|[Hd|[]]]; [|discriminate]. right; right; right. exists i', l, r. auto.
    + intros k x Ek. apply output_literal_other; [discriminate|]. apply OI. auto.
  - destruct (N.ltb_spec index (num_outputs st)) as [G1|G1]; cbn [assert_ bind] in H; [|discriminate].
    destruct (N.ltb_spec lit (num_literals st)) as [G2|G2]; cbn [assert_ bind] in H; [|discriminate].
    destruct (vset (output_indices st) (N.to_nat index) lit) as [l'| | |] eqn:E; cbn [bind] in H; try discriminate.
    injection H as <-. cbn [literals output_indices]. split; [|lia]. split; auto. repeat (split; [reflexivity|]).
    destruct (vset_spec _ _ _ _ E) as (L2 & _ & N4). split.
    + apply lits_inv_mono; auto. intros k [Hd|[Hd|[(i' & Hd)|(i' & l & r & Hd & Ed)]]]; [left; auto|right; left; auto| |];
        (apply in_app_or in Hd; destruct Hd as [Hd|[Hd|[]]]; [|discriminate]).
      * right; right; left; eauto.
      * right; right; right. exists i', l, r. auto.
    + intros k x Ek. rewrite N4 in Ek. destruct (Nat.eqb_spec (N.to_nat k) (N.to_nat index)) as [Hk|Hk].
      * apply N2Nat.inj in Hk. subst k. injection Ek as <-. left. exists evs, []. split; [reflexivity|]. intros l [].
      * apply output_literal_other; [intros l F; injection F as -> _; contradiction|]. apply OI. auto.
  - specialize (Hsm index l r eq_refl). rewrite (unsigned_small index Hsm) in H. set (t := (2 * index)%N) in *.
    assert (N.odd t = false) as Ht by apply odd_double.
    destruct (N.leb_spec t (num_literals st)) as [G1|G1]; cbn [assert_ bind] in H; [|discriminate].
    destruct ((l <? num_literals st) && (r <? num_literals st))%N eqn:G2; cbn [assert_ bind] in H; [|discriminate].
    apply andb_true_iff in G2. rewrite !N.ltb_lt in G2. destruct G2 as [G2 G3]. rewrite N1 in G2, G3.
    destruct (vget (literals st) (N.to_nat t)) as [x| | |] eqn:E; cbn [bind] in H; try discriminate.
    destruct x as [b|]; cbn [assert_ bind] in H; [discriminate|]. apply vget_iff in E.
    destruct (find_literal_spec evs n (literals st) l LI G2) as [(l1 & f1 & E1 & D1 & LI1 & W1 & V1)|[E1 _]]; rewrite E1 in H; cbn [bind] in H; [|discriminate].
    destruct (find_literal_spec evs n l1 r LI1 G3) as [(l2 & f2 & E2 & D2 & LI2 & W2 & V2)|[E2 _]]; rewrite E2 in H; cbn [bind] in H; [|discriminate].
    destruct (vset l2 (N.to_nat t) (Some (band M f1 f2))) as [l3| | |] eqn:E3; cbn [bind] in H; try discriminate.
    injection H as <-. cbn [set_literals literals output_indices].
    assert (t < n)%N as Htn.
    { destruct LI as (L & _). assert (N.to_nat t < length (literals st)) by (apply nth_error_Some; congruence). lia. }
    split.
    2: { repeat (split; auto). intro Hd. apply (declared_even _ _ Ht) in Hd. destruct LI as (_ & _ & B).
         destruct (B t Hd Htn) as (f & Ef). congruence. }
    split; auto. repeat (split; [reflexivity|]). split.
    + destruct LI2 as (L & A & B). destruct (vset_spec _ _ _ _ E3) as (L3 & _ & N4).
      assert (In (And index l r) (evs ++ [And index l r])) as Hin by (apply in_or_app; right; left; reflexivity).
      split; [lia|]. split.
      * intros k f Ek. rewrite N4 in Ek. destruct (Nat.eqb_spec (N.to_nat k) (N.to_nat t)) as [Hk|Hk].
        -- apply N2Nat.inj in Hk. subst k. injection Ek as <-.
           split; [left; right; right; right; exists index, l, r; auto|]. split; [auto with wf|]. intro a. rewrite ev_and.
           exact (lit_and _ a index l r _ _ Hin (lit_value_mono _ _ _ _ _ Hi (V1 a)) (lit_value_mono _ _ _ _ _ Hi (V2 a))).
        -- destruct (A k f Ek) as (A1 & A2 & A3). split; [exact (declared_mono _ _ _ Hi A1)|]. split; auto.
           intro a. exact (lit_value_mono _ _ _ _ _ Hi (A3 a)).
      * intros k Hd Hk. rewrite N4. destruct (Nat.eqb_spec (N.to_nat k) (N.to_nat t)) as [Hk2|Hk2]; [eauto|]. apply B; auto.
        destruct Hd as [Hd|[Hd|[(i' & Hd)|(i' & l' & r' & Hd & Ed)]]]; [left; auto|right; left; auto| |].
        -- apply in_app_or in Hd. destruct Hd as [Hd|[Hd|[]]]; [right; right; left; eauto|discriminate].
        -- apply in_app_or in Hd. destruct Hd as [Hd|[Hd|[]]]; [right; right; right; exists i', l', r'; auto|].
           injection Hd as -> -> ->. subst k. contradiction.
    + intros k x Ek. apply output_literal_other; [discriminate|]. apply OI. auto.
  - destruct (N.leb_spec index (num_inputs st)) as [G1|G1]; cbn [assert_ bind] in H; [|discriminate].
    destruct (vset (input_names st) (N.to_nat index) name) as [l'| | |] eqn:E; cbn [bind] in H; try discriminate.
    injection H as <-. cbn [literals output_indices]. destruct (vset_spec _ _ _ _ E) as (L2 & Hlt & _).
    destruct S0 as (_ & _ & _ & S4 & S5 & _). split; [|lia]. split; auto. repeat (split; [reflexivity|]). split.
    + apply lits_inv_mono; auto. intros k [Hd|[Hd|[(i' & Hd)|(i' & l & r & Hd & Ed)]]]; [left; auto|right; left; auto| |];
        (apply in_app_or in Hd; destruct Hd as [Hd|[Hd|[]]]; [|discriminate]).
      * right; right; left; eauto.
      * right; right; right. exists i', l, r. auto.
    + intros k x Ek. apply output_literal_other; [discriminate|]. apply OI. auto.
  - destruct (N.leb_spec index (num_outputs st)) as [G1|G1]; cbn [assert_ bind] in H; [|discriminate].
    destruct (vset (output_names st) (N.to_nat index) name) as [l'| | |] eqn:E; cbn [bind] in H; try discriminate.
    injection H as <-. cbn [literals output_indices]. destruct (vset_spec _ _ _ _ E) as (L2 & Hlt & _).
    destruct S0 as (_ & _ & _ & S4 & S5 & _). split; [|lia]. split; auto. repeat (split; [reflexivity|]). split.
    + apply lits_inv_mono; auto. intros k [Hd|[Hd|[(i' & Hd)|(i' & l & r & Hd & Ed)]]]; [left; auto|right; left; auto| |];
        (apply in_app_or in Hd; destruct Hd as [Hd|[Hd|[]]]; [|discriminate]).
      * right; right; left; eauto.
      * right; right; right. exists i', l, r. auto.
    + intros k x Ek. apply output_literal_other; [discriminate|]. apply OI. auto.
  - discriminate.
Qed.

Lemma find_ok evs n lits lit : lits_inv evs n lits -> (lit < n)%N -> declared evs lit ->
  exists lits' f, find_literal lits lit = Ok (lits', f) /\ lits_inv evs n lits'.
Proof.
  intros LI Hl Hd. destruct (find_literal_spec evs n lits lit LI Hl) as [(l1 & f1 & E1 & _ & LI1 & _)|[_ F]]; [eauto|contradiction].
Qed.
Lemma vget_none evs n st lit : lits_inv evs n (literals st) -> (lit < n)%N -> ~ declared evs lit -> vget (literals st) (N.to_nat lit) = Ok None.
Proof.
  intros (L & A & B) Hl Hd. destruct (vget_ok (literals st) (N.to_nat lit)) as (x & E & Ex); [lia|]. rewrite E. destruct x as [f|]; auto.
  destruct (A lit f Ex) as (F & _). contradiction.
Qed.
Lemma aig_step_ok n i o evs st e : aig_inv n i o evs st -> (forall index l r, e = And index l r -> (index < 2 ^ 31)%N) ->
  readable n i o evs e -> exists st', aig_step M st e = Ok st'.
Proof.
  intros (S0 & N1 & N2 & N3 & LI & OI) Hsm H. pose proof S0 as (S1 & S2 & S3 & S4 & S5 & S6).
  destruct e as [index lit|index lit|index l r|index name|index name|]; cbn [aig_step readable] in *.
  - rewrite N1, N2. rewrite (proj2 (N.ltb_lt _ _) (proj1 H)), (proj2 (N.ltb_lt _ _) (proj2 H)). cbn [assert_ bind].
    destruct (vset_ok (literals st) (N.to_nat lit) (Some (bvar (N.to_nat index)))) as (l' & E); [lia|]. rewrite E. cbn [bind]. eauto.
  - rewrite N1, N3. rewrite (proj2 (N.ltb_lt _ _) (proj1 H)), (proj2 (N.ltb_lt _ _) (proj2 H)). cbn [assert_ bind].
    destruct (vset_ok (output_indices st) (N.to_nat index) lit) as (l' & E); [lia|]. rewrite E. cbn [bind]. eauto.
  - destruct H as (H1 & H2 & H3 & H4 & H5 & H6). rewrite (unsigned_small index (Hsm index l r eq_refl)), N1.
    rewrite (proj2 (N.leb_le _ _)) by lia. cbn [assert_ bind]. rewrite (proj2 (N.ltb_lt _ _) H2), (proj2 (N.ltb_lt _ _) H3). cbn [andb assert_ bind].
    rewrite (vget_none evs n st _ LI H1 H4). cbn [assert_ bind].
    destruct (find_ok evs n (literals st) l LI H2 H5) as (l1 & f1 & E1 & LI1). rewrite E1. cbn [bind].
    destruct (find_ok evs n l1 r LI1 H3 H6) as (l2 & f2 & E2 & LI2). rewrite E2. cbn [bind].
    destruct (vset_ok l2 (N.to_nat (2 * index)) (Some (band M f1 f2))) as (l3 & E3); [destruct LI2 as [L _]; lia|]. rewrite E3. cbn [bind]. eauto.
  - rewrite N2, (proj2 (N.leb_le _ _)) by lia. cbn [assert_ bind].
    destruct (vset_ok (input_names st) (N.to_nat index) name) as (l' & E); [lia|]. rewrite E. cbn [bind]. eauto.
  - rewrite N3, (proj2 (N.leb_le _ _)) by lia. cbn [assert_ bind].
    destruct (vset_ok (output_names st) (N.to_nat index) name) as (l' & E); [lia|]. rewrite E. cbn [bind]. eauto.
  - contradiction.
Qed.

Lemma header_inv m i o st : on_header m i o = Ok st -> aig_inv (size_t_ (m * 2 + 2)) i o [] st.
Proof.
  intro H. destruct (on_header_cases m i o) as [(_ & E)|(s0 & E & S0 & N1 & N2 & N3 & O & K)]; rewrite E in H; [discriminate|].
  injection H as <-. split; auto. split; auto. split; auto. split; auto. pose proof S0 as (S1 & S2 & _). split.
  - split; [lia|]. split.
    + intros lit f Ef. rewrite K in Ef. destruct (N.to_nat lit <? N.to_nat (num_literals s0)); [|discriminate].
      destruct (N.to_nat lit) as [|[|k]] eqn:El; [| |discriminate]; injection Ef as <-.
      * assert (lit = 0%N) as -> by lia. split; [left; left; reflexivity|]. split; [auto with wf|]. intro a. apply lit_false.
      * assert (lit = 1%N) as -> by lia. split; [left; right; left; reflexivity|]. split; [auto with wf|]. intro a. apply lit_true.
    + intros lit Hd Hl. rewrite K. rewrite N1 in S1. rewrite (proj2 (Nat.ltb_lt _ _)) by lia.
      destruct Hd as [->|[->|[(i' & [])|(i' & l & r & [] & _)]]]; [exists bzero|exists bone]; reflexivity.
  - intros index lit E2. rewrite O in E2. apply nth_error_In, repeat_spec in E2. right. split; auto.
Qed.
Lemma aig_run_app x : forall y st, aig_run M (x ++ y) st = bind (aig_run M x st) (aig_run M y).
Proof. induction x as [|e x IH]; intros y st; cbn [app aig_run bind]; auto. destruct (aig_step M st e); cbn [bind]; auto. Qed.
Lemma small_app x y : small (x ++ y) -> small x.
Proof. intros H index l r Hin. apply (H index l r). apply in_or_app. auto. Qed.
Lemma aig_run_inv m i o evs : forall st0 st, on_header m i o = Ok st0 -> small evs -> aig_run M evs st0 = Ok st ->
  aig_inv (size_t_ (m * 2 + 2)) i o evs st.
Proof.
  induction evs as [|e evs IH] using rev_ind; intros st0 st H0 Hs H.
  - injection H as <-. apply header_inv. auto.
  - rewrite aig_run_app in H. destruct (aig_run M evs st0) as [s| | |] eqn:E; cbn [bind] in H; try discriminate.
    cbn [aig_run] in H. destruct (aig_step M s e) as [s'| | |] eqn:Es; cbn [bind] in H; try discriminate. injection H as <-.
    apply (aig_step_inv _ _ _ _ s e s'); auto; [exact (IH st0 s H0 (small_app _ _ Hs) E)|].
    intros index l r ->. apply (Hs index l r). apply in_or_app. right; left; reflexivity.
Qed.

Lemma outputs_loop_spec evs n idx : forall lits result, lits_inv evs n lits -> Forall (fun l => (l < n)%N) idx ->
  (exists fs, outputs_loop idx lits result = Ok (result ++ fs) /\ Forall (declared evs) idx
     /\ Forall2 (fun l f => wf M f /\ forall a, lit_value evs a l (ev f a)) idx fs)
  \/ (outputs_loop idx lits result = Throw /\ ~ Forall (declared evs) idx).
Proof.
  induction idx as [|x idx IH]; intros lits result LI H; cbn [outputs_loop].
  - left. exists []. rewrite app_nil_r. split; auto.
  - inversion H as [|? ? Hx Hi]; subst.
    destruct (find_literal_spec evs n lits x LI Hx) as [(l1 & f & E & D & LI1 & W & V)|[E D]]; rewrite E; cbn [bind].
    + destruct (IH l1 (result ++ [f]) LI1 Hi) as [(fs & E2 & D2 & F2)|[E2 D2]].
      * left. exists (f :: fs). rewrite E2, <- app_assoc. split; auto.
      * right. split; auto. intro F. inversion F; auto.
    + right. split; auto. intro F. inversion F; auto.
Qed.
Lemma get_outputs_spec n i o evs st : aig_inv n i o evs st ->
  (exists outs, get_outputs st = Ok outs /\ Forall (declared evs) (output_indices st)
     /\ Forall2 (fun l f => wf M f /\ forall a, lit_value evs a l (ev f a)) (output_indices st) outs)
  \/ (get_outputs st = Throw /\ ~ Forall (declared evs) (output_indices st)).
Proof.
  intros ((S1 & S2 & S3 & S4 & S5 & S6) & N1 & N2 & N3 & LI & OI). unfold get_outputs. rewrite N1 in S6.
  destruct (outputs_loop_spec evs n (output_indices st) (literals st) [] LI S6) as [(fs & H)|H]; [left; exists fs|right]; auto.
Qed.

Lemma output_literal_unique evs index x y : output_literal evs index x -> output_literal evs index y -> x = y.
Proof.
  intros [(p1 & q1 & E1 & H1)|[H1 ->]] [(p2 & q2 & E2 & H2)|[H2 ->]]; auto.
  - subst evs. revert p2 E2. induction p1 as [|a p1 IH]; intros p2 E2.
    + destruct p2 as [|b p2]; [injection E2 as -> _; auto|]. injection E2 as _ ->. exfalso. apply (H1 y). apply in_or_app. right; left; auto.
    + destruct p2 as [|b p2].
      * injection E2 as -> E2. exfalso. apply (H2 x). rewrite <- E2. apply in_or_app. right; left; auto.
      * injection E2 as _ E2. exact (IH p2 E2).
  - exfalso. apply (H2 x). rewrite E1. apply in_or_app. right; left; auto.
  - exfalso. apply (H1 y). rewrite E2. apply in_or_app. right; left; auto.
Qed.
Lemma Forall2_nth {A B} (P : A -> B -> Prop) l m : Forall2 P l m -> length l = length m /\
  forall k y, nth_error m k = Some y -> exists x, nth_error l k = Some x /\ P x y.
Proof.
  induction 1 as [|x y l m Hp H [IH1 IH2]]; [split; auto; intros [|k] y; discriminate|].
  split; [cbn [length]; lia|]. intros [|k] z Ez; cbn [nth_error] in *; [injection Ez as <-; eauto|auto].
Qed.

(** any file that is read gives the functions of its graph *)
Theorem aig_sound : forall m i o evs outs, small evs -> aig_file M m i o evs = Ok outs ->
  length outs = N.to_nat o
  /\ forall j f lit, nth_error outs (N.to_nat j) = Some f -> output_literal evs j lit ->
       wf M f /\ forall a, lit_value evs a lit (ev f a).
Proof.
  intros m i o evs outs Hs H. unfold aig_file in H.
  destruct (on_header m i o) as [s0| | |] eqn:E0; cbn [bind] in H; try discriminate.
  destruct (aig_run M evs s0) as [st| | |] eqn:E1; cbn [bind] in H; try discriminate.
  pose proof (aig_run_inv m i o evs s0 st E0 Hs E1) as I0.
  destruct (get_outputs_spec _ _ _ _ _ I0) as [(fs & E2 & _ & F)|[E2 _]]; [|congruence].
  rewrite E2 in H. injection H as <-. destruct I0 as ((S1 & S2 & S3 & _) & N1 & N2 & N3 & LI & OI).
  destruct (Forall2_nth _ _ _ F) as [L K]. split; [congruence|].
  intros j f lit Ef Ho. destruct (K _ f Ef) as (x & Ex & Hx). rewrite (output_literal_unique _ _ _ _ Ho (OI j x Ex)). auto.
Qed.
(** exact outcome of the and gates and of reading the outputs *)
Lemma declared_dec n i o evs st lit : aig_inv n i o evs st -> (lit < n)%N -> declared evs lit \/ ~ declared evs lit.
Proof.
  intros (_ & _ & _ & _ & LI & _) Hl. destruct (find_literal_spec evs n (literals st) lit LI Hl) as [(l1 & f1 & _ & D & _)|[_ F]]; auto.
Qed.
Lemma get_outputs_declared n i o evs st : aig_inv n i o evs st ->
  (get_outputs st = Throw <-> exists j lit, (j < o)%N /\ output_literal evs j lit /\ ~ declared evs lit)
  /\ ((exists outs, get_outputs st = Ok outs) <-> forall j lit, (j < o)%N -> output_literal evs j lit -> declared evs lit).
Proof.
  intro I0. pose proof I0 as ((S1 & S2 & S3 & S4 & S5 & S6) & N1 & N2 & N3 & LI & OI).
  assert (Forall (declared evs) (output_indices st) <-> forall j lit, (j < o)%N -> output_literal evs j lit -> declared evs lit) as Hf.
  { split.
    - intros F j lit Hj Ho. destruct (nth_error (output_indices st) (N.to_nat j)) as [x|] eqn:Ex; [|apply nth_error_None in Ex; lia].
      rewrite (output_literal_unique _ _ _ _ Ho (OI j x Ex)). apply (proj1 (Forall_forall _ _) F). exact (nth_error_In _ _ Ex).
    - intro F. apply Forall_forall. intros x Hx. apply In_nth_error in Hx. destruct Hx as (k & Ek).
      assert (k < length (output_indices st)) as Hk by (apply nth_error_Some; congruence).
      apply (F (N.of_nat k) x); [lia|]. apply OI. rewrite Nat2N.id. auto. }
  destruct (get_outputs_spec _ _ _ _ _ I0) as [(fs & E2 & D & _)|[E2 D]]; rewrite E2.
  - split.
    + split; [discriminate|]. intros (j & lit & Hj & Ho & Hd). exfalso. apply Hd. exact (proj1 Hf D j lit Hj Ho).
    + split; [intros _; exact (proj1 Hf D)|eauto].
  - assert (exists x, In x (output_indices st) /\ ~ declared evs x) as (x & Hx & Hd).
    { rewrite N1 in S6. clear - D S6 I0. induction (output_indices st) as [|y l IH]; [exfalso; apply D; constructor|].
      inversion S6 as [|? ? Hy Hl]; subst. destruct (declared_dec _ _ _ _ _ y I0 Hy) as [H|H].
      - assert (~ Forall (declared evs) l) as D' by (intro F; apply D; constructor; auto).
        destruct (IH Hl D') as (x & Hx & Hn). exists x. split; [right; auto|auto].
      - exists y. split; [left; auto|auto]. }
    apply In_nth_error in Hx. destruct Hx as (k & Ek).
    assert (k < length (output_indices st)) as Hk by (apply nth_error_Some; congruence).
    assert (output_literal evs (N.of_nat k) x) as Ho by (apply OI; rewrite Nat2N.id; auto).
    split.
    + split; auto. intros _. exists (N.of_nat k), x. split; [lia|auto].
    + split; [intros (o' & F); discriminate|]. intro F. exfalso. apply Hd. apply (F (N.of_nat k) x); [lia|auto].
Qed.
Theorem aig_undeclared : forall m i o evs st, small evs -> bind (on_header m i o) (aig_run M evs) = Ok st ->
  (forall index l r, (index < 2 ^ 31)%N -> (2 * index < (2 * m + 2) mod 2 ^ 64)%N ->
     (l < (2 * m + 2) mod 2 ^ 64)%N -> (r < (2 * m + 2) mod 2 ^ 64)%N -> ~ declared evs (2 * index) ->
     (aig_step M st (And index l r) = Throw <-> ~ (declared evs l /\ declared evs r))
     /\ ((exists st', aig_step M st (And index l r) = Ok st') <-> declared evs l /\ declared evs r))
  /\ (get_outputs st = Throw <-> exists j lit, (j < o)%N /\ output_literal evs j lit /\ ~ declared evs lit)
  /\ ((exists outs, get_outputs st = Ok outs) <-> forall j lit, (j < o)%N -> output_literal evs j lit -> declared evs lit).
Proof.
  intros m i o evs st Hs H. destruct (on_header m i o) as [s0| | |] eqn:E0; cbn [bind] in H; try discriminate.
  pose proof (aig_run_inv m i o evs s0 st E0 Hs H) as I0.
  assert (size_t_ (m * 2 + 2) = (2 * m + 2) mod 2 ^ 64)%N as Hn by (unfold size_t_; f_equal; lia). rewrite Hn in I0.
  set (n := ((2 * m + 2) mod 2 ^ 64)%N) in *. clearbody n. split; [|exact (get_outputs_declared n i o evs st I0)].
  intros index l r Hix H1 Hl Hr Hd. pose proof I0 as (S0 & N1 & N2 & N3 & LI & OI).
  assert (declared evs l /\ declared evs r -> exists st', aig_step M st (And index l r) = Ok st') as Hok.
  { intros [D1 D2]. apply (aig_step_ok n i o evs); auto; [intros ? ? ? F; injection F as <- _ _; auto|]. cbn [readable]. auto 10. }
  assert (~ (declared evs l /\ declared evs r) -> aig_step M st (And index l r) = Throw) as Hth.
  { intro Hn2. cbn [aig_step]. rewrite (unsigned_small index Hix), N1.
    rewrite (proj2 (N.leb_le _ _)) by lia. cbn [assert_ bind]. rewrite (proj2 (N.ltb_lt _ _) Hl), (proj2 (N.ltb_lt _ _) Hr). cbn [andb assert_ bind].
    rewrite (vget_none evs n st _ LI H1 Hd). cbn [assert_ bind].
    destruct (find_literal_spec evs n (literals st) l LI Hl) as [(l1 & f1 & E1 & D1 & LI1 & _)|[E1 _]]; rewrite E1; cbn [bind]; [|auto].
    destruct (find_literal_spec evs n l1 r LI1 Hr) as [(l2 & f2 & E2 & D2 & _)|[E2 _]]; rewrite E2; cbn [bind]; [|auto].
    exfalso. auto. }
  split; split.
  - intros F D. destruct (Hok D) as (s & Es). congruence.
  - auto.
  - intros (s & Es). destruct (declared_dec _ _ _ _ _ l I0 Hl) as [D1|D1]; [destruct (declared_dec _ _ _ _ _ r I0 Hr) as [D2|D2]; [auto|]|];
      rewrite Hth in Es; try discriminate; tauto.
  - auto.
Qed.

(** correct files *)
Lemma ok_lines_bound m i o evs : (forall pre e post, evs = pre ++ e :: post -> ok_line m i o pre e) ->
  forall lit, defined evs lit -> (lit < 2 * m + 2)%N /\ (N.odd lit = true -> lit = 1%N).
Proof.
  intros H lit [->|[->|[(index & Hin)|(index & l & r & Hin & ->)]]].
  - split; [lia|discriminate].
  - split; [lia|auto].
  - apply in_split in Hin. destruct Hin as (p & q & E). specialize (H _ _ _ E). cbn [ok_line] in H.
    destruct H as ((_ & H) & Ho & _). split; [lia|]. rewrite Ho. discriminate.
  - apply in_split in Hin. destruct Hin as (p & q & E). specialize (H _ _ _ E). cbn [ok_line] in H.
    destruct H as (H & _). split; [lia|]. rewrite odd_double. discriminate.
Qed.
Lemma ok_lines_declared m i o evs : (forall pre e post, evs = pre ++ e :: post -> ok_line m i o pre e) ->
  forall lit, declared evs lit -> (lit < 2 * m + 2)%N.
Proof.
  intros H lit [Hd|[Ho Hd]]; [apply (ok_lines_bound m i o evs H lit Hd)|].
  destruct (ok_lines_bound m i o evs H _ Hd) as [H1 _]. apply N.odd_spec in Ho. destruct Ho as (k & ->). lia.
Qed.
Lemma ok_lines_app m i o x y : (forall pre e post, x ++ y = pre ++ e :: post -> ok_line m i o pre e) ->
  forall pre e post, x = pre ++ e :: post -> ok_line m i o pre e.
Proof. intros H pre e post ->. apply (H pre e (post ++ y)). rewrite <- app_assoc. reflexivity. Qed.
Lemma ok_lines_small m i o evs : (2 * m + 2 <= 2 ^ 32)%N -> (forall pre e post, evs = pre ++ e :: post -> ok_line m i o pre e) -> small evs.
Proof.
  intros Hm H index l r Hin. apply in_split in Hin. destruct Hin as (p & q & E). specialize (H _ _ _ E). cbn [ok_line] in H.
  change (2 ^ 32)%N with 4294967296%N in Hm. change (2 ^ 31)%N with 2147483648%N. lia.
Qed.
Lemma ok_run m i o evs : (2 * m + 2 <= 2 ^ 32)%N -> (forall pre e post, evs = pre ++ e :: post -> ok_line m i o pre e) ->
  forall st0, on_header m i o = Ok st0 -> exists st, aig_run M evs st0 = Ok st.
Proof.
  intro Hm. induction evs as [|e evs IH] using rev_ind; intros H st0 E0; [cbn [aig_run]; eauto|].
  pose proof (ok_lines_app _ _ _ _ _ H) as H'. destruct (IH H' st0 E0) as (st & E). rewrite aig_run_app, E. cbn [bind aig_run].
  pose proof (ok_lines_small m i o _ Hm H) as Hs.
  pose proof (aig_run_inv m i o evs st0 st E0 (small_app _ _ Hs) E) as I0.
  assert (size_t_ (m * 2 + 2) = 2 * m + 2)%N as Hn.
  { unfold size_t_. change (2 ^ 32)%N with 4294967296%N in Hm. rewrite N.mod_small; [lia|]. change (2 ^ 64)%N with 18446744073709551616%N. lia. }
  rewrite Hn in I0. destruct (aig_step_ok _ _ _ _ st e I0) as (s' & Es).
  - intros index l r ->. apply (Hs index l r). apply in_or_app. right; left; reflexivity.
  - specialize (H evs e [] eq_refl). pose proof (ok_lines_declared m i o evs H') as Hb.
    destruct e as [index lit|index lit|index l r|index name|index name|]; cbn [ok_line readable] in *.
    + lia.
    + lia.
    + destruct H as (H1 & H2 & H3 & H4). split; [lia|]. split; [auto|]. split; [auto|]. split; [|auto].
      intro F. apply H2. exact (declared_even _ _ (odd_double _) F).
    + lia.
    + lia.
    + auto.
  - rewrite Es. cbn [bind]. eauto.
Qed.

(** literals are defined once *)
Lemma ok_unique m i o evs a : (forall pre e post, evs = pre ++ e :: post -> ok_line m i o pre e) ->
  forall lit x, lit_value evs a lit x -> forall y, lit_value evs a lit y -> x = y.
Proof.
  intro H.
  assert (forall p1 e1 q1 p2 e2 q2, evs = p1 ++ e1 :: q1 -> evs = p2 ++ e2 :: q2 -> (p1 = p2 /\ e1 = e2 /\ q1 = q2) \/ In e1 p2 \/ In e2 p1) as Hpos.
  { clear. intros p1 e1 q1 p2 e2 q2 -> E. revert p2 E. induction p1 as [|z p1 IH]; intros [|z2 p2] E.
    - injection E as -> ->. auto.
    - injection E as -> _. right; left; left; auto.
    - injection E as -> _. right; right; left; auto.
    - injection E as -> E. destruct (IH p2 E) as [(-> & -> & ->)|[F|F]]; [auto|right; left; right; auto|right; right; right; auto]. }
  assert (forall index lit, In (Input index lit) evs -> (2 <= lit)%N /\ N.odd lit = false) as Hin1.
  { intros index lit Hin. apply in_split in Hin. destruct Hin as (p & q & E). specialize (H _ _ _ E). cbn [ok_line] in H. split; [lia|apply H]. }
  assert (forall index l r, In (And index l r) evs -> (2 <= 2 * index)%N) as Hin2.
  { intros index l r Hin. apply in_split in Hin. destruct Hin as (p & q & E). specialize (H _ _ _ E). cbn [ok_line] in H. lia. }
  assert (forall i1 i2 lit, In (Input i1 lit) evs -> In (Input i2 lit) evs -> i1 = i2) as U1.
  { intros i1 i2 lit Ha Hb. apply in_split in Ha. destruct Ha as (p & q & E). apply in_split in Hb. destruct Hb as (p2 & q2 & E2).
    pose proof (H _ _ _ E) as H1. pose proof (H _ _ _ E2) as H2. cbn [ok_line] in H1, H2.
    destruct (Hpos _ _ _ _ _ _ E E2) as [(_ & F & _)|[F|F]]; [congruence|exfalso; apply H2; right; right; left; eauto|exfalso; apply H1; right; right; left; eauto]. }
  assert (forall i1 lit ix l r, In (Input i1 lit) evs -> In (And ix l r) evs -> lit <> (2 * ix)%N) as U2.
  { intros i1 lit ix l r Ha Hb ->. apply in_split in Ha. destruct Ha as (p & q & E). apply in_split in Hb. destruct Hb as (p2 & q2 & E2).
    pose proof (H _ _ _ E) as H1. pose proof (H _ _ _ E2) as H2. cbn [ok_line] in H1, H2.
    destruct (Hpos _ _ _ _ _ _ E E2) as [(_ & F & _)|[F|F]]; [discriminate|apply H2; right; right; left; eauto|apply H1; right; right; right; exists ix, l, r; auto]. }
  assert (forall i1 l1 r1 l2 r2, In (And i1 l1 r1) evs -> In (And i1 l2 r2) evs -> l1 = l2 /\ r1 = r2) as U3.
  { intros i1 l1 r1 l2 r2 Ha Hb. apply in_split in Ha. destruct Ha as (p & q & E). apply in_split in Hb. destruct Hb as (p2 & q2 & E2).
    pose proof (H _ _ _ E) as H1. pose proof (H _ _ _ E2) as H2. cbn [ok_line] in H1, H2.
    destruct (Hpos _ _ _ _ _ _ E E2) as [(_ & F & _)|[F|F]]; [injection F as -> ->; auto|exfalso; apply H2; right; right; right; exists i1, l1, r1; auto|
      exfalso; apply H1; right; right; right; exists i1, l2, r2; auto]. }
  assert (forall y, lit_value evs a 0 y -> y = false) as V0.
  { intros y Hy. remember 0%N as z eqn:Ez. inversion Hy as [E|E|index lit Hi E|index l r u v Hi Hu Hv E|lit u Ho Hu E]; subst y; auto.
    - lia.
    - specialize (Hin1 _ _ Hi). lia.
    - specialize (Hin2 _ _ _ Hi). lia.
    - rewrite Ez in Ho. discriminate Ho. }
  assert (forall y, lit_value evs a 1 y -> y = true) as V1.
  { intros y Hy. remember 1%N as z eqn:Ez. inversion Hy as [E|E|index lit Hi E|index l r u v Hi Hu Hv E|lit u Ho Hu E]; subst y; auto.
    - lia.
    - specialize (Hin1 _ _ Hi). lia.
    - specialize (Hin2 _ _ _ Hi). lia.
    - rewrite Ez in Hu. rewrite (V0 u Hu). reflexivity. }
  intros lit x Hx. induction Hx as [| |index lit Hi|index l r u v Hi Hu IHu Hv IHv|lit u Ho Hu IHu]; intros y Hy.
  - symmetry. auto.
  - symmetry. auto.
  - destruct (Hin1 _ _ Hi) as [G1 G2].
    inversion Hy as [E|E|index' lit' Hi' E|index' l' r' u' v' Hi' Hu' Hv' E|lit' u' Ho' Hu' E]; subst y.
    + lia.
    + lia.
    + rewrite (U1 _ _ _ Hi Hi'). reflexivity.
    + symmetry in E. destruct (U2 _ _ _ _ _ Hi Hi' E).
    + congruence.
  - pose proof (Hin2 _ _ _ Hi) as G1. pose proof (odd_double index) as G2. remember (2 * index)%N as t eqn:Et.
    inversion Hy as [E|E|index' lit' Hi' E|index' l' r' u' v' Hi' Hu' Hv' E|lit' u' Ho' Hu' E]; subst y.
    + lia.
    + lia.
    + destruct (U2 _ _ _ _ _ Hi' Hi Et).
    + assert (index' = index) as Ei by lia. subst index'. destruct (U3 _ _ _ _ _ Hi Hi') as [El Er]. subst l' r'.
      rewrite (IHu u' Hu'), (IHv v' Hv'). reflexivity.
    + congruence.
  - destruct (N.eq_dec lit 1) as [E1|Hne]; [subst lit; rewrite (V0 u Hu), (V1 y Hy); reflexivity|].
    inversion Hy as [E|E|index' lit' Hi' E|index' l' r' u' v' Hi' Hu' Hv' E|lit' u' Ho' Hu' E]; subst y.
    + subst lit. discriminate Ho.
    + lia.
    + destruct (Hin1 _ _ Hi'). congruence.
    + pose proof (odd_double index'). congruence.
    + rewrite (IHu u' Hu'). reflexivity.
Qed.

Theorem aig_correct : forall m i o evs, ok_file m i o evs ->
  exists outs, aig_file M m i o evs = Ok outs /\ length outs = N.to_nat o
    /\ forall j, (j < o)%N -> exists f lit, nth_error outs (N.to_nat j) = Some f /\ wf M f /\ output_literal evs j lit
         /\ forall a b, lit_value evs a lit b <-> ev f a = b.
Proof.
  intros m i o evs (Hm & Hl & Ho). pose proof (ok_lines_small m i o _ Hm Hl) as Hs.
  assert (size_t_ (m * 2 + 2) = 2 * m + 2)%N as Hn.
  { unfold size_t_. change (2 ^ 32)%N with 4294967296%N in Hm. rewrite N.mod_small; [lia|]. change (2 ^ 64)%N with 18446744073709551616%N. lia. }
  destruct (on_header_cases m i o) as [(Z & _)|(s0 & E0 & _)]; [lia|].
  destruct (ok_run m i o evs Hm Hl s0 E0) as (st & E). pose proof (aig_run_inv m i o evs s0 st E0 Hs E) as I0.
  assert (forall j lit, (j < o)%N -> output_literal evs j lit -> declared evs lit) as Hdec.
  { intros j lit Hj [(pre & post & -> & _)|[_ ->]]; [|left; left; reflexivity]. apply (Ho j lit). apply in_or_app. right; left; reflexivity. }
  destruct (proj2 (proj2 (get_outputs_declared _ _ _ _ _ I0)) Hdec) as (outs & E2).
  assert (aig_file M m i o evs = Ok outs) as EF by (unfold aig_file; rewrite E0; cbn [bind]; rewrite E; cbn [bind]; exact E2).
  exists outs. split; auto. destruct (aig_sound m i o evs outs Hs EF) as [L K]. split; auto.
  intros j Hj. destruct (nth_error outs (N.to_nat j)) as [f|] eqn:Ef; [|apply nth_error_None in Ef; lia].
  assert (exists lit, output_literal evs j lit) as (lit & Hlit).
  { destruct I0 as ((S1 & S2 & S3 & _) & N1 & N2 & N3 & LI & OI).
    destruct (nth_error (output_indices st) (N.to_nat j)) as [x|] eqn:Ex; [|apply nth_error_None in Ex; lia]. exists x. auto. }
  exists f, lit. destruct (K j f lit Ef Hlit) as [W V]. split; auto. split; auto. split; auto. intros a b. split.
  - intro Hb. exact (ok_unique m i o evs a Hl _ _ (V a) b Hb).
  - intros <-. auto.
Qed.
End Aig.
