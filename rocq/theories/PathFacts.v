(** Proofs about count_paths and add_terminal_values: the histogram of an ADD. *)
From Coq Require Import List Bool Arith ZArith QArith Permutation Lia Lqa.
From Verif Require Import Res Cudd CuddFacts Spec SpecFacts Helpers HelpersFacts HelpersFacts2 Counting AddFacts CountFacts.
Import ListNotations.
Open Scope nat_scope.

(** ** Maps *)
Lemma aget_aset k x m k' : aget k' (aset k x m) = if add_eqb k k' then x else aget k' m.
Proof.
  unfold aget, alookup. induction m as [|[k0 y] m IH]; cbn [aset find fst snd].
  - destruct (add_eqb k k'); reflexivity.
  - destruct (add_eqb k0 k) eqn:E; cbn [find fst snd].
    + apply add_eqb_spec in E. subst k0. destruct (add_eqb k k'); auto.
    + destruct (add_eqb k0 k') eqn:E'.
      * apply add_eqb_spec in E'. subst k0. destruct (add_eqb k k') eqn:E2; auto.
        apply add_eqb_spec in E2. subst. rewrite (proj2 (add_eqb_spec k' k') eq_refl) in E. discriminate.
      * exact IH.
Qed.

Lemma avisited_spec k l : avisited k l = true <-> In k l.
Proof.
  unfold avisited. rewrite existsb_exists. split.
  - intros (x & Hx & E). apply add_eqb_spec in E. now subst.
  - intro H. exists k. split; auto. now apply add_eqb_spec.
Qed.
Lemma avisited_false k l : avisited k l = false <-> ~ In k l.
Proof. rewrite <- avisited_spec. destruct (avisited k l); split; congruence. Qed.

(** ** Sub-diagrams *)
Lemma asubs_refl f : In f (asubs f).
Proof. destruct f; now left. Qed.
Lemma asubs_trans f : forall g h, In g (asubs f) -> In h (asubs g) -> In h (asubs f).
Proof.
  induction f as [q|v t IHt e IHe]; intros g h; cbn [asubs].
  - intros [<-|[]]; auto.
  - intros [<-|H] H'; auto. right. apply in_or_app. apply in_app_or in H. destruct H; eauto.
Qed.
Lemma asubs_children f v t e : In (AN v t e) (asubs f) -> In t (asubs f) /\ In e (asubs f).
Proof.
  intro H. split; eapply asubs_trans; eauto; cbn; right; apply in_or_app; [left|right]; apply asubs_refl.
Qed.
Lemma asubs_ok M f : forall k g, aok M k f -> In g (asubs f) -> exists k', k <= k' /\ aok M k' g.
Proof.
  induction f as [q|v t IHt e IHe]; intros k g Hok; cbn [asubs].
  - intros [<-|[]]. exists k. auto.
  - intros [<-|H]; [exists k; auto|]. cbn in Hok. destruct Hok as (H1 & H2 & H3 & _).
    apply in_app_or in H. destruct H as [H|H]; [destruct (IHt _ _ H2 H) as (k' & Hk & Ho)|destruct (IHe _ _ H3 H) as (k' & Hk & Ho)];
      exists k'; (split; [lia|auto]).
Qed.
Lemma asubs_vars f g i : In g (asubs f) -> In i (avars g) -> In i (avars f).
Proof.
  induction f as [q|v t IHt e IHe]; cbn [asubs].
  - intros [<-|[]]; auto.
  - intros [<-|H] Hi; auto. cbn [avars]. right. apply in_or_app. apply in_app_or in H. destruct H as [H|H]; auto.
Qed.
Lemma asubs_size f g : In g (asubs f) -> asize g <= asize f.
Proof.
  induction f as [q|v t IHt e IHe]; cbn [asubs].
  - intros [<-|[]]; auto.
  - intros [<-|H]; auto. cbn [asize]. apply in_app_or in H. destruct H as [H|H]; [apply IHt in H|apply IHe in H]; lia.
Qed.
Lemma aok_vars M f : forall k i, aok M k f -> In i (avars f) -> k <= lv M i.
Proof.
  induction f as [q|v t IHt e IHe]; intros k i Hok; cbn [avars]; [intros []|].
  cbn in Hok. destruct Hok as (H1 & H2 & H3 & _). intros [<-|H]; auto.
  apply in_app_or in H. destruct H as [H|H]; [apply (IHt _ i H2) in H|apply (IHe _ i H3) in H]; lia.
Qed.
Lemma aev_upd_notin f v b a : ~ In v (avars f) -> aev f (upd a v b) = aev f a.
Proof. intro H. apply aev_ext. intros i Hi. apply upd_other. intros ->. auto. Qed.

(** ** Weights *)
Section Paths.
Variable M : mgr.
Hypothesis HI : index_order M.
Variable T : nat.

Fixpoint wt (p : Q -> Z) (f : add) : Z :=
  match f with
  | Leaf q => p q
  | AN v t e => wt p t * pow2 (alevel t T - v - 1) + wt p e * pow2 (alevel e T - v - 1)
  end%Z.

Lemma wt_inputs p f : forall k, aok M k f -> k <= T -> (forall i, In i (avars f) -> i < T) ->
  k <= alevel f T /\
  (inject_Z (wt p f) * inject_Z (pow2 (alevel f T)) == sum_inputs T (fun a => inject_Z (p (aev f a))))%Q.
Proof.
  induction f as [q|v t IHt e IHe]; intros k Hok Hk Hv.
  - cbn [alevel wt aev]. split; auto. now rewrite sum_inputs_const.
  - pose proof Hok as Hok'. cbn in Hok. rewrite HI in Hok. destruct Hok as (H1 & H2 & H3 & _).
    assert (v < T) by (apply Hv; now left).
    destruct (IHt (S v) H2) as [Lt Et]; [lia|intros; apply Hv; right; apply in_or_app; auto|].
    destruct (IHe (S v) H3) as [Le Ee]; [lia|intros; apply Hv; right; apply in_or_app; auto|].
    split; [exact H1|]. cbn [wt alevel].
    set (F := fun a => inject_Z (p (aev (AN v t e) a))).
    assert (EF : extQ F) by (intros a b Hab; unfold F; rewrite (aev_ext _ a b); auto; reflexivity).
    pose proof (sum_inputs_split T v F EF) as HS. specialize (HS ltac:(lia)). rewrite sum_inputs_plus in HS.
    assert (Nt : ~ In v (avars t)) by (intro Hi; apply (aok_vars _ _ _ _ H2) in Hi; rewrite HI in Hi; lia).
    assert (Ne : ~ In v (avars e)) by (intro Hi; apply (aok_vars _ _ _ _ H3) in Hi; rewrite HI in Hi; lia).
    rewrite (sum_inputs_ext T (fun a => F (upd a v true)) (fun a => inject_Z (p (aev t a)))) in HS.
    2:{ intro a. unfold F. cbn [aev]. rewrite upd_same, aev_upd_notin by auto. reflexivity. }
    rewrite (sum_inputs_ext T (fun a => F (upd a v false)) (fun a => inject_Z (p (aev e a)))) in HS.
    2:{ intro a. unfold F. cbn [aev]. rewrite upd_same, aev_upd_notin by auto. reflexivity. }
    rewrite <- Et, <- Ee in HS. 
    assert (Pt : (inject_Z (pow2 (alevel t T)) == 2 * (inject_Z (pow2 (alevel t T - v - 1)) * inject_Z (pow2 v)))%Q).
    { replace (alevel t T) with (S ((alevel t T - v - 1) + v)) at 1 by lia.
      rewrite pow2_S, inject_Z_mult, pow2Q_add. reflexivity. }
    assert (Pe : (inject_Z (pow2 (alevel e T)) == 2 * (inject_Z (pow2 (alevel e T - v - 1)) * inject_Z (pow2 v)))%Q).
    { replace (alevel e T) with (S ((alevel e T - v - 1) + v)) at 1 by lia.
      rewrite pow2_S, inject_Z_mult, pow2Q_add. reflexivity. }
    rewrite Pt, Pe in HS. rewrite inject_Z_plus, !inject_Z_mult. lra.
Qed.

Lemma child_level v c : aok M (S v) c -> v < T -> v < alevel c T.
Proof. destruct c; cbn; auto. rewrite HI. lia. Qed.

Variable rv : nat.
Variables rt re : add.
Let root := AN rv rt re.
Hypothesis Hroot : aok M 0 root.
Hypothesis Hvars : forall i, In i (avars root) -> i < T.

(** the level at which a node is treated: the root at level 0 *)
Definition el (n : add) : nat := if add_eqb n root then 0 else alevel n T.
Definition ww (p : Q -> Z) (n : add) : Z :=
  match n with
  | Leaf q => p q
  | AN v t e => wt p t * pow2 (alevel t T - el n - 1) + wt p e * pow2 (alevel e T - el n - 1)
  end%Z.

Lemma el_child n v t e : n = AN v t e -> In n (asubs root) ->
  el t = alevel t T /\ el e = alevel e T /\ el n < alevel t T /\ el n < alevel e T
  /\ alevel t T <= T /\ alevel e T <= T.
Proof.
  intros -> Hn.
  assert (NR : forall c, In c [t; e] -> c <> root).
  { intros c Hc Ec. apply asubs_size in Hn.
    assert (asize c < asize (AN v t e)) by (destruct Hc as [<-|[<-|[]]]; cbn; lia). subst c. lia. }
  assert (NRt : el t = alevel t T).
  { unfold el. destruct (add_eqb t root) eqn:E; auto. apply add_eqb_spec in E. exfalso. apply (NR t); cbn; auto. }
  assert (NRe : el e = alevel e T).
  { unfold el. destruct (add_eqb e root) eqn:E; auto. apply add_eqb_spec in E. exfalso. apply (NR e); cbn; auto. }
  destruct (asubs_ok M root 0 _ Hroot Hn) as (k' & _ & Ho). cbn in Ho. rewrite HI in Ho.
  destruct Ho as (H1 & H2 & H3 & H4).
  assert (Hc : forall c, aok M (S v) c -> In c (asubs root) -> v < alevel c T <= T).
  { intros c Hoc Hic. destruct c as [q|w t' e']; cbn [alevel].
    - split; [apply Hvars; apply (asubs_vars root (AN v t e)); auto; now left|auto].
    - cbn in Hoc. rewrite HI in Hoc. split; [lia|]. apply Nat.lt_le_incl, Hvars.
      apply (asubs_vars root (AN w t' e')); auto. now left. }
  destruct (asubs_children root v t e Hn) as [It Ie].
  pose proof (Hc t H2 It). pose proof (Hc e H3 Ie).
  assert (el (AN v t e) <= v) by (unfold el; destruct (add_eqb _ _); cbn; lia).
  repeat split; auto; lia.
Qed.

Lemma ww_nonroot p n : n <> root -> ww p n = wt p n.
Proof.
  intro H. destruct n as [q|v t e]; auto. cbn [ww wt]. unfold el.
  destruct (add_eqb (AN v t e) root) eqn:E; [apply add_eqb_spec in E; contradiction|]. reflexivity.
Qed.



Lemma ww_root p : ww p root = (wt p root * pow2 rv)%Z.
Proof.
  assert (E0 : el root = 0) by (unfold el; now rewrite (proj2 (add_eqb_spec root root) eq_refl)).
  unfold root at 1. cbn [ww]. fold root. rewrite E0. unfold root. cbn [wt].
  destruct (asubs_children root rv rt re (asubs_refl root)) as [It Ie].
  pose proof Hroot as Ho. cbn in Ho. destruct Ho as (_ & H2 & H3 & _). rewrite HI in H2, H3.
  assert (Hrv : rv < T) by (apply Hvars; now left).
  pose proof (child_level rv rt H2 Hrv) as Lt. pose proof (child_level rv re H3 Hrv) as Le.
  replace (alevel rt T - 0 - 1) with ((alevel rt T - rv - 1) + rv) by lia.
  replace (alevel re T - 0 - 1) with ((alevel re T - rv - 1) + rv) by lia.
  rewrite !pow2_add. lia.
Qed.

(** ** Sums over pending nodes *)
Definition psum (p : Q -> Z) (cnt : amap Z) (l : list add) : Z :=
  fold_right (fun n s => aget n cnt * ww p n + s)%Z 0%Z l.

Lemma psum_app p cnt l l' : psum p cnt (l ++ l') = (psum p cnt l + psum p cnt l')%Z.
Proof. unfold psum. induction l as [|n l IH]; cbn [app fold_right]; lia. Qed.
Lemma psum_perm p cnt l l' : Permutation l l' -> psum p cnt l = psum p cnt l'.
Proof. unfold psum. induction 1; cbn [fold_right]; lia. Qed.
Lemma psum_set_notin p cnt c x l : ~ In c l -> psum p (aset c x cnt) l = psum p cnt l.
Proof.
  unfold psum. induction l as [|n l IH]; cbn [fold_right]; auto. intro H. rewrite IH by (intro; apply H; now right).
  rewrite aget_aset. destruct (add_eqb c n) eqn:E; auto. apply add_eqb_spec in E. subst. exfalso. apply H. now left.
Qed.
Lemma psum_set_in p cnt c x l : NoDup l -> In c l ->
  psum p (aset c x cnt) l = (psum p cnt l + (x - aget c cnt) * ww p c)%Z.
Proof.
  intros Hn Hi. apply in_split in Hi. destruct Hi as (l1 & l2 & ->).
  rewrite !psum_app. apply NoDup_remove_2 in Hn.
  assert (N1 : ~ In c l1) by (intro; apply Hn; apply in_or_app; auto).
  assert (N2 : ~ In c l2) by (intro; apply Hn; apply in_or_app; auto).
  rewrite psum_set_notin by auto. change (psum p (aset c x cnt) (c :: l2)) with (aget c (aset c x cnt) * ww p c + psum p (aset c x cnt) l2)%Z.
  change (psum p cnt (c :: l2)) with (aget c cnt * ww p c + psum p cnt l2)%Z.
  rewrite psum_set_notin by auto. rewrite aget_aset, (proj2 (add_eqb_spec c c) eq_refl). lia.
Qed.

(** ** The level structure *)
Lemma push_level_nth l : forall levels n j,
  nth j (push_level levels l n) [] = if j =? l then n :: nth l levels [] else nth j levels [].
Proof.
  induction l as [|l IH]; intros levels n j.
  - destruct levels as [|s ls], j as [|j]; cbn; auto; destruct j; auto.
  - destruct levels as [|s ls], j as [|j]; cbn [push_level nth Nat.eqb]; auto.
    rewrite IH. destruct (j =? l); destruct j, l; auto.
Qed.
Lemma push_level_length l : forall levels n, length (push_level levels l n) = Nat.max (length levels) (S l).
Proof.
  induction l as [|l IH]; intros [|s ls] n; cbn [push_level length]; auto; try lia.
  - rewrite IH. cbn. lia.
  - rewrite IH. lia.
Qed.
Lemma push_level_perm l : forall levels n k, k <= l ->
  Permutation (concat (skipn k (push_level levels l n))) (n :: concat (skipn k levels)).
Proof.
  induction l as [|l IH]; intros levels n k Hk.
  - assert (k = 0) as -> by lia. destruct levels as [|s ls]; cbn; auto.
  - destruct k as [|k].
    + destruct levels as [|s ls]; cbn [push_level skipn concat app].
      * change (concat (push_level [] l n)) with (concat (skipn 0 (push_level [] l n))).
        rewrite (IH [] n 0) by lia. reflexivity.
      * change (concat (push_level ls l n)) with (concat (skipn 0 (push_level ls l n))).
        rewrite (IH ls n 0) by lia. cbn [skipn]. apply Permutation_sym, Permutation_middle.
    + destruct levels as [|s ls]; cbn [push_level skipn].
      * rewrite (IH [] n k) by lia. destruct k; reflexivity.
      * apply IH. lia.
Qed.
Lemma in_concat_skipn (levels : list (list add)) k n : In n (concat (skipn k levels)) -> exists j, k <= j /\ In n (nth j levels []).
Proof.
  revert levels. induction k as [|k IH]; intros levels H.
  - cbn in H. apply in_concat in H. destruct H as (s & Hs & Hn). apply (In_nth _ _ []) in Hs.
    destruct Hs as (j & _ & Hj). exists j. split; [lia|]. now rewrite Hj.
  - destruct levels as [|s ls]; [destruct H|]. cbn [skipn] in H. destruct (IH ls H) as (j & Hj & Hn).
    exists (S j). split; [lia|auto].
Qed.
Lemma concat_skipn_S (levels : list (list add)) k : concat (skipn k levels) = nth k levels [] ++ concat (skipn (S k) levels).
Proof.
  revert levels. induction k as [|k IH]; intros [|s ls]; cbn [skipn nth]; auto.
  - rewrite IH. reflexivity.
Qed.

Record Inv (level : nat) (nodes : list add) (st : pstate) : Prop := {
  i_nodup : NoDup (nodes ++ concat (skipn (S level) (p_levels st)));
  i_vis : forall n, In n (nodes ++ concat (skipn (S level) (p_levels st))) -> In n (p_visited st);
  i_cur : forall n, In n nodes -> el n = level;
  i_lvl : forall j n, level < j -> In n (nth j (p_levels st) []) -> el n = j;
  i_pend : forall n, In n (p_visited st) -> level < el n -> In n (concat (skipn (S level) (p_levels st)));
  i_zero : forall n, ~ In n (p_visited st) -> aget n (p_count st) = 0%Z;
  i_pos : forall n, (0 <= aget n (p_count st) < 2 ^ 64)%Z;
  i_sub : forall n, In n (p_visited st) -> In n (asubs root);
  i_len : length (p_levels st) <= T + 1
}.

Definition pending (level : nat) (nodes : list add) (st : pstate) : list add :=
  nodes ++ concat (skipn (S level) (p_levels st)).

(** ** Wrap-around at 2^64 *)
Definition wraps (x y : Z) : Prop := exists k, x = (y + k * 2 ^ 64)%Z.
Lemma wraps_refl x : wraps x x. Proof. exists 0%Z. lia. Qed.
Lemma wraps_trans x y z : wraps x y -> wraps y z -> wraps x z.
Proof. intros [k ->] [l ->]. exists (k + l)%Z. lia. Qed.
Lemma wraps_mod x y : wraps x y -> (0 <= x < 2 ^ 64)%Z -> x = (y mod 2 ^ 64)%Z.
Proof. intros [k ->] H. rewrite <- (Z_mod_plus_full y k), Z.mod_small; auto. Qed.

(** the edges below [n] pass over fewer than 64 levels *)
Definition short (n : add) : Prop :=
  match n with
  | Leaf _ => True
  | AN v t e => alevel t T - el n - 1 < 64 /\ alevel e T - el n - 1 < 64
  end.

Lemma visit_child_spec level nodes st cc c :
  Inv level nodes st -> (0 <= cc)%Z -> In c (asubs root) -> el c = alevel c T -> level < alevel c T <= T -> c <> root ->
  (alevel c T - level - 1 < 64 ->
   exists st', visit_child T level cc c st = Ok st' /\ Inv level nodes st'
    /\ (forall n, In n (p_visited st') <-> n = c \/ In n (p_visited st))
    /\ (forall p, wraps (psum p (p_count st') (pending level nodes st'))
              (psum p (p_count st) (pending level nodes st) + cc * pow2 (alevel c T - level - 1) * ww p c)%Z))
  /\ (64 <= alevel c T - level - 1 -> visit_child T level cc c st = UB).
Proof.
  intros I Hcc Hc Hel Hlv Hnr. unfold visit_child.
  set (sh := pow2 (alevel c T - level - 1)) in *.
  split; intro Hgap.
  2:{ unfold shl_ulong.
      destruct ((0 <=? Z.of_nat (alevel c T) - Z.of_nat level - 1)%Z && (Z.of_nat (alevel c T) - Z.of_nat level - 1 <? 64)%Z) eqn:E; auto.
      exfalso. apply andb_true_iff in E. destruct E as [_ E]. apply Z.ltb_lt in E. lia. }
  assert (Hs : shl_ulong cc (Z.of_nat (alevel c T) - Z.of_nat level - 1) = Ok ((cc * sh) mod 2 ^ 64)%Z).
  { unfold shl_ulong.
    destruct ((0 <=? Z.of_nat (alevel c T) - Z.of_nat level - 1)%Z && (Z.of_nat (alevel c T) - Z.of_nat level - 1 <? 64)%Z) eqn:E.
    - f_equal. f_equal. replace (Z.of_nat (alevel c T) - Z.of_nat level - 1)%Z with (Z.of_nat (alevel c T - level - 1)) by lia.
      reflexivity.
    - exfalso. apply andb_false_iff in E. destruct E as [E|E]; [apply Z.leb_gt in E|apply Z.ltb_ge in E]; lia. }
  rewrite Hs. cbn [bind].
  set (old := aget c (p_count st)). set (new := ((old + (cc * sh) mod 2 ^ 64) mod 2 ^ 64)%Z).
  assert (Hnew : (0 <= new < 2 ^ 64)%Z) by (apply Z.mod_pos_bound; reflexivity).
  assert (Hk : exists k, (new = old + cc * sh + k * 2 ^ 64)%Z).
  { unfold new. pose proof (Z.div_mod (cc * sh) (2 ^ 64) ltac:(discriminate)).
    pose proof (Z.div_mod (old + (cc * sh) mod 2 ^ 64) (2 ^ 64) ltac:(discriminate)).
    exists (- (cc * sh / 2 ^ 64) - (old + (cc * sh) mod 2 ^ 64) / 2 ^ 64)%Z. lia. }
  destruct Hk as [k Hk]. clearbody new.
  destruct (avisited c (p_visited st)) eqn:Ev.
  - apply avisited_spec in Ev.
    assert (Hin : In c (concat (skipn (S level) (p_levels st)))) by (apply (i_pend _ _ _ I); auto; rewrite Hel; lia).
    eexists; split; [reflexivity|]. split; [|split].
    + destruct I; constructor; cbn [p_levels p_count p_visited]; auto.
      * intros n Hn. rewrite aget_aset. destruct (add_eqb c n) eqn:E; auto. apply add_eqb_spec in E. now subst.
      * intros n. rewrite aget_aset. destruct (add_eqb c n) eqn:E; auto.
    + intro n. cbn [p_visited]. split; auto. intros [-> | H]; auto.
    + intro p. cbn [p_count]. unfold pending. cbn [p_levels].
      rewrite psum_set_in; [fold old|apply (i_nodup _ _ _ I)|apply in_or_app; auto].
      exists (k * ww p c)%Z. rewrite Hk. lia.
  - apply avisited_false in Ev.
    assert (Hnot : ~ In c (nodes ++ concat (skipn (S level) (p_levels st)))) by (intro; apply Ev; now apply (i_vis _ _ _ I)).
    assert (Perm : Permutation (nodes ++ concat (skipn (S level) (push_level (p_levels st) (alevel c T) c)))
                               (c :: nodes ++ concat (skipn (S level) (p_levels st)))).
    { rewrite (push_level_perm (alevel c T) (p_levels st) c (S level)) by lia. apply Permutation_sym, Permutation_middle. }
    eexists; split; [reflexivity|]. split; [|split].
    + destruct I; constructor; cbn [p_levels p_count p_visited].
      * apply (Permutation_NoDup (Permutation_sym Perm)). constructor; auto.
      * intros n Hn. apply (Permutation_in _ Perm) in Hn. destruct Hn as [<-|Hn]; [now left|right; auto].
      * auto.
      * intros j n Hj Hn. rewrite push_level_nth in Hn. destruct (j =? alevel c T) eqn:E.
        -- apply Nat.eqb_eq in E. subst j. destruct Hn as [<-|Hn]; auto.
        -- auto.
      * intros n [<-|Hn] Hl.
        -- apply (Permutation_in _ (Permutation_sym (push_level_perm (alevel c T) (p_levels st) c (S level) ltac:(lia)))). now left.
        -- apply (Permutation_in _ (Permutation_sym (push_level_perm (alevel c T) (p_levels st) c (S level) ltac:(lia)))). right. auto.
      * intros n Hn. rewrite aget_aset. destruct (add_eqb c n) eqn:E.
        -- apply add_eqb_spec in E. subst. exfalso. apply Hn. now left.
        -- apply i_zero0. intro. apply Hn. now right.
      * intros n. rewrite aget_aset. destruct (add_eqb c n) eqn:E; auto.
      * intros n [<-|Hn]; auto.
      * rewrite push_level_length. lia.
    + intro n. cbn [p_visited In]. split; intros [H|H]; auto.
    + intro p. cbn [p_count]. unfold pending. cbn [p_levels]. rewrite (psum_perm _ _ _ _ Perm).
      cbn [psum fold_right]. fold (psum p (aset c new (p_count st)) (nodes ++ concat (skipn (S level) (p_levels st)))).
      rewrite psum_set_notin by auto. rewrite aget_aset, (proj2 (add_eqb_spec c c) eq_refl).
      assert (E0 : old = 0%Z) by (apply (i_zero _ _ _ I); auto). exists (k * ww p c)%Z. rewrite Hk, E0. lia.
Qed.

Lemma inv_drop level n nodes st : Inv level (n :: nodes) st -> Inv level nodes st.
Proof.
  intros I. destruct I; constructor; auto.
  - now inversion i_nodup0.
  - intros m Hm. apply i_vis0. now right.
  - intros m Hm. apply i_cur0. now right.
Qed.

(** everything visited up to [level] but [nodes] has been treated *)
Definition treated (level : nat) (nodes : list add) (st : pstate) : Prop :=
  forall v t e, In (AN v t e) (p_visited st) -> el (AN v t e) <= level -> ~ In (AN v t e) nodes ->
  short (AN v t e) /\ In t (p_visited st) /\ In e (p_visited st).

Lemma level_loop_spec level : level < T -> forall nodes st,
  Inv level nodes st -> treated level nodes st ->
  (exists st', level_loop T level nodes st = Ok st' /\ Inv level [] st' /\ treated level [] st'
    /\ (forall n, In n (p_visited st) -> In n (p_visited st'))
    /\ forall p, wraps (psum p (p_count st') (pending level [] st')) (psum p (p_count st) (pending level nodes st)))
  \/ (level_loop T level nodes st = UB /\ exists n, In n (asubs root) /\ ~ short n).
Proof.
  intros Hlev. induction nodes as [|n nodes IH]; intros st I Htr; cbn [level_loop].
  - left. exists st. split; auto. split; auto. split; auto. split; auto. intro p. apply wraps_refl.
  - assert (Hn : In n (p_visited st)) by (apply (i_vis _ _ _ I); now left).
    assert (Hsub : In n (asubs root)) by (apply (i_sub _ _ _ I); auto).
    assert (Hel : el n = level) by (apply (i_cur _ _ _ I); now left).
    destruct n as [q|v t e].
    { exfalso. unfold el in Hel. destruct (add_eqb (Leaf q) root) eqn:E; [apply add_eqb_spec in E; discriminate|].
      cbn in Hel. lia. }
    set (cur := AN v t e) in *. set (cc := aget cur (p_count st)).
    destruct (el_child cur v t e eq_refl Hsub) as (E1 & E2 & E3 & E4 & E5 & E6). rewrite Hel in E3, E4.
    destruct (asubs_children root v t e Hsub) as [It Ie].
    assert (Nt : t <> root) by (intros ->; apply asubs_size in Hsub; cbn in Hsub; lia).
    assert (Ne : e <> root) by (intros ->; apply asubs_size in Hsub; cbn in Hsub; lia).
    assert (Hcc : (0 <= cc)%Z) by apply (i_pos _ _ _ I).
    pose proof (inv_drop _ _ _ _ I) as I0.
    assert (Hw : forall p, (ww p cur = pow2 (alevel t T - level - 1) * ww p t + pow2 (alevel e T - level - 1) * ww p e)%Z).
    { intro p. unfold cur at 1. cbn [ww]. fold cur. rewrite Hel, !ww_nonroot by auto. lia. }
    assert (Hps : forall p, psum p (p_count st) (pending level (cur :: nodes) st)
                  = (cc * ww p cur + psum p (p_count st) (pending level nodes st))%Z) by reflexivity.
    destruct (visit_child_spec level nodes st cc t I0 Hcc It E1) as [A1 B1]; auto.
    destruct (Nat.lt_ge_cases (alevel t T - level - 1) 64) as [Gt|Gt].
    2:{ right. rewrite B1 by auto. split; auto. exists cur. split; auto. change (~ (alevel t T - el cur - 1 < 64 /\ alevel e T - el cur - 1 < 64)). rewrite Hel. lia. }
    destruct (A1 Gt) as (st1 & R1 & I1 & V1 & S1). rewrite R1. cbn [bind].
    destruct (visit_child_spec level nodes st1 cc e I1 Hcc Ie E2) as [A2 B2]; auto.
    destruct (Nat.lt_ge_cases (alevel e T - level - 1) 64) as [Ge|Ge].
    2:{ right. rewrite B2 by auto. split; auto. exists cur. split; auto. change (~ (alevel t T - el cur - 1 < 64 /\ alevel e T - el cur - 1 < 64)). rewrite Hel. lia. }
    destruct (A2 Ge) as (st2 & R2 & I2 & V2 & S2). rewrite R2. cbn [bind].
    assert (Htr2 : treated level nodes st2).
    { intros v' t' e' Hv' Hl' Hn'. apply V2 in Hv'. destruct Hv' as [Hv'|Hv']; [rewrite Hv', E2 in Hl'; lia|].
      apply V1 in Hv'. destruct Hv' as [Hv'|Hv']; [rewrite Hv', E1 in Hl'; lia|].
      destruct (add_eqb (AN v' t' e') cur) eqn:Ec.
      - apply add_eqb_spec in Ec. unfold cur in Ec. inversion Ec; subst v' t' e'. split.
        + change (alevel t T - el cur - 1 < 64 /\ alevel e T - el cur - 1 < 64). rewrite Hel. auto.
        + rewrite !V2, !V1. auto.
      - apply add_eqb_false in Ec. destruct (Htr v' t' e' Hv' Hl') as (X & Y & Z).
        + intros [F|F]; [congruence|contradiction].
        + split; auto. rewrite !V2, !V1. auto. }
    destruct (IH st2 I2 Htr2) as [(st' & R' & I' & T' & V' & S')|(R' & X)].
    + left. exists st'. split; auto. split; auto. split; auto. split; [intros m Hm; apply V', V2; right; apply V1; auto|].
      intro p. apply (wraps_trans _ _ _ (S' p)). apply (wraps_trans _ _ _ (S2 p)).
      destruct (S1 p) as [k Hk]. exists k. rewrite Hps, Hw, Hk. lia.
    + right. auto.
Qed.

Lemma level_loop_leaves level nodes st : (forall n, In n nodes -> exists q, n = Leaf q) ->
  level_loop T level nodes st = Ok st.
Proof.
  induction nodes as [|n nodes IH]; cbn [level_loop]; auto. intro H.
  destruct (H n) as [q ->]; [now left|]. apply IH. intros; apply H; now right.
Qed.

Lemma inv_next level st : Inv level [] st -> S level <= T -> Inv (S level) (nth (S level) (p_levels st) []) st.
Proof.
  intros I HL. assert (E := concat_skipn_S (p_levels st) (S level)). destruct I; constructor; auto.
  - rewrite <- E. exact i_nodup0.
  - intros n Hn. rewrite <- E in Hn. auto.
  - intros j n Hj Hn. apply (i_lvl0 j n); auto. lia.
  - intros n Hn Hl. assert (H : In n (concat (skipn (S level) (p_levels st)))) by (apply i_pend0; auto; lia).
    rewrite E in H. apply in_app_or in H. destruct H as [H|H]; auto.
    apply i_lvl0 in H; lia.
Qed.
Lemma treated_next level st : Inv level [] st -> treated level [] st ->
  treated (S level) (nth (S level) (p_levels st) []) st.
Proof.
  intros I H v t e Hv Hl Hn. destruct (Nat.eq_dec (el (AN v t e)) (S level)) as [E|E].
  - exfalso. assert (K : In (AN v t e) (concat (skipn (S level) (p_levels st)))) by (apply (i_pend _ _ _ I); auto; lia).
    rewrite concat_skipn_S in K. apply in_app_or in K. destruct K as [K|K]; [contradiction|].
    apply in_concat_skipn in K. destruct K as (j & Hj & K). apply (i_lvl _ _ _ I) in K; lia.
  - apply H; auto. lia.
Qed.

Lemma levels_loop_spec : forall k level st fuel, level + k = T -> k + 2 <= fuel ->
  Inv level (nth level (p_levels st) []) st -> treated level (nth level (p_levels st) []) st ->
  (forall n, In n (p_visited st) -> level <= el n -> In n (pending level (nth level (p_levels st) []) st)) ->
  (exists st', levels_loop T fuel level st = Ok st'
    /\ Inv T (nth T (p_levels st') []) st'
    /\ treated T (nth T (p_levels st') []) st'
    /\ (forall n, In n (p_visited st) -> In n (p_visited st'))
    /\ (forall n, In n (p_visited st') -> T <= el n -> In n (pending T (nth T (p_levels st') []) st'))
    /\ forall p, wraps (psum p (p_count st') (pending T (nth T (p_levels st') []) st'))
                       (psum p (p_count st) (pending level (nth level (p_levels st) []) st)))
  \/ (levels_loop T fuel level st = UB /\ exists n, In n (asubs root) /\ ~ short n).
Proof.
  induction k as [|k IH]; intros level st fuel HL Hfuel I Htr Hpe.
  - assert (level = T) as -> by lia. left. exists st.
    split; [|split; auto; split; auto; split; auto; split; auto; intro p; apply wraps_refl].
    assert (Leaves : forall n, In n (nth T (p_levels st) []) -> exists q, n = Leaf q).
    { intros n Hn. pose proof (i_cur _ _ _ I n Hn) as E.
      assert (In n (asubs root)) as Hs by (apply (i_sub _ _ _ I), (i_vis _ _ _ I), in_or_app; auto).
      destruct n as [q|v t e]; [eauto|]. exfalso. unfold el in E.
      assert (v < T) by (apply Hvars; eapply asubs_vars; eauto; now left).
      destruct (add_eqb (AN v t e) root); cbn in E; lia. }
    destruct fuel as [|[|fuel]]; try lia. cbn [levels_loop].
    destruct (T <? length (p_levels st)) eqn:El; auto.
    rewrite level_loop_leaves by auto. cbn [bind].
    pose proof (i_len _ _ _ I). destruct (S T <? length (p_levels st)) eqn:El2; [apply Nat.ltb_lt in El2; lia|]. reflexivity.
  - destruct fuel as [|fuel]; [lia|]. cbn [levels_loop].
    destruct (level <? length (p_levels st)) eqn:El.
    + destruct (level_loop_spec level ltac:(lia) _ st I Htr) as [(st1 & R1 & I1 & T1 & V1 & S1)|(R1 & X)].
      2:{ right. rewrite R1. auto. }
      rewrite R1. cbn [bind].
      assert (EP : forall p, wraps (psum p (p_count st1) (pending (S level) (nth (S level) (p_levels st1) []) st1))
                (psum p (p_count st) (pending level (nth level (p_levels st) []) st))).
      { intro p. apply (fun H => wraps_trans _ _ _ H (S1 p)). unfold pending. cbn [app]. rewrite <- concat_skipn_S. apply wraps_refl. }
      destruct (IH (S level) st1 fuel) as [(st' & R' & I' & T' & V' & P' & S')|(R' & X)]; try lia.
      * apply inv_next; auto. lia.
      * apply treated_next; auto.
      * intros n Hn Hl. unfold pending. rewrite <- concat_skipn_S. apply (i_pend _ _ _ I1); auto.
      * left. exists st'. split; auto. split; auto. split; auto. split; auto. split; auto.
        intro p. apply (wraps_trans _ _ _ (S' p) (EP p)).
      * right. auto.
    + (* no level left *)
      apply Nat.ltb_ge in El. left. exists st. split; auto.
      assert (E : skipn (S level) (p_levels st) = []) by (apply skipn_all2; lia).
      assert (ET : skipn (S T) (p_levels st) = []) by (apply skipn_all2; lia).
      assert (NL : nth level (p_levels st) [] = []) by (apply nth_overflow; lia).
      assert (NT : nth T (p_levels st) [] = []) by (apply nth_overflow; lia).
      rewrite NT, NL in *. unfold pending in *. rewrite ?E, ?ET in *. cbn [concat app] in *.
      assert (Low : forall n, In n (p_visited st) -> el n < level).
      { intros n Hn. destruct (Nat.lt_ge_cases (el n) level); auto. destruct (Hpe n Hn H). }
      split; [|split; [|split; [intros; assumption|split; [|intro p; apply wraps_refl]]]].
      * destruct I. rewrite E in *. constructor; rewrite ?ET; cbn [concat app] in *; auto.
        all: first [ intros j n Hj Hn; apply (i_lvl0 j n); [lia|exact Hn] | intros n Hn Hl; apply (i_pend0 n Hn); lia | intros n [] | idtac ].
      * intros v t e Hv Hl _. apply Htr; auto. apply Nat.lt_le_incl. apply Low, Hv.
      * intros n Hn Hl. specialize (Low n Hn). lia.
Qed.

Lemma inv_init : Inv 0 [root] (PState [[root]] [(root, 1%Z)] [root]).
Proof.
  constructor; cbn [p_levels p_count p_visited skipn concat app].
  - repeat constructor. intros [].
  - auto.
  - intros n [<-|[]]. unfold el. now rewrite (proj2 (add_eqb_spec root root) eq_refl).
  - intros j n Hj Hn. destruct j as [|[|j]]; try lia; destruct Hn.
  - intros n [<-|[]] Hl. unfold el in Hl. rewrite (proj2 (add_eqb_spec root root) eq_refl) in Hl. lia.
  - intros n Hn. unfold aget, alookup. cbn [find fst snd]. destruct (add_eqb root n) eqn:E; auto.
    apply add_eqb_spec in E. exfalso. apply Hn. now left.
  - intros n. unfold aget, alookup. cbn [find fst snd]. destruct (add_eqb root n); split; reflexivity || discriminate.
  - intros n [<-|[]]. apply asubs_refl.
  - cbn. lia.
Qed.

Lemma psum_leaf p q cnt l : NoDup l -> (forall n, In n l -> exists q', n = Leaf q') ->
  (forall q', p q' = if q_eqb q' q then 1 else 0)%Z ->
  psum p cnt l = if avisited (Leaf q) l then aget (Leaf q) cnt else 0%Z.
Proof.
  intros Hn Hl Hp. induction l as [|n l IH]; [reflexivity|].
  inversion Hn; subst. change (psum p cnt (n :: l)) with (aget n cnt * ww p n + psum p cnt l)%Z.
  rewrite IH by (auto; intros; apply Hl; now right). destruct (Hl n) as [q' ->]; [now left|].
  cbn [ww]. rewrite Hp. cbn [avisited existsb add_eqb]. destruct (q_eqb q' q) eqn:E.
  - apply q_eqb_spec in E. subst q'. cbn [orb]. fold (avisited (Leaf q) l).
    assert (avisited (Leaf q) l = false) as -> by (now apply avisited_false). lia.
  - cbn [orb]. fold (avisited (Leaf q) l). lia.
Qed.

Lemma closed_below (V : list add) g : In g V -> (forall v t e, In (AN v t e) V -> In t V /\ In e V) -> incl (asubs g) V.
Proof.
  intros Hg Hcl. induction g as [q|v t IHt e IHe]; intros x; cbn [asubs].
  - intros [<-|[]]; auto.
  - destruct (Hcl v t e Hg) as [Ht He]. intros [<-|H]; auto. apply in_app_or in H. destruct H; [apply IHt|apply IHe]; auto.
Qed.

Theorem count_paths_spec :
  (exists cnt, count_paths root T = Ok cnt /\ (forall n, In n (asubs root) -> short n) /\
    forall q, exists z, (inject_Z z == sum_inputs T (fun a => b2q (q_eqb (aev root a) q)))%Q
                        /\ aget (Leaf q) cnt = (z mod 2 ^ 64)%Z)
  \/ (count_paths root T = UB /\ exists n, In n (asubs root) /\ ~ short n).
Proof.
  change (count_paths root T) with (st <- levels_loop T (T + 2) 0 (PState [[root]] [(root, 1%Z)] [root]) ;; Ok (p_count st)).
  assert (Hw1 : forall p, psum p [(root, 1%Z)] [root] = ww p root).
  { intro p. unfold psum. cbn [fold_right]. unfold aget, alookup. cbn [find fst snd].
    rewrite (proj2 (add_eqb_spec root root) eq_refl). cbn [snd]. lia. }
  destruct (levels_loop_spec T 0 (PState [[root]] [(root, 1%Z)] [root]) (T + 2)) as [(st & R & I & Tr & V & P & S)|(R & X)]; [lia|lia| | | | |].
  - apply inv_init.
  - intros v t e [E|[]] _ Hn. exfalso. apply Hn. rewrite E. now left.
  - intros n [<-|[]] _. now left.
  - left. rewrite R. cbn [bind]. eexists; split; [reflexivity|].
    assert (Low : forall n, In n (p_visited st) -> el n < T \/ exists q, n = Leaf q).
    { intros n Hn. destruct n as [q'|v t e]; [eauto|]. left. unfold el.
      assert (v < T) by (apply Hvars; eapply asubs_vars; [apply (i_sub _ _ _ I), Hn|now left]).
      destruct (add_eqb (AN v t e) root); cbn [alevel]; lia. }
    assert (Closed : forall v t e, In (AN v t e) (p_visited st) ->
      short (AN v t e) /\ In t (p_visited st) /\ In e (p_visited st)).
    { intros v t e Hv. destruct (Low _ Hv) as [L|[q F]]; [|discriminate].
      apply Tr; auto; [lia|]. intro Hn. apply (i_cur _ _ _ I) in Hn. lia. }
    split.
    { assert (incl (asubs root) (p_visited st)) as Inc.
      { apply closed_below; [apply V; now left|]. intros v t e Hv. apply Closed in Hv. tauto. }
      intros n Hn. apply Inc in Hn. destruct n as [q|v t e]; [exact Logic.I|]. apply Closed in Hn. tauto. }
    intro q.
    set (p := fun q' => if q_eqb q' q then 1%Z else 0%Z).
    assert (Leaves : forall n, In n (pending T (nth T (p_levels st) []) st) -> exists q, n = Leaf q).
    { intros n Hn. assert (Hv : In n (p_visited st)) by (apply (i_vis _ _ _ I), Hn).
      assert (E : T <= el n).
      { unfold pending in Hn. apply in_app_or in Hn. destruct Hn as [Hn|Hn].
        - rewrite (i_cur _ _ _ I n Hn). lia.
        - apply in_concat_skipn in Hn. destruct Hn as (j & Hj & Hn). rewrite (i_lvl _ _ _ I j n); auto; lia. }
      destruct (Low n Hv) as [L|L]; [lia|exact L]. }
    pose proof (S p) as Sp. rewrite (psum_leaf p q) in Sp; [|apply (i_nodup _ _ _ I)|apply Leaves|reflexivity].
    unfold pending in Sp at 2. cbn [p_levels p_count nth skipn concat app] in Sp. rewrite Hw1, ww_root in Sp.
    assert (Hag : (if avisited (Leaf q) (pending T (nth T (p_levels st) []) st) then aget (Leaf q) (p_count st) else 0%Z)
                  = aget (Leaf q) (p_count st)).
    { destruct (avisited (Leaf q) (pending T (nth T (p_levels st) []) st)) eqn:E; auto. apply avisited_false in E.
      symmetry. apply (i_zero _ _ _ I). intro Hv. apply E. apply P; [auto|].
      unfold el. destruct (add_eqb (Leaf q) root) eqn:E'; [apply add_eqb_spec in E'; discriminate|cbn; lia]. }
    rewrite Hag in Sp. exists (wt p root * pow2 rv)%Z. split.
    + rewrite inject_Z_mult.
      destruct (wt_inputs p root 0 Hroot ltac:(lia) Hvars) as [_ W]. cbn [alevel root] in W. fold root in W.
      rewrite W. apply sum_inputs_ext. intro a. unfold p. destruct (q_eqb (aev root a) q); reflexivity.
    + apply wraps_mod; auto. split; [apply (i_pos _ _ _ I)|apply (i_pos _ _ _ I)].
  - right. rewrite R. auto.
Qed.
End Paths.

(** ** Collecting the terminals *)
Section Terms.
Variable f : add.
Variable pc : amap Z.

Lemma terminals_loop_spec : forall fuel stack visited,
  NoDup stack -> NoDup visited -> incl stack visited -> incl visited (asubs f) ->
  (forall v t e, In (AN v t e) visited -> ~ In (AN v t e) stack -> In t visited /\ In e visited) ->
  length (asubs f) + length stack <= fuel + length visited ->
  exists r V, terminals_loop pc fuel stack visited = Ok r
    /\ incl visited V /\ incl V (asubs f)
    /\ (forall v t e, In (AN v t e) V -> In t V /\ In e V)
    /\ (forall q c, In (q, c) r <-> In (Leaf q) V /\ (In (Leaf q) stack \/ ~ In (Leaf q) visited) /\ c = aget (Leaf q) pc)
    /\ NoDup (map fst r).
Proof.
  induction fuel as [|fuel IH]; intros stack visited Ns Nv Hsv Hvf Hcl Hfuel.
  - destruct stack as [|n stack].
    + exists [], visited. cbn [terminals_loop]. split; [reflexivity|]. split; [apply incl_refl|]. split; [auto|].
      split; [intros v t e H; apply (Hcl v t e H); intros []|]. split; [|constructor].
      intros q c. split; [intros []|]. intros (H1 & [[]|H2] & _). contradiction.
    + exfalso. pose proof (NoDup_incl_length Nv Hvf). cbn in Hfuel. lia.
  - destruct stack as [|n stack].
    + exists [], visited. cbn [terminals_loop]. split; [reflexivity|]. split; [apply incl_refl|]. split; [auto|].
      split; [intros v t e H; apply (Hcl v t e H); intros []|]. split; [|constructor].
      intros q c. split; [intros []|]. intros (H1 & [[]|H2] & _). contradiction.
    + inversion Ns as [|? ? Nn Ns']; subst.
      assert (Hnv : In n visited) by (apply Hsv; now left).
      destruct n as [q|v t e]; cbn [terminals_loop].
      * destruct (IH stack visited) as (r & V & R & H1 & H2 & H3 & H4 & H5); auto.
        -- intros x Hx. apply Hsv. now right.
        -- intros v t e Hin Hns. apply (Hcl v t e Hin). intros [E|E]; [discriminate|auto].
        -- cbn [length] in Hfuel. lia.
        -- rewrite R. cbn [bind]. eexists; exists V. split; [reflexivity|]. split; [auto|]. split; [auto|]. split; [auto|].
           split.
           ++ intros q' c. cbn [In]. rewrite H4. split.
              ** intros [E|(A & B & C)]; [inversion E; subst; auto 6|]. split; auto. split; auto. destruct B; auto.
              ** intros (A & B & ->).
                 destruct (q_eqb q q') eqn:E; [apply q_eqb_spec in E; subst; auto|].
                 right. split; auto. split; auto. destruct B as [[B|B]|B]; auto. inversion B; subst.
                 rewrite (proj2 (q_eqb_spec q' q') eq_refl) in E. discriminate.
           ++ cbn [map fst]. constructor; auto. intro Hin. apply in_map_iff in Hin. destruct Hin as ([q' c] & E & Hin).
              cbn in E. subst q'. apply H4 in Hin. destruct Hin as (_ & [B|B] & _); contradiction.
      * destruct (asubs_children f v t e) as [It Ie]; [now apply Hvf|].
        set (s1 := if avisited t visited then stack else t :: stack).
        set (v1 := if avisited t visited then visited else t :: visited).
        set (s2 := if avisited e v1 then s1 else e :: s1).
        set (v2 := if avisited e v1 then v1 else e :: v1).
        assert (Push : forall c s vis, In c (asubs f) -> NoDup s -> NoDup vis -> incl s vis -> incl vis (asubs f) ->
           let s' := if avisited c vis then s else c :: s in
           let vis' := if avisited c vis then vis else c :: vis in
           NoDup s' /\ NoDup vis' /\ incl s' vis' /\ incl vis' (asubs f) /\ In c vis' /\ incl vis vis'
           /\ length s' + length vis = length s + length vis'
           /\ (forall x, In x s' <-> In x s \/ (x = c /\ ~ In c vis)) /\ (forall x, In x vis' <-> In x vis \/ x = c)).
        { intros c s vis Hc A B C D. cbv zeta. destruct (avisited c vis) eqn:E.
          - apply avisited_spec in E. split; [auto|]. split; [auto|]. split; [auto|]. split; [auto|]. split; [auto|].
            split; [apply incl_refl|]. split; [auto|]. split; intro x.
            + split; [auto|]. intros [H|[-> H]]; [auto|contradiction].
            + split; [auto|]. intros [H| ->]; auto.
          - apply avisited_false in E. split; [constructor; auto|]. split; [constructor; auto|].
            split; [intros x [<-|Hx]; [now left|right; auto]|]. split; [intros x [<-|Hx]; auto|]. split; [now left|].
            split; [intros x Hx; now right|]. split; [cbn [length]; lia|]. split; intro x; cbn [In].
            + split; [intros [<-|H]; auto|]. intros [H|[-> H]]; auto.
            + split; [intros [<-|H]; auto|]. intros [H| ->]; auto. }
        destruct (Push t stack visited It Ns' Nv) as (A1 & A2 & A3 & A4 & A5 & A6 & A7 & A8 & A9); auto.
        { intros x Hx. apply Hsv. now right. }
        fold s1 v1 in A1, A2, A3, A4, A5, A6, A7, A8, A9.
        destruct (Push e s1 v1 Ie A1 A2 A3 A4) as (B1 & B2 & B3 & B4 & B5 & B6 & B7 & B8 & B9).
        fold s2 v2 in B1, B2, B3, B4, B5, B6, B7, B8, B9.
        assert (Eq : terminals_loop pc (S fuel) (AN v t e :: stack) visited = terminals_loop pc fuel s2 v2).
        { cbn [terminals_loop]. unfold s2, v2, s1, v1. destruct (avisited t visited).
          - destruct (avisited e visited); reflexivity.
          - destruct (avisited e (t :: visited)); reflexivity. }
        cbn [terminals_loop] in Eq. rewrite Eq.
        destruct (IH s2 v2) as (r & V & R & H1 & H2 & H3 & H4 & H5); auto.
        -- intros v' t' e' Hin Hns.
           assert (Hin0 : In (AN v' t' e') visited).
           { apply B9 in Hin. destruct Hin as [Hin|Hin].
             - apply A9 in Hin. destruct Hin as [Hin|Hin]; auto.
               destruct (avisited t visited) eqn:E; [apply avisited_spec in E; rewrite Hin; auto|].
               apply avisited_false in E. exfalso. apply Hns, B8. left. apply A8. right. auto.
             - destruct (avisited e v1) eqn:E.
               + apply avisited_spec in E. rewrite Hin. apply A9 in E. destruct E as [E|E]; auto.
                 destruct (avisited t visited) eqn:E'; [apply avisited_spec in E'; rewrite E; auto|].
                 apply avisited_false in E'. exfalso. apply Hns, B8. left. apply A8. right. split; congruence.
               + apply avisited_false in E. exfalso. apply Hns, B8. right. auto. }
           destruct (add_eqb (AN v' t' e') (AN v t e)) eqn:E.
           ++ apply add_eqb_spec in E. inversion E; subst. split; auto.
           ++ assert (In t' visited /\ In e' visited) as [X Y].
              { apply (Hcl v' t' e' Hin0). intros [H|H].
                - rewrite <- H in E. rewrite (proj2 (add_eqb_spec _ _) eq_refl) in E. discriminate.
                - apply Hns, B8. left. apply A8. now left. }
              split; apply B6, A6; auto.
        -- cbn [length] in Hfuel. lia.
        -- exists r, V. split; [auto|]. split; [intros x Hx; apply H1, B6, A6; auto|]. split; [auto|]. split; [auto|].
           split; [|auto]. intros q c. rewrite H4. split; intros (X & Y & Z); (split; [auto|split; [|auto]]).
           ++ destruct Y as [Y|Y].
              ** apply B8 in Y. destruct Y as [Y|[Y1 Y2]].
                 --- apply A8 in Y. destruct Y as [Y|[Y1 Y2]]; [left; now right|right; congruence].
                 --- right. intro Hq. apply Y2, A6. congruence.
              ** right. intro Hq. apply Y, B6, A6, Hq.
           ++ destruct Y as [[Y|Y]|Y]; [discriminate| |].
              ** left. apply B8. left. apply A8. now left.
              ** destruct (avisited (Leaf q) v2) eqn:E.
                 --- left. apply avisited_spec in E. apply B8.
                     apply B9 in E. destruct E as [E|E].
                     +++ left. apply A8. apply A9 in E. destruct E as [E|E]; [contradiction|]. right. split; congruence.
                     +++ destruct (avisited e v1) eqn:E1.
                         *** apply avisited_spec in E1. left. apply A8. right. apply A9 in E1.
                             destruct E1 as [E1|E1]; split; congruence.
                         *** apply avisited_false in E1. right. auto.
                 --- right. now apply avisited_false.
Qed.

Lemma closed_subs (V : list add) g : In g V -> (forall v t e, In (AN v t e) V -> In t V /\ In e V) -> incl (asubs g) V.
Proof.
  intros Hg Hcl. induction g as [q|v t IHt e IHe]; intros x; cbn [asubs].
  - intros [<-|[]]; auto.
  - destruct (Hcl v t e Hg) as [Ht He]. intros [<-|H]; auto. apply in_app_or in H. destruct H; [apply IHt|apply IHe]; auto.
Qed.

Lemma terminals_spec : exists r, terminals_loop pc (length (asubs f)) [f] [f] = Ok r
  /\ (forall q c, In (q, c) r <-> In (Leaf q) (asubs f) /\ c = aget (Leaf q) pc) /\ NoDup (map fst r).
Proof.
  destruct (terminals_loop_spec (length (asubs f)) [f] [f]) as (r & V & R & H1 & H2 & H3 & H4 & H5).
  - repeat constructor. intros [].
  - repeat constructor. intros [].
  - apply incl_refl.
  - intros x [<-|[]]. apply asubs_refl.
  - intros v t e H N. contradiction.
  - lia.
  - exists r. split; auto. split; auto. intros q c. rewrite H4.
    assert (incl (asubs f) V) by (apply closed_subs; auto; apply H1; now left).
    split.
    + intros (A & B & C). split; auto.
    + intros (A & C). split; auto. split; auto. cbn [In]. destruct (add_eqb f (Leaf q)) eqn:E.
      * apply add_eqb_spec in E. auto.
      * right. intros [H'|[]]. apply add_eqb_false in E. congruence.
Qed.
End Terms.

(** every leaf of an ordered ADD is a value of its function, and conversely *)
Lemma leaf_attained M f : forall k, aok M k f -> forall q, In (Leaf q) (asubs f) -> exists a, aev f a = q.
Proof.
  induction f as [q'|v t IHt e IHe]; intros k Hok q; cbn [asubs].
  - intros [E|[]]. inversion E. exists (fun _ => false). reflexivity.
  - cbn in Hok. destruct Hok as (H1 & H2 & H3 & _). intros [E|H]; [discriminate|].
    apply in_app_or in H. destruct H as [H|H].
    + destruct (IHt _ H2 q H) as (a & <-). exists (upd a v true). cbn [aev]. rewrite upd_same.
      apply aev_upd_notin. intro Hi. apply (aok_vars _ _ _ _ H2) in Hi. lia.
    + destruct (IHe _ H3 q H) as (a & <-). exists (upd a v false). cbn [aev]. rewrite upd_same.
      apply aev_upd_notin. intro Hi. apply (aok_vars _ _ _ _ H3) in Hi. lia.
Qed.
Lemma value_leaf f a : In (Leaf (aev f a)) (asubs f).
Proof.
  induction f as [q|v t IHt e IHe]; cbn [asubs aev]; [now left|]. right. apply in_or_app. destruct (a v); auto.
Qed.

Lemma count_inputs_sum n t : (sum_inputs n (fun a => b2q (t a)) == inject_Z (Z.of_nat (count_inputs n t)))%Q.
Proof.
  unfold sum_inputs, count_inputs. induction (all_inputs n) as [|l ls IH]; cbn [map sumQ fold_right filter]; [reflexivity|].
  change (sumQ (?x :: ?l)) with (x + sumQ l)%Q. rewrite IH. destruct (t (asg_of l)); cbn [b2q length].
  - rewrite Nat2Z.inj_succ, <- Z.add_1_l, inject_Z_plus. reflexivity.
  - rewrite Qplus_0_l. reflexivity.
Qed.

Lemma add_term_level_lt f i : In i (avars f) -> i < add_term_level f.
Proof.
  intro H. unfold add_term_level. assert (In i (sorted_set (avars f))) by (now apply sorted_set_in).
  pose proof (list_max0_ge (sorted_set (avars f)) i H0). lia.
Qed.

Lemma histogram_sum (F : asg -> Q) (ls : list (list bool)) : forall vs, NoDup vs -> (forall l, In l ls -> In (F (asg_of l)) vs) ->
  fold_right Z.add 0%Z (map (fun v => Z.of_nat (length (filter (fun l => q_eqb (F (asg_of l)) v) ls))) vs)
  = Z.of_nat (length ls).
Proof.
  intros vs Nv. induction ls as [|l ls IH]; intro H; cbn [filter length].
  - clear. induction vs as [|v vs IH]; cbn [map fold_right]; auto.
  - rewrite Nat2Z.inj_succ, <- IH by (intros; apply H; now right).
    assert (Hv : In (F (asg_of l)) vs) by (apply H; now left).
    clear IH H. induction vs as [|v vs IHv]; [destruct Hv|]. cbn [map fold_right].
    inversion Nv as [|? ? Nn Nv']; subst.
    destruct (q_eqb (F (asg_of l)) v) eqn:E.
    + apply q_eqb_spec in E. subst v. cbn [length].
      assert (G : forall us, ~ In (F (asg_of l)) us ->
        fold_right Z.add 0%Z (map (fun v => Z.of_nat (length (if q_eqb (F (asg_of l)) v then l :: filter (fun l0 => q_eqb (F (asg_of l0)) v) ls else filter (fun l0 => q_eqb (F (asg_of l0)) v) ls))) us)
        = fold_right Z.add 0%Z (map (fun v => Z.of_nat (length (filter (fun l0 => q_eqb (F (asg_of l0)) v) ls))) us)).
      { clear. induction us as [|u us IH]; intro H; cbn [map fold_right]; auto. rewrite IH by (intro; apply H; now right).
        destruct (q_eqb (F (asg_of l)) u) eqn:E; auto. apply q_eqb_spec in E. exfalso. apply H. now left. }
      rewrite (G vs Nn). lia.
    + destruct Hv as [Hv|Hv].
      * subst v. rewrite (proj2 (q_eqb_spec _ _) eq_refl) in E. discriminate.
      * rewrite (IHv Nv' Hv). lia.
Qed.

Lemma filter_shorter {X} (t : X -> bool) l : length (filter t l) <= length l.
Proof. induction l as [|x l IH]; cbn [filter length]; auto. destruct (t x); cbn [length]; lia. Qed.

Lemma aev_red M f : forall k a, aok M k f -> Qred (aev f a) = aev f a.
Proof.
  induction f as [q|v t IHt e IHe]; intros k a Hok; cbn [aev]; [exact Hok|].
  cbn in Hok. destruct Hok as (_ & H2 & H3 & _). destruct (a v); eauto.
Qed.
Lemma Qeq_bool_red p q : Qred p = p -> Qred q = q -> Qeq_bool p q = q_eqb p q.
Proof.
  intros Hp Hq. destruct (q_eqb p q) eqn:E.
  - apply q_eqb_spec in E. subst. apply Qeq_bool_iff. reflexivity.
  - destruct (Qeq_bool p q) eqn:E'; auto. apply Qeq_bool_iff in E'. apply Qred_complete in E'.
    rewrite Hp, Hq in E'. subst. rewrite (proj2 (q_eqb_spec _ _) eq_refl) in E. discriminate.
Qed.

(** ** Distinct ADDs have distinct values *)
Lemma aok_differ M : forall n f g k, asize f + asize g < n -> aok M k f -> aok M k g -> f <> g -> exists a, aev f a <> aev g a.
Proof.
  induction n as [|n IH]; intros f g k Hn Hf Hg Hd; [lia|].
  (* one branch of [f = AN v t e] against a diagram without [v] *)
  assert (Half : forall v t e h, asize (AN v t e) + asize h < S n -> aok M (S (lv M v)) t -> aok M (S (lv M v)) e -> t <> e ->
            aok M (S (lv M v)) h -> exists a, aev (AN v t e) a <> aev h a).
  { intros v t e h Hs Ht He Hte Hh. cbn [asize] in Hs.
    assert (No : forall x, aok M (S (lv M v)) x -> ~ In v (avars x)) by (intros x Hx Hi; apply (aok_vars _ _ _ _ Hx) in Hi; lia).
    destruct (add_eqb t h) eqn:E.
    - apply add_eqb_spec in E. subst h. destruct (IH e t (S (lv M v))) as [a Ha]; auto; [lia|].
      exists (upd a v false). cbn [aev]. rewrite upd_same, !aev_upd_notin by auto. exact Ha.
    - apply add_eqb_false in E. destruct (IH t h (S (lv M v))) as [a Ha]; auto; [lia|].
      exists (upd a v true). cbn [aev]. rewrite upd_same, !aev_upd_notin by auto. exact Ha. }
  destruct f as [p|v t e], g as [q|w x y].
  - exists (fun _ => false). cbn [aev]. congruence.
  - cbn in Hg. destruct Hg as (H1 & H2 & H3 & H4).
    destruct (Half w x y (Leaf p)) as [a Ha]; [lia|assumption|assumption|assumption|exact Hf|]. exists a. congruence.
  - cbn in Hf. destruct Hf as (H1 & H2 & H3 & H4). destruct (Half v t e (Leaf q)) as [a Ha]; [lia|assumption|assumption|assumption|exact Hg|]. exists a. congruence.
  - pose proof Hf as Hf'. pose proof Hg as Hg'. cbn in Hf, Hg. destruct Hf as (H1 & H2 & H3 & H4), Hg as (G1 & G2 & G3 & G4).
    destruct (Nat.lt_trichotomy (lv M v) (lv M w)) as [L|[L|L]].
    + destruct (Half v t e (AN w x y)) as [a Ha]; [lia|assumption|assumption|assumption|cbn; auto|]. exists a. congruence.
    + apply lv_inj in L. subst w.
      assert (No : forall z, aok M (S (lv M v)) z -> ~ In v (avars z)) by (intros z Hz Hi; apply (aok_vars _ _ _ _ Hz) in Hi; lia).
      cbn [asize] in Hn. destruct (add_eqb t x) eqn:E.
      * apply add_eqb_spec in E. subst x. destruct (IH e y (S (lv M v))) as [a Ha]; auto; [lia|congruence|].
        exists (upd a v false). cbn [aev]. rewrite upd_same, !aev_upd_notin by auto. exact Ha.
      * apply add_eqb_false in E. destruct (IH t x (S (lv M v))) as [a Ha]; auto; [lia|].
        exists (upd a v true). cbn [aev]. rewrite upd_same, !aev_upd_notin by auto. exact Ha.
    + destruct (Half w x y (AN v t e)) as [a Ha]; [lia|assumption|assumption|assumption|cbn; auto|]. exists a. congruence.
Qed.
Lemma aok_not_constant M k v t e q : aok M k (AN v t e) -> exists a, aev (AN v t e) a <> q.
Proof.
  intro H. destruct (q_eqb (Qred q) q) eqn:E.
  - apply q_eqb_spec in E. apply (aok_differ M (S (asize (AN v t e) + asize (Leaf q))) _ (Leaf q) k); auto; [discriminate].
  - exists (fun _ => false). intro F. rewrite <- F, (aev_red M _ k) in E by auto.
    rewrite (proj2 (q_eqb_spec _ _) eq_refl) in E. discriminate.
Qed.

(** some input has another value, so no count is 2^t *)
Lemma count_not_all M v x y t u : aok M 0 (AN v x y) -> (forall i, In i (avars (AN v x y)) -> i < t) ->
  (Z.of_nat (count_inputs t (fun a => q_eqb (aev (AN v x y) a) u)) < pow2 t)%Z.
Proof.
  intros Hok HV. destruct (aok_not_constant M 0 v x y u Hok) as [a Ha].
  set (P := fun a => q_eqb (aev (AN v x y) a) u).
  assert (Pa : P (asg_of (map a (seq 0 t))) = false).
  { unfold P. destruct (q_eqb _ u) eqn:E; auto. exfalso. apply Ha. apply q_eqb_spec in E.
    rewrite <- E. apply aev_ext. intros i Hi. unfold asg_of.
    rewrite (nth_indep _ false (a 0)) by (rewrite map_length, seq_length; auto).
    rewrite map_nth, seq_nth by auto. reflexivity. }
  assert (Ia : In (map a (seq 0 t)) (all_inputs t)) by (apply in_all_inputs; rewrite map_length; apply seq_length).
  unfold count_inputs. fold P.
  rewrite <- (all_inputs_length t). apply Nat2Z.inj_lt.
  clear -Pa Ia. revert Ia. induction (all_inputs t) as [|l ls IH]; [intros []|]. cbn [filter length In].
  intros [->|Hi].
  - rewrite Pa. pose proof (filter_shorter (fun l => P (asg_of l)) ls). lia.
  - specialize (IH Hi). destruct (P (asg_of l)); cbn [length]; lia.
Qed.

Theorem add_terminal_values_full M A : index_order M -> aok M 0 A -> add_term_level A <= 64 ->
  exists r, add_terminal_values A = Ok r /\ NoDup (map fst r)
   /\ (forall v, In v (map fst r) <-> exists a, aev A a = v)
   /\ (forall v c, In (v, c) r ->
        c = match A with
            | Leaf _ => 1%Z
            | AN _ _ _ => Z.of_nat (count_inputs (add_term_level A) (fun a => q_eqb (aev A a) v))
            end)
   /\ fold_right Z.add 0%Z (map snd r) = match A with Leaf _ => 1%Z | AN _ _ _ => pow2 (add_term_level A) end.
Proof.
  intros HI Hok HT. unfold add_terminal_values.
  assert (Main : exists pc, count_paths A (add_term_level A) = Ok pc /\ forall v, In (Leaf v) (asubs A) ->
      aget (Leaf v) pc = match A with Leaf _ => 1%Z
            | AN _ _ _ => Z.of_nat (count_inputs (add_term_level A) (fun a => q_eqb (aev A a) v)) end).
  { destruct A as [q|v t e].
    - eexists; split; [reflexivity|]. intros v [E|[]]. inversion E. unfold aget, alookup. cbn [find fst snd].
      rewrite (proj2 (add_eqb_spec _ _) eq_refl). reflexivity.
    - set (T := add_term_level (AN v t e)) in *.
      assert (HV : forall i, In i (avars (AN v t e)) -> i < T) by (intros i Hi; now apply add_term_level_lt).
      destruct (count_paths_spec M HI T v t e Hok HV) as [(pc & R & _ & H)|(_ & n & Hn & F)].
      + exists pc. split; auto. intros q _. destruct (H q) as (z & Ez & ->). rewrite count_inputs_sum in Ez.
        unfold Qeq in Ez. cbn [Qnum Qden inject_Z] in Ez.
        assert (z = Z.of_nat (count_inputs T (fun a => q_eqb (aev (AN v t e) a) q))) as -> by lia.
        apply Z.mod_small. split; [lia|].
        pose proof (count_not_all M v t e T q Hok HV). assert (pow2 T <= 2 ^ 64)%Z by (apply Z.pow_le_mono_r; lia). lia.
      + exfalso. apply F. destruct n as [q|w x y]; [exact Logic.I|].
        destruct (el_child M HI T v t e Hok HV _ w x y eq_refl Hn) as (_ & _ & _ & _ & L1 & L2).
        cbn [short]. lia. }
  destruct Main as (pc & -> & Hpc). cbn [bind].
  destruct (terminals_spec A pc) as (r & R & H & N). exists r. split; auto. split; auto.
  assert (HV : forall v, In v (map fst r) <-> exists a, aev A a = v).
  { intro v. split.
    + intro Hv. apply in_map_iff in Hv. destruct Hv as ([v' c] & E & Hi). cbn in E. subst v'. apply H in Hi.
      destruct Hi as [Hi _]. eapply leaf_attained; eauto.
    + intros (a & <-). apply in_map_iff. exists (aev A a, aget (Leaf (aev A a)) pc). split; auto. apply H. split; auto. apply value_leaf. }
  split; [exact HV|].
  assert (HC : forall v c, In (v, c) r ->
        c = match A with
            | Leaf _ => 1%Z
            | AN _ _ _ => Z.of_nat (count_inputs (add_term_level A) (fun a => q_eqb (aev A a) v))
            end) by (intros v c Hi; apply H in Hi; destruct Hi as [Hi ->]; auto).
  split; [exact HC|].
  destruct A as [q|x t e].
  - cbn [length asubs terminals_loop] in R. cbn [bind] in R. injection R as <-. cbn [map fold_right snd].
    rewrite Hpc by (now left). reflexivity.
  - transitivity (fold_right Z.add 0%Z (map (fun v => Z.of_nat (count_inputs (add_term_level (AN x t e)) (fun a => q_eqb (aev (AN x t e) a) v))) (map fst r))).
    + f_equal. clear -HC. induction r as [|[v c] r IH]; auto. cbn [map fst snd]. f_equal.
      * apply HC. now left.
      * apply IH. intros; apply HC; now right.
    + unfold count_inputs. rewrite histogram_sum; [apply all_inputs_length|auto|].
      intros l _. apply HV. eauto.
Qed.

Lemma histogram_full M A : index_order M -> aok M 0 A -> add_term_level A <= 63 ->
  exists r, add_terminal_values A = Ok r /\ NoDup (map fst r)
   /\ (forall v, In v (map fst r) <-> exists a, aev A a = v)
   /\ (forall i, In i (avars A) -> i < add_term_level A)
   /\ (avars A <> [] ->
        (forall v c, In (v, c) r ->
           c = Z.of_nat (count_inputs (add_term_level A) (fun a => Qeq_bool (aev A a) v)))
        /\ fold_right Z.add 0%Z (map snd r) = pow2 (add_term_level A))
   /\ (forall q, A = Leaf q -> r = [(q, 1%Z)]).
Proof.
  intros HI Hok HT. destruct (add_terminal_values_full M A HI Hok ltac:(lia)) as (r & R & N & V & C & S).
  exists r. split; [auto|]. split; [auto|]. split; [auto|]. split; [apply add_term_level_lt|]. split.
  - destruct A as [q|v t e]; [intros []; reflexivity|]. intros _. split; auto.
    intros x c Hi. rewrite (C x c Hi). f_equal. unfold count_inputs. f_equal. apply filter_ext. intro l.
    symmetry. apply Qeq_bool_red; [eapply aev_red; eauto|].
    assert (Hx : In x (map fst r)) by (apply in_map_iff; exists (x, c); auto).
    apply V in Hx. destruct Hx as [a <-]. eapply aev_red; eauto.
  - intros q ->. cbn in R. injection R as <-. unfold aget, alookup. cbn [find fst snd].
    rewrite (proj2 (add_eqb_spec _ _) eq_refl). reflexivity.
Qed.
