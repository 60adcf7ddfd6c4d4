(** Proofs about the bit-vector arithmetic of cudd_helpers.cpp. *)
From Coq Require Import List Bool Arith ZArith QArith Qround Lia.
From Verif Require Import Res Cudd CuddFacts Spec SpecFacts Helpers.
Import ListNotations.
Open Scope Z_scope.

Notation wfs M := (Forall (wf M)).

(** ** Adders *)
Lemma full_adder_spec M f g c s co : full_adder M f g c = (s, co) ->
  (forall a, Z.b2z (ev s a) + 2 * Z.b2z (ev co a) = Z.b2z (ev f a) + Z.b2z (ev g a) + Z.b2z (ev c a)).
Proof.
  unfold full_adder. intros [= <- <-] a.
  rewrite !ev_xor, !ev_or, !ev_and. destruct (ev f a), (ev g a), (ev c a); reflexivity.
Qed.
Lemma full_adder_wf M f g c s co : full_adder M f g c = (s, co) ->
  wf M f -> wf M g -> wf M c -> wf M s /\ wf M co.
Proof. unfold full_adder. intros [= <- <-] Hf Hg Hc. auto 10 with wf. Qed.

Lemma add_loop_spec M f : forall g c, (length f <= length g)%nat ->
  exists r, add_loop M f g c = Ok r /\ length r = length f
    /\ (wfs M f -> wfs M g -> wf M c -> wfs M r)
    /\ forall a, exists q, 0 <= q <= 1 /\
         uval r a + pow2 (length f) * q = uval f a + uval (firstn (length f) g) a + Z.b2z (ev c a).
Proof.
  induction f as [|x f IH]; intros g c Hl; cbn [add_loop].
  - exists []. repeat split; auto. intro a. exists (Z.b2z (ev c a)).
    cbn [uval length firstn]. rewrite pow2_0. pose proof (b2z_range (ev c a)). lia.
  - destruct g as [|y g]; cbn [length] in Hl; [lia|].
    destruct (full_adder M x y c) as [s co] eqn:E.
    destruct (IH g co) as (r & Hr & Hlen & Hwf & Hv); [lia|].
    rewrite Hr. cbn [bind]. exists (s :: r). repeat split.
    + cbn. lia.
    + intros Hf Hg Hc. inversion Hf; inversion Hg; subst.
      destruct (full_adder_wf _ _ _ _ _ _ E) as [Hs Hco]; auto.
    + intro a. destruct (Hv a) as (q & Hq & Hq'). exists q. split; auto.
      pose proof (full_adder_spec _ _ _ _ _ _ E a). cbn [uval length firstn]. rewrite pow2_S. lia.
Qed.

Lemma uval_firstn n g a : uval (firstn n g) a = uval g a mod pow2 n.
Proof.
  destruct (le_lt_dec n (length g)) as [H|H].
  - rewrite <- (firstn_skipn n g) at 2. rewrite uval_app.
    rewrite firstn_length_le by auto.
    rewrite Z.mul_comm, Z.mod_add by (pose proof (pow2_pos n); lia).
    symmetry. apply Z.mod_small. pose proof (uval_range (firstn n g) a) as R.
    now rewrite firstn_length_le in R by auto.
  - rewrite firstn_all2 by lia. symmetry. apply Z.mod_small.
    pose proof (uval_range g a). pose proof (pow2_le (length g) n). lia.
Qed.

Lemma bdd_add_spec M f g : (length f <= length g)%nat ->
  exists r, bdd_add M f g = Ok r /\ length r = length f
    /\ (wfs M f -> wfs M g -> wfs M r)
    /\ forall a, uval r a = (uval f a + uval g a) mod pow2 (length f).
Proof.
  intro Hl. destruct (add_loop_spec M f g bzero Hl) as (r & Hr & Hlen & Hwf & Hv).
  exists r. repeat split; auto with wf. intro a. destruct (Hv a) as (q & Hq & H).
  rewrite uval_firstn, ev_zero in H. cbn [Z.b2z] in H.
  pose proof (uval_range r a) as R. rewrite Hlen in R.
  rewrite <- Zplus_mod_idemp_r. apply Z.mod_unique with q; [left; auto|lia].
Qed.

Lemma add_loop_ub M f : forall g c, (length g < length f)%nat -> add_loop M f g c = UB.
Proof.
  induction f as [|x f IH]; intros [|y g] c H; cbn [length] in H; try lia; auto.
  cbn [add_loop]. destruct (full_adder M x y c). rewrite IH by lia. reflexivity.
Qed.

Lemma subtract_loop_spec M f : forall g c, (length f <= length g)%nat ->
  exists r, subtract_loop M f g c = Ok r /\ length r = length f
    /\ (wfs M f -> wfs M g -> wf M c -> wfs M r)
    /\ forall a, exists q, 0 <= q <= 1 /\
         uval r a + pow2 (length f) * q
         = uval f a + (pow2 (length f) - 1 - uval (firstn (length f) g) a) + Z.b2z (ev c a).
Proof.
  induction f as [|x f IH]; intros g c Hl; cbn [subtract_loop].
  - exists []. repeat split; auto. intro a. exists (Z.b2z (ev c a)).
    cbn [uval length firstn]. rewrite pow2_0. pose proof (b2z_range (ev c a)). lia.
  - destruct g as [|y g]; cbn [length] in Hl; [lia|].
    destruct (full_adder M x (bnot y) c) as [s co] eqn:E.
    destruct (IH g co) as (r & Hr & Hlen & Hwf & Hv); [lia|].
    rewrite Hr. cbn [bind]. exists (s :: r). repeat split.
    + cbn. lia.
    + intros Hf Hg Hc. inversion Hf; inversion Hg; subst.
      destruct (full_adder_wf _ _ _ _ _ _ E) as [Hs Hco]; auto with wf.
    + intro a. destruct (Hv a) as (q & Hq & Hq'). exists q. split; auto.
      pose proof (full_adder_spec _ _ _ _ _ _ E a) as F. rewrite ev_not in F.
      cbn [uval length firstn]. rewrite pow2_S. destruct (ev y a); cbn [negb Z.b2z] in *; lia.
Qed.

Lemma bdd_subtract_spec M f g : (length f <= length g)%nat ->
  exists r, bdd_subtract M f g = Ok r /\ length r = length f
    /\ (wfs M f -> wfs M g -> wfs M r)
    /\ forall a, uval r a = (uval f a - uval g a) mod pow2 (length f).
Proof.
  intro Hl. destruct (subtract_loop_spec M f g bone Hl) as (r & Hr & Hlen & Hwf & Hv).
  exists r. repeat split; auto with wf. intro a. destruct (Hv a) as (q & Hq & H).
  rewrite uval_firstn, ev_one in H. cbn [Z.b2z] in H.
  pose proof (uval_range r a) as R. rewrite Hlen in R.
  rewrite <- Zminus_mod_idemp_r. apply Z.mod_unique with (q - 1); [left; auto|lia].
Qed.

Lemma subtract_loop_ub M f : forall g c, (length g < length f)%nat -> subtract_loop M f g c = UB.
Proof.
  induction f as [|x f IH]; intros [|y g] c H; cbn [length] in H; try lia; auto.
  cbn [subtract_loop]. destruct (full_adder M x (bnot y) c). rewrite IH by lia. reflexivity.
Qed.

(** ** Absolute value *)
Lemma vback_app {A} (f : list A) x : vback (f ++ [x]) = Ok x.
Proof. unfold vback. now rewrite rev_app_distr. Qed.

Lemma uval_xor_map M f s a :
  uval (map (fun b => bxor M b s) f) a
  = if ev s a then pow2 (length f) - 1 - uval f a else uval f a.
Proof.
  induction f as [|x f IH]; cbn [map uval length].
  - rewrite pow2_0. now destruct (ev s a).
  - rewrite IH, ev_xor, pow2_S. destruct (ev s a), (ev x a); cbn [xorb Z.b2z]; lia.
Qed.
Lemma uval_repeat b n a : uval (repeat b n) a = if ev b a then pow2 n - 1 else 0.
Proof.
  induction n as [|n IH]; cbn [repeat uval].
  - rewrite pow2_0. now destruct (ev b a).
  - rewrite IH, pow2_S. destruct (ev b a); cbn [Z.b2z]; lia.
Qed.
Lemma wfs_repeat M b n : wf M b -> wfs M (repeat b n).
Proof. intro H. induction n; cbn; auto. Qed.
Lemma wfs_map M (F : bdd -> bdd) f : (forall b, wf M b -> wf M (F b)) -> wfs M f -> wfs M (map F f).
Proof. intros H. induction 1; cbn; auto. Qed.
Lemma wfs_app M f g : wfs M f -> wfs M g -> wfs M (f ++ g).
Proof. intros. apply Forall_app; auto. Qed.

Lemma bdd_abs_spec M f : f <> [] ->
  exists r, bdd_abs M f TwosComplement = Ok r /\ length r = length f
    /\ (wfs M f -> wfs M r)
    /\ forall a, uval r a = Z.abs (sval f a).
Proof.
  intro Hne. destruct f as [|s f _] using rev_ind; [congruence|]. clear Hne.
  unfold bdd_abs. rewrite vback_app. cbn [bind].
  set (F := f ++ [s]).
  destruct (bdd_subtract_spec M (map (fun b => bxor M b s) F) (repeat s (length F)))
    as (r & Hr & Hlen & Hwf & Hv).
  { rewrite map_length, repeat_length. lia. }
  exists r. rewrite map_length in *. repeat split; auto.
  - intro H. assert (wf M s) by (unfold F in H; apply Forall_app in H; destruct H as [_ H]; now inversion H).
    apply Hwf; [apply wfs_map; auto with wf | now apply wfs_repeat].
  - intro a. rewrite Hv, uval_xor_map, uval_repeat. unfold F.
    rewrite sval_app, uval_app, app_length. cbn [length uval]. rewrite Nat.add_1_r, pow2_S.
    pose proof (uval_range f a). pose proof (pow2_pos (length f)).
    destruct (ev s a); cbn [Z.b2z].
    + rewrite Z.abs_neq by lia. symmetry. apply Z.mod_unique with (-1); [left|]; lia.
    + rewrite Z.abs_eq by lia. rewrite Z.mod_small; lia.
Qed.

(** ** Absolute difference *)
Lemma sign_extend_spec M f n : f <> [] ->
  exists r, sign_extend f n = Ok r /\ length r = Nat.max (length f) n /\ r <> []
    /\ (wfs M f -> wfs M r) /\ forall a, sval r a = sval f a.
Proof.
  intro Hne. unfold sign_extend.
  destruct (length f <? n)%nat eqn:E; [apply Nat.ltb_lt in E|apply Nat.ltb_ge in E].
  2:{ exists f. repeat split; auto. lia. }
  destruct f as [|s f _] using rev_ind; [congruence|]. clear Hne.
  rewrite vback_app. cbn [bind]. eexists; split; [reflexivity|].
  rewrite app_length in *. cbn [length] in *.
  repeat split.
  - rewrite !app_length, repeat_length. cbn [length]. lia.
  - destruct f; discriminate.
  - intro H. apply wfs_app; auto. apply wfs_repeat. apply Forall_app in H. destruct H as [_ H]. now inversion H.
  - intro a. assert (G : forall k l, sval (l ++ [s] ++ repeat s k) a = sval (l ++ [s]) a).
    { induction k as [|k IH]; intro l; cbn [repeat]; [now rewrite app_nil_r|].
      transitivity (sval ((l ++ [s]) ++ [s] ++ repeat s k) a); [now rewrite <- !app_assoc|].
      rewrite IH, !sval_app, uval_app, app_length. cbn [length uval].
      rewrite Nat.add_1_r, pow2_S. destruct (ev s a); cbn [Z.b2z]; lia. }
    rewrite <- app_assoc. apply G.
Qed.

Lemma sval_of_uval f a d : f <> [] -> uval f a = d mod pow2 (length f) ->
  - pow2 (length f - 1) <= d < pow2 (length f - 1) -> sval f a = d.
Proof.
  intros Hne Hu Hd. pose proof (sval_uval f a Hne) as H. rewrite Hu in H.
  pose proof (sval_range f a Hne) as R.
  assert (E : pow2 (length f) = 2 * pow2 (length f - 1)).
  { rewrite <- pow2_S. f_equal. destruct f; [congruence|]. cbn [length]. lia. }
  pose proof (pow2_pos (length f - 1)).
  assert (K : (sval f a - d) mod pow2 (length f) = 0).
  { rewrite Zminus_mod, H, Z.sub_diag. apply Z.mod_0_l. lia. }
  apply Z.mod_divide in K; [|lia]. destruct K as [q K]. rewrite E in K.
  assert (q = 0) by nia. lia.
Qed.

(** value of the absolute difference on equal-size operands: the difference wraps *)
Lemma abs_wrap f a d : f <> [] -> uval f a = d mod pow2 (length f) ->
  - pow2 (length f) < d < pow2 (length f) ->
  Z.abs (sval f a) = Z.min (Z.abs d) (pow2 (length f) - Z.abs d).
Proof.
  intros Hne Hu Hd.
  assert (E : pow2 (length f) = 2 * pow2 (length f - 1)).
  { rewrite <- pow2_S. f_equal. destruct f; [congruence|]. cbn [length]. lia. }
  pose proof (pow2_pos (length f - 1)).
  destruct (Z_lt_ge_dec d (- pow2 (length f - 1))) as [H1|H1];
    [|destruct (Z_lt_ge_dec d (pow2 (length f - 1))) as [H2|H2]].
  - rewrite (sval_of_uval f a (d + pow2 (length f))); auto; try lia.
    rewrite <- (Z.mul_1_l (pow2 (length f))) at 1. rewrite Z.mod_add; lia.
  - rewrite (sval_of_uval f a d); auto; lia.
  - rewrite (sval_of_uval f a (d - pow2 (length f))); auto; try lia.
    replace (d - pow2 (length f)) with (d + (-1) * pow2 (length f)) by lia. rewrite Z.mod_add; lia.
Qed.

Lemma absdiff_core M (f g : list bdd) (b : bool) :
  f <> [] -> length f = length g ->
  exists r, bind (bdd_subtract M (if b then g else f) (if b then f else g))
              (fun d => bdd_abs M d TwosComplement) = Ok r
    /\ length r = length f
    /\ (wfs M f -> wfs M g -> wfs M r)
    /\ forall a, uval r a = Z.min (dist (sval f a) (sval g a)) (pow2 (length f) - dist (sval f a) (sval g a)).
Proof.
  intros Hne Hl.
  destruct (bdd_subtract_spec M (if b then g else f) (if b then f else g)) as (d & Hd & Hdl & Hdw & Hdv).
  { destruct b; lia. }
  assert (Hld : length d = length f) by (destruct b; lia).
  assert (Hdne : d <> []) by (intros ->; destruct f; [congruence|discriminate]).
  destruct (bdd_abs_spec M d Hdne) as (r & Hr & Hrl & Hrw & Hrv).
  rewrite Hd. cbn [bind]. exists r. repeat split; auto; try lia.
  - intros Hf Hg. apply Hrw, Hdw; destruct b; auto.
  - intro a. rewrite Hrv. unfold dist.
    assert (Hgne : g <> []) by (intros ->; destruct f; [congruence|discriminate]).
    pose proof (sval_range f a Hne) as Rf. pose proof (sval_range g a Hgne) as Rg. rewrite <- Hl in Rg.
    assert (E : pow2 (length f) = 2 * pow2 (length f - 1)).
    { rewrite <- pow2_S. f_equal. destruct f; [congruence|]. cbn [length]. lia. }
    set (D := if b then sval g a - sval f a else sval f a - sval g a).
    rewrite (abs_wrap d a D Hdne).
    + rewrite Hld. f_equal; [|f_equal]; unfold D; destruct b; lia.
    + rewrite Hdv, Hld. pose proof (sval_uval f a Hne) as Uf. pose proof (sval_uval g a Hgne) as Ug.
      rewrite <- Hl in Ug. unfold D. destruct b.
      * rewrite <- Hl. rewrite <- Uf, <- Ug. now rewrite <- Zminus_mod.
      * rewrite <- Uf, <- Ug. now rewrite <- Zminus_mod.
    + rewrite Hld. unfold D. destruct b; lia.
Qed.

Lemma absdiff_twos M f g : f <> [] -> g <> [] ->
  exists r, bdd_absolute_difference M f g TwosComplement = Ok r
    /\ length r = Nat.max (length f) (length g)
    /\ (wfs M f -> wfs M g -> wfs M r)
    /\ forall a, uval r a = Z.min (dist (sval f a) (sval g a))
                                  (pow2 (Nat.max (length f) (length g)) - dist (sval f a) (sval g a)).
Proof.
  intros Hf Hg. unfold bdd_absolute_difference.
  destruct (sign_extend_spec M f (length g) Hf) as (f_ & Ef & Lf & Nf & Wf & Vf).
  rewrite Ef. cbn [bind].
  destruct (sign_extend_spec M g (length f_) Hg) as (g_ & Eg & Lg & Ng & Wg & Vg).
  rewrite Eg. cbn [bind].
  destruct (absdiff_core M f_ g_ (negb (existsb (fun p => bgt M (fst p) (snd p)) (combine f_ g_))))
    as (r & Hr & Hl & Hw & Hv); auto; [lia|].
  rewrite Hr. exists r. repeat split; auto; try lia.
  intro a. rewrite Hv, Vf, Vg. now rewrite Lf.
Qed.

Lemma sval_snoc_zero f a : sval (f ++ [bzero]) a = uval f a.
Proof. rewrite sval_app, ev_zero. cbn. lia. Qed.

Lemma absdiff_base M f g :
  exists r, bdd_absolute_difference M f g BaseTwo = Ok r
    /\ length r = S (Nat.max (length f) (length g))
    /\ (wfs M f -> wfs M g -> wfs M r)
    /\ forall a, uval r a = dist (uval f a) (uval g a).
Proof.
  destruct (absdiff_twos M (f ++ [bzero]) (g ++ [bzero])) as (r & Hr & Hl & Hw & Hv).
  1,2: intro H; now apply app_eq_nil in H.
  exists r. split; [exact Hr|]. rewrite !app_length in *. cbn [length] in *.
  repeat split; [lia| |].
  - intros Hf Hg. apply Hw; apply wfs_app; auto with wf.
  - intro a. rewrite Hv, !sval_snoc_zero.
    replace (Nat.max (length f + 1) (length g + 1)) with (S (Nat.max (length f) (length g))) by lia.
    rewrite pow2_S. pose proof (uval_range f a). pose proof (uval_range g a).
    pose proof (pow2_le (length f) (Nat.max (length f) (length g))).
    pose proof (pow2_le (length g) (Nat.max (length f) (length g))).
    unfold dist. lia.
Qed.

(** ** Shifts *)
Lemma mapM_Ok {A B} (F : A -> res B) (G : A -> B) l :
  (forall x, In x l -> F x = Ok (G x)) -> mapM F l = Ok (map G l).
Proof.
  induction l as [|x l IH]; cbn; intro H; auto.
  rewrite H by auto. cbn. rewrite IH by auto. reflexivity.
Qed.

Lemma vget_nth {A} (l : list A) i d : (i < length l)%nat -> vget l i = Ok (nth i l d).
Proof. intro H. unfold vget. now rewrite (nth_error_nth' l d H). Qed.

(** the list computed by bdd_shift *)
Definition shifted (f : list bdd) (k : Z) : list bdd :=
  map (fun i => let i := Z.of_nat i in
        if (i <? k) || (Z.of_nat (length f) + k <=? i) then bzero else nth (Z.to_nat (i - k)) f bzero)
      (seq 0 (length f)).

Lemma bdd_shift_shifted f k : bdd_shift f k = Ok (shifted f k).
Proof.
  unfold bdd_shift, shifted. apply mapM_Ok. intros i Hi. apply in_seq in Hi.
  destruct ((Z.of_nat i <? k) || (Z.of_nat (length f) + k <=? Z.of_nat i)) eqn:E; auto.
  apply orb_false_iff in E. destruct E as [E1 E2].
  apply Z.ltb_ge in E1. apply Z.leb_gt in E2. apply vget_nth. lia.
Qed.

Lemma nth_ext_bdd (f g : list bdd) : length f = length g ->
  (forall i, (i < length f)%nat -> nth i f bzero = nth i g bzero) -> f = g.
Proof. intros. eapply nth_ext; eauto. Qed.

Lemma nth_shifted f k i : (i < length f)%nat ->
  nth i (shifted f k) bzero =
   if (Z.of_nat i <? k) || (Z.of_nat (length f) + k <=? Z.of_nat i) then bzero
   else nth (Z.to_nat (Z.of_nat i - k)) f bzero.
Proof.
  intro H. unfold shifted. set (F := fun i => _).
  rewrite (nth_indep _ bzero (F 0%nat)) by (now rewrite map_length, seq_length).
  rewrite map_nth, seq_nth by auto. reflexivity.
Qed.
Lemma shifted_length f k : length (shifted f k) = length f.
Proof. unfold shifted. now rewrite map_length, seq_length. Qed.

Lemma shifted_left f k : (k <= length f)%nat ->
  shifted f (Z.of_nat k) = repeat bzero k ++ firstn (length f - k) f.
Proof.
  intro Hk. apply nth_ext_bdd.
  - rewrite shifted_length, app_length, repeat_length, firstn_length. lia.
  - intros i Hi. rewrite shifted_length in Hi. rewrite nth_shifted by auto.
    destruct (Z.of_nat i <? Z.of_nat k) eqn:E1; cbn [orb];
      [apply Z.ltb_lt in E1|apply Z.ltb_ge in E1].
    + rewrite app_nth1 by (rewrite repeat_length; lia). symmetry. apply nth_repeat.
    + rewrite app_nth2 by (rewrite repeat_length; lia). rewrite repeat_length.
      destruct (Z.of_nat (length f) + Z.of_nat k <=? Z.of_nat i) eqn:E2; [apply Z.leb_le in E2; lia|].
      replace (Z.to_nat (Z.of_nat i - Z.of_nat k)) with (i - k)%nat by lia.
      rewrite <- (firstn_skipn (length f - k) f) at 1. rewrite app_nth1; auto.
      rewrite firstn_length. lia.
Qed.

Lemma shifted_left_all f k : Z.of_nat (length f) <= k -> shifted f k = repeat bzero (length f).
Proof.
  intro Hk. apply nth_ext_bdd.
  - now rewrite shifted_length, repeat_length.
  - intros i Hi. rewrite shifted_length in Hi. rewrite nth_shifted, nth_repeat by auto.
    destruct (Z.of_nat i <? k) eqn:E1; auto. apply Z.ltb_ge in E1. lia.
Qed.

Lemma shifted_right f k : (k <= length f)%nat ->
  shifted f (- Z.of_nat k) = skipn k f ++ repeat bzero k.
Proof.
  intro Hk. apply nth_ext_bdd.
  - rewrite shifted_length, app_length, repeat_length, skipn_length. lia.
  - intros i Hi. rewrite shifted_length in Hi. rewrite nth_shifted by auto.
    destruct (Z.of_nat i <? - Z.of_nat k) eqn:E1; cbn [orb];
      [apply Z.ltb_lt in E1; lia|].
    destruct (Z.of_nat (length f) + - Z.of_nat k <=? Z.of_nat i) eqn:E2;
      [apply Z.leb_le in E2|apply Z.leb_gt in E2].
    + rewrite app_nth2 by (rewrite skipn_length; lia). symmetry. apply nth_repeat.
    + rewrite app_nth1 by (rewrite skipn_length; lia).
      replace (Z.to_nat (Z.of_nat i - - Z.of_nat k)) with (k + i)%nat by lia.
      rewrite <- (firstn_skipn k f) at 1. rewrite app_nth2; rewrite firstn_length; [|lia].
      f_equal. lia.
Qed.

Lemma shifted_right_all f k : (length f <= k)%nat -> shifted f (- Z.of_nat k) = repeat bzero (length f).
Proof.
  intro Hk. apply nth_ext_bdd.
  - now rewrite shifted_length, repeat_length.
  - intros i Hi. rewrite shifted_length in Hi. rewrite nth_shifted, nth_repeat by auto.
    destruct ((Z.of_nat i <? - Z.of_nat k) || (Z.of_nat (length f) + - Z.of_nat k <=? Z.of_nat i)) eqn:E; auto.
    apply orb_false_iff in E. destruct E as [_ E]. apply Z.leb_gt in E. lia.
Qed.

Lemma uval_shift_left f k a : uval (shifted f (Z.of_nat k)) a = (uval f a * pow2 k) mod pow2 (length f).
Proof.
  pose proof (pow2_pos (length f)). pose proof (pow2_pos k).
  destruct (le_lt_dec k (length f)) as [Hk|Hk].
  - rewrite shifted_left by auto. rewrite uval_app, uval_repeat, ev_zero, repeat_length, uval_firstn.
    replace (length f) with ((length f - k) + k)%nat at 2 by lia. rewrite pow2_add.
    rewrite Z.mul_mod_distr_r by (pose proof (pow2_pos (length f - k)); lia). lia.
  - rewrite shifted_left_all by lia. rewrite uval_repeat, ev_zero.
    replace k with ((k - length f) + length f)%nat by lia. rewrite pow2_add, Z.mul_assoc, Z.mod_mul; lia.
Qed.

Lemma uval_shift_right f k a : uval (shifted f (- Z.of_nat k)) a = uval f a / pow2 k.
Proof.
  pose proof (pow2_pos k).
  destruct (le_lt_dec k (length f)) as [Hk|Hk].
  - rewrite shifted_right by auto. rewrite uval_app, uval_repeat, ev_zero.
    assert (uval f a = uval (firstn k f) a + uval (skipn k f) a * pow2 k) as ->.
    { rewrite <- (firstn_skipn k f) at 1. rewrite uval_app, firstn_length_le by auto. ring. }
    rewrite Z.div_add by lia.
    pose proof (uval_range (firstn k f) a) as R. rewrite firstn_length_le in R by auto.
    rewrite (Z.div_small (uval (firstn k f) a)) by lia. lia.
  - rewrite shifted_right_all by lia. rewrite uval_repeat, ev_zero.
    pose proof (uval_range f a). pose proof (pow2_lt _ _ Hk). rewrite Z.div_small; lia.
Qed.

Lemma wfs_shifted M f k : wfs M f -> wfs M (shifted f k).
Proof.
  intro H. unfold shifted. apply Forall_forall. intros x Hx. apply in_map_iff in Hx.
  destruct Hx as (i & <- & Hi).
  destruct ((Z.of_nat i <? k) || (Z.of_nat (length f) + k <=? Z.of_nat i)); auto with wf.
  destruct (nth_in_or_default (Z.to_nat (Z.of_nat i - k)) f bzero) as [Hin| ->]; auto with wf.
  rewrite Forall_forall in H. auto.
Qed.
