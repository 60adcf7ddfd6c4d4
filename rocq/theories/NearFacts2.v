(** round_best on doubles at one level: how far from the best single replacement *)
From Coq Require Import List Bool Arith ZArith QArith Lia Lqa.
From Verif Require Import Res Cudd CuddFacts Spec SpecFacts SpecFloat SpecNan SpecLimited Helpers HelpersFacts HelpersFacts2 Counting CountFacts
  Metrics MetricsFacts4 Operators OperatorFacts OperatorFacts2 OperatorFacts3 OperatorFacts4 OperatorFacts5 Float FloatFacts Rounded RoundedFacts RoundedFacts2 Ieee IeeeFacts IeeeFacts3 NanFacts NanFacts2 LimitedFacts LimitedFacts2 NearFacts.
Import ListNotations.
Open Scope nat_scope.

Section Best.
Variable M : mgr.
Variable w : bdd -> Q.
Variable cm : Q -> Q. (* the computed complement *)
Fixpoint rbg (ls le : nat) (n : node) (c : bool) : bdd :=
  match n with
  | One => (c, One)
  | Nd v t d e =>
      if v <? ls then ite M (bvar v) (rbg ls le t c) (rbg ls le e (xorb c d))
      else if v <=? le then
        let tc := w (c, t) in let ec := w (xorb c d, e) in
        if qgtb ec tc && qgtb (cm ec) tc then ite M (bvar v) (bnot bone) (rbg ls le e (xorb c d))
        else if qgtb tc ec && qgtb (cm tc) ec then ite M (bvar v) (rbg ls le t c) (bnot bone)
        else if qgtb tc ec && qgtb tc (cm ec) then ite M (bvar v) bone (rbg ls le e (xorb c d))
        else if qgtb ec tc && qgtb ec (cm tc) then ite M (bvar v) (rbg ls le t c) bone
        else ite M (bvar v) (major tc) (major ec)
      else (c, n)
  end.
Variable l : nat.
Variable N : nat.
Variable eps del : Q.
Definition nearly_cm (n : node) (c : bool) : Prop := forall k, In k (edges n c) -> (1 - w k - del <= cm (w k) <= 1 - w k + del)%Q.
Lemma cm_then v t d e c : nearly_cm (Nd v t d e) c -> nearly_cm t c.
Proof. intros H k Hk. apply H. cbn [edges]. right. apply in_or_app. auto. Qed.
Lemma cm_else v t d e c : nearly_cm (Nd v t d e) c -> nearly_cm e (xorb c d).
Proof. intros H k Hk. apply H. cbn [edges]. right. apply in_or_app. auto. Qed.

Lemma rbg_wf le n : forall c, wf M (c, n) -> wf M (rbg l le n c).
Proof.
  induction n as [|v t IHt d e IHe]; intros c H; [exact I|]. cbn [rbg].
  pose proof (IHt c (wf_then _ _ _ _ _ _ H)). pose proof (IHe (xorb c d) (wf_else _ _ _ _ _ _ _ H)).
  assert (wf M (bnot bone)) by exact I. assert (forall q, wf M (major q)) by (intro q; unfold major; destruct (qgtb q _); exact I).
  destruct (v <? l); [apply wf_ite; auto with wf|]. destruct (v <=? le); auto. cbv zeta.
  repeat match goal with |- context [if ?b then _ else _] => destruct b end; apply wf_ite; auto with wf.
Qed.
Lemma rbg_outside le n a : (forall i, In i (varsn n) -> ~ l <= i <= le) ->
  forall c, ev (rbg l le n c) a = ev (c, n) a.
Proof.
  induction n as [|v t IHt d e IHe]; intros H c; [reflexivity|]. cbn [rbg]. cbn [varsn In] in H.
  destruct (v <? l) eqn:E1; [|apply Nat.ltb_ge in E1; destruct (v <=? le) eqn:E2; auto].
  - rewrite ev_itev, ev_nd, IHt, IHe; auto; intros i Hi; apply H; right; apply in_or_app; auto.
  - apply Nat.leb_le in E2. exfalso. apply (H v); auto.
Qed.
Lemma rbg_notin le n v b a : forall c, ~ In v (varsn n) -> ev (rbg l le n c) (upd a v b) = ev (rbg l le n c) a.
Proof.
  induction n as [|x t IHt d e IHe]; intros c H; [reflexivity|].
  pose proof (ev_upd_notin (c, Nd x t d e) a v b H) as Hid.
  cbn [varsn In] in H. rewrite in_app_iff in H. cbn [rbg].
  assert (Hx : upd a v b x = a x) by (apply upd_other; intro; subst; tauto).
  assert (Hm : forall q, ev (major q) (upd a v b) = ev (major q) a) by (intro q; unfold major; destruct (qgtb q _); reflexivity).
  destruct (x <? l); [rewrite !ev_itev, Hx, IHt, IHe by tauto; auto|]. destruct (x <=? le); auto. cbv zeta.
  assert (forall y, ev bone y = true) by reflexivity. assert (forall y, ev (bnot bone) y = false) by reflexivity.
  repeat match goal with |- context [if ?b then ite _ _ _ _ else _] => destruct b end;
    rewrite !ev_itev, Hx, ?IHt, ?IHe, ?Hm by tauto; reflexivity.
Qed.

Lemma rbg_bound (E0 : (0 <= eps)%Q) (D0 : (0 <= del)%Q) n : forall k c h, okn M k n -> (forall i, In i (varsn n) -> i < N) -> nearly w eps n c -> nearly_cm n c ->
  at_range l l child_const (c, n) h ->
  (avb N (fun a => xorb (ev (c, n) a) (ev (rbg l l n c) a)) <= 2 * avb N (fun a => xorb (ev (c, n) a) (h a)) + 2 * eps + del)%Q.
Proof.
  induction n as [|v t IHt d e IHe]; intros k c h Hok HV HD HC HA.
  - cbn [rbg]. rewrite (avb_ext N (fun a => xorb (ev (c, One) a) (ev (c, One) a)) (fun _ => false)) by (intro a; now rewrite xorb_nilpotent).
    rewrite avb_const. cbn [b2q]. pose proof (avb_nonneg N (fun a => xorb (ev (c, One) a) (h a))). lra.
  - pose proof (okn_top_notin _ _ _ _ _ _ Hok) as [Nt Ne]. assert (Hok' := Hok).
    cbn [okn] in Hok. destruct Hok as (Lk & Ht & He & _).
    pose proof (below_then N _ _ _ _ HV) as Vt. pose proof (below_else N _ _ _ _ HV) as Ve.
    assert (Lv : v < N) by (apply HV; now left).
    destruct (at_range_inv _ _ _ _ _ _ _ _ _ HA) as [(L & ht & he & H5 & H6 & H7)|[(L & ht & he & H5 & H6 & H7)|(L & L' & H7)]].
    + cbn [rbg]. assert (v <? l = true) as -> by now apply Nat.ltb_lt.
      pose proof (IHt _ c ht Ht Vt (nearly_then w eps _ _ _ _ _ HD) (cm_then _ _ _ _ _ HC) H5) as It1.
      pose proof (IHe _ (xorb c d) he He Ve (nearly_else w eps _ _ _ _ _ HD) (cm_else _ _ _ _ _ HC) H6) as Ie1.
      rewrite (err_if M N v _ _ (ev (rbg l l t c)) (ev (rbg l l e (xorb c d))) c t d e k Hok' Lv (fun a => ev_itev M v _ _ a))
        by (auto using ev_extb, rbg_notin).
      rewrite (err_if M N v _ _ ht he c t d e k Hok' Lv H7) by (eauto using at_range_extb, at_range_notin).
      lra.
    + assert (v = l) by lia. subst v. cbn [rbg]. rewrite Nat.ltb_irrefl, Nat.leb_refl. cbv zeta.
      assert (Ot : forall i, In i (varsn t) -> ~ l <= i <= l) by (intros i Hi Hb; apply Nt; replace l with i by lia; auto).
      assert (Oe : forall i, In i (varsn e) -> ~ l <= i <= l) by (intros i Hi Hb; apply Ne; replace l with i by lia; auto).
      pose proof (at_range_outside _ _ _ _ _ _ Ot H5) as Xt. pose proof (at_range_outside _ _ _ _ _ _ Oe H6) as Xe.
      pose proof (fun a => rbg_outside l t a Ot c) as Yt. pose proof (fun a => rbg_outside l e a Oe (xorb c d)) as Ye.
      pose proof (HD (c, t) ltac:(cbn [edges]; right; apply in_or_app; left; apply in_edges_refl)) as Wt.
      pose proof (HD (xorb c d, e) ltac:(cbn [edges]; right; apply in_or_app; right; apply in_edges_refl)) as We.
      pose proof (HC (c, t) ltac:(cbn [edges]; right; apply in_or_app; left; apply in_edges_refl)) as Ct.
      pose proof (HC (xorb c d, e) ltac:(cbn [edges]; right; apply in_or_app; right; apply in_edges_refl)) as Ce.
      pose proof (avb_frac M N _ t c Ht Vt) as Ft. pose proof (avb_frac M N _ e (xorb c d) He Ve) as Fe.
      assert (Z : forall F, (avb N (fun a => xorb (F a) (F a)) == 0)%Q).
      { intro F. rewrite (avb_ext N _ (fun _ => false)) by (intro a; apply xorb_nilpotent). apply (avb_const N false). }
      assert (ET : forall (k0 : bool) (g : asg -> bool), (forall a, g a = if a l then k0 else ev (xorb c d, e) a) ->
        (avb N (fun a => xorb (ev (c, Nd l t d e) a) (g a)) == (1#2) * (if k0 then 1 - frac (c, t) else frac (c, t)))%Q).
      { intros k0 g Hg. rewrite (err_if M N l g _ (fun _ => k0) (ev (xorb c d, e)) c t d e k Hok' Lv Hg)
          by (auto using ev_extb; try (intros a b; now apply ev_upd_notin); intros ? ? ?; reflexivity).
        rewrite Z, (avb_const_xor N). destruct k0; rewrite Ft; lra. }
      assert (EE : forall (k0 : bool) (g : asg -> bool), (forall a, g a = if a l then ev (c, t) a else k0) ->
        (avb N (fun a => xorb (ev (c, Nd l t d e) a) (g a)) == (1#2) * (if k0 then 1 - frac (xorb c d, e) else frac (xorb c d, e)))%Q).
      { intros k0 g Hg. rewrite (err_if M N l g _ (ev (c, t)) (fun _ => k0) c t d e k Hok' Lv Hg)
          by (auto using ev_extb; try (intros a b; now apply ev_upd_notin); intros ? ? ?; reflexivity).
        rewrite Z, (avb_const_xor N). destruct k0; rewrite Fe; lra. }
      assert (EB : forall (k0 k1 : bool) (g : asg -> bool), (forall a, g a = if a l then k0 else k1) ->
        (avb N (fun a => xorb (ev (c, Nd l t d e) a) (g a)) == (1#2) * ((if k0 then 1 - frac (c, t) else frac (c, t)) + (if k1 then 1 - frac (xorb c d, e) else frac (xorb c d, e))))%Q).
      { intros k0 k1 g Hg. rewrite (err_if M N l g _ (fun _ => k0) (fun _ => k1) c t d e k Hok' Lv Hg)
          by (auto; intros ? ? ?; reflexivity).
        rewrite !(avb_const_xor N). destruct k0, k1; rewrite Ft, Fe; lra. }
      assert (EH : exists k0 : bool, (avb N (fun a => xorb (ev (c, Nd l t d e) a) (h a)) == (1#2) * (if k0 then 1 - frac (c, t) else frac (c, t)))%Q
        \/ (avb N (fun a => xorb (ev (c, Nd l t d e) a) (h a)) == (1#2) * (if k0 then 1 - frac (xorb c d, e) else frac (xorb c d, e)))%Q).
      { destruct H7 as (k0 & [Hk|Hk]); exists k0; [left; apply ET|right; apply EE]; intro a; rewrite Hk, ?Xt, ?Xe; reflexivity. }
      destruct EH as (k0 & EH).
      pose proof (frac_ge_0 (c, t)) as B1. pose proof (frac_le_1 (c, t)) as B2.
      pose proof (frac_ge_0 (xorb c d, e)) as B3. pose proof (frac_le_1 (xorb c d, e)) as B4.
      clear - E0 D0 EH ET EE EB B1 B2 B3 B4 Wt We Ct Ce Yt Ye.
      set (p := frac (c, t)) in *. set (q := frac (xorb c d, e)) in *. clearbody p q.
      set (x := avb N (fun a => xorb (ev (c, Nd l t d e) a) (h a))) in *. clearbody x.
      destruct (qgtb (w (xorb c d, e)) (w (c, t)) && qgtb (cm (w (xorb c d, e))) (w (c, t))) eqn:K1.
      { rewrite (ET false (ev (ite M (bvar l) (bnot bone) (rbg l l e (xorb c d))))) by (intro a; rewrite ev_itev, Ye; reflexivity).
        apply andb_true_iff in K1. rewrite !qgtb_true in K1. destruct k0, EH as [EH|EH]; lra. }
      destruct (qgtb (w (c, t)) (w (xorb c d, e)) && qgtb (cm (w (c, t))) (w (xorb c d, e))) eqn:K2.
      { rewrite (EE false (ev (ite M (bvar l) (rbg l l t c) (bnot bone)))) by (intro a; rewrite ev_itev, Yt; reflexivity).
        apply andb_true_iff in K2. rewrite !qgtb_true in K2. destruct k0, EH as [EH|EH]; lra. }
      destruct (qgtb (w (c, t)) (w (xorb c d, e)) && qgtb (w (c, t)) (cm (w (xorb c d, e)))) eqn:K3.
      { rewrite (ET true (ev (ite M (bvar l) bone (rbg l l e (xorb c d))))) by (intro a; rewrite ev_itev, Ye; reflexivity).
        apply andb_true_iff in K3. rewrite !qgtb_true in K3. destruct k0, EH as [EH|EH]; lra. }
      destruct (qgtb (w (xorb c d, e)) (w (c, t)) && qgtb (w (xorb c d, e)) (cm (w (c, t)))) eqn:K4.
      { rewrite (EE true (ev (ite M (bvar l) (rbg l l t c) bone))) by (intro a; rewrite ev_itev, Yt; reflexivity).
        apply andb_true_iff in K4. rewrite !qgtb_true in K4. destruct k0, EH as [EH|EH]; lra. }
      assert (TIE : (w (c, t) == w (xorb c d, e))%Q \/ (1 - del <= w (c, t) + w (xorb c d, e) <= 1 + del)%Q).
      { apply andb_false_iff in K1, K2, K3, K4. rewrite !qgtb_false in K1, K2, K3, K4.
        destruct (Q_dec (w (c, t)) (w (xorb c d, e))) as [[L|L]|E]; [| |auto]; right; destruct K1, K2, K3, K4; lra. }
      rewrite (EB (qgtb (w (c, t)) (1#2)) (qgtb (w (xorb c d, e)) (1#2)) (ev (ite M (bvar l) (major (w (c, t))) (major (w (xorb c d, e))))))
        by (intro a; rewrite ev_itev; unfold major; destruct (qgtb (w (c, t)) (1#2)), (qgtb (w (xorb c d, e)) (1#2)); reflexivity).
      destruct (qgtb (w (c, t)) (1#2)) eqn:G1; [apply qgtb_true in G1|apply qgtb_false in G1];
      (destruct (qgtb (w (xorb c d, e)) (1#2)) eqn:G2; [apply qgtb_true in G2|apply qgtb_false in G2]);
      destruct k0, EH as [EH|EH], TIE; lra.
    + cbn [rbg]. assert (v <? l = false) as -> by (apply Nat.ltb_ge; lia). assert (v <=? l = false) as -> by (apply Nat.leb_gt; lia).
      rewrite (avb_ext N (fun a => xorb (ev (c, Nd v t d e) a) (ev (c, Nd v t d e) a)) (fun _ => false)) by (intro a; now rewrite xorb_nilpotent).
      rewrite avb_const. cbn [b2q]. pose proof (avb_nonneg N (fun a => xorb (ev (c, Nd v t d e) a) (h a))). lra.
Qed.
End Best.

(** the complement of a density *)
Definition dcm (q : Q) : Q := match dsub (DFin 1) (DFin q) with DFin r => r | _ => 0%Q end.
Lemma dcm_close q : (0 <= q <= 1)%Q -> dsub (DFin 1) (DFin q) = DFin (dcm q)
  /\ (1 - q - (2 ^ (-53) + 2 ^ (-1075)) <= dcm q <= 1 - q + (2 ^ (-53) + 2 ^ (-1075)))%Q.
Proof.
  intro H. unfold dcm. assert (E : exists r, dsub (DFin 1) (DFin q) = DFin r /\ ((1 - u53) * (1 - q) - eta <= r <= (1 + u53) * (1 - q) + eta)%Q).
  { assert (F1 : float_number 53 1) by (exists 1%Z, 0%Z; split; [cbn; lia|reflexivity]).
    destruct (to_double_unit 1 (1 + - q) F1) as (r & E & _ & B); [split; [vm_compute; discriminate|lra]|lra|].
    exists r. split; [exact E|]. setoid_replace (1 - q)%Q with (1 + - q)%Q by ring. exact B. }
  destruct E as (r & -> & B). split; [reflexivity|]. pose proof u53_range as PU. pose proof eta_pos as PE.
  change (2 ^ (-53))%Q with u53. set (u := u53) in *. set (et := eta) in *. clearbody u et. split; nra.
Qed.
Definition unit_values (mc : bmap Q) : Prop := forall k q, In (k, q) mc -> (0 <= q <= 1)%Q.
Lemma at_unit_value mc k : unit_values mc -> In k (map fst mc) -> (0 <= wt_of mc k <= 1)%Q.
Proof. intros U H. unfold wt_of. destruct (blookup_key k mc H) as (q & E). rewrite E. apply blookup_some in E. exact (U k q E). Qed.

Lemma best_d_memo M mc ls le n : unit_values mc -> forall c m, complete mc n c ->
  let p := rbg M (wt_of mc) dcm ls le in memo_ok p m ->
  exists m', round_best_rec_d M n c ls le (dmap mc) m = Ok (p n c, m') /\ memo_ok p m'.
Proof.
  intro U. induction n as [|v t IHt d e IHe]; intros c m HC p Hm; [exists m; split; auto|].
  cbn [round_best_rec_d]. destruct (blookup (c, Nd v t d e) m) as [r|] eqn:E.
  { exists m. apply blookup_some in E. apply Hm in E. cbn [fst snd] in E. now rewrite E. }
  pose proof (complete_then _ _ _ _ _ _ HC) as Ct. pose proof (complete_else _ _ _ _ _ _ HC) as Ce.
  pose proof (memo_ok_add p) as ADD.
  assert (P : p (Nd v t d e) c = (
      if v <? ls then ite M (bvar v) (p t c) (p e (xorb c d))
      else if v <=? le then
        let tc := wt_of mc (c, t) in let ec := wt_of mc (xorb c d, e) in
        if qgtb ec tc && qgtb (dcm ec) tc then ite M (bvar v) (bnot bone) (p e (xorb c d))
        else if qgtb tc ec && qgtb (dcm tc) ec then ite M (bvar v) (p t c) (bnot bone)
        else if qgtb tc ec && qgtb tc (dcm ec) then ite M (bvar v) bone (p e (xorb c d))
        else if qgtb ec tc && qgtb ec (dcm tc) then ite M (bvar v) (p t c) bone
        else ite M (bvar v) (major tc) (major ec)
      else (c, Nd v t d e))) by reflexivity.
  destruct (v <? ls).
  - destruct (IHt c m Ct Hm) as (m1 & E1 & H1). rewrite E1. cbn [bind].
    destruct (IHe (xorb c d) m1 Ce H1) as (m2 & E2 & H2). rewrite E2. cbn [bind]. fold p.
    eexists. rewrite <- P. split; [reflexivity|]. now apply ADD.
  - destruct (v <=? le).
    + assert (Kt : In (c, t) (map fst mc)) by (apply Ct, in_edges_refl). assert (Ke : In (xorb c d, e) (map fst mc)) by (apply Ce, in_edges_refl).
      rewrite !dmap_at, !at_wt by assumption. cbn [bind]. cbv zeta in P.
      rewrite (proj1 (dcm_close _ (at_unit_value mc _ U Kt))), (proj1 (dcm_close _ (at_unit_value mc _ U Ke))), !dgtb_fin. cbv zeta.
      destruct (IHe (xorb c d) m Ce Hm) as (me & Ee & He). destruct (IHt c m Ct Hm) as (mt & Et & Ht).
      repeat match goal with |- context [if ?b then _ else _] =>
        match b with context [major] => fail 1 | qgtb _ (1#2) => fail 1 | _ => destruct b end end;
        rewrite ?Ee, ?Et; cbn [bind]; fold p; eexists; (split; [rewrite P; reflexivity|]); cbv beta zeta; unfold major in P; rewrite <- P; now apply ADD.
    + exists m. rewrite P. auto.
Qed.

Lemma best_near M f n level : wf M f -> depends_below n f ->
  let x := qpow (1 - 2 ^ (-53)) (2 * n) in let y := qpow (1 + 2 ^ (-53)) (2 * n) in let a := (inject_Z (Z.of_nat (3 * n)) * 2 ^ (-1075))%Q in
  exists r, round_best_d M f level level = Ok r /\ wf M r
    /\ forall h, at_range level level child_const f h ->
       (disagreement n (ev f) (ev r) <= 2 * disagreement n (ev f) h + 2 * (y - x + y * a) + (2 ^ (-53) + 2 ^ (-1075)))%Q.
Proof.
  intros W B x y a.
  destruct (densities_near M f n W B) as (mc & DM & CM & UV & EP & NE).
  destruct (best_d_memo M mc level level (snd f) UV (fst f) [] CM (memo_ok_nil _)) as (m' & E & _).
  exists (rbg M (wt_of mc) dcm level level (snd f) (fst f)). unfold round_best_d. rewrite <- DM, E. cbn [bind].
  split; [reflexivity|]. split; [apply rbg_wf; now apply wf_edge|]. intros h Hh.
  assert (D0 : (0 <= 2 ^ (-53) + 2 ^ (-1075))%Q) by (vm_compute; discriminate).
  assert (NC : nearly_cm (wt_of mc) dcm (2 ^ (-53) + 2 ^ (-1075)) (snd f) (fst f)).
  { intros k Hk. exact (proj2 (dcm_close _ (at_unit_value mc k UV (CM k Hk)))). }
  rewrite <- (edge_eta f) in Hh.
  pose proof (rbg_bound M (wt_of mc) dcm level n _ _ EP D0 (snd f) 0 (fst f) h W (depends_below_vars M n f W B) NE NC Hh) as H.
  rewrite edge_eta in H. exact H.
Qed.

Lemma best_near_simple M f n level : wf M f -> depends_below n f -> (Z.of_nat n <= 2 ^ 50)%Z ->
  exists r, round_best_d M f level level = Ok r
    /\ forall h, at_range level level child_const f h ->
       (disagreement n (ev f) (ev r) <= 2 * disagreement n (ev f) h + inject_Z (Z.of_nat n + 1) * 2 ^ (-49))%Q.
Proof.
  intros W B Hn. destruct (best_near M f n level W B) as (r & E & _ & H). exists r. split; [exact E|]. intros h Hh.
  eapply Qle_trans; [exact (H h Hh)|]. pose proof (loss_simple n Hn) as L. cbv zeta in L. rewrite inject_Z_plus.
  assert (D : (2 ^ (-53) + 2 ^ (-1075) <= 2 ^ (-49))%Q) by (vm_compute; discriminate).
  set (S := (2 * (qpow (1 + 2 ^ (-53)) (2 * n) - qpow (1 - 2 ^ (-53)) (2 * n) + qpow (1 + 2 ^ (-53)) (2 * n) * (inject_Z (Z.of_nat (3 * n)) * 2 ^ (-1075))))%Q) in *.
  set (T := (2 ^ (-53) + 2 ^ (-1075))%Q) in *. set (V := (2 ^ (-49))%Q) in *. change (inject_Z 1) with 1%Q. clearbody S T V. lra.
Qed.
