(** vec_to_arr and del_arr *)
From Coq Require Import Ascii String List Bool Arith Lia.
From Verif Require Import Res Cudd MinimizeFacts Benchmark SpecBenchmark.
Import ListNotations.
Open Scope list_scope.
Open Scope nat_scope.

(** ** the store *)
Lemma lookup_cons (q p : nat) (b : block) (s : store) : lookup ((q, b) :: s) p = if q =? p then Some b else lookup s p.
Proof. unfold lookup. cbn [find fst]. destruct (q =? p); reflexivity. Qed.
Lemma lookup_remove s p q : lookup (remove s p) q = if p =? q then None else lookup s q.
Proof.
  induction s as [|[x b] s IH]; [destruct (p =? q); reflexivity|]. unfold remove. cbn [filter fst].
  change (filter (fun e => negb (fst e =? p)) s) with (remove s p). rewrite lookup_cons.
  destruct (Nat.eqb_spec x p) as [->|N]; cbn [negb].
  - rewrite IH. destruct (p =? q); reflexivity.
  - rewrite lookup_cons, IH. destruct (Nat.eqb_spec x q) as [->|]; [|reflexivity].
    destruct (Nat.eqb_spec p q); [congruence|reflexivity].
Qed.
Lemma lookup_put s p b q : lookup (put s p b) q = if p =? q then Some b else lookup s q.
Proof. unfold put. rewrite lookup_cons, lookup_remove. destruct (p =? q); reflexivity. Qed.
Lemma list_max0_ge (l : list nat) x : In x l -> x <= list_max0 l.
Proof. induction l as [|y l IH]; cbn [In list_max0 fold_right]; intros []; [subst; lia|]. specialize (IH H). unfold list_max0 in IH. lia. Qed.
Lemma fresh_free s : lookup s (fresh s) = None.
Proof.
  destruct (lookup s (fresh s)) as [b|] eqn:E; [|reflexivity]. exfalso. unfold lookup in E.
  destruct (find _ s) as [[p b']|] eqn:F; [|discriminate]. apply find_some in F. destruct F as [F1 F2]. cbn [fst] in F2.
  apply Nat.eqb_eq in F2. pose proof (list_max0_ge (map fst s) p (in_map fst s (p, b') F1)). unfold fresh in F2. lia.
Qed.

(** ** strings *)
Lemma c_str_length s : List.length (c_str s) <= List.length s.
Proof. induction s as [|c s IH]; cbn [c_str List.length]; [lia|]. destruct (Ascii.eqb c zero); cbn [List.length]; lia. Qed.
Lemma c_str_id s : ~ In zero s -> c_str s = s.
Proof.
  induction s as [|c s IH]; cbn [c_str In]; intro H; [reflexivity|]. destruct (Ascii.eqb_spec c zero) as [->|]; [tauto|]. rewrite IH; tauto.
Qed.
Lemma read_strncpy s n : List.length s < n -> read_c_string (strncpy s n) = Some (c_str s) /\ List.length (strncpy s n) = n.
Proof.
  intro H. unfold strncpy. pose proof (c_str_length s) as L. rewrite firstn_all2 by lia.
  split.
  - assert (P : 0 < n - List.length (c_str s)) by lia. clear L H. destruct (n - List.length (c_str s)) as [|k]; [lia|]. clear P n.
    induction s as [|c s IH]; [reflexivity|]. cbn [c_str]. destruct (Ascii.eqb c zero) eqn:E; [reflexivity|].
    cbn [app map read_c_string]. rewrite E, IH. reflexivity.
  - rewrite map_length, app_length, repeat_length. lia.
Qed.

Lemma NoDup_left {A} (l l' : list A) : NoDup (l ++ l') -> NoDup l.
Proof.
  induction l as [|x l IH]; cbn [app]; intro H; constructor; inversion H; [|auto]. intro I. apply H2. apply in_or_app. left. exact I.
Qed.
Lemma nth_error_first {A} (l : list A) : forall n j, j < n -> nth_error (firstn n l) j = nth_error l j.
Proof.
  induction l as [|x l IH]; intros n j H; [rewrite firstn_nil; reflexivity|]. destruct n as [|n]; [lia|].
  destruct j as [|j]; cbn [firstn nth_error]; [reflexivity|]. apply IH. lia.
Qed.

(** ** vec_to_arr *)
Lemma firstn_S_app {A} (l : list A) i x : forall l', vset l i x = Ok l' -> firstn (S i) l' = firstn i l ++ [x].
Proof.
  revert i. induction l as [|y l IH]; intros i l' H; cbn [vset] in H; [discriminate|]. destruct i as [|i].
  - injection H as <-. reflexivity.
  - destruct (vset l i x) as [l''| | |] eqn:E; cbn [bind] in H; try discriminate H. injection H as <-.
    change (firstn (S (S i)) (y :: l'')) with (y :: firstn (S i) l''). rewrite (IH i l'' E). reflexivity.
Qed.
Lemma vec_loop_spec vec : forall i arr s ps, lookup s arr = Some (Ptrs ps) -> List.length ps = i + List.length vec ->
  exists s' qs, vec_loop vec i arr s = Ok s' /\ List.length qs = List.length vec
    /\ lookup s' arr = Some (Ptrs (firstn i ps ++ map Some qs)) /\ NoDup qs
    /\ (forall k q str, nth_error qs k = Some q -> nth_error vec k = Some str -> lookup s' q = Some (Chars (strncpy str (List.length str + 1))))
    /\ (forall q, In q qs -> lookup s q = None)
    /\ (forall p, ~ In p qs -> p <> arr -> lookup s' p = lookup s p).
Proof.
  induction vec as [|str vec IH]; intros i arr s ps Ha Hl; cbn [vec_loop].
  - exists s, []. split; [reflexivity|]. split; [reflexivity|]. split.
    { rewrite Ha. cbn [map]. rewrite app_nil_r, firstn_all2; [reflexivity|]. cbn [List.length] in Hl. lia. }
    split; [constructor|]. split; [intros [|k]; discriminate|]. split; [intros q []|]. reflexivity.
  - pose proof (fresh_free s) as Ff. set (p := fresh s) in *. clearbody p.
    assert (Np : p <> arr) by (intro E; rewrite E, Ha in Ff; discriminate).
    set (n := List.length str + 1).
    assert (E1 : lookup (put s p (Chars (repeat None n))) arr = Some (Ptrs ps)).
    { rewrite lookup_put. destruct (Nat.eqb_spec p arr); [congruence|exact Ha]. }
    rewrite E1. destruct (vset_ok ps i (Some p)) as (ps' & Ev); [cbn [List.length] in Hl; lia|]. rewrite Ev. cbn [bind].
    set (s1 := put (put (put s p (Chars (repeat None n))) arr (Ptrs ps')) p (Chars (strncpy str n))).
    assert (L1 : forall q, lookup s1 q = if p =? q then Some (Chars (strncpy str n)) else if arr =? q then Some (Ptrs ps') else lookup s q).
    { intro q. unfold s1. rewrite !lookup_put. destruct (Nat.eqb_spec p q); [reflexivity|]. reflexivity. }
    destruct (vset_spec ps i (Some p) ps' Ev) as (Lp & _ & _).
    destruct (IH (S i) arr s1 ps') as (s' & qs & E & Lq & Harr & Hnd & Hc & Hf & Ho).
    { rewrite L1. destruct (Nat.eqb_spec p arr); [congruence|]. rewrite Nat.eqb_refl. reflexivity. }
    { cbn [List.length] in Hl. lia. }
    assert (Npq : ~ In p qs). { intro I. specialize (Hf p I). rewrite L1, Nat.eqb_refl in Hf. discriminate. }
    exists s', (p :: qs). split; [exact E|]. split; [cbn [List.length]; lia|]. split; [|split; [|split; [|split]]].
    + rewrite Harr. rewrite (firstn_S_app ps i (Some p) ps' Ev). cbn [map]. rewrite <- app_assoc. reflexivity.
    + constructor; assumption.
    + intros [|k] q str' H1 H2; cbn [nth_error] in H1, H2.
      * injection H1 as <-. injection H2 as <-. rewrite Ho by assumption. rewrite L1, Nat.eqb_refl. reflexivity.
      * exact (Hc k q str' H1 H2).
    + intros q [<- | I]; [exact Ff|]. specialize (Hf q I). rewrite L1 in Hf.
      destruct (Nat.eqb_spec p q); [discriminate|]. destruct (Nat.eqb_spec arr q); [discriminate|exact Hf].
    + intros q Hq Hqa. cbn [In] in Hq. rewrite Ho by tauto. rewrite L1.
      destruct (Nat.eqb_spec p q); [tauto|]. destruct (Nat.eqb_spec arr q); [congruence|reflexivity].
Qed.

(** ** del_arr *)
Lemma del_loop_spec k : forall i arr s pre qs post, lookup s arr = Some (Ptrs (pre ++ map Some qs ++ post)) ->
  List.length pre = i -> List.length qs = k -> NoDup qs -> ~ In arr qs -> (forall q, In q qs -> lookup s q <> None) ->
  exists s', del_loop k i arr s = Ok s'
    /\ (forall p, In p qs -> lookup s' p = None) /\ (forall p, ~ In p qs -> lookup s' p = lookup s p).
Proof.
  induction k as [|k IH]; intros i arr s pre qs post Ha Hi Hk Hn Har Hq.
  - destruct qs; [|discriminate]. exists s. split; [reflexivity|]. split; [intros p []|reflexivity].
  - destruct qs as [|q qs]; [discriminate|]. injection Hk as Hk. cbn [del_loop]. rewrite Ha. cbn [map app].
    assert (Eg : vget (pre ++ Some q :: map Some qs ++ post) i = Ok (Some q)).
    { apply vget_iff. rewrite nth_error_app2 by lia. rewrite Hi, Nat.sub_diag. reflexivity. }
    rewrite Eg. cbn [bind]. unfold delete. destruct (lookup s q) as [b|] eqn:Eb; [|exfalso; apply (Hq q); [left; reflexivity|exact Eb]].
    cbn [bind]. inversion Hn as [|? ? Nq Hn']. subst.
    cbn [In] in Har.
    destruct (IH (S (List.length pre)) arr (remove s q) (pre ++ [Some q]) qs post) as (s' & E & H1 & H2).
    + rewrite lookup_remove. destruct (Nat.eqb_spec q arr); [tauto|]. rewrite Ha. cbn [map]. rewrite <- app_assoc. reflexivity.
    + rewrite app_length. cbn [List.length]. lia.
    + reflexivity.
    + exact Hn'.
    + tauto.
    + intros p Ip. rewrite lookup_remove. destruct (Nat.eqb_spec q p); [subst; contradiction|]. apply Hq. right. exact Ip.
    + exists s'. split; [exact E|]. split.
      * intros p [<- | Ip]; [|exact (H1 p Ip)]. rewrite H2 by exact Nq. rewrite lookup_remove, Nat.eqb_refl. reflexivity.
      * intros p Np. cbn [In] in Np. rewrite H2 by tauto. rewrite lookup_remove. destruct (Nat.eqb_spec q p); [tauto|reflexivity].
Qed.
Lemma del_loop_more k : forall i arr s pre qs, lookup s arr = Some (Ptrs (pre ++ map Some qs)) ->
  List.length pre = i -> List.length qs < k -> NoDup qs -> ~ In arr qs -> (forall q, In q qs -> lookup s q <> None) ->
  del_loop k i arr s = UB.
Proof.
  induction k as [|k IH]; intros i arr s pre qs Ha Hi Hk Hn Har Hq; [lia|]. cbn [del_loop]. rewrite Ha. destruct qs as [|q qs].
  - assert (Eg : nth_error (pre ++ map Some []) i = None) by (apply nth_error_None; cbn [map]; rewrite app_nil_r; lia).
    unfold vget. rewrite Eg. reflexivity.
  - cbn [map]. assert (Eg : vget (pre ++ Some q :: map Some qs) i = Ok (Some q)).
    { apply vget_iff. rewrite nth_error_app2 by lia. rewrite Hi, Nat.sub_diag. reflexivity. }
    rewrite Eg. cbn [bind]. unfold delete. destruct (lookup s q) as [b|] eqn:Eb; [|exfalso; apply (Hq q); [left; reflexivity|exact Eb]].
    cbn [bind]. inversion Hn as [|? ? Nq Hn']. subst. cbn [In] in Har.
    apply (IH _ arr (remove s q) (pre ++ [Some q]) qs).
    + rewrite lookup_remove. destruct (Nat.eqb_spec q arr); [tauto|]. rewrite Ha. cbn [map]. rewrite <- app_assoc. reflexivity.
    + rewrite app_length. cbn [List.length]. lia.
    + cbn [List.length] in Hk. lia.
    + exact Hn'.
    + tauto.
    + intros p Ip. rewrite lookup_remove. destruct (Nat.eqb_spec q p); [subst; contradiction|]. apply Hq. right. exact Ip.
Qed.

Lemma vec_to_arr_full vec s : exists s' arr qs, vec_to_arr vec s = Ok (s', arr)
  /\ lookup s arr = None /\ lookup s' arr = Some (Ptrs (map Some qs)) /\ List.length qs = List.length vec
  /\ NoDup (arr :: qs) /\ (forall q, In q qs -> lookup s q = None)
  /\ (forall k q str, nth_error qs k = Some q -> nth_error vec k = Some str ->
        exists c, lookup s' q = Some (Chars c) /\ List.length c = List.length str + 1
          /\ read_c_string c = Some (c_str str) /\ (~ In zero str -> read_c_string c = Some str))
  /\ (forall p, lookup s p <> None -> lookup s' p = lookup s p)
  /\ (exists s'', del_arr arr (List.length vec) s' = Ok s'' /\ forall p, lookup s'' p = lookup s p)
  /\ (forall n, n < List.length vec -> exists s'', del_arr arr n s' = Ok s''
        /\ forall k q, n <= k -> nth_error qs k = Some q -> lookup s'' q <> None)
  /\ (forall n, List.length vec < n -> del_arr arr n s' = UB).
Proof.
  unfold vec_to_arr. pose proof (fresh_free s) as Fa. set (arr := fresh s) in *. clearbody arr.
  set (s0 := put s arr (Ptrs (repeat None (List.length vec)))).
  assert (L0 : forall q, lookup s0 q = if arr =? q then Some (Ptrs (repeat None (List.length vec))) else lookup s q) by (intro q; apply lookup_put).
  destruct (vec_loop_spec vec 0 arr s0 (repeat None (List.length vec))) as (s' & qs & E & Lq & Ha & Hn & Hc & Hf & Ho).
  { rewrite L0, Nat.eqb_refl. reflexivity. }
  { apply repeat_length. }
  rewrite E. cbn [bind]. cbn [firstn app] in Ha.
  assert (Na : ~ In arr qs). { intro I. specialize (Hf arr I). rewrite L0, Nat.eqb_refl in Hf. discriminate. }
  assert (Hf' : forall q, In q qs -> lookup s q = None).
  { intros q I. specialize (Hf q I). rewrite L0 in Hf. destruct (Nat.eqb_spec arr q); [discriminate|exact Hf]. }
  assert (Hlive : forall q, In q qs -> lookup s' q <> None).
  { intros q I. destruct (In_nth_error _ _ I) as [k Ek].
    assert (Hk : k < List.length vec) by (rewrite <- Lq; apply nth_error_Some; congruence).
    destruct (nth_error vec k) as [str|] eqn:Es; [|apply nth_error_None in Es; lia].
    rewrite (Hc k q str Ek Es). discriminate. }
  exists s', arr, qs. split; [reflexivity|]. split; [exact Fa|]. split; [exact Ha|]. split; [exact Lq|].
  split; [constructor; assumption|]. split; [exact Hf'|]. split; [|split; [|split; [|split]]].
  - intros k q str E1 E2. exists (strncpy str (List.length str + 1)). split; [exact (Hc k q str E1 E2)|].
    destruct (read_strncpy str (List.length str + 1)) as [R1 R2]; [lia|]. split; [exact R2|]. split; [exact R1|].
    intro Z. rewrite R1, (c_str_id str Z). reflexivity.
  - intros p Hp. assert (p <> arr) by congruence. rewrite Ho.
    + rewrite L0. destruct (Nat.eqb_spec arr p); [congruence|reflexivity].
    + intro I. apply Hp. exact (Hf' p I).
    + assumption.
  - unfold del_arr. destruct (del_loop_spec (List.length vec) 0 arr s' [] qs []) as (s2 & E2 & D1 & D2); auto.
    { cbn [app]. rewrite app_nil_r. exact Ha. }
    rewrite E2. cbn [bind]. rewrite D2 by exact Na. rewrite Ha. unfold delete. rewrite D2 by exact Na. rewrite Ha.
    exists (remove s2 arr). split; [reflexivity|]. intro p. rewrite lookup_remove. destruct (Nat.eqb_spec arr p) as [<-|N]; [congruence|].
    destruct (in_dec Nat.eq_dec p qs) as [I|I].
    + rewrite (D1 p I), (Hf' p I). reflexivity.
    + rewrite (D2 p I). rewrite Ho by congruence. rewrite L0. destruct (Nat.eqb_spec arr p); [congruence|reflexivity].
  - intros n Hlt. unfold del_arr.
    assert (Eq : qs = firstn n qs ++ skipn n qs) by (symmetry; apply firstn_skipn).
    assert (Hn2 : NoDup (firstn n qs ++ skipn n qs)) by (rewrite <- Eq; exact Hn).
    destruct (del_loop_spec n 0 arr s' [] (firstn n qs) (map Some (skipn n qs))) as (s2 & E2 & D1 & D2).
    + cbn [app]. rewrite <- map_app, <- Eq. exact Ha.
    + reflexivity.
    + rewrite firstn_length. lia.
    + exact (NoDup_left _ _ Hn2).
    + intro I. apply Na. rewrite Eq. apply in_or_app. left. exact I.
    + intros q I. apply Hlive. rewrite Eq. apply in_or_app. left. exact I.
    + assert (Na' : ~ In arr (firstn n qs)) by (intro I; apply Na; rewrite Eq; apply in_or_app; left; exact I).
      rewrite E2. cbn [bind]. rewrite D2 by exact Na'. rewrite Ha. unfold delete. rewrite D2 by exact Na'. rewrite Ha.
      exists (remove s2 arr). split; [reflexivity|]. intros k q Hk Ek. rewrite lookup_remove.
      assert (Iq : In q qs) by (eapply nth_error_In; exact Ek).
      destruct (Nat.eqb_spec arr q); [congruence|].
      assert (Nq : ~ In q (firstn n qs)).
      { intro I. destruct (In_nth_error _ _ I) as [j Ej].
        assert (Hj : j < n). { assert (j < List.length (firstn n qs)) by (apply nth_error_Some; congruence). rewrite firstn_length in H. lia. }
        rewrite nth_error_first in Ej by exact Hj. rewrite NoDup_nth_error in Hn.
        assert (j = k); [|lia]. apply Hn; [apply nth_error_Some; congruence|congruence]. }
      rewrite (D2 q Nq). exact (Hlive q Iq).
  - intros n Hlt. unfold del_arr. rewrite (del_loop_more n 0 arr s' [] qs); auto. lia.
Qed.
