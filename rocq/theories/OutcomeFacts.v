(** Exactly when the functions on vectors and the error metrics fail. No hypothesis on the functions. *)
From Coq Require Import List Bool Arith ZArith QArith Qround Lia Lqa.
From Verif Require Import Res Cudd Helpers Counting Metrics RelMetrics Operators SpecMinimize SpecOutcomes MinimizeFacts9 MinimizeFacts11
  RelFacts3 FailureFacts.
Import ListNotations.
Open Scope nat_scope.

Lemma undefined_from {A} (r : res A) (P : Prop) : (P -> r = UB) -> (~ P -> exists v, r = Ok v) -> P \/ ~ P -> undefined_iff r P.
Proof.
  intros H1 H2 D e. split.
  - intro F. destruct D as [Y|N].
    + rewrite (H1 Y) in F. destruct e; try discriminate F. auto.
    + destruct (H2 N) as (v & ->). destruct e; discriminate F.
  - intros [-> Y]. exact (H1 Y).
Qed.
Lemma abort_from {A} (r : res A) (P : Prop) : (P -> r = Abort) -> (~ P -> exists v, r = Ok v) -> P \/ ~ P -> abort_iff r P.
Proof.
  intros H1 H2 D e. split.
  - intro F. destruct D as [Y|N].
    + rewrite (H1 Y) in F. destruct e; try discriminate F. auto.
    + destruct (H2 N) as (v & ->). destruct e; discriminate F.
  - intros [-> Y]. exact (H1 Y).
Qed.
Lemma throws_from {A} (r : res A) (P : Prop) : (P -> r = Throw) -> (~ P -> exists v, r = Ok v) -> P \/ ~ P -> throws_iff r P.
Proof.
  intros H1 H2 D e. split.
  - intro F. destruct D as [Y|N].
    + rewrite (H1 Y) in F. destruct e; try discriminate F. auto.
    + destruct (H2 N) as (v & ->). destruct e; discriminate F.
  - intros [-> Y]. exact (H1 Y).
Qed.

(** ** Vectors *)
Lemma subtract_ok M f : forall g c, length f <= length g -> exists d, subtract_loop M f g c = Ok d /\ length d = length f.
Proof.
  induction f as [|x f IH]; intros g c L; cbn [subtract_loop]; [eauto|]. destruct g as [|y g]; cbn [length] in L; [lia|].
  destruct (full_adder M x (bnot y) c) as [d e]. destruct (IH g e ltac:(lia)) as (ds & -> & E). cbn [bind]. eexists. split; [reflexivity|].
  cbn [length]. lia.
Qed.
Lemma subtract_ub M f : forall g c, length g < length f -> subtract_loop M f g c = UB.
Proof.
  induction f as [|x f IH]; intros g c L; cbn [subtract_loop length] in *; [lia|]. destruct g as [|y g]; [reflexivity|]. cbn [length] in L.
  destruct (full_adder M x (bnot y) c) as [d e]. rewrite IH by lia. reflexivity.
Qed.
Lemma add_ok M f : forall g c, length f <= length g -> exists d, add_loop M f g c = Ok d /\ length d = length f.
Proof.
  induction f as [|x f IH]; intros g c L; cbn [add_loop]; [eauto|]. destruct g as [|y g]; cbn [length] in L; [lia|].
  destruct (full_adder M x y c) as [d e]. destruct (IH g e ltac:(lia)) as (ds & -> & E). cbn [bind]. eexists. split; [reflexivity|].
  cbn [length]. lia.
Qed.
Lemma add_ub M f : forall g c, length g < length f -> add_loop M f g c = UB.
Proof.
  induction f as [|x f IH]; intros g c L; cbn [add_loop length] in *; [lia|]. destruct g as [|y g]; [reflexivity|]. cbn [length] in L.
  destruct (full_adder M x y c) as [d e]. rewrite IH by lia. reflexivity.
Qed.
Lemma vback_ok {A} (l : list A) : l <> [] -> exists x, vback l = Ok x.
Proof.
  intro H. unfold vback. destruct (rev l) as [|x r] eqn:E; [|eauto]. exfalso. apply H. rewrite <- (rev_involutive l), E. reflexivity.
Qed.
Lemma abs_ok M f : f <> [] -> exists d, bdd_abs M f TwosComplement = Ok d /\ length d = length f.
Proof.
  intro H. cbn [bdd_abs]. destruct (vback_ok f H) as (s & ->). cbn [bind]. cbv zeta. unfold bdd_subtract.
  destruct (subtract_ok M (map (fun b => bxor M b s) f) (repeat s (length f)) bone) as (d & -> & E); [rewrite map_length, repeat_length; lia|].
  rewrite map_length in E. eauto.
Qed.
Lemma extend_ok f n : f <> [] -> exists d, sign_extend f n = Ok d /\ length d = Nat.max (length f) n.
Proof.
  intro H. unfold sign_extend. destruct (length f <? n) eqn:E.
  - apply Nat.ltb_lt in E. destruct (vback_ok f H) as (b & ->). cbn [bind]. eexists. split; [reflexivity|]. rewrite app_length, repeat_length. lia.
  - apply Nat.ltb_ge in E. eexists. split; [reflexivity|]. lia.
Qed.
Lemma diff_ok M f g r : (r = TwosComplement -> f <> [] /\ g <> []) ->
  exists d, bdd_absolute_difference M f g r = Ok d /\ length d = Nat.max (length f) (length g) + (match r with BaseTwo => 1 | TwosComplement => 0 end).
Proof.
  intro H. unfold bdd_absolute_difference.
  set (f0 := match r with BaseTwo => f ++ [bzero] | TwosComplement => f end).
  set (g0 := match r with BaseTwo => g ++ [bzero] | TwosComplement => g end). cbv zeta.
  assert (F0 : f0 <> [] /\ g0 <> []).
  { subst f0 g0. destruct r; [split; intro X; apply app_eq_nil in X; destruct X; discriminate|]. apply H. reflexivity. }
  assert (L : Nat.max (length f0) (length g0) = Nat.max (length f) (length g) + (match r with BaseTwo => 1 | TwosComplement => 0 end)).
  { subst f0 g0. destruct r; rewrite ?app_length; cbn [length]; lia. }
  destruct F0 as [F0 G0]. destruct (extend_ok f0 (length g0) F0) as (f_ & -> & Lf). cbn [bind].
  destruct (extend_ok g0 (length f_) G0) as (g_ & -> & Lg). cbn [bind].
  set (sm := negb _). unfold bdd_subtract.
  destruct (subtract_ok M (if sm then g_ else f_) (if sm then f_ else g_) bone) as (d & -> & Ld); [destruct sm; lia|]. cbn [bind].
  assert (N : d <> []).
  { intro X. rewrite X in Ld. assert (length f0 <> 0) by (destruct f0; [congruence|discriminate]). destruct sm; cbn [length] in Ld; lia. }
  destruct (abs_ok M d N) as (d' & -> & E). eexists. split; [reflexivity|]. rewrite E, Ld. destruct sm; lia.
Qed.
Lemma diff_ub M f g : f = [] \/ g = [] -> bdd_absolute_difference M f g TwosComplement = UB.
Proof.
  intro H. unfold bdd_absolute_difference. cbv zeta. destruct f as [|x f].
  - destruct g as [|y g]; [|reflexivity]. reflexivity.
  - destruct H as [H| ->]; [discriminate|]. reflexivity.
Qed.
Lemma mapM_ok {A B} (f : A -> res B) l : (forall x, In x l -> exists y, f x = Ok y) -> exists ys, mapM f l = Ok ys /\ length ys = length l.
Proof.
  induction l as [|x l IH]; intro H; cbn [mapM]; [eauto|]. destruct (H x ltac:(now left)) as (y & ->).
  destruct IH as (ys & -> & E); [intros; apply H; now right|]. cbn [bind]. eexists. split; [reflexivity|]. cbn [length]. lia.
Qed.
Lemma shift_ok f k : exists d, bdd_shift f k = Ok d /\ length d = length f.
Proof.
  unfold bdd_shift. match goal with |- exists d, mapM ?h ?l = _ /\ _ => destruct (mapM_ok h l) as (d & -> & E) end; [|rewrite seq_length in E; eauto].
  intros i Hi. apply in_seq in Hi. cbv zeta. destruct ((Z.of_nat i <? k)%Z || _)%bool eqn:D; [eauto|]. apply orb_false_iff in D. destruct D as [D1 D2].
  apply Z.ltb_ge in D1. apply Z.leb_gt in D2. unfold vget.
  destruct (nth_error f (Z.to_nat (Z.of_nat i - k))) as [x|] eqn:N; [eauto|]. apply nth_error_None in N. lia.
Qed.
Lemma add_shifted_ok M fc bits : forall r, length r <= length fc -> exists d, add_shifted M fc bits r = Ok d /\ length d = length r.
Proof.
  induction bits as [|[b k] bits IH]; intros r L; cbn [add_shifted]; [eauto|]. destruct b; cbn [bind]; [|apply IH; exact L].
  destruct (shift_ok fc k) as (s & -> & Ls). cbn [bind]. unfold bdd_add. destruct (add_ok M r s bzero ltac:(lia)) as (d & -> & Ld). cbn [bind].
  destruct (IH d ltac:(lia)) as (d' & -> & E). eexists. split; [reflexivity|]. lia.
Qed.
Lemma pad_length f n : length (pad_to f n) = Nat.max (length f) n.
Proof. unfold pad_to. rewrite app_length, repeat_length. lia. Qed.
Lemma u256_ok M clog2 f z : exists d, bdd_multiply_constant_u256 M clog2 f z = Ok d /\ length d = length f + clog2 z + 2.
Proof.
  unfold bdd_multiply_constant_u256. cbv zeta. set (n := length f + (clog2 z + 2)).
  destruct (add_shifted_ok M (pad_to f (length (repeat bzero n))) (great_bits z) (repeat bzero n)) as (d & -> & E).
  - rewrite pad_length, repeat_length. lia.
  - rewrite repeat_length in E. eexists. split; [reflexivity|]. lia.
Qed.
Lemma max_one_ok M f : f <> [] -> exists d, bdd_max_one M f = Ok d /\ length d = length f.
Proof. intro H. destruct f as [|b f]; [congruence|]. cbn [bdd_max_one]. cbv zeta. eexists. split; reflexivity. Qed.
Lemma divide_step_ok M g t i : exists t' c, divide_step M g t i = Ok (t', c).
Proof.
  unfold divide_step. destruct (shift_ok g i) as (s & -> & Ls). cbn [bind]. cbv zeta. unfold equalize_vector_size. cbv zeta.
  set (a := map _ s). unfold bdd_subtract.
  edestruct (subtract_ok M) as (d & -> & _); [|cbn [bind]; eauto]. rewrite !pad_length. lia.
Qed.
Lemma divide_loop_ok M g shifts : forall t, exists cs, divide_loop M g t shifts = Ok cs /\ length cs = length shifts.
Proof.
  induction shifts as [|i shifts IH]; intro t; cbn [divide_loop]; [eauto|]. destruct (divide_step_ok M g t i) as (t' & c & ->). cbn [bind].
  destruct (IH t') as (cs & -> & E). cbn [bind]. eexists. split; [reflexivity|]. cbn [length]. lia.
Qed.
Lemma divide_ok M f g e : exists d, bdd_divide M f g e = Ok d /\ length d = length f + e + 2.
Proof.
  unfold bdd_divide. cbv zeta. edestruct (divide_loop_ok M) as (cs & -> & E). cbn [bind]. eexists. split; [reflexivity|]. rewrite rev_length, E.
  unfold down_from. rewrite map_length, seq_length. lia.
Qed.
Lemma xor_ok M f : forall g, length f <= length g -> exists d, xor_vec M f g = Ok d /\ length d = length f.
Proof.
  induction f as [|x f IH]; intros g L; cbn [xor_vec]; [eauto|]. destruct g as [|y g]; cbn [length] in L; [lia|].
  destruct (IH g ltac:(lia)) as (d & -> & E). cbn [bind]. eexists. split; [reflexivity|]. cbn [length]. lia.
Qed.
Lemma xor_ub M f : forall g, length g < length f -> xor_vec M f g = UB.
Proof.
  induction f as [|x f IH]; intros g L; cbn [xor_vec length] in *; [lia|]. destruct g as [|y g]; [reflexivity|]. cbn [length] in L.
  rewrite IH by lia. reflexivity.
Qed.
Lemma forest_ok M f r : f <> [] \/ r = BaseTwo -> exists a, bdd_forest_to_add M f r = Ok a.
Proof.
  intro H. unfold bdd_forest_to_add. cbv zeta. set (b := match r with BaseTwo => _ | TwosComplement => _ end).
  assert (N : b <> []).
  { subst b. destruct r; [intro X; apply app_eq_nil in X; destruct X; discriminate|]. destruct H as [H|H]; [exact H|discriminate]. }
  destruct (rev b) as [|s rest] eqn:E; [exfalso; apply N; rewrite <- (rev_involutive b), E; reflexivity|].
  destruct (forest_loop M rest (aconst 0) (aconst 1)). eauto.
Qed.
Lemma nil_dec {A} (l : list A) : l = [] \/ l <> [].
Proof. destruct l; [left; reflexivity|right; discriminate]. Qed.
Lemma rep_dec (r s : NumberRepresentation) : r = s \/ r <> s.
Proof. destruct r, s; auto; right; discriminate. Qed.

Lemma helper_outcomes : forall (M : mgr) (clog2 : Z -> nat) (f g : list bdd) (r : NumberRepresentation) (k z : Z) (extra : nat),
  undefined_iff (bdd_add M f g) (length g < length f)
  /\ undefined_iff (bdd_subtract M f g) (length g < length f)
  /\ undefined_iff (bdd_abs M f r) (r = TwosComplement /\ f = [])
  /\ undefined_iff (bdd_absolute_difference M f g r) (r = TwosComplement /\ (f = [] \/ g = []))
  /\ undefined_iff (bdd_max_one M f) (f = [])
  /\ never_fails (bdd_shift f k)
  /\ never_fails (bdd_multiply_constant_u256 M clog2 f z)
  /\ never_fails (bdd_divide M f g extra)
  /\ undefined_iff (bdd_forest_to_add M f r) (r = TwosComplement /\ f = [])
  /\ undefined_iff (xor_difference_add M f g) (length g < length f)
  /\ undefined_iff (absolute_difference_add M f g r) (r = TwosComplement /\ (f = [] \/ g = [])).
Proof.
  intros M clog2 f g r k z extra.
  assert (DL : length g < length f \/ ~ length g < length f) by lia.
  assert (DF : r = TwosComplement /\ f = [] \/ ~ (r = TwosComplement /\ f = [])).
  { destruct (rep_dec r TwosComplement), (nil_dec f); tauto. }
  assert (DG : r = TwosComplement /\ (f = [] \/ g = []) \/ ~ (r = TwosComplement /\ (f = [] \/ g = []))).
  { destruct (rep_dec r TwosComplement), (nil_dec f), (nil_dec g); tauto. }
  split; [apply undefined_from; [apply add_ub|intro N; destruct (add_ok M f g bzero ltac:(lia)) as (d & E & _); exists d; exact E|exact DL]|].
  split; [apply undefined_from; [apply subtract_ub|intro N; destruct (subtract_ok M f g bone ltac:(lia)) as (d & E & _); exists d; exact E|exact DL]|].
  split.
  { apply undefined_from; [intros [-> ->]; reflexivity| |exact DF]. intro N. destruct r; [cbn [bdd_abs]; eauto|].
    destruct (abs_ok M f) as (d & E & _); [intros ->; apply N; auto|]. eauto. }
  split.
  { apply undefined_from; [intros [-> H]; now apply diff_ub| |exact DG]. intro N. destruct (diff_ok M f g r) as (d & E & _); [|eauto].
    intros ->. split; intros ->; apply N; auto. }
  split.
  { apply undefined_from; [intros ->; reflexivity| |apply nil_dec]. intro N. destruct (max_one_ok M f N) as (d & E & _). eauto. }
  split; [destruct (shift_ok f k) as (d & E & _); exists d; exact E|].
  split; [destruct (u256_ok M clog2 f z) as (d & E & _); exists d; exact E|].
  split; [destruct (divide_ok M f g extra) as (d & E & _); exists d; exact E|].
  split.
  { apply undefined_from; [intros [-> ->]; reflexivity| |exact DF]. intro N. apply forest_ok. destruct r; [auto|left]. intros ->. apply N. auto. }
  split.
  { apply undefined_from; [intro L; unfold xor_difference_add; rewrite xor_ub by exact L; reflexivity| |exact DL]. intro N. unfold xor_difference_add.
    destruct (xor_ok M f g ltac:(lia)) as (d & -> & _). cbn [bind]. apply forest_ok. auto. }
  apply undefined_from; [| |exact DG].
  - intros [-> H]. unfold absolute_difference_add. destruct f as [|x f]; [reflexivity|].
    destruct H as [H| ->]; [discriminate|]. destruct (forest_ok M (x :: f) TwosComplement) as (a & ->); [left; discriminate|]. reflexivity.
  - intro N. unfold absolute_difference_add.
    destruct (forest_ok M f r) as (a & ->); [destruct r; [auto|left; intros ->; apply N; auto]|].
    destruct (forest_ok M g r) as (b & ->); [destruct r; [auto|left; intros ->; apply N; auto]|]. cbn [bind]. eauto.
Qed.
Lemma double_outcomes : forall (M : mgr) (clog2 : Z -> nat) (f : list bdd) (factor : Q) (extra : nat) (e : failure),
  fails e (bdd_multiply_constant_double M clog2 f factor extra) <->
  (e = Undefined /\ ((factor <= 1 # 2)%Q \/ (factor == inject_Z (2 ^ 256))%Q \/ ((factor < inject_Z (2 ^ 256))%Q /\ 64 <= extra)))
  \/ (e = FailedAssert /\ (inject_Z (2 ^ 256) < factor)%Q).
Proof.
  intros M clog2 f factor extra e. unfold bdd_multiply_constant_double.
  assert (B : (1 # 2 < inject_Z (2 ^ 256))%Q) by (vm_compute; reflexivity).
  destruct (Qle_bool factor (1 # 2)) eqn:E1.
  { apply Qle_bool_iff in E1. split.
    - intro F. destruct e; try discriminate F. left. auto.
    - intros [[-> _]|[-> H]]; [reflexivity|]. exfalso. lra. }
  assert (E1' : (1 # 2 < factor)%Q).
  { apply Qnot_le_lt. intro X. apply Qle_bool_iff in X. congruence. }
  cbv zeta. destruct (Qle_bool factor (inject_Z (2 ^ 256))) eqn:E2; cbn [assert_ bind].
  2:{ assert (E2' : (inject_Z (2 ^ 256) < factor)%Q). { apply Qnot_le_lt. intro X. apply Qle_bool_iff in X. congruence. } split.
      - intro F. destruct e; try discriminate F. right. auto.
      - intros [[-> H]|[-> H]]; [|reflexivity]. exfalso. destruct H as [H|[H|[H _]]]; lra. }
  apply Qle_bool_iff in E2. destruct (Qfloor factor <? 2 ^ 256)%Z eqn:E3; cbn [require_ bind].
  2:{ apply Z.ltb_ge in E3. assert (E : (factor == inject_Z (2 ^ 256))%Q).
      { pose proof (Qfloor_le factor) as L. apply Qle_antisym; [exact E2|]. eapply Qle_trans; [|exact L]. rewrite <- Zle_Qle. exact E3. }
      split.
      - intro F. destruct e; try discriminate F. left. auto.
      - intros [[-> H]|[-> H]]; [reflexivity|]. exfalso. lra. }
  apply Z.ltb_lt in E3. assert (E3' : (factor < inject_Z (2 ^ 256))%Q).
  { pose proof (Qlt_floor factor) as L. eapply Qlt_le_trans; [exact L|]. rewrite <- Zle_Qle. lia. }
  set (n := length f + (clog2 (Qceiling factor) + 2)).
  destruct (add_shifted_ok M (pad_to f (length (repeat bzero n))) (great_bits (Qfloor factor)) (repeat bzero n)) as (d & -> & Ld);
    [rewrite pad_length, repeat_length; lia|]. cbn [bind].
  destruct (extra <? 64) eqn:E4; cbn [require_ bind].
  - apply Nat.ltb_lt in E4. match goal with |- fails e (add_shifted M ?fc ?b d) <-> _ => destruct (add_shifted_ok M fc b d) as (d' & -> & _) end.
    { rewrite Ld, pad_length, repeat_length. lia. }
    split; [intro F; destruct e; discriminate F|]. intros [[-> H]|[-> H]]; exfalso; [destruct H as [H|[H|[_ H]]]; [lra|lra|lia]|lra].
  - apply Nat.ltb_ge in E4. split.
    + intro F. destruct e; try discriminate F. left. auto.
    + intros [[-> H]|[-> H]]; [reflexivity|]. exfalso. lra.
Qed.
