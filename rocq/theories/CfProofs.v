Require Import Reals List Bool Arith Lia Lra FunctionalExtensionality.
Require Import Verif.Base Verif.CfModel Verif.CfSpec.
Import ListNotations.
Local Open Scope R_scope.

(* ---- sums ---- *)
Lemma rsum_ext g g' n : (forall i, (i < n)%nat -> g i = g' i) -> rsum g n = rsum g' n.
Proof. induction n as [|n IH]; intros H; [reflexivity|]. simpl. rewrite IH, H; [reflexivity|lia|intros i Hi; apply H; lia]. Qed.
Lemma rsum_zero n : rsum (fun _ => 0) n = 0.
Proof. induction n as [|n IH]; simpl; [reflexivity|rewrite IH; lra]. Qed.
Lemma rsum_plus g g' n : rsum (fun i => g i + g' i) n = rsum g n + rsum g' n.
Proof. induction n as [|n IH]; simpl; [lra|rewrite IH; lra]. Qed.
Lemma rsum_minus g g' n : rsum (fun i => g i - g' i) n = rsum g n - rsum g' n.
Proof. induction n as [|n IH]; simpl; [lra|rewrite IH; lra]. Qed.
Lemma rsum_scal g a n : rsum (fun i => a * g i) n = a * rsum g n.
Proof. induction n as [|n IH]; simpl; [lra|rewrite IH; lra]. Qed.
Lemma rsum_split g n m : rsum g (n + m) = rsum g n + rsum (fun i => g (n + i)%nat) m.
Proof. induction m as [|m IH]; simpl; [rewrite Nat.add_0_r; lra|]. rewrite Nat.add_succ_r. simpl. rewrite IH. lra. Qed.
Lemma rsum_S_l g n : rsum g (S n) = g O + rsum (fun i => g (S i)) n.
Proof. change (S n) with (1 + n)%nat. rewrite rsum_split. simpl. lra. Qed.
Lemma rsum_nonneg g n : (forall i, (i < n)%nat -> 0 <= g i) -> 0 <= rsum g n.
Proof. induction n as [|n IH]; intros H; simpl; [lra|]. assert (0 <= rsum g n) by (apply IH; intros i Hi; apply H; lia). specialize (H n ltac:(lia)). lra. Qed.
Lemma rsum_one g n i : (forall i, (i < n)%nat -> 0 <= g i) -> (i < n)%nat -> g i <= rsum g n.
Proof.
  induction n as [|n IH]; intros H Hi; [lia|]. simpl. assert (K : 0 <= rsum g n) by (apply rsum_nonneg; intros j Hj; apply H; lia). destruct (Nat.eq_dec i n) as [->|E].
  - lra.
  - assert (g i <= rsum g n) by (apply IH; [intros j Hj; apply H; lia|lia]). specialize (H n ltac:(lia)). lra.
Qed.
Lemma norm2_ext n a b : (forall r, (r < n)%nat -> a r = b r) -> norm2 n a = norm2 n b.
Proof. intros H. apply rsum_ext. intros i Hi. rewrite (H i Hi). reflexivity. Qed.
Lemma norm2_nonneg n a : 0 <= norm2 n a.
Proof. apply rsum_nonneg. intros i _. apply Rle_0_sqr. Qed.
Lemma norm2_zero n a : (forall r, (r < n)%nat -> a r = 0) -> norm2 n a = 0.
Proof. intros H. unfold norm2. rewrite (rsum_ext _ (fun _ => 0)); [apply rsum_zero|]. intros i Hi. rewrite (H i Hi). lra. Qed.

Lemma times_S {A} (g : A -> A) : forall n a, times (S n) g a = g (times n g a).
Proof. induction n as [|n IH]; intros a; [reflexivity|]. change (times (S (S n)) g a) with (times (S n) g (g a)). rewrite IH. reflexivity. Qed.
Lemma times_plus {A} (g : A -> A) : forall n m a, times (n + m) g a = times m g (times n g a).
Proof. induction n as [|n IH]; intros m a; [reflexivity|]. simpl. apply IH. Qed.
Lemma fold_times {A} (g : A -> A) : forall xs a, fold_left (fun s x => times (v_size x) g s) xs a = times (list_sum (map v_size xs)) g a.
Proof. induction xs as [|x xs IH]; intros a; [reflexivity|]. simpl. rewrite IH, times_plus. reflexivity. Qed.

Lemma total_sum l : total l = list_sum l.
Proof. unfold total. enough (H : forall a, fold_left Nat.add l a = (a + list_sum l)%nat) by (rewrite H; reflexivity). induction l as [|x l IH]; intros a; simpl; [lia|]. rewrite IH. lia. Qed.

(* ---- columns ---- *)
Lemma column_width f k j c : column f k j c -> (c < width f)%nat.
Proof.
  intros (x & E & Hj & ->). unfold before, width. revert k E. induction (w_vars f) as [|y l IH]; intros [|k] E; try discriminate; simpl in *.
  - injection E as ->. lia.
  - specialize (IH k E). lia.
Qed.
Lemma list_sum_app' l l' : list_sum (l ++ l') = (list_sum l + list_sum l')%nat.
Proof. induction l as [|x l IH]; simpl; [reflexivity|]. rewrite IH. lia. Qed.
Lemma column_exists f c : (c < width f)%nat -> exists k j, column f k j c.
Proof.
  unfold column, before, width. induction (w_vars f) as [|x l IH] using rev_ind; simpl; [lia|]. rewrite map_app, list_sum_app'. simpl. intros H.
  destruct (lt_dec c (list_sum (map v_size l))) as [Hc|Hc].
  - destruct (IH Hc) as (k & j & y & E & Hj & ->). assert (Hk : (k < length l)%nat) by (apply nth_error_Some; rewrite E; discriminate). exists k, j, y. split; [rewrite nth_error_app1 by exact Hk; exact E|]. split; [exact Hj|].
    rewrite firstn_app. replace (k - length l)%nat with 0%nat by lia. simpl. rewrite app_nil_r. reflexivity.
  - exists (length l), (c - list_sum (map v_size l))%nat, x. split; [rewrite nth_error_app2 by lia; rewrite Nat.sub_diag; reflexivity|]. split; [lia|].
    rewrite firstn_app, Nat.sub_diag, firstn_all. simpl. rewrite app_nil_r. lia.
Qed.

Section Function.
Variables (f : cfun) (o : copts).
Local Notation h := (o_step o).
Local Notation n := (w_size f).

Lemma gather_low xs v0 : forall k s J r c, (c < s)%nat -> gather f k s xs v0 J r c = J r c.
Proof.
  induction xs as [|x xs IH]; intros k s J r c H; [reflexivity|]. simpl. rewrite IH by lia. destruct (Nat.leb_spec s c); [lia|reflexivity].
Qed.
Lemma gather_col v0 : forall xs k s J r k' x j, nth_error xs k' = Some x -> (j < v_size x)%nat ->
  gather f k s xs v0 J r (s + list_sum (map v_size (firstn k' xs)) + j) = w_jac f (k + k') v0 r j.
Proof.
  induction xs as [|y xs IH]; intros k s J r [|k'] x j E Hj; try discriminate; cbn [nth_error firstn map list_sum fold_right gather] in *.
  - injection E as ->. rewrite gather_low by lia. replace (s + 0 + j)%nat with (s + j)%nat by lia. destruct (Nat.leb_spec s (s + j)); [|lia]. destruct (Nat.ltb_spec (s + j) (s + v_size x)); [|lia]. cbn [andb]. rewrite Nat.add_0_r. f_equal. lia.
  - change (fold_right Nat.add 0 (map v_size (firstn k' xs)))%nat with (list_sum (map v_size (firstn k' xs))).
    replace (s + (v_size y + list_sum (map v_size (firstn k' xs))) + j)%nat with (s + v_size y + list_sum (map v_size (firstn k' xs)) + j)%nat by lia.
    rewrite (IH _ _ _ _ _ x j E Hj). f_equal. lia.
Qed.
Lemma gather_column junk v0 k j c r : column f k j c -> gather f 0 0 (w_vars f) v0 junk r c = w_jac f k v0 r j.
Proof. intros (x & E & Hj & ->). exact (gather_col v0 (w_vars f) 0 0 junk r k x j E Hj). Qed.

(* ---- the finite differences ---- *)
Fixpoint scaleTo (v : vect) (J0 : nat -> nat -> R) (D : nat -> vect) (m : nat) : R :=
  match m with O => 0 | S m => Rmax (scaleTo v J0 D m) (Rmin (norm2 n (D m)) (norm2 n (fun r => J0 r m))) end.
Lemma move_upd v c : upd v c (v c + h) = move v c h.
Proof. apply functional_extensionality. intros i. unfold upd, move. destruct (Nat.eqb_spec i c) as [->|]; reflexivity. Qed.
Lemma upd_back v c : upd (move v c h) c (move v c h c - h) = v.
Proof. apply functional_extensionality. intros i. unfold upd, move. rewrite Nat.eqb_refl. destruct (Nat.eqb_spec i c) as [->|]; [lra|reflexivity]. Qed.
Lemma fdLoop_state v J0 junk : forall m,
  let s := times m (fdCol f o (w_value f v) J0) (mkFd v 0 junk 0) in
  d_v s = v /\ d_i s = m /\ (forall r c, (c < m)%nat -> d_J s r c = fd f h v c r) /\ d_norm2 s = scaleTo v J0 (fd f h v) m.
Proof.
  induction m as [|m IH]; [cbn; repeat split; intros; lia|]. cbv zeta in *. rewrite times_S. destruct IH as (E1 & E2 & E3 & E4). set (s := times m _ _) in *.
  unfold fdCol. cbv zeta. rewrite E1, E2, E4. rewrite move_upd. cbn [d_v d_i d_J d_norm2]. split; [apply upd_back|]. split; [reflexivity|]. split.
  - intros r c Hc. unfold setCol. destruct (Nat.eqb_spec c m) as [->|Ec]; [reflexivity|]. apply E3. lia.
  - cbn [scaleTo]. f_equal. f_equal. apply norm2_ext. intros r _. unfold setCol. rewrite Nat.eqb_refl. reflexivity.
Qed.
Lemma compare_loop (c : bool) : forall m, times m (fun b : bool => if c then false else b) true = match m with O => true | _ => negb c end.
Proof. destruct c; intros [|m]; try reflexivity; induction m as [|m IH]; simpl in *; auto. Qed.
Lemma if_gt (x y : R) (b : bool) : (if Rgt_dec x y then false else b) = if (if Rgt_dec x y then true else false) then false else b.
Proof. destruct (Rgt_dec x y); reflexivity. Qed.
Lemma gt_close m a b s : (if Rgt_dec (norm2 m (minus a b)) (o_prec o * o_prec o * s) then true else false) = false <-> close m (o_prec o) s a b.
Proof. unfold close. destruct (Rgt_dec _ _); split; intros; try lra; try discriminate; reflexivity. Qed.

Definition Jt (v : vect) (junk : nat -> nat -> R) := gather f 0 0 (w_vars f) v junk.
Lemma jacobianAt junk v : w_vars f <> [] -> exists b, checkJacobianAt f o junk v = Ok b /\
  (b = true <-> (width f = 0%nat \/ close n (o_prec o) (scaleTo v (Jt v junk) (fd f h v) (width f)) (fd f h v 0) (fun r => Jt v junk r 0%nat))).
Proof.
  intros Ne. unfold checkJacobianAt. destruct (w_vars f) as [|x0 l] eqn:Ev; [contradiction|]. rewrite <- Ev in *. eexists. split; [reflexivity|].
  unfold compareLoop, fdLoop. rewrite !fold_times. fold (width f). fold (Jt v junk).
  destruct (fdLoop_state v (Jt v junk) junk (width f)) as (E1 & E2 & E3 & E4). set (s := times (width f) _ _) in *.
  rewrite (functional_extensionality (fun b : bool => if Rgt_dec _ _ then false else b) _ (fun b => if_gt _ _ b)).
  rewrite compare_loop, E4. destruct (width f) as [|m] eqn:Ew; [split; auto|].
  assert (Ex : norm2 n (minus (fun r => d_J s r 0%nat) (fun r => Jt v junk r 0%nat)) = norm2 n (minus (fd f h v 0) (fun r => Jt v junk r 0%nat))).
  { apply norm2_ext. intros r _. unfold minus. rewrite E3 by lia. reflexivity. }
  rewrite Ex. rewrite negb_true_iff, gt_close. split; [auto|]. intros [X|X]; [discriminate|exact X].
Qed.
Lemma scaleTo_scale v junk D : scale f v D (scaleTo v (Jt v junk) D (width f)).
Proof.
  assert (H : forall m, (m <= width f)%nat -> (forall k j c, column f k j c -> (c < m)%nat -> Rmin (norm2 n (D c)) (norm2 n (fun r => w_jac f k v r j)) <= scaleTo v (Jt v junk) D m) /\
     (scaleTo v (Jt v junk) D m = 0 \/ exists k j c, column f k j c /\ scaleTo v (Jt v junk) D m = Rmin (norm2 n (D c)) (norm2 n (fun r => w_jac f k v r j)))).
  { induction m as [|m IH]; intros Hm; [split; [intros; lia|left; reflexivity]|]. destruct (IH ltac:(lia)) as [I1 I2]. cbn [scaleTo].
    destruct (column_exists f m ltac:(lia)) as (k & j & C).
    assert (Ec : forall k' j', column f k' j' m -> norm2 n (fun r => Jt v junk r m) = norm2 n (fun r => w_jac f k' v r j')).
    { intros k' j' C'. apply norm2_ext. intros r _. apply gather_column, C'. }
    split.
    - intros k' j' c C' Hc. destruct (Nat.eq_dec c m) as [->|E].
      + rewrite (Ec k' j' C'). apply Rmax_r.
      + eapply Rle_trans; [apply (I1 k' j' c C'); lia|apply Rmax_l].
    - unfold Rmax. destruct (Rle_dec _ _).
      + right. exists k, j, m. split; [exact C|]. rewrite (Ec k j C). reflexivity.
      + exact I2. }
  destruct (H (width f) (le_n _)) as [H1 H2]. split; [|exact H2]. intros k j c C. apply H1; [exact C|]. eapply column_width, C.
Qed.
Lemma scale_unique v D s s' : scale f v D s -> scale f v D s' -> s = s'.
Proof.
  intros [A1 A2] [B1 B2]. assert (P : forall k j c, 0 <= Rmin (norm2 n (D c)) (norm2 n (fun r => w_jac f k v r j))) by (intros; apply Rmin_glb; apply norm2_nonneg).
  assert (Key : forall t t', scale f v D t -> scale f v D t' -> t <= t' \/ (t = 0 /\ forall k j c, ~ column f k j c)).
  { intros t t' [T1 T2] [T1' T2']. destruct T2 as [->|(k & j & c & C & ->)]; [|left; apply T1', C].
    destruct T2' as [->|(k & j & c & C & ->)]; [left; lra|]. left. apply P. }
  destruct (Key s s' (conj A1 A2) (conj B1 B2)) as [K|[K K']], (Key s' s (conj B1 B2) (conj A1 A2)) as [L|[L L']]; try lra.
  - destruct A2 as [A2|(k & j & c & C & _)]; [lra|exfalso; apply (L' k j c C)].
  - destruct B2 as [B2|(k & j & c & C & _)]; [lra|exfalso; apply (K' k j c C)].
Qed.

(* ---- products ---- *)
Lemma sumJ_spec size v a r : forall xs k s acc,
  sumJ f k s xs size v a acc r = acc r + rsum (fun i => match nth_error xs i with
    | Some x => rsum (fun j => w_jac f (k + i) v r j * a (s + list_sum (map size (firstn i xs)) + j)%nat) (size x) | None => 0 end) (length xs).
Proof.
  induction xs as [|x xs IH]; intros k s acc; [simpl; lra|]. cbn [sumJ length]. rewrite IH, rsum_S_l. cbn [nth_error firstn map list_sum fold_right]. rewrite Rplus_assoc. f_equal. f_equal.
  - apply rsum_ext. intros j _. rewrite !Nat.add_0_r. reflexivity.
  - apply rsum_ext. intros i _. destruct (nth_error xs i); [|reflexivity]. apply rsum_ext. intros j _. rewrite Nat.add_succ_r.
    change (fold_right Nat.add 0 (map size (firstn i xs)))%nat with (list_sum (map size (firstn i xs))). rewrite !Nat.add_assoc. reflexivity.
Qed.
Lemma sumJ_apply size v a r : sumJ f 0 0 (w_vars f) size v a (fun _ => 0) r = applyJ size f v a r.
Proof. rewrite sumJ_spec. unfold applyJ. rewrite Rplus_0_l. apply rsum_ext. intros k _. destruct (nth_error _ _); reflexivity. Qed.
Lemma isApprox_spec m prec a b : isApprox m prec a b = true <-> approx m prec a b.
Proof.
  unfold isApprox, approx, close. assert (P : 0 <= prec * prec) by apply Rle_0_sqr. destruct (Rle_dec _ _) as [H|H]; split; intros X; try reflexivity; try discriminate.
  - split; (eapply Rle_trans; [exact H|apply Rmult_le_compat_l; [exact P|]]); [apply Rmin_l|apply Rmin_r].
  - exfalso. apply H. destruct X as [X Y]. unfold Rmin. destruct (Rle_dec _ _); assumption.
Qed.
Lemma approx_ext m prec a b a' b' : (forall r, (r < m)%nat -> a r = a' r) -> (forall r, (r < m)%nat -> b r = b' r) -> approx m prec a b <-> approx m prec a' b'.
Proof.
  intros A B. unfold approx, close. rewrite (norm2_ext m a a' A), (norm2_ext m b b' B), (norm2_ext m (minus a b) (minus a' b')); [reflexivity|]. intros r Hr. unfold minus. rewrite (A r Hr), (B r Hr). reflexivity.
Qed.
Lemma velocityAt val vel : w_vars f <> [] -> exists b, checkVelocityAt f o val vel = Ok b /\
  (b = true <-> approx n (o_prec o) (applyJ v_dsize f val vel) (w_velocity f val vel)).
Proof.
  intros Ne. unfold checkVelocityAt. destruct (w_vars f) as [|x0 l] eqn:Ev; [contradiction|]. rewrite <- Ev in *. eexists. split; [reflexivity|]. rewrite isApprox_spec.
  apply approx_ext; intros r _; [apply sumJ_apply|reflexivity].
Qed.
(* the point reached and the difference compared *)
Definition val1 (val vel acc : vect) (t : R) : vect := fun i => val i + vel i * t + 1 / 2 * (acc i * acc i) * t * t.
Definition vel1 (vel acc : vect) (t : R) : vect := fun i => vel i + acc i * t.
Lemma normalAt val vel acc : w_vars f <> [] -> exists b, checkNormalAccelerationAt f o val vel acc = Ok b /\
  (b = true <-> approx n (o_prec o) (w_normalAcc f val vel)
     (fun r => (w_velocity f (val1 val vel acc h) (vel1 vel acc h) r - w_velocity f val vel r) / h - applyJ v_size f val acc r)).
Proof.
  intros Ne. unfold checkNormalAccelerationAt. destruct (w_vars f) as [|x0 l] eqn:Ev; [contradiction|]. rewrite <- Ev in *. eexists. split; [reflexivity|]. cbv zeta. rewrite isApprox_spec.
  apply approx_ext; intros r _; [reflexivity|]. unfold minus. rewrite sumJ_apply. reflexivity.
Qed.
End Function.
