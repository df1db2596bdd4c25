Require Import Reals List Bool Arith Lia Lra FunctionalExtensionality.
Require Import Verif.Base Verif.CfModel Verif.CfSpec Verif.CfProofs Verif.CfProofs2.
Import ListNotations.
Local Open Scope R_scope.

(* ---- affine functions ---- *)
Lemma rsum_delta g n c : (c < n)%nat -> rsum (fun i => if Nat.eqb i c then g i else 0) n = g c.
Proof.
  induction n as [|n IH]; intros H; [lia|]. simpl. destruct (Nat.eqb_spec n c) as [->|E].
  - rewrite (rsum_ext _ (fun _ => 0)), rsum_zero; [lra|]. intros i Hi. destruct (Nat.eqb_spec i c); [lia|reflexivity].
  - rewrite IH by lia. lra.
Qed.
Lemma rsum_blocks (size : cvar -> nat) : forall (xs : list cvar) s g,
  rsum (fun k => match nth_error xs k with Some x => rsum (fun j => g (s + list_sum (map size (firstn k xs)) + j)%nat) (size x) | None => 0 end) (length xs)
  = rsum (fun i => g (s + i)%nat) (list_sum (map size xs)).
Proof.
  induction xs as [|x xs IH]; intros s g; [reflexivity|]. cbn [length]. rewrite rsum_S_l. cbn [nth_error firstn map list_sum fold_right]. rewrite rsum_split. f_equal.
  - apply rsum_ext. intros j _. rewrite Nat.add_0_r. reflexivity.
  - rewrite (rsum_ext (fun i => g (s + (size x + i))%nat) (fun i => g (s + size x + i)%nat)); [|intros i _; f_equal; lia]. change (fold_right Nat.add 0 (map size xs))%nat with (list_sum (map size xs)). rewrite <- IH.
    apply rsum_ext. intros k _. destruct (nth_error xs k); [|reflexivity]. apply rsum_ext. intros j _. f_equal. change (fold_right Nat.add 0 (map size (firstn k xs)))%nat with (list_sum (map size (firstn k xs))). lia.
Qed.
Section Affine.
Variables (f : cfun) (A : nat -> nat -> R) (b : vect).
Hypotheses (Aff : affine f A b) (Ne : w_vars f <> []) (Eu : euclidean f).
Lemma affine_apply v a r : (r < w_size f)%nat -> applyJ v_size f v a r = rsum (fun c => A r c * a c) (width f).
Proof.
  destruct Aff as (_ & H & _). intros Hr. unfold applyJ, width. pose proof (rsum_blocks v_size (w_vars f) 0 (fun c => A r c * a c)) as Bl. cbn [Nat.add] in Bl. rewrite <- Bl. apply rsum_ext. intros k _. destruct (nth_error (w_vars f) k) as [x|] eqn:E; [|reflexivity].
  apply rsum_ext. intros j Hj. rewrite (H k j (before v_size f k + j)%nat v r); [reflexivity| |exact Hr]. exists x. auto.
Qed.
Lemma dsize_before size k : (forall x, In x (w_vars f) -> size x = v_size x) -> before size f k = before v_size f k.
Proof.
  intros H. unfold before. f_equal. apply map_ext_in. intros x Hx. apply H. rewrite <- (firstn_skipn k (w_vars f)). apply in_or_app. left. exact Hx.
Qed.
Lemma apply_dsize v a r : applyJ v_dsize f v a r = applyJ v_size f v a r.
Proof.
  assert (H : forall x, In x (w_vars f) -> v_dsize x = v_size x) by (intros x Hx; unfold euclidean in Eu; rewrite Forall_forall in Eu; apply (Eu x Hx)).
  unfold applyJ. apply rsum_ext. intros k _. destruct (nth_error (w_vars f) k) as [x|] eqn:E; [|reflexivity]. rewrite (H x (nth_error_In _ _ E)), (dsize_before v_dsize k H). reflexivity.
Qed.
Lemma affine_fd h v c r : h <> 0 -> (c < width f)%nat -> (r < w_size f)%nat -> fd f h v c r = A r c.
Proof.
  destruct Aff as (H & _). intros Hh Hc Hr. unfold fd. rewrite !H by exact Hr.
  replace (b r + rsum (fun c0 => A r c0 * move v c h c0) (width f) - (b r + rsum (fun c0 => A r c0 * v c0) (width f))) with
    (rsum (fun c0 => A r c0 * move v c h c0 - A r c0 * v c0) (width f)) by (rewrite rsum_minus; lra).
  rewrite (rsum_ext _ (fun i => if Nat.eqb i c then A r i * h else 0)).
  - rewrite (rsum_delta (fun i => A r i * h)) by exact Hc. field. exact Hh.
  - intros i _. unfold move. destruct (Nat.eqb i c); lra.
Qed.
Lemma affine_column o v c : o_step o <> 0 -> column_ok f o v c.
Proof.
  intros Hh s k j Sc C. unfold close. rewrite norm2_zero.
  - apply Rmult_le_pos; [apply Rle_0_sqr|]. destruct Sc as [S1 _]. eapply Rle_trans; [|apply (S1 k j c C)]. apply Rmin_glb; apply norm2_nonneg.
  - intros r Hr. unfold minus. rewrite (affine_fd _ v c r Hh (column_width f k j c C) Hr). destruct Aff as (_ & H & _). rewrite (H k j c v r C Hr). lra.
Qed.
Lemma approx_refl n prec a a' : (forall r, (r < n)%nat -> a r = a' r) -> approx n prec a a'.
Proof. intros H. split; unfold close; rewrite (norm2_zero n (minus a a')); try (intros r Hr; unfold minus; rewrite (H r Hr); lra); apply Rmult_le_pos; try apply Rle_0_sqr; apply norm2_nonneg. Qed.
Lemma affine_velocity o val vel : velocity_ok f o val vel.
Proof. apply approx_refl. intros r Hr. destruct Aff as (_ & _ & H & _). rewrite H, apply_dsize, affine_apply by exact Hr. reflexivity. Qed.
Lemma affine_normal o val vel acc : o_step o <> 0 -> normal_ok f o val vel acc.
Proof.
  intros Hh. apply approx_refl. intros r Hr. destruct Aff as (_ & _ & H & H'). rewrite H', !H, affine_apply by exact Hr. rewrite <- rsum_minus. 
  rewrite (rsum_ext _ (fun c => o_step o * (A r c * acc c))); [|intros i _; ring]. rewrite rsum_scal. field. exact Hh.
Qed.
Lemma affine_accepted o rnd junk : o_step o <> 0 -> w_hasValue f = true -> w_hasJacobian f = true -> w_hasVelocity f = true -> w_hasNormalAcc f = true ->
  checkFunction f o rnd junk = Ok true.
Proof.
  intros Hh E1 E2 E3 E4. unfold checkFunction. rewrite E1, E2, E3, E4. cbn [andb negb]. rewrite <- default_step in Hh. set (o' := defaultOptions o) in *.
  destruct (jacobian_ f o' rnd junk Ne Eu 0) as (b1 & -> & B1). cbn [bind fst snd]. assert (b1 = true) as -> by (apply B1; split; intros; apply affine_column, Hh). cbn [negb].
  destruct (velocity_ f o' rnd Ne (0 + o_samples o')) as (b2 & k2 & ps & -> & B2 & _). cbn [bind fst snd]. assert (b2 = true) as -> by (apply B2, Forall_forall; intros; apply affine_velocity). cbn [negb].
  destruct (normal_ f o' rnd Ne Eu k2) as (b3 & k3 & qs & -> & B3 & _). cbn [bind fst]. assert (b3 = true) as -> by (apply B3, Forall_forall; intros; apply affine_normal, Hh). reflexivity.
Qed.
End Affine.

(* ---- limits ---- *)
Definition tends (g : R -> R) (l : R) : Prop := forall eps, 0 < eps -> exists d, 0 < d /\ forall h, h <> 0 -> Rabs h < d -> Rabs (g h - l) < eps.
Lemma tends_const a : tends (fun _ => a) a.
Proof. intros e He. exists 1. split; [lra|]. intros. rewrite Rminus_diag_eq by reflexivity. rewrite Rabs_R0. exact He. Qed.
Lemma tends_plus g g' l l' : tends g l -> tends g' l' -> tends (fun h => g h + g' h) (l + l').
Proof.
  intros H H' e He. destruct (H (e / 2) ltac:(lra)) as (d & D & K). destruct (H' (e / 2) ltac:(lra)) as (d' & D' & K').
  exists (Rmin d d'). split; [apply Rmin_glb_lt; assumption|]. intros h Hh L. specialize (K h Hh (Rlt_le_trans _ _ _ L (Rmin_l _ _))). specialize (K' h Hh (Rlt_le_trans _ _ _ L (Rmin_r _ _))).
  replace (g h + g' h - (l + l')) with ((g h - l) + (g' h - l')) by ring. eapply Rle_lt_trans; [apply Rabs_triang|]. lra.
Qed.
Lemma tends_scal a g l : tends g l -> tends (fun h => a * g h) (a * l).
Proof.
  intros H e He. assert (P : 0 < Rabs a + 1) by (pose proof (Rabs_pos a); lra). destruct (H (e / (Rabs a + 1))) as (d & D & K); [apply Rdiv_lt_0_compat; assumption|].
  exists d. split; [exact D|]. intros h Hh L. specialize (K h Hh L). rewrite <- Rmult_minus_distr_l, Rabs_mult. apply Rle_lt_trans with ((Rabs a + 1) * Rabs (g h - l)).
  - apply Rmult_le_compat_r; [apply Rabs_pos|lra].
  - apply Rmult_lt_compat_l with (r := Rabs a + 1) in K; [|exact P]. replace ((Rabs a + 1) * (e / (Rabs a + 1))) with e in K by (field; lra). exact K.
Qed.
Lemma tends_opp g l : tends g l -> tends (fun h => - g h) (- l).
Proof. intros H. replace (- l) with (-1 * l) by ring. intros e He. destruct (tends_scal (-1) g l H e He) as (d & D & K). exists d. split; [exact D|]. intros h Hh L. replace (- g h) with (-1 * g h) by ring. apply K; assumption. Qed.
Lemma tends_ext g g' l : (forall h, h <> 0 -> g h = g' h) -> tends g l -> tends g' l.
Proof. intros E H e He. destruct (H e He) as (d & D & K). exists d. split; [exact D|]. intros h Hh L. rewrite <- (E h Hh). apply K; assumption. Qed.
Lemma tends_minus g g' l l' : tends g l -> tends g' l' -> tends (fun h => g h - g' h) (l - l').
Proof. intros H H'. apply (tends_plus g (fun h => - g' h) l (- l') H). apply tends_opp, H'. Qed.
Lemma tends_sqr g l : tends g l -> tends (fun h => g h * g h) (l * l).
Proof.
  intros H e He. pose proof (Rabs_pos l) as P. assert (Q : 0 < 2 * Rabs l + 1) by lra. assert (Q2 : 0 < e / (2 * Rabs l + 1)) by (apply Rdiv_lt_0_compat; assumption).
  destruct (H (Rmin 1 (e / (2 * Rabs l + 1)))) as (d & D & K); [apply Rmin_glb_lt; lra|]. exists d. split; [exact D|]. intros h Hh L. specialize (K h Hh L).
  assert (K1 : Rabs (g h - l) < 1) by (eapply Rlt_le_trans; [exact K|apply Rmin_l]). assert (K2 : Rabs (g h - l) < e / (2 * Rabs l + 1)) by (eapply Rlt_le_trans; [exact K|apply Rmin_r]).
  replace (g h * g h - l * l) with ((g h - l) * (g h + l)) by ring. rewrite Rabs_mult.
  assert (B : Rabs (g h + l) <= 2 * Rabs l + 1). { replace (g h + l) with ((g h - l) + (l + l)) by ring. eapply Rle_trans; [apply Rabs_triang|]. pose proof (Rabs_triang l l). lra. }
  apply Rle_lt_trans with (Rabs (g h - l) * (2 * Rabs l + 1)); [apply Rmult_le_compat_l; [apply Rabs_pos|exact B]|].
  apply Rmult_lt_compat_r with (r := 2 * Rabs l + 1) in K2; [|exact Q]. replace (e / (2 * Rabs l + 1) * (2 * Rabs l + 1)) with e in K2 by (field; lra). exact K2.
Qed.
Lemma tends_rsum (g : R -> nat -> R) (l : nat -> R) n : (forall i, (i < n)%nat -> tends (fun h => g h i) (l i)) -> tends (fun h => rsum (g h) n) (rsum l n).
Proof. induction n as [|n IH]; intros H; [exact (tends_const 0)|]. apply (tends_plus (fun h => rsum (g h) n) (fun h => g h n)); [apply IH; intros i Hi; apply H; lia|apply H; lia]. Qed.
Lemma tends_norm2 (g : R -> vect) (l : vect) n : (forall i, (i < n)%nat -> tends (fun h => g h i) (l i)) -> tends (fun h => norm2 n (g h)) (norm2 n l).
Proof. intros H. apply (tends_rsum (fun h r => g h r * g h r) (fun r => l r * l r)). intros i Hi. apply tends_sqr, H, Hi. Qed.
Lemma Rmin_lip a b a' b' : Rabs (Rmin a b - Rmin a' b') <= Rmax (Rabs (a - a')) (Rabs (b - b')).
Proof. unfold Rmin, Rmax. repeat match goal with |- context [Rle_dec ?x ?y] => destruct (Rle_dec x y) end; unfold Rabs in *; repeat match goal with |- context [Rcase_abs ?x] => destruct (Rcase_abs x) | H : context [Rcase_abs ?x] |- _ => destruct (Rcase_abs x) end; lra. Qed.
Lemma Rmax_lip a b a' b' : Rabs (Rmax a b - Rmax a' b') <= Rmax (Rabs (a - a')) (Rabs (b - b')).
Proof. unfold Rmax. repeat match goal with |- context [Rle_dec ?x ?y] => destruct (Rle_dec x y) end; unfold Rabs in *; repeat match goal with |- context [Rcase_abs ?x] => destruct (Rcase_abs x) | H : context [Rcase_abs ?x] |- _ => destruct (Rcase_abs x) end; lra. Qed.
Lemma tends_lip (F : R -> R -> R) : (forall a b a' b', Rabs (F a b - F a' b') <= Rmax (Rabs (a - a')) (Rabs (b - b'))) ->
  forall g g' l l', tends g l -> tends g' l' -> tends (fun h => F (g h) (g' h)) (F l l').
Proof.
  intros Lip g g' l l' H H' e He. destruct (H e He) as (d & D & K). destruct (H' e He) as (d' & D' & K').
  exists (Rmin d d'). split; [apply Rmin_glb_lt; assumption|]. intros h Hh L. specialize (K h Hh (Rlt_le_trans _ _ _ L (Rmin_l _ _))). specialize (K' h Hh (Rlt_le_trans _ _ _ L (Rmin_r _ _))).
  eapply Rle_lt_trans; [apply Lip|]. unfold Rmax. destruct (Rle_dec _ _); assumption.
Qed.
Lemma tends_lt g l l' g' : tends g l -> tends g' l' -> l < l' -> exists d, 0 < d /\ forall h, h <> 0 -> Rabs h < d -> g h < g' h.
Proof.
  intros H H' L. destruct (H ((l' - l) / 2) ltac:(lra)) as (d & D & K). destruct (H' ((l' - l) / 2) ltac:(lra)) as (d' & D' & K').
  exists (Rmin d d'). split; [apply Rmin_glb_lt; assumption|]. intros h Hh Lh. specialize (K h Hh (Rlt_le_trans _ _ _ Lh (Rmin_l _ _))). specialize (K' h Hh (Rlt_le_trans _ _ _ Lh (Rmin_r _ _))).
  apply Rabs_def2 in K. apply Rabs_def2 in K'. lra.
Qed.
Lemma tends_derivable g l : derivable_pt_lim g 0 l -> tends (fun h => (g h - g 0) / h) l.
Proof. intros H e He. destruct (H e He) as (d & K). exists d. split; [apply cond_pos|]. intros h Hh L. specialize (K h Hh L). rewrite Rplus_0_l in K. exact K. Qed.

Lemma move_0 v c : move v c 0 = v.
Proof. apply functional_extensionality. intros i. unfold move. destruct (Nat.eqb i c); lra. Qed.
Lemma tends_fd f v D c r : partials f v D -> (c < width f)%nat -> (r < w_size f)%nat -> tends (fun h => fd f h v c r) (D c r).
Proof.
  intros P Hc Hr. apply (tends_ext (fun h => (w_value f (move v c h) r - w_value f (move v c 0) r) / h)); [intros h _; rewrite move_0; reflexivity|]. apply (tends_derivable (fun h => w_value f (move v c h) r)). apply P; assumption.
Qed.
Lemma tends_scaleTo f v junk D : partials f v D -> forall m, (m <= width f)%nat -> tends (fun h => scaleTo f v (Jt f v junk) (fd f h v) m) (scaleTo f v (Jt f v junk) D m).
Proof.
  intros P. induction m as [|m IH]; intros Hm; [exact (tends_const 0)|]. cbn [scaleTo]. apply (tends_lip Rmax Rmax_lip); [apply IH; lia|]. apply (tends_lip Rmin Rmin_lip); [|apply tends_const].
  apply (tends_norm2 (fun h => fd f h v m) (D m)). intros r Hr. apply tends_fd; [exact P|lia|exact Hr].
Qed.
Lemma limit_column f v D s k j c prec : partials f v D -> scale f v D s -> column f k j c ->
  (norm2 (w_size f) (minus (D c) (fun r => w_jac f k v r j)) < prec * prec * s ->
     exists d, 0 < d /\ forall o, o_prec o = prec -> o_step o <> 0 -> Rabs (o_step o) < d -> column_ok f o v c) /\
  (prec * prec * s < norm2 (w_size f) (minus (D c) (fun r => w_jac f k v r j)) ->
     exists d, 0 < d /\ forall o, o_prec o = prec -> o_step o <> 0 -> Rabs (o_step o) < d -> ~ column_ok f o v c).
Proof.
  intros P Sc C. pose (junk := fun _ _ : nat => 0). pose proof (scaleTo_scale f v junk D) as Sc'. rewrite (scale_unique f v D s _ Sc Sc').
  assert (T1 : tends (fun h => norm2 (w_size f) (minus (fd f h v c) (fun r => w_jac f k v r j))) (norm2 (w_size f) (minus (D c) (fun r => w_jac f k v r j)))).
  { apply (tends_norm2 (fun h => minus (fd f h v c) (fun r => w_jac f k v r j))). intros r Hr. unfold minus. apply tends_minus; [|apply tends_const]. apply tends_fd; [exact P|eapply column_width, C|exact Hr]. }
  pose proof (tends_scal (prec * prec) _ _ (tends_scaleTo f v junk D P (width f) (le_n _))) as T2.
  assert (Same : forall k' j' r, column f k' j' c -> w_jac f k' v r j' = w_jac f k v r j) by (intros k' j' r C'; rewrite <- (gather_column f junk v k j c r C); symmetry; apply gather_column, C').
  split; intros L.
  - destruct (tends_lt _ _ _ _ T1 T2 L) as (d & Dp & K). exists d. split; [exact Dp|]. intros o Ep Hh Lh s' k' j' Hs Hc. rewrite (scale_unique f v _ _ _ Hs (scaleTo_scale f v junk (fd f (o_step o) v))). unfold close. rewrite Ep.
    apply Rlt_le. rewrite (norm2_ext _ _ (minus (fd f (o_step o) v c) (fun r => w_jac f k v r j))); [apply K; assumption|]. intros r _. unfold minus. rewrite (Same k' j' r Hc). reflexivity.
  - destruct (tends_lt _ _ _ _ T2 T1 L) as (d & Dp & K). exists d. split; [exact Dp|]. intros o Ep Hh Lh X. specialize (X _ k j (scaleTo_scale f v junk (fd f (o_step o) v)) C). unfold close in X. rewrite Ep in X.
    specialize (K (o_step o) Hh Lh). cbv beta in K. lra.
Qed.
Lemma reached_derivable val vel acc i : derivable_pt_lim (fun t => reached val vel acc t i) 0 (vel i).
Proof.
  unfold reached. intros e He. pose proof (Rabs_pos (acc i * acc i)) as Q0. assert (Q : 0 < e / (Rabs (acc i * acc i) + 1)) by (apply Rdiv_lt_0_compat; lra). exists (mkposreal _ Q). intros h Hh L. cbn [pos] in L.
  replace ((val i + vel i * (0 + h) + 1 / 2 * (acc i * acc i) * (0 + h) * (0 + h) - (val i + vel i * 0 + 1 / 2 * (acc i * acc i) * 0 * 0)) / h - vel i) with (1 / 2 * ((acc i * acc i) * h)) by (field; exact Hh).
  rewrite Rabs_mult, Rabs_mult. rewrite (Rabs_pos_eq (1 / 2)) by lra. apply Rmult_lt_compat_l with (r := Rabs (acc i * acc i) + 1) in L; [|lra].
  replace ((Rabs (acc i * acc i) + 1) * (e / (Rabs (acc i * acc i) + 1))) with e in L by (field; lra). pose proof (Rabs_pos h) as Ph.
  assert (0 <= Rabs (acc i * acc i) * Rabs h) by (apply Rmult_le_pos; assumption). lra.
Qed.
Lemma linear_derivable a b : derivable_pt_lim (fun t => a + b * t) 0 b.
Proof. intros e He. exists (mkposreal 1 Rlt_0_1). intros h Hh _. replace ((a + b * (0 + h) - (a + b * 0)) / h - b) with 0 by (field; exact Hh). rewrite Rabs_R0. exact He. Qed.
Lemma limit_normal f val vel acc A prec : acceleration_along f val vel acc A ->
  let N := minus A (applyJ v_size f val acc) in let na := w_normalAcc f val vel in let n := w_size f in
  (norm2 n (minus na N) < prec * prec * norm2 n na -> norm2 n (minus na N) < prec * prec * norm2 n N ->
     exists d, 0 < d /\ forall o, o_prec o = prec -> o_step o <> 0 -> Rabs (o_step o) < d -> normal_ok f o val vel acc) /\
  (prec * prec * norm2 n na < norm2 n (minus na N) \/ prec * prec * norm2 n N < norm2 n (minus na N) ->
     exists d, 0 < d /\ forall o, o_prec o = prec -> o_step o <> 0 -> Rabs (o_step o) < d -> ~ normal_ok f o val vel acc).
Proof.
  intros Ac N na n. pose (F := fun (t : R) r => (w_velocity f (reached val vel acc t) (fun i => vel i + acc i * t) r - w_velocity f val vel r) / t - applyJ v_size f val acc r).
  assert (Z1 : reached val vel acc 0 = val) by (apply functional_extensionality; intros i; unfold reached; lra).
  assert (Z2 : (fun i => vel i + acc i * 0) = vel) by (apply functional_extensionality; intros i; lra).
  assert (T : forall r, (r < n)%nat -> tends (fun t => F t r) (N r)).
  { intros r Hr. unfold F, N, minus. apply tends_minus; [|apply tends_const].
    pose proof (Ac (reached val vel acc) (fun t i => vel i + acc i * t) Z1 Z2 (reached_derivable val vel acc) (fun i => linear_derivable (vel i) (acc i)) r Hr) as Dv.
    apply tends_derivable in Dv. cbv beta in Dv. rewrite Z1, Z2 in Dv. exact Dv. }
  assert (T1 : tends (fun t => norm2 n (minus na (F t))) (norm2 n (minus na N))).
  { apply (tends_norm2 (fun t => minus na (F t))). intros r Hr. unfold minus at 1. unfold minus at 1. apply tends_minus; [apply tends_const|apply T, Hr]. }
  assert (T2 : tends (fun t => prec * prec * norm2 n (F t)) (prec * prec * norm2 n N)) by (apply tends_scal, (tends_norm2 F N); exact T).
  pose proof (tends_const (prec * prec * norm2 n na)) as T3. split.
  - intros L1 L2. destruct (tends_lt _ _ _ _ T1 T3 L1) as (d & D & K). destruct (tends_lt _ _ _ _ T1 T2 L2) as (d' & D' & K'). exists (Rmin d d'). split; [apply Rmin_glb_lt; assumption|].
    intros o Ep Hh Lh. specialize (K (o_step o) Hh (Rlt_le_trans _ _ _ Lh (Rmin_l _ _))). specialize (K' (o_step o) Hh (Rlt_le_trans _ _ _ Lh (Rmin_r _ _))).
    unfold normal_ok, approx, close. rewrite Ep. fold n na. split; apply Rlt_le; assumption.
  - intros [L|L].
    + destruct (tends_lt _ _ _ _ T3 T1 L) as (d & D & K). exists d. split; [exact D|]. intros o Ep Hh Lh [X _]. specialize (K _ Hh Lh). unfold close in X. rewrite Ep in X. fold n na in X. unfold F in K. cbv beta zeta in K, X. lra.
    + destruct (tends_lt _ _ _ _ T2 T1 L) as (d & D & K). exists d. split; [exact D|]. intros o Ep Hh Lh [_ X]. specialize (K _ Hh Lh). unfold close in X. rewrite Ep in X. fold n na in X. unfold F in K. cbv beta zeta in K, X. lra.
Qed.

(* ---- what an accepted column says of the derivative ---- *)
Lemma sound_column f o v s k j c r g K : scale f v (fd f (o_step o) v) s -> column f k j c -> (r < w_size f)%nat -> column_ok f o v c -> 0 < o_step o ->
  (forall t, 0 <= t <= o_step o -> derivable_pt_lim (fun t => w_value f (move v c t) r) t (g t)) -> (forall t, 0 <= t <= o_step o -> Rabs (g t - g 0) <= K) ->
  Rabs (w_jac f k v r j - g 0) <= Rabs (o_prec o) * sqrt s + K.
Proof.
  intros Sc C Hr X Hh Dg Hg. specialize (X s k j Sc C). unfold close in X.
  assert (S0 : 0 <= s) by (destruct Sc as [S1 _]; eapply Rle_trans; [|apply (S1 k j c C)]; apply Rmin_glb; apply norm2_nonneg).
  destruct (MVT_cor2 (fun t => w_value f (move v c t) r) g 0 (o_step o) Hh Dg) as (xi & E & Hxi). cbv beta in E. rewrite move_0 in E.
  assert (Fd : fd f (o_step o) v c r = g xi) by (unfold fd; rewrite E; field; lra).
  assert (B : (fd f (o_step o) v c r - w_jac f k v r j) * (fd f (o_step o) v c r - w_jac f k v r j) <= o_prec o * o_prec o * s).
  { eapply Rle_trans; [|exact X]. apply (rsum_one (fun r => minus (fd f (o_step o) v c) (fun r => w_jac f k v r j) r * minus (fd f (o_step o) v c) (fun r => w_jac f k v r j) r) (w_size f) r); [intros i _; apply Rle_0_sqr|exact Hr]. }
  assert (B' : Rabs (fd f (o_step o) v c r - w_jac f k v r j) <= Rabs (o_prec o) * sqrt s).
  { apply Rsqr_incr_0_var; [|apply Rmult_le_pos; [apply Rabs_pos|apply sqrt_pos]]. rewrite <- Rsqr_abs, Rsqr_mult, <- Rsqr_abs, Rsqr_sqrt by exact S0. exact B. }
  replace (w_jac f k v r j - g 0) with (- (fd f (o_step o) v c r - w_jac f k v r j) + (g xi - g 0)) by (rewrite Fd; ring).
  eapply Rle_trans; [apply Rabs_triang|]. rewrite Rabs_Ropp. specialize (Hg xi ltac:(lra)). lra.
Qed.
