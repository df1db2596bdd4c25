Require Import Reals List Bool Arith Lia Lra.
Require Import Verif.ConeModel Verif.ConeProofs Verif.DfModel Verif.DfProofs Verif.CtcModel Verif.CtcSpec Verif.CtcProofs Verif.FrModel Verif.FrSpec.
Import ListNotations.
Local Open Scope R_scope.

Lemma position_place X b x : place (framePosition X b) x = place (b_pos b) (place X x).
Proof. apply place_pmul. Qed.
Lemma derives_ext f g t d : (forall t, f t = g t) -> derives f t d -> derives g t d.
Proof.
  intros H (A & B & C). unfold derives in *. split; [|split]; intros eps He.
  - destruct (A eps He) as [dl K]. exists dl. intros h h0 hd. rewrite <- !H. apply K; assumption.
  - destruct (B eps He) as [dl K]. exists dl. intros h h0 hd. rewrite <- !H. apply K; assumption.
  - destruct (C eps He) as [dl K]. exists dl. intros h h0 hd. rewrite <- !H. apply K; assumption.
Qed.
Lemma derives_unique f t d d' : derives f t d -> derives f t d' -> d = d'.
Proof. intros (A & B & C) (A' & B' & C'). apply v3_eq; eapply uniqueness_limite; eauto. Qed.

(* a frame fixed on a moving body: its origin moves rigidly *)
Lemma fixed_frame (b : R -> body) t w v X : moving (fun t => b_pos (b t)) t w v ->
  moving (fun t => framePosition X (b t)) t w (rigid w v (tmul (p_rot (b_pos (b t))) (p_tr X))).
Proof.
  intros M x. eapply derives_ext; [intros s; symmetry; apply position_place|]. specialize (M (place X x)). 
  match type of M with derives _ _ ?a => match goal with |- derives _ _ ?b => assert (E : b = a); [|rewrite E; exact M] end end.
  rewrite !place_tmul. unfold framePosition. cbn [p_rot p_tr pmul]. rewrite tmul_mmul, tmul_plus. unfold rigid. cbn. f_equal; ring.
Qed.
Lemma moving_origin X t w v : moving X t w v -> derives (fun t => p_tr (X t)) t v.
Proof.
  intros M. specialize (M (mkV3 0 0 0)). assert (P : forall s, place (X s) (mkV3 0 0 0) = p_tr (X s)) by (intros s; rewrite place_tmul; apply v3_eq; cbn; ring).
  apply (derives_ext _ (fun s => p_tr (X s))) in M; [|exact P]. rewrite P in M. match type of M with derives _ _ ?a => assert (E : a = v) end.
  { unfold rigid. cbn. apply v3_eq; cbn; ring. } rewrite E in M. exact M.
Qed.
Lemma place_still x : place still x = x.
Proof. unfold place, still. apply v3_eq; cbn; ring. Qed.
Lemma pmul_still Y : pmul still Y = Y.
Proof. destruct Y as [[[a b c] [d e f] [g h i]] [x y z]]. unfold pmul, still, mmul, tmul, vplus, vscale. cbn. f_equal; [f_equal; f_equal; ring|f_equal; ring]. Qed.
Lemma pmotion_still m : pmotion still m = m.
Proof. destruct m as [[a b c] [d e f]]. unfold pmotion, still, mapply, dot3, cross3, vminus, vplus, vopp. cbn. f_equal; f_equal; ring. Qed.
Lemma frameJacobian_zero E b j : frameJacobian (mkPT E (mkV3 0 0 0)) b j = b_jac b j.
Proof.
  unfold frameJacobian. destruct (b_jac b j) as [[a a' a''] [c d e]]. cbn. unfold vplus, vopp, hatMul. cbn. f_equal. f_equal; ring.
Qed.
Lemma weighted_ext n q J J' : (forall j, J j = J' j) -> weighted n q J = weighted n q J'.
Proof. intros H. induction n as [|n IH]; [reflexivity|]. cbn. rewrite IH, H. reflexivity. Qed.
(* the Jacobian in general *)
Lemma weighted_jacobian n q X b : weighted n q (frameJacobian X b) =
  let m := weighted n q (b_jac b) in (fst m, vminus (snd m) (cross3 (tmul (p_rot (b_pos b)) (p_tr X)) (snd m))).
Proof.
  cbv zeta. induction n as [|n IH]; [unfold vminus, vplus, vopp, cross3; cbn; f_equal; f_equal; ring|]. cbn [weighted]. rewrite IH. cbn [fst snd frameJacobian].
  set (h := tmul _ _). unfold vminus, vplus, vopp, cross3, hatMul. cbn. f_equal; f_equal; ring.
Qed.
Lemma vminus_eq a b c : vminus a b = vplus a c <-> vopp b = c.
Proof. unfold vminus. split; [apply vplus_cancel|intros ->; reflexivity]. Qed.

Lemma rigid_cross w v x : rigid w v x = vplus v (cross3 w x).
Proof. reflexivity. Qed.
Lemma jacobian_iff n q X b w v : weighted n q (b_jac b) = (w, v) ->
  weighted n q (frameJacobian X b) = (w, rigid w v (tmul (p_rot (b_pos b)) (p_tr X))) <->
  cross3 (tmul (p_rot (b_pos b)) (p_tr X)) v = cross3 (tmul (p_rot (b_pos b)) (p_tr X)) w.
Proof.
  intros H. rewrite weighted_jacobian, H. cbn [fst snd]. set (h := tmul _ _). rewrite rigid_cross.
  assert (N : cross3 w h = vopp (cross3 h w)) by (apply v3_eq; cbn; ring). rewrite N. split.
  - intros K. injection K as K1 K2 K3. apply v3_eq; cbn in *; lra.
  - intros K. rewrite K. reflexivity.
Qed.
Lemma velocity_iff X b w v : b_vel b = (w, v) ->
  frameVelocity X b = (w, rigid w v (tmul (p_rot (b_pos b)) (p_tr X))) <->
  mapply (p_rot X) w = w /\ mapply (p_rot X) (rigid w v (p_tr X)) = rigid w v (tmul (p_rot (b_pos b)) (p_tr X)).
Proof.
  intros H. unfold frameVelocity, pmotion. rewrite H. cbn [fst snd].
  assert (E : vminus v (cross3 (p_tr X) w) = rigid w v (p_tr X)) by (unfold rigid; apply v3_eq; cbn; ring). rewrite E. split.
  - intros K. apply (f_equal (fun m => (fst m, snd m))) in K. cbn [fst snd] in K. split; [exact (f_equal fst K)|exact (f_equal snd K)].
  - intros [-> ->]. reflexivity.
Qed.

Lemma moving_ext X Y t w v : (forall s, X s = Y s) -> moving X t w v -> moving Y t w v.
Proof. intros H M x. rewrite <- H. apply (derives_ext (fun s => place (X s) x)); [intros s; rewrite H; reflexivity|apply M]. Qed.
(* with the frame of the body *)
Lemma identity_all n q b t w v : moving (fun t => b_pos (b t)) t w v -> b_vel (b t) = (w, v) -> weighted n q (b_jac (b t)) = (w, v) ->
  (forall s, framePosition still (b s) = b_pos (b s)) /\ frameVelocity still (b t) = (w, v) /\ weighted n q (frameJacobian still (b t)) = (w, v) /\
  moving (fun t => framePosition still (b t)) t w v /\ frameNormalAcceleration still (b t) = b_nacc (b t).
Proof.
  intros M V J. split; [intros s; apply pmul_still|]. split; [unfold frameVelocity; rewrite pmotion_still; exact V|]. split.
  - rewrite (weighted_ext _ _ _ (b_jac (b t))); [exact J|]. intros j. unfold still. apply frameJacobian_zero.
  - split; [|unfold frameNormalAcceleration; apply pmotion_still]. apply (moving_ext (fun s => b_pos (b s))); [intros s; symmetry; apply pmul_still|exact M].
Qed.
(* a turned frame at the origin of the body: the Jacobian is right *)
Lemma jacobian_zero n q E b w v : weighted n q (b_jac b) = (w, v) -> weighted n q (frameJacobian (mkPT E (mkV3 0 0 0)) b) = (w, v).
Proof. intros H. rewrite (weighted_ext _ _ _ (b_jac b)); [exact H|]. intros j. apply frameJacobian_zero. Qed.

(* ---- PositionFunction ---- *)
Lemma pf_value X b ops : q_value (pfrun X (newPf X b) ops) = target X (place (b_pos b) (p_tr X)) (place (b_pos b) (p_tr X)) None ops.
Proof.
  assert (P : forall b, p_tr (framePosition X b) = place (b_pos b) (p_tr X)) by (intros c; rewrite place_tmul; reflexivity).
  assert (G : forall s, q_value (pfrun X s ops) = target X (place (b_pos (q_body s)) (p_tr X)) (q_target s) (q_value s) ops).
  { induction ops as [|o ops IH]; intros s; [reflexivity|]. change (pfrun X s (o :: ops)) with (pfrun X (pfstep X s o) ops). rewrite IH. destruct o as [|x|c]; cbn [pfstep q_body q_target q_value target].
    - rewrite P. reflexivity.
    - reflexivity.
    - rewrite P. reflexivity. }
  rewrite G. unfold newPf. cbn [q_body q_target q_value]. rewrite P. reflexivity.
Qed.

(* ---- GeometricContactFunction ---- *)
Section Geo.
Variable terr : ptr -> ptr -> nat -> R.
Definition relative (s1 s2 : side) (b : body * body) : ptr := pmul (framePosition (e_x s2) (snd b)) (pinv (framePosition (e_x s1) (fst b))).
Lemma geo_init dof s1 s2 i bs b : geoValues terr dof s1 s2 (Some i) None (bs ++ [b]) = Some (dofMul dof (terr (relative s1 s2 b) i)).
Proof.
  assert (G : forall bs v, geoValues terr dof s1 s2 (Some i) v (bs ++ [b]) = Some (dofMul dof (terr (relative s1 s2 b) i))).
  { induction bs0 as [|[c1 c2] bs0 IH]; intros v; [destruct b; reflexivity|]. cbn. apply IH. } apply G.
Qed.
Lemma geo_first dof s1 s2 b : geoValues terr dof s1 s2 None None [b] = Some (dofMul dof (terr (relative s1 s2 b) (relative s1 s2 b))).
Proof. destruct b. reflexivity. Qed.
Lemma geo_later dof s1 s2 b0 bs b : geoValues terr dof s1 s2 None None (b0 :: bs ++ [b]) = Some (dofMul dof (terr (relative s1 s2 b) (relative s1 s2 b0))).
Proof.
  destruct b0 as [b1 b2]. cbn [geoValues geoValue]. change (pmul (framePosition (e_x s2) b2) (pinv (framePosition (e_x s1) b1))) with (relative s1 s2 (b1, b2)).
  generalize (Some (dofMul dof (terr (relative s1 s2 (b1, b2)) (relative s1 s2 (b1, b2))))). generalize (relative s1 s2 (b1, b2)). intros i.
  induction bs as [|[c1 c2] bs IH]; intros v; [destruct b; reflexivity|]. cbn. apply IH.
Qed.
End Geo.
Lemma dofMul_weighted dof n q J r : dofMul dof (six (weighted n q J)) r = sumR n (fun j => q j * dofMul dof (six (J j)) r).
Proof.
  induction n as [|n IH]; [unfold dofMul; cbn; ring|]. cbn [sumR]. rewrite <- IH. unfold dofMul. cbn. ring.
Qed.
Lemma sumR_neg n f : sumR n (fun j => f j * -1) = - sumR n f.
Proof. induction n as [|n IH]; cbn; [ring|]. rewrite IH. ring. Qed.
Lemma sumR_ext' n f g : (forall j, (j < n)%nat -> f j = g j) -> sumR n f = sumR n g.
Proof. induction n as [|n IH]; intros H; [reflexivity|]. cbn. rewrite IH, H by auto with arith. reflexivity. Qed.
Lemma geo_jacobian dof s1 s2 b1 b2 nd q r : e_robot s1 <> e_robot s2 -> nd (e_robot s1) = e_dof s1 -> nd (e_robot s2) = e_dof s2 ->
  weighted (e_dof s1) (q (e_robot s1)) (frameJacobian (e_x s1) b1) = frameVelocity (e_x s1) b1 ->
  weighted (e_dof s2) (q (e_robot s2)) (frameJacobian (e_x s2) b2) = frameVelocity (e_x s2) b2 ->
  jacobianTimes nd q r (geoJacobian dof s1 s2 b1 b2) = geoVelocity dof s1 s2 b1 b2 r.
Proof.
  intros N D1 D2 H1 H2. unfold geoVelocity, geoSub, geoJacobian. rewrite <- H1, <- H2, !dofMul_weighted.
  assert (E1 : sumR (e_dof s1) (fun j => dofMul dof (six (frameJacobian (e_x s1) b1 j)) r * q (e_robot s1) j) = sumR (e_dof s1) (fun j => q (e_robot s1) j * dofMul dof (six (frameJacobian (e_x s1) b1 j)) r)) by (apply sumR_ext'; intros; ring).
  assert (E2 : sumR (e_dof s2) (fun j => dofMul dof (six (frameJacobian (e_x s2) b2 j)) r * -1 * q (e_robot s2) j) = - sumR (e_dof s2) (fun j => q (e_robot s2) j * dofMul dof (six (frameJacobian (e_x s2) b2 j)) r)) by (rewrite <- sumR_neg; apply sumR_ext'; intros; ring).
  assert (F : negb (e_robot s1 =? e_robot s2)%nat = true) by (apply Nat.eqb_neq in N; rewrite N; reflexivity).
  destruct (has s1), (has s2); unfold put; cbn [filter fst jacobianTimes]; rewrite ?F; cbn [jacobianTimes]; rewrite ?D1, ?D2, ?E1, ?E2; ring.
Qed.

Lemma geo_same dof s1 s2 b1 b2 nd q r : e_robot s1 = e_robot s2 -> e_dof s1 = e_dof s2 -> (0 < e_dof s1)%nat -> nd (e_robot s2) = e_dof s2 ->
  weighted (e_dof s2) (q (e_robot s2)) (frameJacobian (e_x s2) b2) = frameVelocity (e_x s2) b2 ->
  jacobianTimes nd q r (geoJacobian dof s1 s2 b1 b2) = geoVelocity dof s1 s2 b1 b2 r - dofMul dof (six (frameVelocity (e_x s1) b1)) r.
Proof.
  intros N E P D2 H2. unfold geoVelocity, geoSub, geoJacobian. rewrite <- H2, !dofMul_weighted.
  assert (E2 : sumR (e_dof s2) (fun j => dofMul dof (six (frameJacobian (e_x s2) b2 j)) r * -1 * q (e_robot s2) j) = - sumR (e_dof s2) (fun j => q (e_robot s2) j * dofMul dof (six (frameJacobian (e_x s2) b2 j)) r)) by (rewrite <- sumR_neg; apply sumR_ext'; intros; ring).
  assert (h1 : has s1 = true) by (apply Nat.ltb_lt; exact P). assert (h2 : has s2 = true) by (apply Nat.ltb_lt; rewrite <- E; exact P). rewrite h1, h2.
  unfold put; cbn [filter fst]; rewrite N, Nat.eqb_refl; cbn [negb jacobianTimes]. rewrite D2, E2. ring.
Qed.
Lemma geo_value terr dof s1 s2 b0 bs : orthonormal (p_rot (e_x s1)) -> Forall (fun b => orthonormal (p_rot (b_pos (fst b)))) (b0 :: bs) ->
  let b := last bs b0 in
  exists X0 X, (forall x, place (framePosition (e_x s1) (fst b0)) (place X0 x) = place (framePosition (e_x s2) (snd b0)) x) /\
    (forall x, place (framePosition (e_x s1) (fst b)) (place X x) = place (framePosition (e_x s2) (snd b)) x) /\
    geoValues terr dof s1 s2 None None (b0 :: bs) = Some (dofMul dof (terr X X0)).
Proof.
  intros O F b. exists (relative s1 s2 b0), (relative s1 s2 b).
  assert (R : forall c, orthonormal (p_rot (b_pos (fst c))) -> forall x, place (framePosition (e_x s1) (fst c)) (place (relative s1 s2 c) x) = place (framePosition (e_x s2) (snd c)) x).
  { intros c Oc x. unfold relative. rewrite place_pmul. apply place_pinv. unfold framePosition. cbn [p_rot pmul]. apply orth_mmul; assumption. }
  split; [apply R; inversion F; assumption|]. split.
  - apply R. rewrite Forall_forall in F. apply F. destruct bs as [|c bs] using rev_ind; [left; reflexivity|]. right. unfold b. rewrite last_last. apply in_or_app. right. left. reflexivity.
  - destruct bs as [|c bs] using rev_ind; [apply geo_first|]. unfold b. rewrite last_last. apply geo_later.
Qed.

(* ---- the chosen rows ---- *)
Lemma dofMul_chosen dof x r : dofMul dof x r = chosen dof x r.
Proof. unfold dofMul, chosen. cbn. ring. Qed.
Lemma geo_value' terr dof s1 s2 b0 bs : orthonormal (p_rot (e_x s1)) -> Forall (fun b => orthonormal (p_rot (b_pos (fst b)))) (b0 :: bs) ->
  let b := last bs b0 in
  exists X0 X v, (forall x, place (framePosition (e_x s1) (fst b0)) (place X0 x) = place (framePosition (e_x s2) (snd b0)) x) /\
    (forall x, place (framePosition (e_x s1) (fst b)) (place X x) = place (framePosition (e_x s2) (snd b)) x) /\
    geoValues terr dof s1 s2 None None (b0 :: bs) = Some v /\ forall r, v r = chosen dof (terr X X0) r.
Proof.
  intros O F b. destruct (geo_value terr dof s1 s2 b0 bs O F) as (X0 & X & A & B & C). exists X0, X, (dofMul dof (terr X X0)).
  split; [exact A|]. split; [exact B|]. split; [exact C|]. apply dofMul_chosen.
Qed.
Lemma geo_motion dof s1 s2 m1 m2 r : geoSub dof s1 s2 m1 m2 r = relativeMotion dof (e_dof s1) (e_dof s2) (fst m1) (snd m1) (fst m2) (snd m2) r.
Proof.
  unfold geoSub, relativeMotion, has. rewrite !dofMul_chosen. unfold chosen. cbn [six comp Nat.ltb Nat.leb Nat.sub].
  destruct (e_dof s1), (e_dof s2); cbn; ring.
Qed.
Lemma geo_same' dof s1 s2 b1 b2 nd q r : e_robot s1 = e_robot s2 -> e_dof s1 = e_dof s2 -> (0 < e_dof s1)%nat -> nd (e_robot s2) = e_dof s2 ->
  weighted (e_dof s2) (q (e_robot s2)) (frameJacobian (e_x s2) b2) = frameVelocity (e_x s2) b2 ->
  jacobianTimes nd q r (geoJacobian dof s1 s2 b1 b2) = geoVelocity dof s1 s2 b1 b2 r - chosen dof (six (frameVelocity (e_x s1) b1)) r.
Proof. intros. rewrite <- dofMul_chosen. apply geo_same; assumption. Qed.
