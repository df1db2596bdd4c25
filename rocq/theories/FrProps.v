(* C59: frames of a robot, and the functions on them. *)
Require Import Reals List Bool Arith Lia Lra.
Require Import Verif.ConeModel Verif.DfModel Verif.CtcModel Verif.CtcSpec Verif.FrModel Verif.FrSpec Verif.FrProofs.
Import ListNotations.
Local Open Scope R_scope.

(* The position is the one of the frame on the body, *)
Theorem C59_position : forall (X : ptr) (b : body) (x : v3), place (framePosition X b) x = place (b_pos b) (place X x).
Proof. exact position_place. Qed.
Print Assumptions C59_position.
(* so that, if the body has the angular velocity w and the velocity v, the frame has the angular velocity w and the
   velocity v + w x (its position on the body). *)
Theorem C59_motion : forall (b : R -> body) (t : R) (w v : v3) (X : ptr), moving (fun t => b_pos (b t)) t w v ->
  moving (fun t => framePosition X (b t)) t w (rigid w v (tmul (p_rot (b_pos (b t))) (p_tr X))).
Proof. exact fixed_frame. Qed.
Print Assumptions C59_motion.

(* For the frame of the body itself the velocity, and the Jacobian times the velocity of the joints, are the velocity of
   the frame. *)
Theorem C59_velocity_partial : forall (n : nat) (q : nat -> R) (b : R -> body) (t : R) (w v : v3),
  moving (fun t => b_pos (b t)) t w v -> b_vel (b t) = (w, v) -> weighted n q (b_jac (b t)) = (w, v) ->
  (forall s, framePosition still (b s) = b_pos (b s)) /\ frameVelocity still (b t) = (w, v) /\ weighted n q (frameJacobian still (b t)) = (w, v) /\
  moving (fun t => framePosition still (b t)) t w v /\ frameNormalAcceleration still (b t) = b_nacc (b t).
Proof. exact identity_all. Qed.
Print Assumptions C59_velocity_partial.
(* The Jacobian is also right for a frame which is turned on the body. *)
Theorem C59_jacobian_partial : forall (n : nat) (q : nat -> R) (E : m3) (b : body) (w v : v3),
  weighted n q (b_jac b) = (w, v) -> weighted n q (frameJacobian (mkPT E (mkV3 0 0 0)) b) = (w, v).
Proof. exact jacobian_zero. Qed.
Print Assumptions C59_jacobian_partial.
(* Exactly when they are right: *)
Theorem C59_jacobian_exact : forall (n : nat) (q : nat -> R) (X : ptr) (b : body) (w v : v3), weighted n q (b_jac b) = (w, v) ->
  weighted n q (frameJacobian X b) = (w, rigid w v (tmul (p_rot (b_pos b)) (p_tr X))) <->
  cross3 (tmul (p_rot (b_pos b)) (p_tr X)) v = cross3 (tmul (p_rot (b_pos b)) (p_tr X)) w.
Proof. exact jacobian_iff. Qed.
Print Assumptions C59_jacobian_exact.
Theorem C59_velocity_exact : forall (X : ptr) (b : body) (w v : v3), b_vel b = (w, v) ->
  frameVelocity X b = (w, rigid w v (tmul (p_rot (b_pos b)) (p_tr X))) <->
  mapply (p_rot X) w = w /\ mapply (p_rot X) (rigid w v (p_tr X)) = rigid w v (tmul (p_rot (b_pos b)) (p_tr X)).
Proof. exact velocity_iff. Qed.
Print Assumptions C59_velocity_exact.

(* ---- PositionFunction ---- *)
(* The value is the position of the frame minus the target, after any calls. *)
Theorem C59_position_value : forall (X : ptr) (b : body) (ops : list pfop),
  q_value (pfrun X (newPf X b) ops) = target X (place (b_pos b) (p_tr X)) (place (b_pos b) (p_tr X)) None ops.
Proof. exact pf_value. Qed.
Print Assumptions C59_position_value.
(* For the frame of a body, the velocity is its derivative and the Jacobian times the velocity of the joints is the same. *)
Theorem C59_position_velocity_partial : forall (n : nat) (q : nat -> R) (b : R -> body) (t : R) (w v : v3),
  moving (fun t => b_pos (b t)) t w v -> b_vel (b t) = (w, v) -> weighted n q (b_jac (b t)) = (w, v) ->
  derives (fun s => p_tr (framePosition still (b s))) t (pfVelocity still (b t)) /\
  snd (weighted n q (fun j => (mkV3 0 0 0, pfJacobian still (b t) j))) = pfVelocity still (b t).
Proof.
  intros n q b t w v M V J. destruct (identity_all n q b t w v M V J) as (_ & A & B & C & _). unfold pfVelocity. rewrite A. cbn [snd]. split.
  - apply (moving_origin (fun s => framePosition still (b s)) t w v C).
  - replace v with (snd (weighted n q (frameJacobian still (b t)))) by (rewrite B; reflexivity). clear. unfold pfJacobian. induction n as [|n IH]; [reflexivity|]. cbn [weighted snd]. rewrite IH. reflexivity.
Qed.
Print Assumptions C59_position_velocity_partial.

(* ---- GeometricContactFunction ---- *)
(* The value compares the relative position of the frames with the one of the first update. *)
Theorem C59_contact_value : forall (terr : ptr -> ptr -> nat -> R) (dof : nat -> nat -> R) (s1 s2 : side) (b0 : body * body) (bs : list (body * body)),
  orthonormal (p_rot (e_x s1)) -> Forall (fun b => orthonormal (p_rot (b_pos (fst b)))) (b0 :: bs) ->
  let b := last bs b0 in
  exists X0 X v, (forall x, place (framePosition (e_x s1) (fst b0)) (place X0 x) = place (framePosition (e_x s2) (snd b0)) x) /\
    (forall x, place (framePosition (e_x s1) (fst b)) (place X x) = place (framePosition (e_x s2) (snd b)) x) /\
    geoValues terr dof s1 s2 None None (b0 :: bs) = Some v /\ forall r, v r = chosen dof (terr X X0) r.
Proof. exact geo_value'. Qed.
Print Assumptions C59_contact_value.
(* The velocity and the normal acceleration are the differences of those of the frames. *)
Theorem C59_contact_motion : forall (dof : nat -> nat -> R) (s1 s2 : side) (b1 b2 : body) (r : nat),
  (forall w1 v1 w2 v2, frameVelocity (e_x s1) b1 = (w1, v1) -> frameVelocity (e_x s2) b2 = (w2, v2) ->
    geoVelocity dof s1 s2 b1 b2 r = relativeMotion dof (e_dof s1) (e_dof s2) w1 v1 w2 v2 r) /\
  (forall w1 v1 w2 v2, frameNormalAcceleration (e_x s1) b1 = (w1, v1) -> frameNormalAcceleration (e_x s2) b2 = (w2, v2) ->
    geoNormalAcceleration dof s1 s2 b1 b2 r = relativeMotion dof (e_dof s1) (e_dof s2) w1 v1 w2 v2 r).
Proof. intros. split; intros w1 v1 w2 v2 E1 E2; [unfold geoVelocity|unfold geoNormalAcceleration]; rewrite geo_motion, E1, E2; reflexivity. Qed.
Print Assumptions C59_contact_motion.
(* The Jacobian times the velocities of the joints is the velocity, if this is so for the frames and the robots differ; *)
Theorem C59_contact_jacobian_partial : forall (dof : nat -> nat -> R) (s1 s2 : side) (b1 b2 : body) (nd : nat -> nat) (q : nat -> nat -> R) (r : nat),
  e_robot s1 <> e_robot s2 -> nd (e_robot s1) = e_dof s1 -> nd (e_robot s2) = e_dof s2 ->
  weighted (e_dof s1) (q (e_robot s1)) (frameJacobian (e_x s1) b1) = frameVelocity (e_x s1) b1 ->
  weighted (e_dof s2) (q (e_robot s2)) (frameJacobian (e_x s2) b2) = frameVelocity (e_x s2) b2 ->
  jacobianTimes nd q r (geoJacobian dof s1 s2 b1 b2) = geoVelocity dof s1 s2 b1 b2 r.
Proof. exact geo_jacobian. Qed.
Print Assumptions C59_contact_jacobian_partial.
(* for two frames of the same robot the first one is lost. *)
Theorem C59_contact_same_robot : forall (dof : nat -> nat -> R) (s1 s2 : side) (b1 b2 : body) (nd : nat -> nat) (q : nat -> nat -> R) (r : nat),
  e_robot s1 = e_robot s2 -> e_dof s1 = e_dof s2 -> (0 < e_dof s1)%nat -> nd (e_robot s2) = e_dof s2 ->
  weighted (e_dof s2) (q (e_robot s2)) (frameJacobian (e_x s2) b2) = frameVelocity (e_x s2) b2 ->
  jacobianTimes nd q r (geoJacobian dof s1 s2 b1 b2) = geoVelocity dof s1 s2 b1 b2 r - chosen dof (six (frameVelocity (e_x s1) b1)) r.
Proof. exact geo_same'. Qed.
Print Assumptions C59_contact_same_robot.

(* ---- a concrete case: a body that turns around the vertical axis, with one joint of velocity 1 ---- *)
Definition spin (t : R) : body :=
  mkBody (mkPT (mkM3 (mkV3 (cos t) (sin t) 0) (mkV3 (- sin t) (cos t) 0) (mkV3 0 0 1)) (mkV3 0 0 0)) (mkV3 0 0 1, mkV3 0 0 0) (mkV3 0 0 0, mkV3 0 0 0) (fun _ => (mkV3 0 0 1, mkV3 0 0 0)).
Definition one (j : nat) : R := 1.
Definition arm : ptr := mkPT (mkM3 (mkV3 1 0 0) (mkV3 0 1 0) (mkV3 0 0 1)) (mkV3 1 0 0).
Definition lying : ptr := mkPT (mkM3 (mkV3 1 0 0) (mkV3 0 0 1) (mkV3 0 (-1) 0)) (mkV3 0 0 0).
Lemma lin_trig x y t : derivable_pt_lim (fun s => x * cos s + y * sin s) t (- (x * sin t) + y * cos t).
Proof.
  replace (- (x * sin t) + y * cos t) with (x * - sin t + y * cos t) by ring.
  apply (derivable_pt_lim_plus (fun s => x * cos s) (fun s => y * sin s)); [apply (derivable_pt_lim_scal cos x t (- sin t)), derivable_pt_lim_cos|apply (derivable_pt_lim_scal sin y t (cos t)), derivable_pt_lim_sin].
Qed.
Lemma lim_ext f g t l : (forall s, f s = g s) -> derivable_pt_lim f t l -> derivable_pt_lim g t l.
Proof. intros H D eps He. destruct (D eps He) as [dl K]. exists dl. intros h h0 hd. rewrite <- !H. apply K; assumption. Qed.
Example spin_moves : forall t, moving (fun t => b_pos (spin t)) t (mkV3 0 0 1) (mkV3 0 0 0) /\ b_vel (spin t) = (mkV3 0 0 1, mkV3 0 0 0) /\
  weighted 1 one (b_jac (spin t)) = (mkV3 0 0 1, mkV3 0 0 0).
Proof.
  intros t. split; [|split; [reflexivity|unfold one; cbn; f_equal; f_equal; ring]]. intros [x y z]. unfold derives. cbn. split; [|split].
  - apply (lim_ext (fun s => x * cos s + (- y) * sin s)); [intros s; ring|]. pose proof (lin_trig x (- y) t) as L. match type of L with derivable_pt_lim _ _ ?a => match goal with |- derivable_pt_lim _ _ ?b => replace b with a by ring end end. exact L.
  - apply (lim_ext (fun s => y * cos s + x * sin s)); [intros s; ring|]. pose proof (lin_trig y x t) as L. match type of L with derivable_pt_lim _ _ ?a => match goal with |- derivable_pt_lim _ _ ?b => replace b with a by ring end end. exact L.
  - apply (lim_ext (fun s => z)); [intros s; ring|]. match goal with |- derivable_pt_lim _ _ ?b => replace b with 0 by ring end. apply derivable_pt_lim_const.
Qed.
(* the origin of the frame at the end of the arm *)
Lemma arm_origin t : derives (fun s => p_tr (framePosition arm (spin s))) t (mkV3 (- sin t) (cos t) 0).
Proof.
  destruct (spin_moves t) as (M & _). pose proof (moving_origin _ _ _ _ (fixed_frame spin t _ _ arm M)) as D.
  match type of D with derives _ _ ?a => assert (E : a = mkV3 (- sin t) (cos t) 0) by (apply ConeProofs.v3_eq; cbn; ring) end. rewrite E in D. exact D.
Qed.
(* The Jacobian gives no velocity to the end of the arm, *)
Theorem C59_jacobian_refuted : exists (b : R -> body) (X : ptr) (q : nat -> R) (w v : v3),
  (forall t, moving (fun t => b_pos (b t)) t w v /\ b_vel (b t) = (w, v) /\ weighted 1 q (b_jac (b t)) = (w, v)) /\
  forall t, ~ derives (fun s => p_tr (framePosition X (b s))) t (snd (weighted 1 q (frameJacobian X (b t)))).
Proof.
  exists spin, arm, one, (mkV3 0 0 1), (mkV3 0 0 0). split; [exact spin_moves|]. intros t D. pose proof (derives_unique _ _ _ _ D (arm_origin t)) as E.
  pose proof (f_equal vx E) as E1. pose proof (f_equal vy E) as E2. cbn in E1, E2. unfold one in E1, E2. pose proof (sin2_cos2 t) as S. unfold Rsqr in S.
  assert (sin t = 0) by lra. assert (cos t = 0) by lra. rewrite H, H0 in S. lra.
Qed.
Print Assumptions C59_jacobian_refuted.
(* the velocity is the one at the time 0 for ever, *)
Theorem C59_velocity_refuted : exists (b : R -> body) (X : ptr) (t : R) (w v : v3),
  moving (fun t => b_pos (b t)) t w v /\ b_vel (b t) = (w, v) /\ ~ derives (fun s => p_tr (framePosition X (b s))) t (snd (frameVelocity X (b t))).
Proof.
  exists spin, arm, (PI / 2), (mkV3 0 0 1), (mkV3 0 0 0). destruct (spin_moves (PI / 2)) as (M & V & _). split; [exact M|]. split; [exact V|]. intros D.
  pose proof (derives_unique _ _ _ _ D (arm_origin (PI / 2))) as E. apply (f_equal vx) in E. cbn in E. repeat (unfold dot3 in E; cbn in E). rewrite sin_PI2 in E. lra.
Qed.
Print Assumptions C59_velocity_refuted.
(* the angular velocity of a turned frame is wrong, *)
Theorem C59_angular_refuted : exists (b : R -> body) (X : ptr), p_tr X = mkV3 0 0 0 /\ orthonormal (p_rot X) /\
  forall t, moving (fun t => framePosition X (b t)) t (mkV3 0 0 1) (mkV3 0 0 0) /\ b_vel (b t) = (mkV3 0 0 1, mkV3 0 0 0) /\ fst (frameVelocity X (b t)) = mkV3 0 1 0.
Proof.
  exists spin, lying. split; [reflexivity|]. split; [intros [x y z]; unfold place, coordinates; cbn; split; f_equal; ring|]. intros t. destruct (spin_moves t) as (M & V & _). split; [|split; [exact V|]].
  - pose proof (fixed_frame spin t _ _ lying M) as D. match type of D with moving _ _ _ ?a => assert (E : a = mkV3 0 0 0) by (apply ConeProofs.v3_eq; cbn; ring) end. rewrite E in D. exact D.
  - apply ConeProofs.v3_eq; cbn; unfold dot3; cbn; ring.
Qed.
Print Assumptions C59_angular_refuted.
(* and the normal acceleration misses the centripetal acceleration. *)
Theorem C59_normal_acceleration_refuted : exists (b : R -> body) (X : ptr) (v a : R -> v3),
  (forall t, b_nacc (b t) = (mkV3 0 0 0, mkV3 0 0 0) /\ moving (fun t => b_pos (b t)) t (mkV3 0 0 1) (mkV3 0 0 0)) /\
  (forall t, derives (fun s => p_tr (framePosition X (b s))) t (v t)) /\ (forall t, derives v t (a t)) /\
  snd (frameNormalAcceleration X (b 0)) = mkV3 0 0 0 /\ a 0 <> mkV3 0 0 0.
Proof.
  exists spin, arm, (fun t => mkV3 (- sin t) (cos t) 0), (fun t => mkV3 (- cos t) (- sin t) 0). split; [intros t; split; [reflexivity|apply spin_moves]|]. split; [exact arm_origin|]. split; [|split].
  - intros t. unfold derives. cbn. split; [|split].
    + apply (lim_ext (fun s => 0 * cos s + (-1) * sin s)); [intros; ring|]. replace (- cos t) with (- (0 * sin t) + (-1) * cos t) by ring. apply lin_trig.
    + apply derivable_pt_lim_cos.
    + apply derivable_pt_lim_const.
  - apply ConeProofs.v3_eq; cbn; unfold dot3; cbn; ring.
  - rewrite cos_0. intros H. apply (f_equal vx) in H. cbn in H. lra.
Qed.
Print Assumptions C59_normal_acceleration_refuted.
(* Two frames of one robot: the Jacobian of the contact is wrong. *)
Theorem C59_same_robot_refuted : exists (dof : nat -> nat -> R) (s1 s2 : side) (b1 b2 : body) (q : nat -> nat -> R),
  e_robot s1 = e_robot s2 /\ weighted 1 (q (e_robot s1)) (frameJacobian (e_x s1) b1) = frameVelocity (e_x s1) b1 /\
  weighted 1 (q (e_robot s2)) (frameJacobian (e_x s2) b2) = frameVelocity (e_x s2) b2 /\
  jacobianTimes (fun _ => 1%nat) q 2 (geoJacobian dof s1 s2 b1 b2) <> geoVelocity dof s1 s2 b1 b2 2.
Proof.
  exists (fun r k => if Nat.eqb r k then 1 else 0), (mkSide 1 1 still), (mkSide 1 1 still), (spin 0), (spin 0), (fun _ => one). cbn [e_robot e_x].
  assert (W : weighted 1 one (frameJacobian still (spin 0)) = frameVelocity still (spin 0)).
  { destruct (spin_moves 0) as (M & V & J). destruct (identity_all 1 one spin 0 _ _ M V J) as (_ & A & B & _). rewrite A, B. reflexivity. }
  split; [reflexivity|]. split; [exact W|]. split; [exact W|]. rewrite C59_contact_same_robot; [|reflexivity|reflexivity|cbn; lia|reflexivity|exact W].
  cbn [e_x]. unfold frameVelocity. rewrite pmotion_still. unfold chosen. cbn. lra.
Qed.
Print Assumptions C59_same_robot_refuted.
Example contact_case : e_robot (mkSide 1 1 still) <> e_robot (mkSide 2 1 still) /\
  jacobianTimes (fun _ => 1%nat) (fun _ => one) 2 (geoJacobian (fun r k => if Nat.eqb r k then 1 else 0) (mkSide 1 1 still) (mkSide 2 1 still) (spin 0) (spin 0)) = 0.
Proof. split; [cbn; lia|]. unfold one. cbn. repeat (unfold dot3; cbn). ring. Qed.
Example position_case : q_value (pfrun still (newPf still (spin 0)) [PSet (mkV3 1 2 3); PUpdate (spin 1)]) = Some (mkV3 (0 - 1) (0 - 2) (0 - 3)).
Proof. rewrite C59_position_value. cbn. f_equal. f_equal; ring. Qed.
