(* C77: the orientation function. *)
Require Import Reals List Lra Lia Psatz Ratan.
Require Import Verif.ConeModel Verif.ConeProofs Verif.DfModel Verif.CtcModel Verif.CtcSpec Verif.FrModel Verif.FrSpec Verif.FrProofs Verif.FrProps Verif.OriModel Verif.OriSpec Verif.OriProofs Verif.OriProofs2 Verif.OriProofs3.
Import ListNotations.
Local Open Scope R_scope.

(* Every orientation has a rotation vector (Euler), so that the assumption on sva::rotationVelocity can be met. *)
Theorem C77_rotation_vectors : exists rv, isRotationVelocity rv.
Proof. exists aRotationVelocity. exact aRotationVelocity_is. Qed.
Print Assumptions C77_rotation_vectors.

(* After any calls, the value is the vector that turns the target to the orientation of the frame, as they were at the last update. *)
Theorem C77_value : forall rv X b ops, isRotationVelocity rv -> orientation (p_rot X) -> orientation (p_rot (b_pos b)) ->
  Forall (fun o => match o with OReset => True | OSet E => orientation E | OUpdate b => orientation (p_rot (b_pos b)) end) ops ->
  match compared b (inr b) None ops with
  | None => o_value (ofrun rv X (newOf X b) ops) = None
  | Some (g, b') => exists T C v, goalIs X g T /\ oriented X b' C /\ o_value (ofrun rv X (newOf X b) ops) = Some v /\ turns v T C
  end.
Proof. intros rv X b ops HR HX. exact (of_history rv X HR HX b ops). Qed.
Print Assumptions C77_value.

(* It is null exactly when the orientation is the target, *)
Theorem C77_zero : forall rv T C, isRotationVelocity rv -> orientation T -> orientation C -> rotationError rv T C = mkV3 0 0 0 <-> C = T.
Proof. exact error_zero. Qed.
Print Assumptions C77_zero.
(* and, below half a turn, it is the only vector that turns the target to the orientation. *)
Theorem C77_unique : forall u u' T C, orientation T -> turns u T C -> turns u' T C -> dotp u u < PI * PI -> u' = u.
Proof. exact turns_unique. Qed.
Print Assumptions C77_unique.

(* The Jacobian times the velocity of the joints is the angular velocity of the frame; the velocity is, if the placement
   of the frame on the body keeps it. *)
Theorem C77_velocity_partial : forall (n : nat) (q : nat -> R) (X : ptr) (b : body) (w v : v3), weighted n q (b_jac b) = (w, v) -> b_vel b = (w, v) ->
  fst (weighted n q (fun j => (ofJacobian X b j, mkV3 0 0 0))) = w /\ (ofVelocity X b = w <-> mapply (p_rot X) w = w).
Proof.
  intros n q X b w v HJ HV. split; [apply (jacobian_w n q X b w v HJ)|]. unfold ofVelocity, frameVelocity, pmotion. rewrite HV. reflexivity.
Qed.
Print Assumptions C77_velocity_partial.
(* So is the normal acceleration the angular part of the one of the body. *)
Theorem C77_acceleration_partial : forall (X : ptr) (b : body) (w v : v3), b_nacc b = (w, v) -> ofNormalAcceleration X b = w <-> mapply (p_rot X) w = w.
Proof. intros X b w v HA. unfold ofNormalAcceleration, frameNormalAcceleration, pmotion. rewrite HA. reflexivity. Qed.
Print Assumptions C77_acceleration_partial.

(* The derivative of the value, below half a turn *)
Theorem C77_derivative : forall rv X T (b : R -> body) (t : R) (w v : v3), isRotationVelocity rv -> orientation (p_rot X) -> orientation T ->
  (forall s, orientation (p_rot (b_pos (b s)))) -> moving (fun s => b_pos (b s)) t w v ->
  let value s := rotationError rv T (p_rot (framePosition X (b s))) in
  (value t = mkV3 0 0 0 -> derives value t w) /\
  (value t <> mkV3 0 0 0 -> dotp (value t) (value t) < PI * PI -> derives value t (rate (value t) w)).
Proof. intros rv X T b t w v HR HX HT HB HM value. split; [exact (at_target rv X T b t w v HR HX HT HB HM)|exact (off_target rv X T b t w v HR HX HT HB HM)]. Qed.
Print Assumptions C77_derivative.
(* It is what the Jacobian says exactly when the frame turns around the axis of the error, in particular at the target. *)
Theorem C77_jacobian_partial : forall rv X T (b : R -> body) (t : R) (w v : v3) (n : nat) (q : nat -> R), isRotationVelocity rv -> orientation (p_rot X) -> orientation T ->
  (forall s, orientation (p_rot (b_pos (b s)))) -> moving (fun s => b_pos (b s)) t w v -> weighted n q (b_jac (b t)) = (w, v) ->
  let value s := rotationError rv T (p_rot (framePosition X (b s))) in
  dotp (value t) (value t) < PI * PI ->
  derives value t (fst (weighted n q (fun j => (ofJacobian X (b t) j, mkV3 0 0 0)))) <-> crossp (value t) w = mkV3 0 0 0.
Proof.
  intros rv X T b t w v n q HR HX HT HB HM HJ value L. rewrite (jacobian_w n q X (b t) w v HJ). exact (derivative_iff rv X T b t w v HR HX HT HB HM L).
Qed.
Print Assumptions C77_jacobian_partial.

(* ---- a body that turns around the vertical axis (C59) ---- *)
Lemma spin_orientation s : orientation (p_rot (b_pos (spin s))).
Proof. unfold spin. cbn [b_pos p_rot]. pose proof (sin2_cos2 s) as E. unfold Rsqr in E. apply of_orient. constructor; lra. Qed.
Lemma world_orientation : orientation world.
Proof. unfold world. apply of_orient. constructor; lra. Qed.
Lemma lying_orientation : orientation (p_rot lying).
Proof. unfold lying. cbn [p_rot]. apply of_orient. constructor; lra. Qed.
Lemma still_spin s : p_rot (framePosition still (spin s)) = p_rot (b_pos (spin s)).
Proof. unfold framePosition. rewrite pmul_still. reflexivity. Qed.
Lemma still_orientation : orientation (p_rot still).
Proof. exact world_orientation. Qed.
(* turned by -PI < s < PI from the axes of the world *)
Lemma spin_turns s : -PI <= s <= PI -> turns (mkV3 0 0 s) world (p_rot (b_pos (spin s))).
Proof.
  intros H. destruct (Rle_dec 0 s) as [L|L].
  - exists (mkV3 0 0 1), s. split; [unfold dotp; cbn; ring|]. split; [lra|]. split; [apply v3_eq; cbn; ring|]. intros [x y z]. unfold onAxes, turn, world, spin, crossp, dotp. apply v3_eq; cbn; ring.
  - exists (mkV3 0 0 (-1)), (- s). split; [unfold dotp; cbn; ring|]. split; [lra|]. split; [apply v3_eq; cbn; ring|]. intros [x y z]. unfold onAxes, turn, world, spin, crossp, dotp. rewrite cos_neg, sin_neg. apply v3_eq; cbn; ring.
Qed.
Lemma spin_value rv s : isRotationVelocity rv -> -PI < s < PI -> rotationError rv world (p_rot (framePosition still (spin s))) = mkV3 0 0 s.
Proof.
  intros HR H. rewrite still_spin. apply (turns_unique _ _ world (p_rot (b_pos (spin s)))); [exact world_orientation|apply spin_turns; lra|apply error_turns; [exact HR|exact world_orientation|apply spin_orientation]|].
  unfold dotp. cbn. nra.
Qed.
Lemma spin_2PI s : p_rot (b_pos (spin (s - 2 * PI))) = p_rot (b_pos (spin s)).
Proof.
  assert (E : s = (s - 2 * PI) + 2 * PI) by ring. assert (C : cos s = cos (s - 2 * PI)) by (rewrite E at 1; rewrite cos_plus, cos_2PI, sin_2PI; ring).
  assert (D : sin s = sin (s - 2 * PI)) by (rewrite E at 1; rewrite sin_plus, cos_2PI, sin_2PI; ring). unfold spin. cbn [b_pos p_rot]. rewrite <- C, <- D. reflexivity.
Qed.

Example C77_value_ex : exists rv v, isRotationVelocity rv /\
  o_value (ofrun rv still (newOf still (spin 0)) [OUpdate (spin 1); OSet world; OUpdate (spin 1); OReset]) = Some v /\ v = mkV3 0 0 1 /\
  compared (spin 0) (inr (spin 0)) None [OUpdate (spin 1); OSet world; OUpdate (spin 1); OReset] = Some (inl world, spin 1).
Proof.
  exists aRotationVelocity. eexists. split; [exact aRotationVelocity_is|]. split; [reflexivity|]. split; [|reflexivity].
  apply spin_value; [exact aRotationVelocity_is|]. pose proof PI2_3_2. lra.
Qed.
Example C77_zero_ex : orientation (p_rot lying) /\ orientation world /\ world <> p_rot lying.
Proof. split; [exact lying_orientation|]. split; [exact world_orientation|]. intros H. apply (f_equal (fun E => vy (row1 E))) in H. cbn in H. lra. Qed.
(* around the axis of the error the Jacobian is right *)
Example C77_jacobian_ex : forall rv, isRotationVelocity rv -> derives (fun s => rotationError rv world (p_rot (framePosition still (spin s)))) 1 (mkV3 0 0 1).
Proof.
  intros rv HR. pose proof PI2_3_2 as P. destruct (spin_moves 1) as (M & _ & J).
  pose proof (C77_jacobian_partial rv still world spin 1 _ _ 1%nat one HR still_orientation world_orientation spin_orientation M J) as E. cbv zeta in E. rewrite (jacobian_w 1 one still (spin 1) _ _ J) in E.
  rewrite (spin_value rv 1 HR) in E by lra. apply E; [unfold dotp; cbn; nra|]. unfold crossp. apply v3_eq; cbn; ring.
Qed.

(* The Jacobian is not the derivative of the value in general: the target is turned by a quarter around a horizontal axis. *)
Theorem C77_jacobian_refuted : exists X T (b : R -> body) (t : R) (w v : v3) (q : nat -> R),
  orientation (p_rot X) /\ orientation T /\ (forall s, orientation (p_rot (b_pos (b s)))) /\ moving (fun s => b_pos (b s)) t w v /\ weighted 1 q (b_jac (b t)) = (w, v) /\
  forall rv, isRotationVelocity rv ->
    let value s := rotationError rv T (p_rot (framePosition X (b s))) in
    dotp (value t) (value t) < PI * PI /\ ~ derives value t (fst (weighted 1 q (fun j => (ofJacobian X (b t) j, mkV3 0 0 0)))).
Proof.
  destruct (spin_moves 0) as (M & V & J). exists still, (p_rot lying), spin, 0, (mkV3 0 0 1), (mkV3 0 0 0), one.
  split; [exact still_orientation|]. split; [exact lying_orientation|]. split; [exact spin_orientation|]. split; [exact M|]. split; [exact J|]. intros rv HR value. pose proof PI_RGT_0 as P.
  assert (TU : turns (value 0) (p_rot lying) (p_rot (framePosition still (spin 0)))) by (apply error_turns; [exact HR|exact lying_orientation|rewrite still_spin; apply spin_orientation]).
  assert (L : dotp (value 0) (value 0) < PI * PI).
  { destruct TU as (a & th & Ha & Hth & EU & Q). pose proof (quo_cc _ _ a th Ha (turns_quo _ _ a th lying_orientation Q)) as CC.
    unfold cc, quo in CC. rewrite still_spin in CC. unfold spin, lying, ex, ey, ez in CC. cbn in CC. unfold dot3 in CC. cbn in CC. rewrite cos_0, sin_0 in CC.
    assert (C0 : cos th = 0) by lra. assert (TP : th < PI). { destruct (Rlt_dec th PI) as [K|K]; [exact K|]. exfalso. assert (th = PI) by lra. subst th. rewrite cos_PI in C0. lra. }
    rewrite EU. unfold dotp in *. cbn. replace (_ + _ + _) with (th * th * (vx a * vx a + vy a * vy a + vz a * vz a)) by ring. rewrite Ha. nra. }
  split; [exact L|]. intros D.
  apply (C77_jacobian_partial rv still (p_rot lying) spin 0 _ _ 1%nat one HR still_orientation lying_orientation spin_orientation M J L) in D.
  fold (value 0) in D. destruct TU as (a & th & Ha & Hth & EU & Q). rewrite EU in D. unfold crossp in D. cbn in D. injection D as D1 D2 D3.
  specialize (Q (mkV3 0 1 0)). rewrite still_spin in Q. unfold spin, lying, onAxes, turn, crossp, dotp in Q. cbn in Q. rewrite cos_0, sin_0 in Q. injection Q as Q1 Q2 Q3.
  unfold dotp in Ha. destruct (Req_dec th 0) as [->|N].
  - rewrite cos_0, sin_0 in *. lra.
  - assert (A1 : vx a = 0) by nra. assert (A2 : vy a = 0) by nra. rewrite A1, A2 in *. lra.
Qed.
Print Assumptions C77_jacobian_refuted.

(* At half a turn from the target the value jumps: it has no derivative there. *)
Theorem C77_half_turn_refuted : exists X T (b : R -> body) (t : R) (w v : v3),
  orientation (p_rot X) /\ orientation T /\ (forall s, orientation (p_rot (b_pos (b s)))) /\ moving (fun s => b_pos (b s)) t w v /\
  forall rv, isRotationVelocity rv -> forall d, ~ derives (fun s => rotationError rv T (p_rot (framePosition X (b s)))) t d.
Proof.
  destruct (spin_moves PI) as (M & V & J). exists still, world, spin, PI, (mkV3 0 0 1), (mkV3 0 0 0).
  split; [exact still_orientation|]. split; [exact world_orientation|]. split; [exact spin_orientation|]. split; [exact M|]. intros rv HR d (_ & _ & D).
  pose proof PI2_3_2 as P. destruct (lim_near _ _ _ D 1 ltac:(lra)) as (e & He & K). cbv beta in K.
  set (h := Rmin (e / 2) 1). assert (Hh : 0 < h) by (unfold h; apply Rmin_pos; lra). assert (h <= 1) by apply Rmin_r. assert (h <= e / 2) by apply Rmin_l.
  pose proof (K h ltac:(rewrite Rabs_pos_eq; lra)) as K1. pose proof (K (- h) ltac:(rewrite Rabs_Ropp, Rabs_pos_eq; lra)) as K2.
  rewrite (spin_value rv (PI + - h) HR) in K2 by lra.
  assert (E : rotationError rv world (p_rot (framePosition still (spin (PI + h)))) = mkV3 0 0 (h - PI)).
  { rewrite still_spin, <- spin_2PI, <- still_spin. replace (PI + h - 2 * PI) with (h - PI) by ring. apply spin_value; [exact HR|lra]. }
  rewrite E in K1. cbn [vz] in K1, K2. apply Rabs_def2 in K1. apply Rabs_def2 in K2. lra.
Qed.
Print Assumptions C77_half_turn_refuted.
