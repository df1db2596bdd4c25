(* C60: planes, and functions of the centre of mass. *)
Require Import Reals List Bool Arith Lia Lra.
Require Import Verif.Base Verif.ConeModel Verif.DfModel Verif.FrModel Verif.FrSpec Verif.PlModel Verif.PlSpec Verif.PlProofs.
Import ListNotations.
Local Open Scope R_scope.

(* A plane has the normal, the offset, the point and the derivatives that were given last; a point gives the offset. *)
Theorem C60_plane : forall (ops : list plop) (s : plane), let r := plrun s ops in
  l_n r = last_normal (l_n s) ops /\ l_off r = last_offset (l_off s) ops /\ l_pt r = last_point (l_pt s) ops /\
  (l_nd r, l_sp r) = last_velocity (l_nd s, l_sp s) ops /\ (l_ndd r, l_acc r) = last_acceleration (l_ndd s, l_acc s) ops.
Proof. exact plane_run. Qed.
Print Assumptions C60_plane.
(* A plane that has just been constructed, from an offset or from a point, does not move. *)
Theorem C60_constructed : forall (n p : v3) (off : R), let a := newPlaneOff n off in let b := newPlanePt n p in let z := mkV3 0 0 0 in
  (l_n a = n /\ l_off a = off /\ l_pt a = z /\ l_nd a = z /\ l_sp a = z /\ l_ndd a = z /\ l_acc a = z) /\
  (l_n b = n /\ l_off b = - scalar n p /\ l_pt b = p /\ l_nd b = z /\ l_sp b = z /\ l_ndd b = z /\ l_acc b = z).
Proof. exact constructed. Qed.
Print Assumptions C60_constructed.

(* The function has one row for each plane added since the last reset. *)
Theorem C60_size : forall ops : list ciop, i_size (cirun ops) = length (added [] ops).
Proof. exact size_run. Qed.
Print Assumptions C60_size.
(* For a unit normal the value is the signed distance of the centre of mass to the plane. *)
Theorem C60_distance : forall (ops : list ciop) (P : nat -> plane) (m : mass) (i k : nat),
  nth_error (added [] ops) i = Some k -> scalar (l_n (P k)) (l_n (P k)) = 1 ->
  exists l v, i_value (cirun (ops ++ [IUpdate WValue P m])) = Some l /\ nth_error l i = Some v /\
    (forall x, scalar (l_n (P k)) x + l_off (P k) = 0 -> Rabs v <= distance (m_com m) x) /\
    (exists x, scalar (l_n (P k)) x + l_off (P k) = 0 /\ distance (m_com m) x = Rabs v) /\ v = scalar (l_n (P k)) (m_com m) + l_off (P k).
Proof. exact value_distance. Qed.
Print Assumptions C60_distance.
(* For a moving plane given by a point, after any calls that leave the same planes, the velocity is the derivative of the value, *)
Theorem C60_velocity : forall (ops : R -> list ciop) (ks : list nat), (forall s, added [] (ops s) = ks) ->
  forall (P : R -> nat -> plane) (m : R -> mass) (i k : nat) (n p n' p' n'' p'' : R -> v3) (t : R),
  nth_error ks i = Some k -> (forall s, describes (P s k) n p n' p' (n'' s) (p'' s) s) -> derives (fun s => m_com (m s)) t (m_vel (m t)) ->
  exists value velocity, (forall s, exists l, i_value (cirun (ops s ++ [IUpdate WNormalAcceleration (P s) (m s)])) = Some l /\ nth_error l i = Some (value s)) /\
    (exists l, i_vel (cirun (ops t ++ [IUpdate WNormalAcceleration (P t) (m t)])) = Some l /\ nth_error l i = Some velocity) /\ derivable_pt_lim value t velocity.
Proof. exact motion_velocity. Qed.
Print Assumptions C60_velocity.
(* and the derivative of the velocity is J q'' plus the normal acceleration. *)
Theorem C60_acceleration : forall (ops : R -> list ciop) (ks : list nat), (forall s, added [] (ops s) = ks) ->
  forall (P : R -> nat -> plane) (m : R -> mass) (i k : nat) (n p n' p' n'' p'' : R -> v3) (t : R) (d : nat) (q : nat -> R),
  nth_error ks i = Some k -> (forall s, describes (P s k) n p n' p' (n'' s) (p'' s) s) ->
  derives (fun s => m_com (m s)) t (m_vel (m t)) -> derives (fun s => m_vel (m s)) t (vplus (weigh d q (m_jac (m t))) (m_nacc (m t))) ->
  exists velocity J nacc, (forall s, exists l, i_vel (cirun (ops s ++ [IUpdate WNormalAcceleration (P s) (m s)])) = Some l /\ nth_error l i = Some (velocity s)) /\
    (exists l, i_jac (cirun (ops t ++ [IUpdate WNormalAcceleration (P t) (m t)])) = Some l /\ nth_error l i = Some J) /\
    (exists l, i_nacc (cirun (ops t ++ [IUpdate WNormalAcceleration (P t) (m t)])) = Some l /\ nth_error l i = Some nacc) /\
    derivable_pt_lim velocity t (sumR d (fun j => J j * q j) + nacc).
Proof. exact motion_acceleration. Qed.
Print Assumptions C60_acceleration.
(* For a plane that does not move the velocity is J q'. *)
Theorem C60_static : forall (ops : list ciop) (P : nat -> plane) (m : mass) (i k d : nat) (q : nat -> R),
  nth_error (added [] ops) i = Some k -> l_nd (P k) = mkV3 0 0 0 -> l_sp (P k) = mkV3 0 0 0 -> weigh d q (m_jac m) = m_vel m ->
  exists lv lj v J, i_vel (cirun (ops ++ [IUpdate WVelocity P m])) = Some lv /\ i_jac (cirun (ops ++ [IUpdate WVelocity P m])) = Some lj /\
    nth_error lv i = Some v /\ nth_error lj i = Some J /\ sumR d (fun j => J j * q j) = v.
Proof. exact static_velocity. Qed.
Print Assumptions C60_static.

(* ---- CoMFunction ---- *)
(* After any calls: the value is the centre of mass minus the target, at the last update of it; *)
Theorem C60_com_value : forall (m : mass) (ops : list coop), o_value (corun m ops) = com_value (m_com m) (m_com m) None ops.
Proof. exact com_value_run. Qed.
Print Assumptions C60_com_value.
(* the velocity and the normal acceleration are the ones of the robot at their last updates; *)
Theorem C60_com_velocity : forall (m : mass) (ops : list coop),
  o_vel (corun m ops) = option_map m_vel (at_last (fun o => match o with CVelocity => true | _ => false end) m None ops) /\
  o_nacc (corun m ops) = option_map m_nacc (at_last (fun o => match o with CNormalAcceleration => true | _ => false end) m None ops).
Proof. exact com_vel_run. Qed.
Print Assumptions C60_com_velocity.
(* so is the Jacobian, as long as its derivative is not asked for; *)
Theorem C60_com_jacobian_partial : forall (m : mass) (ops : list coop), ~ In CJDot ops ->
  o_jac (corun m ops) = option_map m_jac (at_last (fun o => match o with CJacobian => true | _ => false end) m None ops).
Proof. exact com_jac_run. Qed.
Print Assumptions C60_com_jacobian_partial.
(* the derivative of the Jacobian is never written: its update overwrites the Jacobian. *)
Theorem C60_com_jdot_refuted : forall (m : mass) (ops : list coop), o_jdot (corun m ops) = None /\ o_jac (corun m (ops ++ [CJDot])) = Some (m_jdot (o_mass (corun m ops))).
Proof. exact com_jdot. Qed.
Print Assumptions C60_com_jdot_refuted.

(* ---- concrete cases ---- *)
(* a plane that turns around a vertical line through (1, 0, 0); a centre of mass that moves on the first axis *)
Definition nrm (t : R) : v3 := mkV3 (cos t) (sin t) 0.
Definition nrm' (t : R) : v3 := mkV3 (- sin t) (cos t) 0.
Definition nrm'' (t : R) : v3 := mkV3 (- cos t) (- sin t) 0.
Definition hinge (t : R) : v3 := mkV3 1 0 0.
Definition zeros (t : R) : v3 := mkV3 0 0 0.
Definition door (t : R) (k : nat) : plane := plrun (newPlanePt (nrm 0) (hinge 0)) [PlPt (nrm t) (hinge t); PlVel (nrm' t) (zeros t); PlAcc (nrm'' t) (zeros t)].
Definition walker (t : R) : mass := mkMass (mkV3 t 0 0) (mkV3 1 0 0) (mkV3 0 0 0) (fun _ => mkV3 1 0 0) (fun _ => mkV3 0 0 0).
Lemma nrm_d t : derives nrm t (nrm' t).
Proof. unfold derives. cbn. split; [|split]; [apply derivable_pt_lim_cos|apply derivable_pt_lim_sin|apply derivable_pt_lim_const]. Qed.
Lemma nrm_dd t : derives nrm' t (nrm'' t).
Proof. unfold derives. cbn. split; [|split]; [apply (derivable_pt_lim_opp sin), derivable_pt_lim_sin|apply derivable_pt_lim_cos|apply derivable_pt_lim_const]. Qed.
Lemma const_d (c : v3) t : derives (fun _ => c) t (mkV3 0 0 0).
Proof. unfold derives. cbn. split; [|split]; apply derivable_pt_lim_const. Qed.
Example door_case : forall t k, describes (door t k) nrm hinge nrm' zeros (nrm'' t) (zeros t) t.
Proof.
  intros t k. unfold describes. repeat (split; [reflexivity|]). split; [exact nrm_d|]. split; [intros s; exact (const_d (mkV3 1 0 0) s)|]. split; [exact (nrm_dd t)|exact (const_d (mkV3 0 0 0) t)].
Qed.
Example walker_case : forall t, derives (fun s => m_com (walker s)) t (m_vel (walker t)) /\
  derives (fun s => m_vel (walker s)) t (vplus (weigh 1 (fun _ => 0) (m_jac (walker t))) (m_nacc (walker t))) /\ weigh 1 (fun _ => 1) (m_jac (walker t)) = m_vel (walker t).
Proof.
  intros t. split; [|split].
  - unfold derives. cbn. split; [|split]; [apply derivable_pt_lim_id|apply derivable_pt_lim_const|apply derivable_pt_lim_const].
  - replace (vplus _ _) with (mkV3 0 0 0) by (apply ConeProofs.v3_eq; cbn; ring). apply (const_d (mkV3 1 0 0)).
  - cbn. f_equal; ring.
Qed.
Example planes_case : added [] [IAdd 5; IReset; IAdd 7; IAdd 3] = [7%nat; 3%nat] /\ scalar (l_n (door 0 7)) (l_n (door 0 7)) = 1.
Proof. split; [reflexivity|]. cbn. unfold scalar. cbn. rewrite cos_0, sin_0. ring. Qed.

(* A plane whose normal and offset are given has a point which is not on it, and then the velocity is wrong. *)
Definition door_off (t : R) (k : nat) : plane := plrun (newPlaneOff (nrm 0) (- scalar (nrm 0) (hinge 0))) [PlOff (nrm t) (- scalar (nrm t) (hinge t)); PlVel (nrm' t) (zeros t)].
Theorem C60_offset_refuted : exists (P : R -> nat -> plane) (m : R -> mass) (t : R) (value : R -> R) (velocity : R),
  (forall s, derives (fun s => l_n (P s 0%nat)) s (l_nd (P s 0%nat))) /\ derives (fun s => m_com (m s)) t (m_vel (m t)) /\
  (forall s, i_value (cirun ([IAdd 0] ++ [IUpdate WVelocity (P s) (m s)])) = Some [value s]) /\ i_vel (cirun ([IAdd 0] ++ [IUpdate WVelocity (P t) (m t)])) = Some [velocity] /\
  ~ derivable_pt_lim value t velocity.
Proof.
  exists door_off, walker, (PI / 2). eexists. eexists. split; [exact nrm_d|]. split; [apply walker_case|]. split; [intros s; reflexivity|]. split; [reflexivity|].
  intros D. cbn in D. destruct (walker_case (PI / 2)) as (W & _).
  pose proof (velocity_ok (fun s => door s 0) walker nrm hinge nrm' zeros nrm'' zeros (PI / 2) (fun s => door_case s 0) W) as V.
  assert (V2 := d_ext _ (fun s => dot3 (mkV3 s 0 0) (nrm s) + - scalar (nrm s) (hinge s)) _ _ (fun s => eq_refl) V).
  pose proof (uniqueness_limite _ _ _ _ D V2) as E. revert E. unfold rowVelocity, dot3, vminus, vplus, vopp. cbn. rewrite sin_PI2, cos_PI2. lra.
Qed.
Print Assumptions C60_offset_refuted.
Theorem C60_point_refuted : exists n off ops, let r := plrun (newPlaneOff n off) ops in scalar (l_n r) (l_pt r) <> - l_off r.
Proof. exists (mkV3 1 0 0), 1, []. cbn. unfold scalar. cbn. lra. Qed.
Print Assumptions C60_point_refuted.
Example com_case : o_value (corun (walker 0) [CRobot (walker 2); CSet (mkV3 1 0 0); CRobot (walker 5); CValue]) = Some (mkV3 (5 - 1) (0 - 0) (0 - 0)) /\
  o_jac (corun (walker 0) [CJacobian; CJDot]) <> o_jac (corun (walker 0) [CJacobian]).
Proof. split; [rewrite C60_com_value; reflexivity|]. cbn. intros H. injection H as H. apply (f_equal (fun f => vx (f 0%nat))) in H. cbn in H. lra. Qed.
