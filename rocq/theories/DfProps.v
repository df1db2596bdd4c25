(* C57: the dynamics of a robot with contact forces. *)
Require Import Reals List Bool Lia Lra.
Require Import Verif.Base Verif.ConeModel Verif.ConeSpec Verif.DfModel Verif.DfSpec Verif.DfProofs Verif.DfProofs2.
Import ListNotations.
Local Open Scope R_scope.

(* The value after any calls, for any values of the variables: H ddq + C - tau minus the generalised contact forces, each
   for the configuration of the last update made while the contact was there; it is undefined exactly when there was
   no update or when a contact with points was never there during an update. *)
Theorem C57_history : forall (nq robot : nat) (ops : list dop) (env : nat -> nat -> R) (r : nat),
  value nq (drun (newDyn robot) ops) env r =
  match last_config ops None, total env r (numbered 2 (history robot ops)) with
  | Some g, Some t => Ok (sumR nq (fun j => g_H g r j * env 0%nat j) + g_C g r - env 1%nat r - t)
  | _, _ => UB
  end.
Proof. exact value_history. Qed.
Print Assumptions C57_history.

(* If no contact was removed, the value after an update is the residual of the equation of motion with the forces of
   all the contacts, all for this configuration. *)
Theorem C57_equation_partial : forall (nq robot : nat) (ops : list dop) (g : config) (env : nat -> nat -> R) (r : nat),
  (forall i, ~ In (DRemove i) ops) ->
  value nq (drun (newDyn robot) (ops ++ [DUpdate g])) env r =
  Ok (sumR nq (fun j => g_H g r j * env 0%nat j) + g_C g r - env 1%nat r
      - sum_list (map (fun e : nat * entry => let '(v, (a, _, _)) := e in generalised g env a r v (a_points a)) (numbered 2 (history robot ops)))).
Proof. exact equation. Qed.
Print Assumptions C57_equation_partial.

(* addContact answers whether the contact is new and one of its frames is on the robot. *)
Theorem C57_returns : forall (robot : nat) (ops : list dop) (ct : contact) (li : bool) (mu : R) (n : nat),
  snd (addContact (drun (newDyn robot) ops) ct li mu n) = true <->
  dadded (history robot ops) (t_id ct) = false /\ (i_r1 (t_id ct) = robot \/ i_r2 (t_id ct) = robot).
Proof. exact add_result. Qed.
Print Assumptions C57_returns.

(* If the variables that addPositiveLambdaToProblem constrains are non-negative, the force on the body at every point of
   every linearised contact that is there is in the friction cone around the inner normal. *)
Theorem C57_friction : forall (robot : nat) (ops : list dop) (env : nat -> nat -> R) (v : nat) (a : part) (g : option config) (i : nat) (p : ptr),
  (forall w j, In w (positives (drun (newDyn robot) ops)) -> 0 <= env w j) ->
  In (v, (a, true, g)) (numbered 2 (history robot ops)) -> a_lin a = true -> nth_error (a_points a) i = Some p -> framed (p_rot p) ->
  in_cone (vscale (a_dir a) (row2 (p_rot p))) (Rabs (a_mu a)) (on_body env a (v + i) p).
Proof. exact friction. Qed.
Print Assumptions C57_friction.

(* contactForce gives the wrench, at the origin of the frame, of the forces of the equation of motion: for a linearised
   side with a single point or a single generator ... *)
Theorem C57_force_linear_partial : forall (robot : nat) (ops : list dop) (i : cid) (v : nat) (a : part) (env : nat -> nat -> R),
  the_side i (numbered 2 (history robot ops)) = Some (v, a) -> a_lin a = true -> (length (a_points a) <= 1 \/ a_gen a = 1)%nat ->
  Forall (fun p => p_rot p = identity3) (a_points a) ->
  contactForce (drun (newDyn robot) ops) env i = Ok (wrench (point_forces env a v (a_points a))).
Proof. exact force_linear. Qed.
Print Assumptions C57_force_linear_partial.
(* ... and for a side that is not linearised, if it is the second one; *)
Theorem C57_force_second_partial : forall (robot : nat) (ops : list dop) (i : cid) (v : nat) (a : part) (env : nat -> nat -> R),
  the_side i (numbered 2 (history robot ops)) = Some (v, a) -> a_lin a = false -> a_dir a = -1 -> Forall (fun p => p_rot p = identity3) (a_points a) ->
  contactForce (drun (newDyn robot) ops) env i = Ok (wrench (point_forces env a v (a_points a))).
Proof. exact force_second. Qed.
Print Assumptions C57_force_second_partial.
(* for the first one it gives the opposite wrench; *)
Theorem C57_force_first_refuted : forall (robot : nat) (ops : list dop) (i : cid) (v : nat) (a : part) (env : nat -> nat -> R),
  the_side i (numbered 2 (history robot ops)) = Some (v, a) -> a_lin a = false -> a_dir a = 1 -> Forall (fun p => p_rot p = identity3) (a_points a) ->
  exists c f, wrench (point_forces env a v (a_points a)) = (c, f) /\ contactForce (drun (newDyn robot) ops) env i = Ok (vopp c, vopp f).
Proof. exact force_first. Qed.
Print Assumptions C57_force_first_refuted.
(* for a linearised side with several points and several generators it reads outside of the list of variables. *)
Theorem C57_force_index_refuted : forall (robot : nat) (ops : list dop) (i : cid) (v : nat) (a : part) (env : nat -> nat -> R),
  the_side i (numbered 2 (history robot ops)) = Some (v, a) -> a_lin a = true -> (2 <= length (a_points a))%nat -> (2 <= a_gen a)%nat ->
  contactForce (drun (newDyn robot) ops) env i = UB.
Proof. exact force_index. Qed.
Print Assumptions C57_force_index_refuted.
Theorem C57_force_none : forall (robot : nat) (ops : list dop) (i : cid) (env : nat -> nat -> R),
  dadded (history robot ops) i = false -> contactForce (drun (newDyn robot) ops) env i = Ok (mkV3 0 0 0, mkV3 0 0 0).
Proof. exact force_none. Qed.
Print Assumptions C57_force_none.

(* Removing a contact changes nothing in the equation, *)
Theorem C57_remove_refuted : forall (nq : nat) (d : dyn) (i : cid) (env : nat -> nat -> R) (r : nat), value nq (removeContact d i) env r = value nq d env r.
Proof. exact remove_keeps. Qed.
Print Assumptions C57_remove_refuted.

(* ---- concrete cases: one degree of freedom, unit inertia, a point whose third direction is that of the joint ---- *)
Definition the_id : cid := mkId 1 10 2 20 0.
Definition at_origin (E : m3) : ptr := mkPT E (mkV3 0 0 0).
Definition turned : m3 := mkM3 (mkV3 1 0 0) (mkV3 0 0 1) (mkV3 0 (-1) 0).
Definition the_contact (r1 r2 : nat) (E : m3) (n : nat) : contact := mkCt (mkId r1 10 r2 20 0) (repeat (at_origin E) n) (repeat (at_origin E) n).
Definition cfg (x : R) : config := mkCfg (fun _ _ => 1) (fun _ => x) (fun _ _ k _ => if Nat.eqb k 2 then x else 0).
Definition ones : nat -> nat -> R := fun _ _ => 1.

(* robot 1 touches robot 2 with one point: the force 1 along the joint is the negative of the one on the body *)
Example equation_case : value 1 (drun (newDyn 1) [DAdd (the_contact 1 2 identity3 1) false 1 4; DUpdate (cfg 3)]) ones 0 = Ok (1 + 3 - 1 + 3).
Proof. rewrite (C57_equation_partial 1 1 [DAdd (the_contact 1 2 identity3 1) false 1 4] (cfg 3)). - cbn. unfold ones. f_equal. ring. - intros i [H|[]]. discriminate. Qed.
(* the same after a removal, even if the configuration changes: the term of the old force and of the old configuration stays *)
Theorem C57_stale_refuted : exists ct i g g' env, value 1 (drun (newDyn 1) [DAdd ct false 1 4; DUpdate g; DRemove i; DUpdate g']) env 0 <> value 1 (drun (newDyn 1) [DUpdate g']) env 0 /\
  value 1 (drun (newDyn 1) [DAdd ct false 1 4; DUpdate g; DRemove i; DUpdate g']) env 0 <> value 1 (drun (newDyn 1) [DAdd ct false 1 4; DUpdate g']) env 0 /\
  dadded (history 1 [DAdd ct false 1 4; DUpdate g; DRemove i; DUpdate g']) i = false.
Proof.
  exists (the_contact 1 2 identity3 1), the_id, (cfg 3), (cfg 5), ones. rewrite !C57_history. cbn. unfold ones. split; [|split; [|reflexivity]]; intros H; injection H as H; lra.
Qed.
Print Assumptions C57_stale_refuted.
(* a contact removed before the first update makes the value undefined for ever *)
Theorem C57_removed_first_refuted : exists ct i g, forall n env, value 1 (drun (newDyn 1) ([DAdd ct false 1 4; DRemove i] ++ repeat (DUpdate g) n)) env 0 = UB.
Proof.
  exists (the_contact 1 2 identity3 1), the_id, (cfg 3). intros n env. rewrite C57_history. unfold history. rewrite fold_left_app.
  set (L := fold_left (hstep 1) [_; _] []). assert (E : fold_left (hstep 1) (repeat (DUpdate (cfg 3)) n) L = L).
  { induction n as [|n IH]; [reflexivity|]. cbn [repeat fold_left]. rewrite <- IH at 2. reflexivity. }
  rewrite E. cbn. destruct (last_config _ _); reflexivity.
Qed.
Print Assumptions C57_removed_first_refuted.
(* both frames on the robot: removing the contact leaves it half there, and it cannot be added again *)
Theorem C57_self_contact_refuted : exists ct, snd (addContact (drun (newDyn 1) []) ct false 1 4) = true /\
  dadded (history 1 [DAdd ct false 1 4; DRemove (t_id ct)]) (t_id ct) = true /\
  snd (addContact (drun (newDyn 1) [DAdd ct false 1 4; DRemove (t_id ct)]) ct false 1 4) = false.
Proof. exists (the_contact 1 1 identity3 1). repeat split. Qed.
Print Assumptions C57_self_contact_refuted.
(* a turned point: the rotation is applied to a force that is already expressed in the frame *)
Theorem C57_force_rotation_refuted : exists ops i v a env, the_side i (numbered 2 (history 2 ops)) = Some (v, a) /\ a_dir a = -1 /\ a_lin a = false /\
  Forall (fun p => framed (p_rot p)) (a_points a) /\ contactForce (drun (newDyn 2) ops) env i <> Ok (wrench (point_forces env a v (a_points a))).
Proof.
  exists [DAdd (the_contact 1 2 turned 1) false 1 4], the_id, 2%nat. eexists. exists (fun _ k => match k with 2%nat => 1 | _ => 0 end).
  split; [reflexivity|]. split; [reflexivity|]. split; [reflexivity|]. split.
  - constructor; [|constructor]. unfold framed, norm3, along. cbn. replace (1 * 1 + 0 * 0 + 0 * 0) with 1 by ring. replace (0 * 0 + -1 * -1 + 0 * 0) with 1 by ring. rewrite sqrt_1. repeat split; ring.
  - cbn. intros H. injection H as _ _ _ _ _ H. lra.
Qed.
Print Assumptions C57_force_rotation_refuted.
(* forces that are not linearised are not constrained, whatever the friction coefficient *)
Theorem C57_friction_refuted : exists ops v a g p env, In (v, (a, true, g)) (numbered 2 (history 2 ops)) /\ nth_error (a_points a) 0 = Some p /\ framed (p_rot p) /\ a_mu a = 1 /\
  (forall w j, In w (positives (drun (newDyn 2) ops)) -> 0 <= env w j) /\ ~ in_cone (vscale (a_dir a) (row2 (p_rot p))) (Rabs (a_mu a)) (on_body env a v p).
Proof.
  exists [DAdd (the_contact 1 2 identity3 1) false 1 4], 2%nat. eexists. exists None. exists (at_origin identity3). exists (fun _ k => match k with 2%nat => 1 | _ => 0 end).
  split; [left; reflexivity|]. split; [reflexivity|]. split; [|split; [reflexivity|]].
  - unfold framed, norm3, along. cbn. replace (1 * 1 + 0 * 0 + 0 * 0) with 1 by ring. replace (0 * 0 + 0 * 0 + 1 * 1) with 1 by ring. rewrite sqrt_1. repeat split; ring.
  - split; [intros w j []|]. cbn. unfold in_cone, norm3, tangential, along. cbn. intros H. rewrite Rabs_R1 in H.
    pose proof (sqrt_pos ((- (-1 * 0) - -1 * 1 * - 0) * 0)) as _. match type of H with sqrt ?x <= _ => pose proof (sqrt_pos x) end. lra.
Qed.
Print Assumptions C57_friction_refuted.
Example friction_case : exists g, In (2%nat, (mkPart the_id 10 [at_origin identity3; at_origin identity3] 1 true (1 / 2) 4, true, g)) (numbered 2 (history 1 [DAdd (the_contact 1 2 identity3 2) true (1 / 2) 4])) /\
  positives (drun (newDyn 1) [DAdd (the_contact 1 2 identity3 2) true (1 / 2) 4]) = [2%nat; 3%nat].
Proof. exists None. split; [left; reflexivity|reflexivity]. Qed.
Example force_case : the_side the_id (numbered 2 (history 1 [DAdd (the_contact 1 2 identity3 1) true (1 / 2) 4])) = Some (2%nat, mkPart the_id 10 [at_origin identity3] 1 true (1 / 2) 4).
Proof. reflexivity. Qed.
Example force_two_points_case : the_side the_id (numbered 2 (history 2 [DAdd (the_contact 1 2 identity3 2) true (1 / 2) 4])) = Some (2%nat, mkPart the_id 20 [at_origin identity3; at_origin identity3] (-1) true (1 / 2) 4).
Proof. reflexivity. Qed.
Example returns_case : snd (addContact (drun (newDyn 2) []) (the_contact 1 2 identity3 1) false 1 4) = true /\ snd (addContact (drun (newDyn 3) []) (the_contact 1 2 identity3 1) false 1 4) = false.
Proof. split; reflexivity. Qed.
