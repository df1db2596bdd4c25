(* C50: the posture function. *)
From Coq Require Import List Bool Arith QArith.
Import ListNotations.
From Verif Require Import Base PostureModel PostureSpec PostureProofs.
Local Open Scope nat_scope.

(* The velocity of every joint is at the joint's own position, whatever the calls before; no call with arguments of the
   right sizes goes wrong. *)
Theorem C50_velocity_at_own_position : forall rot mb q0 h1 a h2, NoDup (map jname mb) -> shaped params mb q0 ->
  (forall c, In c (h1 ++ UpdateVelocity a :: h2) -> valid mb c) ->
  (forall c, In c h2 -> match c with UpdateVelocity _ => False | _ => True end) ->
  exists p, run rot mb (construct mb q0) (h1 ++ UpdateVelocity a :: h2) = Ok p /\ length (velocity p) = tSize mb /\
  forall k j i, isJoint mb k j -> i < dof (jt j) -> nth_error (velocity p) (place mb k + i) = nth_error (nth k a []) i.
Proof. exact velocity_placed. Qed.
Print Assumptions C50_velocity_at_own_position.

(* The full claim would be the same for the value.  Exact: the error of a joint of one degree of freedom, to the target
   set last, is at the number of such joints before it; all other entries are zero: the errors of the other joints are
   never written. *)
Theorem C50_value_exact : forall rot mb q0 h1 q h2, NoDup (map jname mb) -> shaped params mb q0 ->
  (forall c, In c (h1 ++ UpdateValue q :: h2) -> valid mb c) ->
  (forall c, In c h2 -> match c with UpdateValue _ => False | _ => True end) ->
  exists p, run rot mb (construct mb q0) (h1 ++ UpdateValue q :: h2) = Ok p /\ length (value p) = tSize mb /\
  (forall k j, isJoint mb k j -> dof (jt j) = 1 -> nth_error (value p) (ones mb k) = Some (nth 0 (nth k q []) 0 - nth 0 (target mb k h1 (nth k q0 [])) 0)%Q) /\
  (forall c, ones mb (length mb) <= c < tSize mb -> nth_error (value p) c = Some 0%Q).
Proof. exact value_exact. Qed.
Print Assumptions C50_value_exact.

(* This is the joint's own position exactly if no joint before has several degrees of freedom. *)
Theorem C50_value_position : forall mb k, ones mb k = place mb k <-> forall j, In j (skipn (j0 mb) (firstn k mb)) -> dof (jt j) <= 1.
Proof. exact ones_place. Qed.
Print Assumptions C50_value_position.

(* The claim for robots without spherical, planar, cylindrical and further free joints.  Missing: these joints. *)
Theorem C50_value_at_own_position_partial : forall rot mb q0 h1 q h2, NoDup (map jname mb) -> shaped params mb q0 ->
  (forall c, In c (h1 ++ UpdateValue q :: h2) -> valid mb c) ->
  (forall c, In c h2 -> match c with UpdateValue _ => False | _ => True end) ->
  (forall k j, isJoint mb k j -> dof (jt j) <= 1) ->
  exists p, run rot mb (construct mb q0) (h1 ++ UpdateValue q :: h2) = Ok p /\ length (value p) = tSize mb /\
  forall k j, isJoint mb k j -> dof (jt j) = 1 -> nth_error (value p) (place mb k) = Some (nth 0 (nth k q []) 0 - nth 0 (target mb k h1 (nth k q0 [])) 0)%Q.
Proof. exact value_placed. Qed.
Print Assumptions C50_value_at_own_position_partial.

(* After reset() the error is zero at the posture of the reset. *)
Theorem C50_reset_zero : forall rot mb q0 h q, NoDup (map jname mb) -> shaped params mb q0 -> (forall c, In c h -> valid mb c) -> shaped params mb q ->
  exists p, run rot mb (construct mb q0) (h ++ [Reset q; UpdateValue q]) = Ok p /\ length (value p) = tSize mb /\ forall c x, nth_error (value p) c = Some x -> (x == 0)%Q.
Proof. exact reset_zero. Qed.
Print Assumptions C50_reset_zero.

(* A free-flyer, a spherical joint and a revolute one. *)
Definition mbS : mbody := [mkJ 0 Free; mkJ 1 Spherical; mkJ 2 Rev].
Definition qS (x : Q) : list (list Q) := [[1;0;0;0;0;0;0]; [1;0;0;0]; [x]]%Q.
(* The claim is false: the revolute joint's place is 3, its error is at 0. *)
Theorem C50_value_refuted : exists mb q0 q k j p, NoDup (map jname mb) /\ shaped params mb q0 /\ shaped params mb q /\ isJoint mb k j /\ dof (jt j) = 1 /\
  run (fun _ _ => []) mb (construct mb q0) [UpdateValue q] = Ok p /\
  nth_error (value p) (place mb k) <> Some (nth 0 (nth k q []) 0 - nth 0 (nth k q0 []) 0)%Q /\ value p = [5; 0; 0; 0]%Q /\ place mb k = 3.
Proof.
  exists mbS, (qS 0), (qS 5), 2, (mkJ 2 Rev). eexists. split; [repeat constructor; cbn; intuition discriminate|]. split; [reflexivity|]. split; [reflexivity|].
  split; [split; [cbn; repeat constructor|reflexivity]|]. split; [reflexivity|]. split; [vm_compute; reflexivity|]. split; [vm_compute; discriminate|]. split; reflexivity.
Qed.
Print Assumptions C50_value_refuted.
(* Moving the spherical joint alone gives no error at all, for any error function. *)
Theorem C50_spherical_refuted : forall rot, exists mb q0 q p, shaped params mb q0 /\ shaped params mb q /\ nth 1 q [] <> nth 1 q0 [] /\
  run rot mb (construct mb q0) [UpdateValue q] = Ok p /\ forall c x, nth_error (value p) c = Some x -> (x == 0)%Q.
Proof.
  intros rot. exists mbS, (qS 0), [[1;0;0;0;0;0;0]; [0;1;0;0]; [0]]%Q. eexists. split; [reflexivity|]. split; [reflexivity|]. split; [discriminate|]. split; [vm_compute; reflexivity|].
  intros [|[|[|[|[|c]]]]] x H; cbn in H; try discriminate; injection H as <-; reflexivity.
Qed.
Print Assumptions C50_spherical_refuted.
(* posture(j, q) for the first joint violates its own assertion. *)
Theorem C50_first_joint_refuted : forall rot, exists mb q0 n q, shaped params mb q0 /\ (exists j, nth_error mb 0 = Some j /\ jname j = n /\ length q = params (jt j)) /\
  run rot mb (construct mb q0) [SetJoint n q] = UB.
Proof. intros rot. exists [mkJ 0 Rev], [[0%Q]], 0, [1%Q]. split; [reflexivity|]. split; [exists (mkJ 0 Rev); repeat split|]. reflexivity. Qed.
Print Assumptions C50_first_joint_refuted.

(* A free-flyer, a revolute joint, a fixed one and a prismatic one: after two settings the errors and velocities are at
   the joints' places. *)
Definition mbR : mbody := [mkJ 0 Free; mkJ 1 Rev; mkJ 2 Fixed; mkJ 3 Prism].
Definition qR (x y : Q) : list (list Q) := [[1;0;0;0;0;0;0]; [x]; []; [y]]%Q.
Example C50_case : (NoDup (map jname mbR) /\ (forall k j, isJoint mbR k j -> dof (jt j) <= 1)) /\
  (forall c, In c [SetAll (qR 1 2); SetJoint 3 [7%Q]; UpdateValue (qR 3 3); UpdateVelocity [[0;0;0;0;0;0]; [8]; []; [9]]%Q] -> valid mbR c) /\
  (exists p, run (fun _ _ => []) mbR (construct mbR (qR 0 0)) [SetAll (qR 1 2); SetJoint 3 [7%Q]; UpdateValue (qR 3 3); UpdateVelocity [[0;0;0;0;0;0]; [8]; []; [9]]%Q] = Ok p /\
     value p = [2; -4]%Q /\ velocity p = [8; 9]%Q) /\ map (place mbR) [1; 2; 3] = [0; 1; 1].
Proof.
  split; [split; [repeat constructor; cbn; intuition discriminate|]|].
  - intros [|[|[|[|[|k]]]]] j [L H]; cbn in H; try discriminate; injection H as <-; cbn; auto. cbn in L. inversion L.
  - split; [|split; [eexists; split; [vm_compute; reflexivity|split; reflexivity]|reflexivity]].
    intros c [<-|[<-|[<-|[<-|[]]]]]; try reflexivity. exists 2, (mkJ 3 Prism). repeat split.
Qed.
