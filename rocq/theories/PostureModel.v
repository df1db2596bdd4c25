(* Model of robot::PostureFunction (src/robot/PostureFunction.cpp). Joints are those of RBDyn: their types, with their
   numbers of parameters and of degrees of freedom. Doubles are rationals. mbc().q and mbc().alpha are the parameters
   and velocities of the joints, one list by joint. *)
From Coq Require Import List Bool Arith QArith.
Import ListNotations.
From Verif Require Import Base.
Local Open Scope nat_scope.

Inductive jtype := Rev | Prism | Spherical | Planar | Cylindrical | Free | Fixed.
Definition params (t : jtype) : nat := match t with Rev | Prism => 1 | Spherical => 4 | Planar => 3 | Cylindrical => 2 | Free => 7 | Fixed => 0 end.
Definition dof (t : jtype) : nat := match t with Rev | Prism => 1 | Spherical => 3 | Planar => 3 | Cylindrical => 2 | Free => 6 | Fixed => 0 end.
(* Joints have a name, a number here. *)
Record joint := mkJ { jname : nat; jt : jtype }.
Definition mbody := list joint.
Definition nrDof (mb : mbody) : nat := fold_right plus 0 (map (fun j => dof (jt j)) mb).
(* mb.jointIndexByName and mb.sJointIndexByName. *)
Fixpoint index (mb : mbody) (n i : nat) : option nat :=
  match mb with [] => None | j :: mb' => if Nat.eqb (jname j) n then Some i else index mb' n (S i) end.

(* j0_, lines 13 and 55 of the header; joint(0) of an empty multi-body is not considered. *)
Definition j0 (mb : mbody) : nat := match mb with j :: _ => match jt j with Free => 1 | _ => 0 end | [] => 0 end.
(* robot->qJoints()->space().tSize(), Robot.cpp:26-35. *)
Definition tSize (mb : mbody) : nat := nrDof (skipn (j0 mb) mb).

(* posture_, value_ and velocity_. *)
Record pf := mkP { posture : list (list Q); value : list Q; velocity : list Q }.
(* Constructor, lines 11-31: q is mbc().q. *)
Definition construct (mb : mbody) (q : list (list Q)) : pf := mkP q (repeat 0%Q (tSize mb)) (repeat 0%Q (tSize mb)).

(* v(pos) = x *)
Definition write (v : list Q) (pos : nat) (x : Q) : res (list Q) :=
  if pos <? length v then Ok (firstn pos v ++ x :: skipn (S pos) v) else UB.
Fixpoint writes (v : list Q) (pos : nat) (xs : list Q) : res (list Q) :=
  match xs with [] => Ok v | x :: xs' => do v' <- write v pos x; writes v' (S pos) xs' end.

Section Rot.
(* sva::rotationError of the rotations of the quaternion of the target and of the joint, lines 82-84. *)
Variable rotationError : list Q -> list Q -> list Q.
(* updateValue, lines 69-89: the loop over the joints, their parameters and their targets. *)
Fixpoint values (js : list joint) (q target : list (list Q)) (pos : nat) (v : list Q) : res (list Q) :=
  match js, q, target with
  | [], _, _ => Ok v
  | j :: js', qj :: q', tj :: target' =>
      if dof (jt j) =? 1 then
        match qj, tj with
        | x :: _, y :: _ => do v' <- write v pos (x - y)%Q; values js' q' target' (pos + 1) v'
        | _, _ => UB
        end
      else if dof (jt j) =? 4 then
        do v' <- writes v pos (rotationError tj qj); values js' q' target' (pos + 3) v'
      else values js' q' target' pos v
  | _, _, _ => UB
  end.
Definition updateValue (mb : mbody) (p : pf) (q : list (list Q)) : res pf :=
  do v <- values (skipn (j0 mb) mb) (skipn (j0 mb) q) (skipn (j0 mb) (posture p)) 0 (value p);
  Ok (mkP (posture p) v (velocity p)).
End Rot.
(* updateVelocity, lines 91-102. *)
Fixpoint velocities (alpha : list (list Q)) (pos : nat) (v : list Q) : res (list Q) :=
  match alpha with
  | [] => Ok v
  | a :: alpha' => do v' <- writes v pos a; velocities alpha' (pos + length a) v'
  end.
Definition updateVelocity (mb : mbody) (p : pf) (alpha : list (list Q)) : res pf :=
  do v <- velocities (skipn (j0 mb) alpha) 0 (velocity p); Ok (mkP (posture p) (value p) v).

(* reset, line 33. *)
Definition reset (p : pf) (q : list (list Q)) : pf := mkP q (value p) (velocity p).
(* posture(j, q), lines 35-42. The assertion line 38 is on the index, converted to bool. *)
Definition setJoint (mb : mbody) (p : pf) (n : nat) (q : list Q) : res pf :=
  match index mb n 0 with
  | None => UB
  | Some 0 => UB
  | Some i => if Nat.eqb (length (nth i (posture p) [])) (length q)
              then Ok (mkP (firstn i (posture p) ++ q :: skipn (S i) (posture p)) (value p) (velocity p)) else UB
  end.
(* posture(p), lines 44-67. *)
Fixpoint isValidPosture (a b : list (list Q)) : bool :=
  match a, b with
  | [], [] => true
  | x :: a', y :: b' => Nat.eqb (length x) (length y) && isValidPosture a' b'
  | _, _ => false
  end.
Definition setAll (p : pf) (t : list (list Q)) : res pf :=
  if isValidPosture (posture p) t then Ok (mkP t (value p) (velocity p)) else UB.

Inductive call := UpdateValue (q : list (list Q)) | UpdateVelocity (alpha : list (list Q)) | Reset (q : list (list Q)) | SetJoint (n : nat) (q : list Q) | SetAll (t : list (list Q)).
Definition step (rot : list Q -> list Q -> list Q) (mb : mbody) (p : pf) (c : call) : res pf :=
  match c with
  | UpdateValue q => updateValue rot mb p q
  | UpdateVelocity a => updateVelocity mb p a
  | Reset q => Ok (reset p q)
  | SetJoint n q => setJoint mb p n q
  | SetAll t => setAll p t
  end.
Fixpoint run (rot : list Q -> list Q -> list Q) (mb : mbody) (p : pf) (cs : list call) : res pf :=
  match cs with [] => Ok p | c :: cs' => do p' <- step rot mb p c; run rot mb p' cs' end.
