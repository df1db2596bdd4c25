(* Model of tvm::robot::Frame (src/robot/Frame.cpp), of PositionFunction.cpp and of GeometricContactFunction.cpp, over the
   real numbers.  RBDyn is an oracle, with one value of everything it computes per configuration: the position of the body,
   its velocity and its normal acceleration (angular and linear parts, with the axes of the world), and the columns of
   the Jacobian of the body, one for each degree of freedom of the robot (fullJacobian, which puts the columns of the
   degrees of freedom of a path at their place, is part of the oracle).  The variable of a robot is one vector (see
   DfModel.v). *)
Require Import Reals List Bool Arith.
Require Import Verif.ConeModel Verif.DfModel Verif.CtcModel.
Import ListNotations.
Local Open Scope R_scope.

(* sva::MotionVecd: angular and linear parts *)
Definition mvec := (v3 * v3)%type.
Definition vminus (a b : v3) : v3 := vplus a (vopp b).
(* sva::PTransform::operator*(const MotionVec & mv): MotionVec(E_ * mv.angular(), E_ * (mv.linear() - r_.cross(mv.angular()))) *)
Definition pmotion (X : ptr) (mv : mvec) : mvec := (mapply (p_rot X) (fst mv), mapply (p_rot X) (vminus (snd mv) (cross3 (p_tr X) (fst mv)))).
(* what RBDyn gives for the body of the frame *)
Record body := mkBody { b_pos : ptr; b_vel : mvec; b_nacc : mvec; b_jac : nat -> mvec }.

(* Frame::updatePosition, Frame.cpp:51-56 *)
Definition framePosition (X_b_f : ptr) (b : body) : ptr := pmul X_b_f (b_pos b).
(* hat, lines 9-14, as the product by a vector *)
Definition hatMul (v x : v3) : v3 := mkV3 (- vz v * vy x + vy v * vz x) (vz v * vx x - vx v * vz x) (- vy v * vx x + vx v * vy x).
(* Frame::updateJacobian, lines 58-66, one column: h multiplies the lines 3 to 5 of the Jacobian of the body *)
Definition frameJacobian (X_b_f : ptr) (b : body) (j : nat) : mvec :=
  let h := tmul (p_rot (b_pos b)) (p_tr X_b_f) in
  (fst (b_jac b j), vplus (snd (b_jac b j)) (vopp (hatMul h (snd (b_jac b j))))).
(* Frame::updateVelocity, line 68 *)
Definition frameVelocity (X_b_f : ptr) (b : body) : mvec := pmotion X_b_f (b_vel b).
(* Frame::updateNormalAcceleration, lines 70-71 *)
Definition frameNormalAcceleration (X_b_f : ptr) (b : body) : mvec := pmotion X_b_f (b_nacc b).

(* ---- PositionFunction ---- *)
(* the calls; FUpdate updates the robot, the frame and the value *)
Inductive pfop := PReset | PSet (x : v3) | PUpdate (b : body).
Record pf := mkPf { q_body : body; q_target : v3; q_value : option v3 }.
(* PositionFunction::PositionFunction, PositionFunction.cpp:12-31 *)
Definition newPf (X_b_f : ptr) (b : body) : pf := mkPf b (p_tr (framePosition X_b_f b)) None.
(* reset, line 33; position, PositionFunction.h; updateValue, line 35 *)
Definition pfstep (X_b_f : ptr) (s : pf) (o : pfop) : pf :=
  match o with
  | PReset => mkPf (q_body s) (p_tr (framePosition X_b_f (q_body s))) (q_value s)
  | PSet x => mkPf (q_body s) x (q_value s)
  | PUpdate b => mkPf b (q_target s) (Some (vminus (p_tr (framePosition X_b_f b)) (q_target s)))
  end.
Definition pfrun (X_b_f : ptr) (s : pf) (ops : list pfop) : pf := fold_left (pfstep X_b_f) ops s.
(* updateVelocity, updateJacobian (a column), updateNormalAcceleration, lines 37-41 *)
Definition pfVelocity (X_b_f : ptr) (b : body) : v3 := snd (frameVelocity X_b_f b).
Definition pfJacobian (X_b_f : ptr) (b : body) (j : nat) : v3 := snd (frameJacobian X_b_f b j).
Definition pfNormalAcceleration (X_b_f : ptr) (b : body) : v3 := snd (frameNormalAcceleration X_b_f b).

(* ---- GeometricContactFunction ---- *)
(* MotionVec::vector() *)
Definition six (m : mvec) (k : nat) : R := if (k <? 3)%nat then comp (fst m) k else comp (snd m) (k - 3).
(* one side of the contact: the robot and its number of degrees of freedom, X_b_f *)
Record side := mkSide { e_robot : nat; e_dof : nat; e_x : ptr }.
Section Geo.
(* sva::transformError *)
Variable terr : ptr -> ptr -> nat -> R.
(* dof_ * *)
Definition dofMul (dof : nat -> nat -> R) (x : nat -> R) (r : nat) : R := sumR 6 (fun k => dof r k * x k).

(* updateValue, GeometricContactFunction.cpp:63-75: X_f1_f2_init_ and the value *)
Definition geoValue (dof : nat -> nat -> R) (s1 s2 : side) (init : option ptr) (b1 b2 : body) : option ptr * (nat -> R) :=
  let X_f1_f2 := pmul (framePosition (e_x s2) b2) (pinv (framePosition (e_x s1) b1)) in
  let i := match init with None => X_f1_f2 | Some i => i end in
  (Some i, dofMul dof (terr X_f1_f2 i)).
(* the value after some updates *)
Fixpoint geoValues (dof : nat -> nat -> R) (s1 s2 : side) (init : option ptr) (v : option (nat -> R)) (bs : list (body * body)) : option (nat -> R) :=
  match bs with
  | [] => v
  | (b1, b2) :: bs => let (i, v) := geoValue dof s1 s2 init b1 b2 in geoValues dof s1 s2 i (Some v) bs
  end.
(* has_f1_, has_f2_, lines 35-36 *)
Definition has (s : side) : bool := (0 <? e_dof s)%nat.
(* updateVelocity, lines 77-88, and updateNormalAcceleration, lines 90-101 *)
Definition geoSub (dof : nat -> nat -> R) (s1 s2 : side) (m1 m2 : mvec) (r : nat) : R :=
  let v := 0 in
  let v := if has s1 then v + dofMul dof (six m1) r else v in
  if has s2 then v - dofMul dof (six m2) r else v.
Definition geoVelocity (dof : nat -> nat -> R) (s1 s2 : side) (b1 b2 : body) : nat -> R := geoSub dof s1 s2 (frameVelocity (e_x s1) b1) (frameVelocity (e_x s2) b2).
Definition geoNormalAcceleration (dof : nat -> nat -> R) (s1 s2 : side) (b1 b2 : body) : nat -> R :=
  geoSub dof s1 s2 (frameNormalAcceleration (e_x s1) b1) (frameNormalAcceleration (e_x s2) b2).
(* updateJacobian, lines 103-117: what splitJacobian writes for the variables of a robot; the second one overwrites the first
   one if it is the same robot *)
Definition put (r : nat) (J : nat -> nat -> R) (l : list (nat * (nat -> nat -> R))) : list (nat * (nat -> nat -> R)) :=
  (r, J) :: filter (fun x => negb (Nat.eqb (fst x) r)) l.
Definition geoJacobian (dof : nat -> nat -> R) (s1 s2 : side) (b1 b2 : body) : list (nat * (nat -> nat -> R)) :=
  let l := [] in
  let l := if has s1 then put (e_robot s1) (fun r j => dofMul dof (six (frameJacobian (e_x s1) b1 j)) r) l else l in
  if has s2 then put (e_robot s2) (fun r j => dofMul dof (six (frameJacobian (e_x s2) b2 j)) r * -1) l else l.
End Geo.
