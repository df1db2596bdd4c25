(* Model of tvm::robot::OrientationFunction (src/robot/OrientationFunction.cpp, include/tvm/robot/OrientationFunction.h)
   over the real numbers, on the frames of FrModel.v. *)
Require Import Reals List.
Require Import Verif.ConeModel Verif.DfModel Verif.CtcModel Verif.FrModel.
Import ListNotations.
Local Open Scope R_scope.

Section Ori.
(* sva::rotationVelocity: the rotation vector of a rotation matrix *)
Variable rotationVelocity : m3 -> v3.
(* sva::rotationError(E_a_b, E_a_c): E_a_b.transpose() * rotationVelocity(E_a_c * E_a_b.transpose()) *)
Definition rotationError (E_a_b E_a_c : m3) : v3 := tmul E_a_b (rotationVelocity (mmul E_a_c (mtrans E_a_b))).

(* the calls; OUpdate updates the robot, the frame and the value *)
Inductive ofop := OReset | OSet (E : m3) | OUpdate (b : body).
Record orf := mkOf { o_body : body; o_ori : m3; o_value : option v3 }.
(* OrientationFunction::OrientationFunction, OrientationFunction.cpp:12-31: the value is not initialised *)
Definition newOf (X_b_f : ptr) (b : body) : orf := mkOf b (p_rot (framePosition X_b_f b)) None.
(* reset, line 33; orientation, OrientationFunction.h:34; updateValue, line 35 *)
Definition ofstep (X_b_f : ptr) (s : orf) (o : ofop) : orf :=
  match o with
  | OReset => mkOf (o_body s) (p_rot (framePosition X_b_f (o_body s))) (o_value s)
  | OSet E => mkOf (o_body s) E (o_value s)
  | OUpdate b => mkOf b (o_ori s) (Some (rotationError (o_ori s) (p_rot (framePosition X_b_f b))))
  end.
Definition ofrun (X_b_f : ptr) (s : orf) (ops : list ofop) : orf := fold_left (ofstep X_b_f) ops s.
End Ori.
(* updateVelocity, updateJacobian (a column), updateNormalAcceleration, lines 37-41 *)
Definition ofVelocity (X_b_f : ptr) (b : body) : v3 := fst (frameVelocity X_b_f b).
Definition ofJacobian (X_b_f : ptr) (b : body) (j : nat) : v3 := fst (frameJacobian X_b_f b j).
Definition ofNormalAcceleration (X_b_f : ptr) (b : body) : v3 := fst (frameNormalAcceleration X_b_f b).
