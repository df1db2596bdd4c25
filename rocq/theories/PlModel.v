(* Model of tvm::geometry::Plane (src/geometry/Plane.cpp, Plane.h), of CoMInConvexFunction.cpp and of CoMFunction.cpp, over the
   real numbers.  RBDyn is an oracle: for each configuration the centre of mass, its velocity, its normal acceleration,
   its Jacobian and the derivative of it (columns).  The variable of the robot is one vector (the columns are cut between
   the free-flyer and the joints). *)
Require Import Reals List Bool Arith.
Require Import Verif.Base Verif.ConeModel Verif.DfModel Verif.FrModel.
Import ListNotations.
Local Open Scope R_scope.

(* Plane, Plane.h:124-130 *)
Record plane := mkPlane { l_n : v3; l_off : R; l_pt : v3; l_nd : v3; l_sp : v3; l_ndd : v3; l_acc : v3 }.
(* the calls on a plane *)
Inductive plop := PlOff (n : v3) (off : R) | PlPt (n p : v3) | PlVel (nd sp : v3) | PlAcc (ndd ac : v3).
(* position, velocity, acceleration, Plane.cpp:15-38 *)
Definition plstep (s : plane) (o : plop) : plane :=
  match o with
  | PlOff n off => mkPlane n off (l_pt s) (l_nd s) (l_sp s) (l_ndd s) (l_acc s)
  | PlPt n p => mkPlane n (- dot3 n p) p (l_nd s) (l_sp s) (l_ndd s) (l_acc s)
  | PlVel nd sp => mkPlane (l_n s) (l_off s) (l_pt s) nd sp (l_ndd s) (l_acc s)
  | PlAcc ndd ac => mkPlane (l_n s) (l_off s) (l_pt s) (l_nd s) (l_sp s) ndd ac
  end.
(* the constructors, Plane.cpp:11-13, with the initial values of Plane.h:124-130 (normal_ and offset_ are set at once) *)
Definition fresh (n : v3) (off : R) : plane := mkPlane n off zero3 zero3 zero3 zero3 zero3.
Definition newPlaneOff (n : v3) (off : R) : plane := plstep (fresh n off) (PlOff n off).
Definition newPlanePt (n p : v3) : plane := plstep (fresh n 0) (PlPt n p).
Definition plrun (s : plane) (ops : list plop) : plane := fold_left plstep ops s.

(* what RBDyn gives *)
Record mass := mkMass { m_com : v3; m_vel : v3; m_nacc : v3; m_jac : nat -> v3; m_jdot : nat -> v3 }.

(* ---- CoMInConvexFunction ---- *)
(* planes are shared: they are numbers here, and each update sees their current content *)
Record cic := mkCic { i_planes : list nat; i_size : nat; i_value : option (list R); i_jac : option (list (nat -> R)); i_vel : option (list R); i_nacc : option (list R); i_speed : v3 }.
(* the constructor, CoMInConvexFunction.cpp:11-28; CoMInConvexFunction.h: Function(0) *)
Definition newCic : cic := mkCic [] 0 (Some []) None (Some []) (Some []) zero3.
(* updateValue, lines 45-52 *)
Definition updValue (P : nat -> plane) (m : mass) (s : cic) : cic :=
  mkCic (i_planes s) (i_size s) (Some (map (fun k => dot3 (m_com m) (l_n (P k)) + l_off (P k)) (i_planes s))) (i_jac s) (i_vel s) (i_nacc s) (i_speed s).
(* updateVelocity, lines 54-62 *)
Definition updVelocity (P : nat -> plane) (m : mass) (s : cic) : cic :=
  mkCic (i_planes s) (i_size s) (i_value s) (i_jac s)
    (Some (map (fun k => dot3 (l_n (P k)) (vminus (m_vel m) (l_sp (P k))) + dot3 (l_nd (P k)) (vminus (m_com m) (l_pt (P k)))) (i_planes s))) (i_nacc s) (m_vel m).
(* updateJacobian, lines 64-84 *)
Definition updJacobian (P : nat -> plane) (m : mass) (s : cic) : cic :=
  mkCic (i_planes s) (i_size s) (i_value s) (Some (map (fun k j => dot3 (l_n (P k)) (m_jac m j)) (i_planes s))) (i_vel s) (i_nacc s) (i_speed s).
(* updateNormalAcceleration, lines 86-96 *)
Definition updNormalAcceleration (P : nat -> plane) (m : mass) (s : cic) : cic :=
  mkCic (i_planes s) (i_size s) (i_value s) (i_jac s) (i_vel s)
    (Some (map (fun k => dot3 (l_n (P k)) (vminus (m_nacc m) (l_acc (P k))) + 2 * dot3 (l_nd (P k)) (vminus (i_speed s) (l_sp (P k))) + dot3 (l_ndd (P k)) (vminus (m_com m) (l_pt (P k)))) (i_planes s))) (i_speed s).
(* the calls; an update of an output makes first the ones it depends on, lines 25-27 *)
Inductive what := WValue | WJacobian | WVelocity | WNormalAcceleration.
Inductive ciop := IAdd (k : nat) | IReset | IUpdate (w : what) (P : nat -> plane) (m : mass).
Definition cistep (s : cic) (o : ciop) : cic :=
  match o with
  (* addPlane, lines 30-37; resize leaves the content undefined *)
  | IAdd k => mkCic (i_planes s ++ [k]) (length (i_planes s ++ [k])) None None None None (i_speed s)
  (* reset, lines 39-43 *)
  | IReset => mkCic [] 0 (Some []) None (Some []) (Some []) (i_speed s)
  | IUpdate w P m =>
      match w with
      | WValue => updValue P m s
      | WJacobian => updJacobian P m (updValue P m s)
      | WVelocity => updVelocity P m (updJacobian P m (updValue P m s))
      | WNormalAcceleration => updNormalAcceleration P m (updVelocity P m (updJacobian P m (updValue P m s)))
      end
  end.
Definition cirun (ops : list ciop) : cic := fold_left cistep ops newCic.

(* ---- CoMFunction ---- *)
Record cof := mkCof { o_mass : mass; o_target : v3; o_value : option v3; o_vel : option v3; o_jac : option (nat -> v3); o_nacc : option v3; o_jdot : option (nat -> v3) }.
(* the constructor, CoMFunction.cpp:11-32: it calls reset *)
Definition newCof (m : mass) : cof := mkCof m (m_com m) None None None None None.
(* the calls; CRobot: the robot is updated *)
Inductive coop := CRobot (m : mass) | CReset | CSet (x : v3) | CValue | CVelocity | CJacobian | CNormalAcceleration | CJDot.
(* reset, com, updateValue, updateVelocity, updateJacobian, updateNormalAcceleration, updateJDot, CoMFunction.cpp:34-45, CoMFunction.h:37:
   updateJDot calls splitJacobian, which writes jacobian_ *)
Definition costep (s : cof) (o : coop) : cof :=
  let m := o_mass s in
  match o with
  | CRobot m => mkCof m (o_target s) (o_value s) (o_vel s) (o_jac s) (o_nacc s) (o_jdot s)
  | CReset => mkCof m (m_com m) (o_value s) (o_vel s) (o_jac s) (o_nacc s) (o_jdot s)
  | CSet x => mkCof m x (o_value s) (o_vel s) (o_jac s) (o_nacc s) (o_jdot s)
  | CValue => mkCof m (o_target s) (Some (vminus (m_com m) (o_target s))) (o_vel s) (o_jac s) (o_nacc s) (o_jdot s)
  | CVelocity => mkCof m (o_target s) (o_value s) (Some (m_vel m)) (o_jac s) (o_nacc s) (o_jdot s)
  | CJacobian => mkCof m (o_target s) (o_value s) (o_vel s) (Some (m_jac m)) (o_nacc s) (o_jdot s)
  | CNormalAcceleration => mkCof m (o_target s) (o_value s) (o_vel s) (o_jac s) (Some (m_nacc m)) (o_jdot s)
  | CJDot => mkCof m (o_target s) (o_value s) (o_vel s) (Some (m_jdot m)) (o_nacc s) (o_jdot s)
  end.
Definition corun (m : mass) (ops : list coop) : cof := fold_left costep ops (newCof m).
