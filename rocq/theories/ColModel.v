(* Model of tvm::robot::CollisionFunction (src/robot/CollisionFunction.cpp, CollisionFunction.h), over the real numbers.
   Hulls are numbers.  sch-core is an oracle: for a pair of hulls, the signed square of the distance and the closest points (in
   the world).  RBDyn is an oracle as in FrModel.v, plus the normal acceleration of a point of the body.  A row of the
   Jacobian is a function of the robot and of the degree of freedom (the cut between the free-flyer and the joints is not
   modelled). *)
Require Import Reals List Bool Arith ZArith.
Require Import Verif.Base Verif.ConeModel Verif.DfModel Verif.CtcModel Verif.FrModel.
Import ListNotations.
Local Open Scope R_scope.

(* a hull: its robot, the number of degrees of freedom of the robot and X_b_f of its frame *)
Record hull := mkHull { h_robot : nat; h_dof : nat; h_x : ptr }.
(* what the oracles give for an update; the number of ticks of the clock *)
Record scene := mkScene { z_tick : Z; z_body : nat -> body; z_pacc : nat -> v3 -> v3; z_close : nat -> nat -> R * v3 * v3 }.
(* CollisionData, CollisionFunction.h:53-70; d_near has one element for each object *)
Record coll := mkColl { d_h1 : nat; d_h2 : nat; d_near : list v3; d_norm : v3; d_prev : v3; d_speed : v3 }.
Record cfn := mkCfn { x_tick : Z; x_colls : list coll; x_value : option (list R); x_jac : option (list (nat -> nat -> R)); x_vel : option (list R); x_nacc : option (list R) }.

Section Col.
Variable hulls : nat -> hull.
Variable dt : R.
Variable tiny : R. (* std::numeric_limits<double>::min() *)

(* rbd::Jacobian with a point x of the body: its velocity, a column of its Jacobian, linear parts *)
Definition pointMotion (E : m3) (x : v3) (m : mvec) : v3 := vplus (snd m) (cross3 (fst m) (tmul E x)).
(* the hulls of the objects, the constructor of CollisionData, CollisionFunction.cpp:54-70 (an object whose robot has no degree of freedom is left out) *)
Definition objectsOf (h1 h2 : nat) : list nat := filter (fun h => (0 <? h_dof (hulls h))%nat) [h1; h2].

(* addCollision, lines 33-50; resize leaves the content of the outputs undefined; asking again with the hulls swapped is done in one step *)
Definition addCollision (s : cfn) (h1 h2 : nat) : cfn :=
  let '(h1, h2) := if (h_dof (hulls h1) <? h_dof (hulls h2))%nat then (h2, h1) else (h1, h2) in
  mkCfn (x_tick s) (x_colls s ++ [mkColl h1 h2 (map (fun _ => zero3) (objectsOf h1 h2)) zero3 zero3 zero3]) None None None None.
(* reset, lines 182-186 (the variables and the dependencies stay; not modelled) *)
Definition resetColl (s : cfn) : cfn := mkCfn (x_tick s) [] (Some []) (Some []) (Some []) (Some []).

(* closestPoints_[i], an array of two points, CollisionFunction.h:74 *)
Definition closest (i : nat) (p0 p1 : v3) : res v3 := match i with 0%nat => Ok p0 | 1%nat => Ok p1 | _ => UB end.
(* ch_[j]->frame().position() *)
Definition hullFrame (g : scene) (h : nat) : ptr := framePosition (h_x (hulls h)) (z_body g h).
Definition onlyTranslation (x : v3) : ptr := mkPT (mkM3 (mkV3 1 0 0) (mkV3 0 1 0) (mkV3 0 0 1)) x.
(* the distance of line 77, lines 78-82 *)
Definition dist (d : R) : R :=
  let r := if Rle_dec 0 d then sqrt d else - sqrt (- d) in
  if Req_EM_T r 0 then tiny else r.
(* the body of updateValue, lines 72-94, for the collision number i: o.nearestPoint_ of all the objects uses closestPoints_[i] *)
Fixpoint nears (g : scene) (i : nat) (p0 p1 : v3) (hs : list nat) : res (list v3) :=
  match hs with
  | [] => Ok []
  | h :: hs =>
      do c <- closest i p0 p1;
      do r <- nears g i p0 p1 hs;
      Ok (p_tr (pmul (onlyTranslation c) (pinv (hullFrame g h))) :: r)
  end.
Definition valueOne (g : scene) (i : nat) (c : coll) : res (coll * R) :=
  let '(d, p0, p1) := z_close g (d_h1 c) (d_h2 c) in
  let r := dist d in
  do n <- nears g i p0 p1 (objectsOf (d_h1 c) (d_h2 c));
  Ok (mkColl (d_h1 c) (d_h2 c) n (vscale (/ r) (vminus p0 p1)) (d_prev c) (d_speed c), r).
Fixpoint values (g : scene) (i : nat) (cs : list coll) : res (list coll * list R) :=
  match cs with
  | [] => Ok ([], [])
  | c :: cs => do (c', v) <- valueOne g i c; do (cs', vs) <- values g (S i) cs; Ok (c' :: cs', v :: vs)
  end.
(* sum over the objects, with alternating signs: the loops of updateJacobian (lines 96-128), updateVelocity (lines 130-147) and
   updateNormalAcceleration (lines 162-180) *)
Fixpoint alternate (sign : R) (f : nat -> v3 -> R) (hs : list nat) (ns : list v3) : R :=
  match hs, ns with h :: hs, x :: ns => sign * f h x + alternate (sign * -1) f hs ns | _, _ => 0 end.
Definition pointOf (g : scene) (h : nat) (x : v3) (m : mvec) : v3 := pointMotion (p_rot (b_pos (z_body g h))) x m.
Definition velocityOne (g : scene) (c : coll) : R :=
  alternate 1 (fun h x => dot3 (pointOf g h x (b_vel (z_body g h))) (d_norm c)) (objectsOf (d_h1 c) (d_h2 c)) (d_near c).
Definition jacobianOne (g : scene) (c : coll) (r j : nat) : R :=
  alternate 1 (fun h x => if Nat.eqb (h_robot (hulls h)) r then dot3 (d_norm c) (pointOf g h x (b_jac (z_body g h) j)) else 0) (objectsOf (d_h1 c) (d_h2 c)) (d_near c).
(* updateTimeDependency, lines 149-160 *)
Definition timeOne (c : coll) : coll :=
  mkColl (d_h1 c) (d_h2 c) (d_near c) (d_norm c) (d_norm c) (vscale (/ dt) (vminus (d_norm c) (d_prev c))).
Definition naccOne (g : scene) (c : coll) : R :=
  alternate 1 (fun h x => dot3 (z_pacc g h x) (d_norm c) + dot3 (pointOf g h x (b_vel (z_body g h))) (d_speed c)) (objectsOf (d_h1 c) (d_h2 c)) (d_near c).
(* an update of all the outputs, in the order of the internal dependencies, lines 22-30 *)
Definition updateAll (s : cfn) (g : scene) : res cfn :=
  do (cs, vs) <- values g 0 (x_colls s);
  let js := map (jacobianOne g) cs in
  let ve := map (velocityOne g) cs in
  let cs := if Z.eqb (z_tick g) (x_tick s) then cs else map timeOne cs in
  Ok (mkCfn (z_tick g) cs (Some vs) (Some js) (Some ve) (Some (map (naccOne g) cs))).

Inductive colop := KAdd (h1 h2 : nat) | KReset | KUpdate (g : scene).
Definition kstep (s : cfn) (o : colop) : res cfn := match o with KAdd h1 h2 => Ok (addCollision s h1 h2) | KReset => Ok (resetColl s) | KUpdate g => updateAll s g end.
Fixpoint krun (s : cfn) (ops : list colop) : res cfn := match ops with [] => Ok s | o :: ops => do s <- kstep s o; krun s ops end.
(* the constructor, lines 14-31 *)
Definition newCfn (tick : Z) : cfn := mkCfn tick [] (Some []) (Some []) (Some []) (Some []).
End Col.
