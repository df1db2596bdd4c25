(* Model of tvm::robot::internal::FrictionCone (src/robot/FrictionCone.cpp), over the real numbers, with the
   part of Eigen's AngleAxis that it uses. *)
Require Import Reals List.
Import ListNotations.
Local Open Scope R_scope.

(* Vector3d, and the operations on it *)
Record v3 := mkV3 { vx : R; vy : R; vz : R }.
Definition vscale (k : R) (a : v3) : v3 := mkV3 (k * vx a) (k * vy a) (k * vz a).
Definition vplus (a b : v3) : v3 := mkV3 (vx a + vx b) (vy a + vy b) (vz a + vz b).
Definition vopp (a : v3) : v3 := mkV3 (- vx a) (- vy a) (- vz a).
(* Matrix3d, by its rows *)
Record m3 := mkM3 { row0 : v3; row1 : v3; row2 : v3 }.
Definition mscale (k : R) (M : m3) : m3 := mkM3 (vscale k (row0 M)) (vscale k (row1 M)) (vscale k (row2 M)).
Definition dot3 (a b : v3) : R := vx a * vx b + vy a * vy b + vz a * vz b.
Definition mapply (M : m3) (a : v3) : v3 := mkV3 (dot3 (row0 M) a) (dot3 (row1 M) a) (dot3 (row2 M) a).

(* Eigen::AngleAxis::toRotationMatrix (Eigen/src/Geometry/AngleAxis.h) *)
Definition angleAxis (angle : R) (axis : v3) : m3 :=
  let sa := vscale (sin angle) axis in
  let c := cos angle in
  let ca := vscale (1 - c) axis in
  let xy := vx ca * vy axis in
  let xz := vx ca * vz axis in
  let yz := vy ca * vz axis in
  mkM3 (mkV3 (vx ca * vx axis + c) (xy - vz sa) (xz + vy sa))
       (mkV3 (xy + vz sa) (vy ca * vy axis + c) (yz - vx sa))
       (mkV3 (xz - vy sa) (yz + vx sa) (vz ca * vz axis + c)).

(* FrictionCone::FrictionCone, FrictionCone.cpp:18-31.  With no generator the step is a division by zero, which
   is not used. *)
Definition frictionCone (frame : m3) (nrGen : nat) (mu dir : R) : list v3 :=
  let normal := row2 frame in
  let tan := vscale dir (row0 frame) in
  let angle := atan mu in
  let gen := mapply (angleAxis angle tan) normal in
  let step := PI * 2 / INR nrGen in
  map (fun i => mapply (angleAxis (dir * step * INR i) normal) gen) (seq 0 nrGen).
