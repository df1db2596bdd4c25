(* Rotations and their vectors. *)
Require Import Reals List.
Require Import Verif.ConeModel Verif.DfModel Verif.CtcSpec Verif.FrModel Verif.OriModel.
Import ListNotations.
Local Open Scope R_scope.

Definition dotp (a b : v3) : R := vx a * vx b + vy a * vy b + vz a * vz b.
Definition crossp (a b : v3) : v3 := mkV3 (vy a * vz b - vz a * vy b) (vz a * vx b - vx a * vz b) (vx a * vy b - vy a * vx b).
(* x turned by the angle th around the unit vector a *)
Definition turn (a : v3) (th : R) (x : v3) : v3 :=
  mkV3 (cos th * vx x + sin th * vx (crossp a x) + (1 - cos th) * dotp a x * vx a)
       (cos th * vy x + sin th * vy (crossp a x) + (1 - cos th) * dotp a x * vy a)
       (cos th * vz x + sin th * vz (crossp a x) + (1 - cos th) * dotp a x * vz a).
(* The vector of which the coordinates on the axes of an orientation (the rows of E) are x *)
Definition onAxes (E : m3) (x : v3) : v3 :=
  mkV3 (vx x * vx (row0 E) + vy x * vx (row1 E) + vz x * vx (row2 E))
       (vx x * vy (row0 E) + vy x * vy (row1 E) + vz x * vy (row2 E))
       (vx x * vz (row0 E) + vy x * vz (row1 E) + vz x * vz (row2 E)).
(* Turning the orientation T by the vector u (around its direction, by its length, which is at most half a turn) gives C. *)
Definition turns (u : v3) (T C : m3) : Prop := exists a th, dotp a a = 1 /\ 0 <= th <= PI /\
  u = mkV3 (th * vx a) (th * vy a) (th * vz a) /\ forall x, onAxes C x = turn a th (onAxes T x).
Definition world : m3 := mkM3 (mkV3 1 0 0) (mkV3 0 1 0) (mkV3 0 0 1).
(* An orientation: orthonormal and right-handed axes *)
Definition orientation (E : m3) : Prop := orthonormal E /\ row2 E = crossp (row0 E) (row1 E).
(* What sva::rotationVelocity computes: the vector that turns the axes of the world to those of E. *)
Definition isRotationVelocity (rv : m3 -> v3) : Prop := forall E, orientation E -> turns (rv E) world E.
(* The orientation of a frame X on a body *)
Definition oriented (X : ptr) (b : body) (E : m3) : Prop := forall x, onAxes E x = onAxes (p_rot (b_pos b)) (onAxes (p_rot X) x).

(* The target and the orientation at the last update, if there is one: the target is the last one that was set, or the
   orientation of the frame when the function was reset or constructed. *)
Fixpoint compared (cur : body) (goal : m3 + body) (last : option ((m3 + body) * body)) (ops : list ofop) : option ((m3 + body) * body) :=
  match ops with
  | [] => last
  | OReset :: ops => compared cur (inr cur) last ops
  | OSet E :: ops => compared cur (inl E) last ops
  | OUpdate b :: ops => compared b goal (Some (goal, b)) ops
  end.
Definition goalIs (X : ptr) (g : m3 + body) (E : m3) : Prop := match g with inl T => E = T | inr b => oriented X b E end.
(* The derivative of the vector u that turns a fixed orientation to one with the angular velocity w (inverse of the
   derivative of the exponential) *)
Definition rate (u w : v3) : v3 :=
  let th := sqrt (dotp u u) in
  vplus (vplus w (vscale (- (1/2)) (crossp u w))) (vscale ((1 - th * (1 + cos th) / (2 * sin th)) / (th * th)) (crossp u (crossp u w))).
