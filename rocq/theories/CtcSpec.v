(* What frames, points and identifiers stand for. *)
Require Import Reals List Bool.
Require Import Verif.ConeModel Verif.DfModel.
Local Open Scope R_scope.

(* The point of which the coordinates in the frame X are x: o + x e0 + y e1 + z e2, where the rows of the rotation are
   the axes of the frame. *)
Definition place (X : ptr) (x : v3) : v3 :=
  mkV3 (vx (p_tr X) + vx x * vx (row0 (p_rot X)) + vy x * vx (row1 (p_rot X)) + vz x * vx (row2 (p_rot X)))
       (vy (p_tr X) + vx x * vy (row0 (p_rot X)) + vy x * vy (row1 (p_rot X)) + vz x * vy (row2 (p_rot X)))
       (vz (p_tr X) + vx x * vz (row0 (p_rot X)) + vy x * vz (row1 (p_rot X)) + vz x * vz (row2 (p_rot X))).
(* A frame with orthonormal axes: of a vector, the coordinates on the axes give the vector, and conversely *)
Definition coordinates (M : m3) (v : v3) : v3 :=
  mkV3 (vx (row0 M) * vx v + vy (row0 M) * vy v + vz (row0 M) * vz v) (vx (row1 M) * vx v + vy (row1 M) * vy v + vz (row1 M) * vz v)
       (vx (row2 M) * vx v + vy (row2 M) * vy v + vz (row2 M) * vz v).
Definition orthonormal (M : m3) : Prop := forall v, place (mkPT M (mkV3 0 0 0)) (coordinates M v) = v /\ coordinates M (place (mkPT M (mkV3 0 0 0)) v) = v.

(* A comparison that can be used in a map *)
Definition strict_weak {A : Type} (lt : A -> A -> bool) : Prop :=
  (forall a, lt a a = false) /\ (forall a b c, lt a b = true -> lt b c = true -> lt a c = true) /\
  (forall a b c, lt a c = true -> lt a b = true \/ lt b c = true).
(* A total order on strings *)
Definition total_order {A : Type} (lt eq : A -> A -> bool) : Prop :=
  (forall a b, eq a b = true <-> a = b) /\ (forall a, lt a a = false) /\ (forall a b c, lt a b = true -> lt b c = true -> lt a c = true) /\
  (forall a b, lt a b = true \/ a = b \/ lt b a = true).
