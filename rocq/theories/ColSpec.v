(* Distances between hulls in motion. *)
Require Import Reals List Bool Arith.
Require Import Verif.ConeModel Verif.DfModel Verif.FrModel Verif.FrSpec Verif.PlSpec Verif.ColModel.
Import ListNotations.
Local Open Scope R_scope.

(* the pairs of hulls added since the last reset; the hull of the robot with more degrees of freedom comes first *)
Fixpoint pairs (hulls : nat -> hull) (acc : list (nat * nat)) (ops : list colop) : list (nat * nat) :=
  match ops with
  | [] => acc
  | KAdd h1 h2 :: ops => pairs hulls (acc ++ [if (h_dof (hulls h1) <? h_dof (hulls h2))%nat then (h2, h1) else (h1, h2)]) ops
  | KReset :: ops => pairs hulls [] ops
  | KUpdate _ :: ops => pairs hulls acc ops
  end.
Definition row {A : Type} (o : option (list A)) (i : nat) : option A := match o with Some l => nth_error l i | None => None end.
(* What sch-core gives for hulls which do not touch (the square of the distance of the closest points) and for hulls which go through one
   another (minus this square): the signed distance *)
Definition signed (c : R * v3 * v3) (v : R) : Prop :=
  let '(d, p0, p1) := c in let l := distance p0 p1 in (0 < d /\ d = l * l /\ v = l) \/ (d < 0 /\ d = - (l * l) /\ v = - l).
Definition diff (a b : v3) : v3 := mkV3 (vx a - vx b) (vy a - vy b) (vz a - vz b).
Definition times (k : R) (a : v3) : v3 := mkV3 (k * vx a) (k * vy a) (k * vz a).
(* the normal: from the second closest point to the first one, divided by the signed distance *)
Definition normal (c : R * v3 * v3) (v : R) : v3 := let '(_, p0, p1) := c in times (/ v) (diff p0 p1).
(* the velocity of the point of the body which is at the place P *)
Definition velocity_at (b : body) (P : v3) : v3 := rigid (fst (b_vel b)) (snd (b_vel b)) (diff P (p_tr (b_pos b))).
(* J q', for the robots of a list *)
Fixpoint product (nd : nat -> nat) (q : nat -> nat -> R) (J : nat -> nat -> R) (robots : list nat) : R :=
  match robots with [] => 0 | r :: l => sumR (nd r) (fun j => J r j * q r j) + product nd q J l end.
