(* Rigid motions. *)
Require Import Reals List.
Require Import Verif.ConeModel Verif.DfModel Verif.CtcSpec Verif.FrModel.
Import ListNotations.
Local Open Scope R_scope.

(* the derivative of a moving point *)
Definition derives (f : R -> v3) (t : R) (d : v3) : Prop :=
  derivable_pt_lim (fun t => vx (f t)) t (vx d) /\ derivable_pt_lim (fun t => vy (f t)) t (vy d) /\ derivable_pt_lim (fun t => vz (f t)) t (vz d).
(* the velocity of the point x (from the origin) of a body that turns with the angular velocity w while its origin has the velocity v *)
Definition rigid (w v x : v3) : v3 :=
  mkV3 (vx v + (vy w * vz x - vz w * vy x)) (vy v + (vz w * vx x - vx w * vz x)) (vz v + (vx w * vy x - vy w * vx x)).
(* A frame in motion has the angular velocity w and the velocity v of its origin: all its points move this way. *)
Definition moving (X : R -> ptr) (t : R) (w v : v3) : Prop :=
  forall x, derives (fun t => place (X t) x) t (rigid w v (mkV3 (vx (place (X t) x) - vx (p_tr (X t))) (vy (place (X t) x) - vy (p_tr (X t))) (vz (place (X t) x) - vz (p_tr (X t))))).
(* combination of motion vectors *)
Fixpoint weighted (n : nat) (q : nat -> R) (J : nat -> v3 * v3) : v3 * v3 :=
  match n with
  | O => (mkV3 0 0 0, mkV3 0 0 0)
  | S n => let a := weighted n q J in
      (mkV3 (vx (fst a) + q n * vx (fst (J n))) (vy (fst a) + q n * vy (fst (J n))) (vz (fst a) + q n * vz (fst (J n))),
       mkV3 (vx (snd a) + q n * vx (snd (J n))) (vy (snd a) + q n * vy (snd (J n))) (vz (snd a) + q n * vz (snd (J n))))
  end.
Definition still : ptr := mkPT (mkM3 (mkV3 1 0 0) (mkV3 0 1 0) (mkV3 0 0 1)) (mkV3 0 0 0).

(* The value of a position function: the difference between the position of the frame and the target, at the last update;
   the target is the last one that was set, or the position of the frame when it was reset or constructed.
   cur: the position of the frame *)
Fixpoint target (X : ptr) (cur : v3) (goal : v3) (val : option v3) (ops : list pfop) : option v3 :=
  match ops with
  | [] => val
  | PReset :: ops => target X cur cur val ops
  | PSet x :: ops => target X cur x val ops
  | PUpdate b :: ops => let p := place (b_pos b) (p_tr X) in target X p goal (Some (mkV3 (vx p - vx goal) (vy p - vy goal) (vz p - vz goal))) ops
  end.
(* J q' for the variables of the function *)
Fixpoint jacobianTimes (nd : nat -> nat) (q : nat -> nat -> R) (r : nat) (l : list (nat * (nat -> nat -> R))) : R :=
  match l with [] => 0 | (p, J) :: l => sumR (nd p) (fun j => J r j * q p j) + jacobianTimes nd q r l end.
(* the rows chosen by a matrix with six columns *)
Definition chosen (dof : nat -> nat -> R) (x : nat -> R) (r : nat) : R :=
  dof r 0%nat * x 0%nat + dof r 1%nat * x 1%nat + dof r 2%nat * x 2%nat + dof r 3%nat * x 3%nat + dof r 4%nat * x 4%nat + dof r 5%nat * x 5%nat.
(* the difference of two motions, of which one is left out if its robot has no degrees of freedom *)
Definition relativeMotion (dof : nat -> nat -> R) (n1 n2 : nat) (w1 v1 w2 v2 : v3) (r : nat) : R :=
  (if (n1 =? 0)%nat then 0 else dof r 0%nat * vx w1 + dof r 1%nat * vy w1 + dof r 2%nat * vz w1 + dof r 3%nat * vx v1 + dof r 4%nat * vy v1 + dof r 5%nat * vz v1) -
  (if (n2 =? 0)%nat then 0 else dof r 0%nat * vx w2 + dof r 1%nat * vy w2 + dof r 2%nat * vz w2 + dof r 3%nat * vx v2 + dof r 4%nat * vy v2 + dof r 5%nat * vz v2).
