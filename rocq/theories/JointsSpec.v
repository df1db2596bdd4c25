(* What C49 speaks about. *)
From Coq Require Import List Bool Arith ZArith Permutation Sorted.
Import ListNotations.
From Verif Require Import Base JointsModel.

(* A possible result of sorting the names by position. *)
Definition sortOf (mb : mbody) (l sorted : list nat) : Prop :=
  Permutation l sorted /\ StronglySorted (fun a b => exists x y, key mb a = Some x /\ key mb b = Some y /\ x <= y) sorted.
(* Joint names are those of joints of mb, and the free-flyer is given at most once. *)
Definition known (mb : mbody) (l : list nat) : Prop := forall n, In n l -> In n (map jname mb).
Definition ffOnce (mb : mbody) (l : list nat) : Prop := forall r, rootName mb = Some r -> hasFF mb = true -> count_occ Nat.eq_dec l r <= 1.
(* The k-th joint has degree of freedom number d (in the whole robot). *)
Definition ofJoint (mb : mbody) (k d : nat) : Prop := exists j, nth_error mb k = Some j /\ jointPosInDof mb k <= d < jointPosInDof mb k + jdof j.
(* Column c of the matrices for qJoints() is of an active joint. *)
Definition activeCol (mb : mbody) (l : list nat) (c : nat) : Prop :=
  exists k j, nth_error mb k = Some j /\ In (jname j) l /\ ofJoint mb k (c + Z.to_nat (ffSize mb)).
(* The free-flyer is active. *)
Definition activeFF (mb : mbody) (l : list nat) : Prop := hasFF mb = true /\ exists r, rootName mb = Some r /\ In r l.
(* Some joint other than the free-flyer, and that can move, is active. *)
Definition activeQ (mb : mbody) (l : list nat) : Prop := exists c, c < Z.to_nat (Z.of_nat (nrDof mb) - ffSize mb) /\ activeCol mb l c.
(* The matrices of f have the right numbers of columns. *)
Definition fits {C} (mb : mbody) (f : fmat C) : Prop :=
  length (fFF f) = 6 /\ length (fQ f) = Z.to_nat (Z.of_nat (nrDof mb) - ffSize mb).
Definition ofUpdate {C} (u : update C) : fmat C := match u with UJac f => f | UJDot f => f end.
(* The last output of f used. *)
Fixpoint lastJac {C} (us : list (update C)) : option (fmat C) :=
  match us with [] => None | u :: us' => match lastJac us' with Some f => Some f | None => match u with UJac f => Some f | UJDot _ => None end end end.
Fixpoint lastJDot {C} (us : list (update C)) : option (fmat C) :=
  match us with [] => None | u :: us' => match lastJDot us' with Some f => Some f | None => match u with UJDot f => Some f | UJac _ => None end end end.
(* Matrix m for qJoints() has the active columns of f (written before the first update as w) and w elsewhere. *)
Definition selected {C} (mb : mbody) (l : list nat) (m : matrix C) (f : option (fmat C)) (w : option C) : Prop :=
  length m = Z.to_nat (Z.of_nat (nrDof mb) - ffSize mb) /\
  forall c, c < length m ->
    (activeCol mb l c -> nth_error m c = Some (match f with Some f => nth_error (fQ f) c | None => w end)) /\
    (~ activeCol mb l c -> nth_error m c = Some w).
(* f depends on the variables of the robot that are not empty. *)
Definition usesRobot (mb : mbody) (usesFF usesQ : bool) : Prop :=
  (hasFF mb = true -> usesFF = true) /\ (nrDof mb <> Z.to_nat (ffSize mb) -> usesQ = true).
