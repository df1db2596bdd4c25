(* What C50 speaks about. *)
From Coq Require Import List Bool Arith QArith.
Import ListNotations.
From Verif Require Import Base PostureModel.
Local Open Scope nat_scope.

(* One list by joint, of the number of entries given. *)
Definition shaped (size : jtype -> nat) (mb : mbody) (x : list (list Q)) : Prop := map (@length Q) x = map (fun j => size (jt j)) mb.
(* The position of joint k in the derivative of qJoints(): the number of degrees of freedom of the joints before, the
   free-flyer excluded. *)
Definition place (mb : mbody) (k : nat) : nat := nrDof (skipn (j0 mb) (firstn k mb)).
(* The number of joints of one degree of freedom before joint k. *)
Definition ones (mb : mbody) (k : nat) : nat := length (filter (fun j => dof (jt j) =? 1) (skipn (j0 mb) (firstn k mb))).
(* Joint k is joint j, and not the free-flyer. *)
Definition isJoint (mb : mbody) (k : nat) (j : joint) : Prop := j0 mb <= k /\ nth_error mb k = Some j.
(* Calls with arguments of the right sizes; the joint set is not the first one. *)
Definition valid (mb : mbody) (c : call) : Prop :=
  match c with
  | UpdateValue q | Reset q | SetAll q => shaped params mb q
  | UpdateVelocity a => shaped dof mb a
  | SetJoint n q => exists k j, nth_error mb (S k) = Some j /\ jname j = n /\ length q = params (jt j)
  end.
(* The target of joint k after the calls, when it was t. *)
Fixpoint target (mb : mbody) (k : nat) (cs : list call) (t : list Q) : list Q :=
  match cs with
  | [] => t
  | c :: cs' => target mb k cs' (match c with
      | Reset q | SetAll q => nth k q []
      | SetJoint n q => match nth_error mb k with Some j => if jname j =? n then q else t | None => t end
      | _ => t end)
  end.
