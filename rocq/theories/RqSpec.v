(* What C71 speaks about. *)
From Coq Require Import List Bool Arith ZArith QArith.
Import ListNotations.
From Verif Require Import Base QueueModel PbModel RqModel.
Local Open Scope nat_scope.

(* The documented default values: priority 0, weight 1, no anisotropic weight, the L2 norm. *)
Definition defaultValue (k : kind) : ty k :=
  match k return ty k with KPriority => 0%Z | KWeight => 1%Q | KAnisotropic => [] | KEvaluation => L2 end.
(* What a priority level and weights have to be. *)
Definition acceptable {k : kind} : ty k -> Prop :=
  match k return ty k -> Prop with
  | KPriority => fun p => (0 <= p)%Z
  | KWeight => fun a => (0 <= a)%Q
  | KAnisotropic => fun w => Forall (fun x => (0 <= x)%Q) w
  | KEvaluation => fun _ => True
  end.

(* The requirement k of the task t after what the user did: the last one given. *)
Definition given1 (t : nat) (k : kind) (s : single k) (o : wop) : single k :=
  match o with
  | SetValue u k' v => if u =? t then match kind_dec k' k with left e => mkS (eq_rect k' ty v k e) false | right _ => s end else s
  | CopyFrom u k' c => if u =? t then match kind_dec k' k with left e => eq_rect k' single c k e | right _ => s end else s
  | Other _ => s
  end.
Definition lastGiven (t : nat) (k : kind) (l : list wop) (s : single k) : single k := fold_left (given1 t k) l s.

(* The calls made on the problem and the notifications. *)
Definition callOf (o : wop) : list call :=
  match o with
  | SetValue t KWeight _ => [Weight t]
  | SetValue t KAnisotropic _ => [Aniso t]
  | SetValue _ _ _ | CopyFrom _ _ _ => []
  | Other c => [c]
  end.
Definition callsOf (l : list wop) : list call := flat_map callOf l.

(* The events of a scheme tell it to read the requirement k of the task t again: the task is new for it, or this weight
   was changed. *)
Definition told (k : kind) (t : nat) (q : list event) : Prop :=
  In (mkE TaskAddition (addrTask t)) q \/
  match k with
  | KWeight => In (mkE WeightChange (addrTask t)) q
  | KAnisotropic => In (mkE AnisotropicWeightChange (addrTask t)) q
  | _ => False
  end.
Definition aWeight (k : kind) : Prop := k = KWeight \/ k = KAnisotropic.
(* Tasks with the default requirements. *)
Definition newDefault_all : nat -> reqs := fun _ k => mkS (defaultValue k) true.
