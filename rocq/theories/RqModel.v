(* Model of the solving requirements of a task (include/tvm/requirements/SolvingRequirements.h, PriorityLevel.h, Weight.h,
   AnisotropicWeight.h, ViolationEvaluation.h, abstract/SingleSolvingRequirement.h) and of their changes while the task is
   in a problem (src/ControlProblem.cpp:73-86, on top of PbModel.v).  Doubles are rational numbers; a vector is the list of
   its elements.  The parameter Lightweight only decides whether there are callbacks: the requirements of a
   TaskWithRequirements have them, those of the user do not. *)
From Coq Require Import List Bool Arith ZArith QArith.
Import ListNotations.
From Verif Require Import Base QueueModel PbModel.
Local Open Scope nat_scope.

(* The four requirements, SolvingRequirements.h:94-97 *)
Inductive kind := KPriority | KWeight | KAnisotropic | KEvaluation.
Definition kind_dec (a b : kind) : {a = b} + {a <> b}.
Proof. decide equality. Defined.
(* ViolationEvaluationType, ViolationEvaluation.h:24-32 *)
Inductive vtype := L1 | L2 | LINF.
(* The type T of SingleSolvingRequirement<T> *)
Definition ty (k : kind) : Type := match k with KPriority => Z | KWeight => Q | KAnisotropic => list Q | KEvaluation => vtype end.
(* SingleSolvingRequirement, SingleSolvingRequirement.h:67-70 *)
Record single (k : kind) := mkS { value : ty k; isDefault : bool }.
Arguments mkS {k}. Arguments value {k}. Arguments isDefault {k}.

(* The default constructors: PriorityLevel.h:21, Weight.h:27, AnisotropicWeight.h:42, ViolationEvaluation.h:43-45 *)
Definition newDefault (k : kind) : single k :=
  mkS (match k return ty k with KPriority => 0%Z | KWeight => 1%Q | KAnisotropic => [] | KEvaluation => L2 end) true.
Definition negative (q : Q) : bool := negb (Qle_bool 0 q).
(* The constructors from a value: PriorityLevel.h:24-28, Weight.h:29-33, AnisotropicWeight.h:45-50,
   ViolationEvaluation.h:47-49 *)
Definition newSingle (k : kind) : ty k -> res (single k) :=
  match k return ty k -> res (single k) with
  | KPriority => fun p => if (p <? 0)%Z then Throw else Ok (@mkS KPriority p false)
  | KWeight => fun a => if negative a then Throw else Ok (@mkS KWeight a false)
  | KAnisotropic => fun w => if existsb negative w then Throw else Ok (@mkS KAnisotropic w false)
  | KEvaluation => fun t => Ok (@mkS KEvaluation t false)
  end.
(* value(val), SingleSolvingRequirement.h:34-42, without the callbacks; operator=(const T &), lines 61-65, is the same *)
Definition setValue {k} (v : ty k) : single k := mkS v false.
(* operator=(const SingleSolvingRequirement<T, !Lightweight> &), lines 54-59, and the constructor of lines 50-52; the
   assignment from the same type copies the same members *)
Definition copy {k} (o : single k) : single k := mkS (value o) (isDefault o).

(* SolvingRequirementsBase *)
Definition reqs := forall k : kind, single k.
Definition put {k} (r : reqs) (s : single k) : reqs :=
  fun k' => match kind_dec k k' with left e => eq_rect k single s k' e | right _ => r k' end.
(* build, SolvingRequirements.h:49-64 and 99: None when the static assertion does not hold, that is when the code is
   refused by the compiler *)
Definition arg := {k : kind & single k}.
Definition checkArgs (k : kind) (l : list arg) : bool := existsb (fun a => if kind_dec k (projT1 a) then true else false) l.
Fixpoint build (r : reqs) (l : list arg) : option reqs :=
  match l with
  | [] => Some r
  | existT _ k m :: l' => if checkArgs k l' then None else build (put r (copy m)) l'
  end.
(* The constructor, lines 81-83 *)
Definition newReqs (l : list arg) : option reqs := build newDefault l.
(* SolvingRequirementsWithCallbacks(req), lines 114-116, used by TaskWithRequirements, ControlProblem.cpp:8-10 *)
Definition withCallbacks (req : reqs) : option reqs :=
  newReqs [existT _ KPriority (req KPriority); existT _ KWeight (req KWeight); existT _ KAnisotropic (req KAnisotropic); existT _ KEvaluation (req KEvaluation)].

(* A problem with the requirements of the tasks there are *)
Record world := mkW { wpb : pb; wreq : nat -> reqs }.
(* What the user does: SetValue t k v is t->requirements.name().value(v) or t->requirements.name() = v, CopyFrom t k o is
   t->requirements.name() = o for a requirement o of their own (t->requirements.weight() = Weight(2)), Other is a call of
   PbModel.v *)
Inductive wop := SetValue (t : nat) (k : kind) (v : ty k) | CopyFrom (t : nat) (k : kind) (o : single k) | Other (c : call).
Definition change (w : world) (t : nat) {k} (s : single k) : world :=
  mkW (wpb w) (fun u => if u =? t then put (wreq w u) s else wreq w u).
(* the callbacks registered by addCallBackToTask, ControlProblem.cpp:73-86: Base::run() calls those of this requirement *)
Definition callbacks (t : nat) (k : kind) (p : pb) : outcome :=
  match k with KWeight => weight WeightChange t p | KAnisotropic => weight AnisotropicWeightChange t p | _ => Done p end.
Inductive wout := WDone (w : world) | WThrew (w : world) | WUndef.
Definition wstep (buildable : nat -> bool) (w : world) (o : wop) : wout :=
  let on (w : world) (r : outcome) := match r with Done p => WDone (mkW p (wreq w)) | Threw p => WThrew (mkW p (wreq w)) | Undef => WUndef end in
  match o with
  | SetValue t k v => let w' := change w t (setValue v) in on w' (callbacks t k (wpb w'))
  | CopyFrom t k s => WDone (change w t (copy s))
  | Other c => on w (step buildable (wpb w) c)
  end.
(* A history: the caller goes on after an exception *)
Fixpoint wrun (buildable : nat -> bool) (w : world) (l : list wop) : res world :=
  match l with
  | [] => Ok w
  | o :: l' => match wstep buildable w o with WDone w' | WThrew w' => wrun buildable w' l' | WUndef => UB end
  end.
