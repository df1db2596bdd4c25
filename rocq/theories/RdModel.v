(* Model of the task dynamics Reference, ReferenceVelocity and ReferenceAcceleration
   (src/task_dynamics/Reference.cpp), over the tasks and constraints of LtcModel.v.  A reference function is given by
   its value at the current state; None is the null pointer.  As in LtcModel.v a dynamics gives the value its
   implementation has once updated; the computation graph is left out. *)
From Coq Require Import List Bool QArith.
From Verif Require Import Base LtcModel.
Import ListNotations.

(* Reference::Reference, Reference.cpp:12, which checks nothing *)
Record reference := mkRef { r_order : order; r_ref : option (list Q) }.
Definition newReference (o : order) (ref : option (list Q)) : res reference := Ok (mkRef o ref).
(* ReferenceVelocity::ReferenceVelocity, line 46, and ReferenceAcceleration::ReferenceAcceleration, line 48 *)
Definition newReferenceVelocity (ref : option (list Q)) : res reference := newReference One ref.
Definition newReferenceAcceleration (ref : option (list Q)) : res reference := newReference Two ref.
(* Impl::setReference, lines 34-44 *)
Definition setReference (ref : option (list Q)) : res (list Q) := match ref with None => Throw | Some v => Ok v end.
(* Impl::Impl, lines 21-23, then Impl::updateValue, line 25: value_ takes the value, and the size, of the reference *)
Definition referenceImpl (r : reference) (f : func) (t : ctype) (rhs : list Q) : res (list Q) :=
  do _ <- tdCheck f rhs; do v <- setReference (r_ref r); Ok v.
(* Reference::impl_ and Reference::order_, lines 14-19 *)
Definition referenceTD (r : reference) : tdyn := mkTD (r_order r) (referenceImpl r).
(* Impl::ref, lines 27-32 *)
Definition changeReference (v : list Q) (ref : option (list Q)) : res (list Q) := Throw.
