(* The hulls made, the frames, and the last call that places an object. *)
Require Import Reals List Bool Arith.
Require Import Verif.ConeModel Verif.DfModel Verif.CtcSpec Verif.PlSpec Verif.ChModel.
Import ListNotations.
Local Open Scope R_scope.

(* the hulls made by the calls: object, frame, position in the frame *)
Definition created (l : list chop) : list (nat * nat * ptr) := flat_map (fun c => match c with CNew o f X => [(o, f, X)] | _ => [] end) l.
(* the positions of the frames after the calls *)
Definition framesAfter (P : nat -> ptr) (l : list chop) : nat -> ptr := fold_left (fun P c => match c with CMove P' => P' | _ => P end) l P.
(* the call c, made after the calls l, places the object o for the frame f *)
Definition places (l : list chop) (c : chop) (o f : nat) (X : ptr) : Prop :=
  c = CNew o f X \/ exists h, c = CUpdate h /\ nth_error (created l) h = Some (o, f, X).
(* the last call of l that places o does it for the frame f, then at Pf *)
Definition lastPlaced (P : nat -> ptr) (l : list chop) (o f : nat) (X Pf : ptr) : Prop :=
  exists l1 c l2, l = l1 ++ c :: l2 /\ places l1 c o f X /\ Pf = framesAfter P l1 f /\
  forall l3 c' l4 f' X', l2 = l3 ++ c' :: l4 -> ~ places (l1 ++ c :: l3) c' o f' X'.
(* the point x of the object o is where the position X in the frame Pf says *)
Definition attached (s : chs) (o : nat) (X Pf : ptr) : Prop :=
  exists m, cs_tr s o = Some m /\ forall x, schPoint m x = place Pf (place X x).
