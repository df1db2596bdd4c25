(* Model of tvm::robot::ConvexHull (src/robot/ConvexHull.cpp) and of tvm::utils::transform (src/utils/sch.cpp), over the real
   numbers.  The objects of sch-core are given by numbers; of an object only its transformation is modelled.  A frame is given
   by a number, and its position by the frames of the state (Frame::position(), see FrModel.v). *)
Require Import Reals List Bool Arith.
Require Import Verif.Base Verif.ConeModel Verif.DfModel Verif.CtcModel.
Import ListNotations.
Local Open Scope R_scope.

Definition mrow (M : m3) (k : nat) : v3 := match k with 0%nat => row0 M | 1%nat => row1 M | _ => row2 M end.
(* sch::Matrix4x4 *)
Definition m4 := nat -> nat -> R.
Section Ch.
(* the last row, that transform does not write *)
Variable junk : nat -> R.
(* transform, sch.cpp:11-30: m(i, j) = rot(j, i), m(i, 3) = tran(i) *)
Definition transformOf (t : ptr) : m4 := fun i j =>
  if ((i <? 3) && (j <? 3))%nat then comp (mrow (p_rot t) j) i
  else if ((i <? 3) && (j =? 3))%nat then comp (p_tr t) i
  else junk j.
(* how sch-core uses a transformation: on the coordinates of a point, its first three rows *)
Definition schPoint (m : m4) (x : v3) : v3 :=
  let r i := m i 0%nat * vx x + m i 1%nat * vy x + m i 2%nat * vz x + m i 3%nat in mkV3 (r 0%nat) (r 1%nat) (r 2%nat).

(* ConvexHull.h:63-65 *)
Record chull := mkCh { ch_obj : nat; ch_frame : nat; ch_x : ptr }.
Record chs := mkChs { cs_frames : nat -> ptr; cs_hulls : list chull; cs_tr : nat -> option m4 }.
(* the calls: the constructor, an update of the frames, the update Position of a hull *)
Inductive chop := CNew (o f : nat) (X : ptr) | CMove (P : nat -> ptr) | CUpdate (h : nat).
(* ConvexHull::updatePosition, ConvexHull.cpp:30 *)
Definition updatePosition (s : chs) (h : chull) : chs :=
  let t := transformOf (pmul (ch_x h) (cs_frames s (ch_frame h))) in
  mkChs (cs_frames s) (cs_hulls s) (fun o => if (o =? ch_obj h)%nat then Some t else cs_tr s o).
(* ConvexHull::ConvexHull, ConvexHull.cpp:17-26 *)
Definition newHull (s : chs) (o f : nat) (X : ptr) : chs :=
  updatePosition (mkChs (cs_frames s) (cs_hulls s ++ [mkCh o f X]) (cs_tr s)) (mkCh o f X).
Definition chstep (s : chs) (c : chop) : res chs :=
  match c with
  | CNew o f X => Ok (newHull s o f X)
  | CMove P => Ok (mkChs P (cs_hulls s) (cs_tr s))
  | CUpdate h => match nth_error (cs_hulls s) h with Some u => Ok (updatePosition s u) | None => UB end
  end.
Fixpoint chrun (s : chs) (l : list chop) : res chs := match l with [] => Ok s | c :: l' => do s' <- chstep s c; chrun s' l' end.
(* makePair, ConvexHull.cpp:28: the objects of the pair *)
Definition makePair (u v : chull) : nat * nat := (ch_obj u, ch_obj v).
End Ch.
Definition chinit (P : nat -> ptr) : chs := mkChs P [] (fun _ => None).
