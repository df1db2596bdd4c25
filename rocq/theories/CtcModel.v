(* Model of tvm::robot::Contact (include/tvm/robot/Contact.h, src/robot/Contact.cpp) and of what it uses of SpaceVecAlg's
   PTransform, over the real numbers.  A frame is given by its name, the name of its robot and its position when the
   contact is constructed.  The forwarding of the signals (addDirectDependency) is not modelled. *)
Require Import Reals List Bool ZArith.
Require Import Verif.ConeModel Verif.DfModel.
Import ListNotations.
Local Open Scope R_scope.

(* Matrix3d products *)
Definition mtrans (M : m3) : m3 :=
  mkM3 (mkV3 (vx (row0 M)) (vx (row1 M)) (vx (row2 M))) (mkV3 (vy (row0 M)) (vy (row1 M)) (vy (row2 M))) (mkV3 (vz (row0 M)) (vz (row1 M)) (vz (row2 M))).
Definition mmul (A B : m3) : m3 := mkM3 (tmul B (row0 A)) (tmul B (row1 A)) (tmul B (row2 A)).
(* sva::PTransform::operator*(const PTransform & pt): PTransform(E_ * pt.E_, pt.r_ + pt.E_.transpose() * r_) *)
Definition pmul (X pt : ptr) : ptr := mkPT (mmul (p_rot X) (p_rot pt)) (vplus (p_tr pt) (tmul (p_rot pt) (p_tr X))).
(* sva::PTransform::inv: PTransform(E_.transpose(), -E_ * r_) *)
Definition pinv (X : ptr) : ptr := mkPT (mtrans (p_rot X)) (vopp (mapply (p_rot X) (p_tr X))).

Section Ids.
(* std::string and its comparisons *)
Variable str : Type.
Variable slt seq : str -> str -> bool.

(* Contact::Id, Contact.h:31-56 *)
Record ident := mkIdent { j_r1 : str; j_f1 : str; j_r2 : str; j_f2 : str; j_amb : Z }.
(* operator<, lines 44-53 *)
Definition id_lt (a b : ident) : bool :=
  slt (j_r1 a) (j_r1 b) ||
  (seq (j_r1 a) (j_r1 b) && slt (j_f1 a) (j_f1 b)) ||
  (seq (j_r1 a) (j_r1 b) && seq (j_f1 a) (j_f1 b) && slt (j_r2 a) (j_r2 b)) ||
  (seq (j_r1 a) (j_r1 b) && seq (j_f1 a) (j_f1 b) && seq (j_r2 a) (j_r2 b) && slt (j_f2 a) (j_f2 b)) ||
  (seq (j_r1 a) (j_r1 b) && seq (j_f1 a) (j_f1 b) && seq (j_r2 a) (j_f2 b) && seq (j_f2 a) (j_f2 b) && (j_amb a <? j_amb b)%Z).
(* operator==, lines 54-55 *)
Definition id_eq (a b : ident) : bool :=
  seq (j_r1 a) (j_r1 b) && seq (j_f1 a) (j_f1 b) && seq (j_r2 a) (j_r2 b) && seq (j_f2 a) (j_f2 b) && (j_amb a =? j_amb b)%Z.

(* A frame *)
Record frame := mkFrame { f_robot : str; f_name : str; f_pos : ptr }.
(* Contact, Contact.h:127-134 *)
Record ctc := mkCtc { c_x12 : ptr; c_x21 : ptr; c_p1 : list ptr; c_p2 : list ptr; c_id : ident }.
(* Contact::Contact, Contact.cpp:13-31 *)
Definition newContact (f1 f2 : frame) (points : list ptr) (amb : Z) : ctc :=
  let x12 := pmul (f_pos f2) (pinv (f_pos f1)) in
  let x21 := pinv x12 in
  mkCtc x12 x21 points (map (fun x => pmul x21 x) points) (mkIdent (f_robot f1) (f_name f1) (f_robot f2) (f_name f2) amb).
End Ids.
