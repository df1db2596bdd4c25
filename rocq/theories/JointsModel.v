(* Model of robot::JointsSelector (src/robot/JointsSelector.cpp).
   A multi-body (RBDyn, not in the repository) is the list of its joints, with name and number of degrees of freedom;
   mb.jointPosInDof(i) is the number of degrees of freedom of the joints before joint i. A matrix is the list of its
   columns, a column being any value of a type C; None is a column never written. Names are numbers. *)
From Coq Require Import List Bool Arith ZArith.
Import ListNotations.
From Verif Require Import Base.
Local Open Scope Z_scope.

Record joint := mkJ { jname : nat; jdof : nat }.
Definition mbody := list joint.
Definition nrDof (mb : mbody) : nat := fold_right plus 0%nat (map jdof mb).
Definition jointPosInDof (mb : mbody) (i : nat) : nat := nrDof (firstn i mb).
(* mb.jointIndexByName. For an unknown name the result of RBDyn is not specified (the checked variant, used in
   PostureFunction.cpp:38, is sJointIndexByName): None, and UB for the caller. *)
Fixpoint indexFrom (mb : mbody) (n i : nat) : option nat :=
  match mb with
  | [] => None
  | j :: mb' => if Nat.eqb (jname j) n then Some i else indexFrom mb' n (S i)
  end.
Definition jointIndexByName (mb : mbody) (n : nat) : option nat := indexFrom mb n 0.
(* The key of the sort, lines 35-37. *)
Definition key (mb : mbody) (n : nat) : option nat := option_map (jointPosInDof mb) (jointIndexByName mb n).
(* mb.joint(0).dof() == 6, lines 39 and 45. joint(0) of an empty multi-body is UB. *)
Definition hasFF (mb : mbody) : bool := match mb with j :: _ => Nat.eqb (jdof j) 6 | [] => false end.
Definition rootName (mb : mbody) : option nat := option_map jname (hd_error mb).
Definition ffSize (mb : mbody) : Z := if hasFF mb then 6 else 0.

(* The loop, lines 46-71, over the sorted joints, with the values of activeIndex, start and size. *)
Fixpoint scan (mb : mbody) (joints : list nat) (acc : list (Z * Z)) (start size : Z) : res (list (Z * Z)) :=
  match joints with
  | [] => Ok (if size =? 0 then acc else acc ++ [(start, size)])
  | j :: rest =>
      match jointIndexByName mb j with
      | None => UB
      | Some i =>
          let d := Z.of_nat (jdof (nth i mb (mkJ 0 0))) in
          let pos := Z.of_nat (jointPosInDof mb i) - ffSize mb in
          if negb (pos =? start + size) then scan mb rest (if size =? 0 then acc else acc ++ [(start, size)]) pos d
          else scan mb rest acc start (size + d)
      end
  end.

(* Lines 39-71 on the sorted list: ffActive and activeIndex. *)
Definition select (mb : mbody) (sorted : list nat) : res (bool * list (Z * Z)) :=
  match mb with
  | [] => UB
  | _ =>
    let ffActive := match sorted with j :: _ => match rootName mb with Some r => Nat.eqb j r | None => false end | [] => false end && hasFF mb in
    let joints := if ffActive then tl sorted else sorted in
    do idx <- scan mb joints [] 0 0; Ok (ffActive, idx)
  end.

(* checkRobotVariable, lines 17-30: usesFF and usesQ say whether f depends on qFreeFlyer() and qJoints(); the size of
   these is that of Robot.cpp:26-35. It is the size of the space of the variable: it vanishes together with its number
   of degrees of freedom. *)
Definition checkVariables (mb : mbody) (usesFF usesQ : bool) : bool :=
  (negb (hasFF mb) || usesFF) && ((Z.of_nat (nrDof mb) - ffSize mb =? 0) || usesQ).

Section Matrix.
  Context {C : Type}.
  Variable zero : C.
  Definition matrix := list (option C).
  (* middleCols(start, size) of both matrices: copy; out of range is UB. *)
  Definition inRange (m : matrix) (p : Z * Z) : bool := (0 <=? fst p) && (0 <=? snd p) && (fst p + snd p <=? Z.of_nat (length m)).
  Definition copyCols (dst src : matrix) (p : Z * Z) : res matrix :=
    if inRange dst p && inRange src p
    then Ok (map (fun c => nth c (if (fst p <=? Z.of_nat c) && (Z.of_nat c <? fst p + snd p) then src else dst) None) (seq 0 (length dst)))
    else UB.
  Fixpoint copyAll (dst src : matrix) (ps : list (Z * Z)) : res matrix :=
    match ps with
    | [] => Ok dst
    | p :: ps' => do d <- copyCols dst src p; copyAll d src ps'
    end.

  (* The selector: ffActive_, activeIndex_, and the matrices of jacobian_ and JDot_ for qFreeFlyer() and qJoints(); None
     when the variable was not added. *)
  Record selector := mkSel { ffActive : bool; activeIndex : list (Z * Z);
    jacFF : option matrix; jacQ : option matrix; jdotFF : option matrix; jdotQ : option matrix }.
  Definition cols (x : Z) (v : option C) : matrix := repeat v (Z.to_nat x).
  (* Constructor, lines 92-121; FirstOrderProvider::addVariable (FirstOrderProvider.cpp:40-49) and Function::addVariable_
     (Function.cpp:54-58) resize the matrices to tSize() columns, which does not set their content. *)
  Definition construct (mb : mbody) (r : bool * list (Z * Z)) : selector :=
    let q := Z.of_nat (nrDof mb) - ffSize mb in
    let '(ff, idx) := r in
    let withQ := match idx with [] => false | _ => true end in
    mkSel ff idx (if ff then Some (cols 6 (Some zero)) else None) (if withQ then Some (cols q (Some zero)) else None)
      (if ff then Some (cols 6 None) else None) (if withQ then Some (cols q None) else None).
  (* ActiveJoints, lines 13-74. std::sort is not stable: the result of the sort is given, and any is possible that is
     a sorted permutation of the list. *)
  Definition ActiveJoints (mb : mbody) (usesFF usesQ : bool) (sorted : list nat) : res selector :=
    if negb (checkVariables mb usesFF usesQ) then Throw else
    do r <- select mb sorted; Ok (construct mb r).
  (* InactiveJoints, lines 76-90: the list given to ActiveJoints. *)
  Definition activeOf (mb : mbody) (inactive : list nat) : list nat :=
    map jname (filter (fun j => negb (existsb (Nat.eqb (jname j)) inactive)) mb).

  (* The Jacobians (or their derivatives) of f with respect to qFreeFlyer() and qJoints(). *)
  Record fmat := mkF { fFF : list C; fQ : list C }.
  (* updateJacobian and updateJDot, lines 123-154, on the matrices concerned. Assigning a matrix of another size is UB
     (MatrixWithProperties.h:79-88). *)
  Definition updateFF (m : option matrix) (f : list C) : res (option matrix) :=
    match m with
    | None => Ok None
    | Some d => if Nat.eqb (length d) (length f) then Ok (Some (map Some f)) else UB
    end.
  Definition updateQ (m : option matrix) (f : list C) (idx : list (Z * Z)) : res (option matrix) :=
    match m with
    | None => Ok None
    | Some d => do d' <- copyAll d (map Some f) idx; Ok (Some d')
    end.
  Definition updateJacobian (s : selector) (f : fmat) : res selector :=
    do a <- updateFF (jacFF s) (fFF f); do b <- updateQ (jacQ s) (fQ f) (activeIndex s);
    Ok (mkSel (ffActive s) (activeIndex s) a b (jdotFF s) (jdotQ s)).
  Definition updateJDot (s : selector) (f : fmat) : res selector :=
    do a <- updateFF (jdotFF s) (fFF f); do b <- updateQ (jdotQ s) (fQ f) (activeIndex s);
    Ok (mkSel (ffActive s) (activeIndex s) (jacFF s) (jacQ s) a b).
  (* Updates with the successive outputs of f. *)
  Inductive update := UJac (f : fmat) | UJDot (f : fmat).
  Fixpoint updates (s : selector) (us : list update) : res selector :=
    match us with
    | [] => Ok s
    | UJac f :: us' => do s' <- updateJacobian s f; updates s' us'
    | UJDot f :: us' => do s' <- updateJDot s f; updates s' us'
    end.
End Matrix.
Arguments matrix : clear implicits.
Arguments selector : clear implicits.
Arguments fmat : clear implicits.
Arguments update : clear implicits.
