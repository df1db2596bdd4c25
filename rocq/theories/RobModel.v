(* Model of Robot (src/Robot.cpp, include/tvm/Robot.h): the bounds, the variables and their update with the clock, the
   dependencies between updates, the normal acceleration of the bodies.
   RBDyn is not in the repository. A multi-body is the list of its joints, with name, number of parameters and of degrees of
   freedom, and whether the joint is a free flyer; jointPosInParam(i) and jointPosInDof(i) are the sums over the joints before
   joint i. Names are numbers, doubles are rationals. *)
From Coq Require Import List Bool Arith ZArith QArith.
Import ListNotations.
From Verif Require Import Base IdModel.
Local Open Scope nat_scope.

Record rjoint := mkRJ { rj_name : nat; rj_np : nat; rj_nd : nat; rj_free : bool }.
Definition rbody := list rjoint.
Definition total (w : rjoint -> nat) (mb : rbody) : nat := fold_right plus 0 (map w mb).
(* mb.jointPosInParam (w := rj_np), mb.jointPosInDof (w := rj_nd) *)
Definition posOf (w : rjoint -> nat) (mb : rbody) (i : nat) : nat := total w (firstn i mb).
(* mb.jointIndexByName(): count and at, Robot.cpp:55-59. None: the name is not there. *)
Fixpoint jindexFrom (mb : rbody) (n i : nat) : option nat :=
  match mb with [] => None | j :: mb' => if Nat.eqb (rj_name j) n then Some i else jindexFrom mb' n (S i) end.
Definition jindex (mb : rbody) (n : nat) : option nat := jindexFrom mb n 0.

(* The test of Robot.cpp:26. *)
Definition hasFree (mb : rbody) : bool := match mb with j :: _ => rj_free j | [] => false end.
(* q_ff_->size() and q_ff_->space().tSize(), Robot.cpp:28 and 33. *)
Definition ffParams (mb : rbody) : nat := if hasFree mb then 7 else 0.
Definition ffDofs (mb : rbody) : nat := if hasFree mb then 6 else 0.
(* q_joints_->size(), that is the size of a value, and q_joints_->space().tSize(), Robot.cpp:29 and 34. The subtractions do not
   go below 0 as a free flyer has 7 parameters and 6 degrees of freedom. *)
Definition jointParams (mb : rbody) : nat := total rj_np mb - ffParams mb.
Definition jointDofs (mb : rbody) : nat := total rj_nd mb - ffDofs mb.

(* out(p) = x with Eigen: out of range violates an assertion. *)
Fixpoint putN (out : list Q) (p : nat) (x : Q) : list Q :=
  match out, p with [], _ => [] | _ :: t, O => x :: t | h :: t, S p' => h :: putN t p' x end.
Definition put (out : list Q) (p : Z) (x : Q) : res (list Q) :=
  if ((0 <=? p) && (p <? Z.of_nat (length out)))%Z then Ok (putN out (Z.to_nat p) x) else UB.
(* The inner loop of map2bound, Robot.cpp:61-64. pos + i is computed modulo 2^64 and converted back, which is the sum. *)
Fixpoint writes (out : list Q) (p : Z) (mul : Q) (vs : list Q) : res (list Q) :=
  match vs with
  | [] => Ok out
  | v :: vs' => do o <- put out p (mul * v)%Q; writes o (p + 1)%Z mul vs'
  end.
(* std::map<std::string, std::vector<double>> of rbd::parsers::Limits, in the order of the iteration *)
Definition table := list (nat * list Q).
(* map2bound, Robot.cpp:50-66; w stands for posMethod *)
Fixpoint map2bound (mb : rbody) (bound : table) (mul : Q) (out : list Q) (ffOffset : nat) (w : rjoint -> nat) : res (list Q) :=
  match bound with
  | [] => Ok out
  | (n, vs) :: rest =>
      match jindex mb n with
      | None => map2bound mb rest mul out ffOffset w
      | Some i => do o <- writes out (Z.of_nat (posOf w mb i) - Z.of_nat ffOffset) mul vs; map2bound mb rest mul o ffOffset w
      end
  end.

Record limits := mkLim { l_lower : table; l_upper : table; l_velocity : table; l_torque : table }.
Record bounds := mkB { lQ : list Q; uQ : list Q; lVel : list Q; uVel : list Q; lTau : list Q; uTau : list Q }.
(* Robot.cpp:36-73; big is tvm::constant::big_number *)
Definition setBounds (big : Q) (mb : rbody) (l : limits) : res bounds :=
  let n := jointParams mb in
  do lq <- map2bound mb (l_lower l) 1 (repeat (- big)%Q n) (ffParams mb) rj_np;
  do uq <- map2bound mb (l_upper l) 1 (repeat big n) (ffParams mb) rj_np;
  do lv <- map2bound mb (l_velocity l) (-1) (repeat (- big)%Q n) (ffDofs mb) rj_nd;
  do uv <- map2bound mb (l_velocity l) 1 (repeat big n) (ffDofs mb) rj_nd;
  do lt <- map2bound mb (l_torque l) (-1) (repeat 0%Q (ffDofs mb) ++ repeat (- big)%Q n) 0 rj_nd;
  do ut <- map2bound mb (l_torque l) 1 (repeat 0%Q (ffDofs mb) ++ repeat big n) 0 rj_nd;
  Ok (mkB lq uq lv uv lt ut).

(* rbd::MultiBodyConfig: q, alpha and alphaD, one vector per joint *)
Record config := mkC { c_q : list (list Q); c_alpha : list (list Q); c_alphaD : list (list Q) }.
(* rbd::paramToVector(p, e): writes the numbers of p in e one after the other *)
Definition paramToVector (p : list (list Q)) (e : list Q) : res (list Q) :=
  if Nat.leb (length (concat p)) (length e) then Ok (concat p ++ skipn (length (concat p)) e) else UB.
(* rbd::vectorToParam(e, p): fills the vectors of p with the numbers of e one after the other *)
Fixpoint vectorToParam (e : list Q) (p : list (list Q)) : res (list (list Q)) :=
  match p with
  | [] => Ok []
  | v :: p' => if Nat.leb (length v) (length e)
               then do r <- vectorToParam (skipn (length v) e) p'; Ok (firstn (length v) e :: r) else UB
  end.
(* VariableVector::set, VariableVector.cpp:146-156, on the concatenation of the values *)
Definition setVar (old new : list Q) : res (list Q) := if Nat.eqb (length new) (length old) then Ok new else UB.

Record robot := mkR { r_now : Z; r_last : Z; r_c : config; r_q : list Q; r_dq : list Q; r_ddq : list Q }.
(* The constructor, Robot.cpp:22 and 75-84: ticks is the number of ticks of the clock, q0 the value of q_ before it is set (the
   initial value of a variable, of the size of the variable). tau_ is not in the state: nothing here reads it. *)
Definition construct (mb : rbody) (ticks : Z) (q0 : list Q) (c : config) : res robot :=
  do qi <- paramToVector (c_q c) q0;
  do q <- setVar q0 qi;
  Ok (mkR ticks ticks c q (repeat 0%Q (total rj_nd mb)) (repeat 0%Q (total rj_nd mb))).

Section Time.
  (* rbd::eulerIntegration(mb_, mbc_, clock_.dt()) *)
  Variable integ : config -> config.
  (* updateTimeDependency, Robot.cpp:138-153 *)
  Definition updateTime (r : robot) : res robot :=
    if (r_last r =? r_now r)%Z then Ok r else
    do ad <- vectorToParam (r_ddq r) (c_alphaD (r_c r));
    let c := integ (mkC (c_q (r_c r)) (c_alpha (r_c r)) ad) in
    do dq <- paramToVector (c_alpha c) (r_dq r);
    do dq' <- setVar (r_dq r) dq;
    do q <- paramToVector (c_q c) (r_q r);
    do q' <- setVar (r_q r) q;
    Ok (mkR (r_now r) (r_now r) c q' dq' (r_ddq r)).
  (* What happens to a robot: the values of its variables are set (by the solver for the accelerations, by hand for the
     others), the configuration is changed through mbc(), the clock advances, the update runs. *)
  Inductive rop := SetQ (v : list Q) | SetDq (v : list Q) | SetDdq (v : list Q) | SetMbc (c : config) | RTick | RUpdate.
  Definition rstep (r : robot) (o : rop) : res robot :=
    match o with
    | SetQ v => do q <- setVar (r_q r) v; Ok (mkR (r_now r) (r_last r) (r_c r) q (r_dq r) (r_ddq r))
    | SetDq v => do q <- setVar (r_dq r) v; Ok (mkR (r_now r) (r_last r) (r_c r) (r_q r) q (r_ddq r))
    | SetDdq v => do q <- setVar (r_ddq r) v; Ok (mkR (r_now r) (r_last r) (r_c r) (r_q r) (r_dq r) q)
    | SetMbc c => Ok (mkR (r_now r) (r_last r) c (r_q r) (r_dq r) (r_ddq r))
    | RTick => Ok (mkR (IdModel.advance (r_now r)) (r_last r) (r_c r) (r_q r) (r_dq r) (r_ddq r))
    | RUpdate => updateTime r
    end.
  Fixpoint rrun (r : robot) (h : list rop) : res robot :=
    match h with [] => Ok r | o :: h' => do r' <- rstep r o; rrun r' h' end.
End Time.

(* The dependencies, Robot.cpp:97-118. *)
Inductive upd := UTime | UFK | UFV | UFA | UNormalAcceleration | UCoM | UH | UC.
Inductive out := OFK | OFV | OFA | ONormalAcceleration | Otau | OCoM | OH | OC | OGeometry | ODynamics.
(* addOutputDependency, Robot.cpp:99-110 *)
Definition outputDependencies : list (out * upd) :=
  [(OFK, UFK); (OFV, UFV); (OFA, UFA); (ONormalAcceleration, UNormalAcceleration); (OCoM, UCoM); (OH, UH); (OC, UC);
   (OGeometry, UCoM); (ODynamics, UH); (ODynamics, UC); (ODynamics, UNormalAcceleration); (ODynamics, UFA)].
(* addInternalDependency, Robot.cpp:112-118: the first depends on the second *)
Definition internalDependencies : list (upd * upd) :=
  [(UFK, UTime); (UCoM, UFK); (UFV, UFK); (UH, UFV); (UC, UFV); (UFA, UFV); (UNormalAcceleration, UFV)].

Section NormalAcceleration.
  Context {X M : Type}.
  (* product of a transformation and a motion vector, sum and cross product of motion vectors (SpaceVecAlg) *)
  Variables (act : X -> M -> M) (plus cross : M -> M -> M).
  Fixpoint putM (l : list M) (p : nat) (x : M) : list M :=
    match l, p with [], _ => [] | _ :: t, O => x :: t | h :: t, S p' => h :: putM t p' x end.
  Definition storeM (l : list M) (p : nat) (x : M) : res (list M) := if Nat.ltb p (length l) then Ok (putM l p x) else UB.
  Definition getM {A} (l : list A) (i : nat) : res A := match nth_error l i with Some x => Ok x | None => UB end.
  (* One round of the loop, Robot.cpp:172-182; pred is None for -1. *)
  Definition accStep (pred : list (option nat)) (succ : list nat) (parentToSon : list X) (jointVelocity bodyVelB : list M)
      (a : list M) (i : nat) : res (list M) :=
    do x <- getM parentToSon i; do vj <- getM jointVelocity i; do vb <- getM bodyVelB i; do p <- getM pred i; do s <- getM succ i;
    match p with
    | Some p => do ap <- getM a p; storeM a s (plus (act x ap) (cross vb vj))
    | None => storeM a s (cross vb vj)
    end.
  Fixpoint accLoop pred succ xs vjs vbs (a : list M) (is : list nat) : res (list M) :=
    match is with [] => Ok a | i :: is' => do a' <- accStep pred succ xs vjs vbs a i; accLoop pred succ xs vjs vbs a' is' end.
  (* computeNormalAccB, Robot.cpp:163-185 *)
  Definition computeNormalAccB (mb : rbody) pred succ xs vjs vbs (a : list M) : res (list M) :=
    if Nat.ltb 0 (total rj_nd mb) then accLoop pred succ xs vjs vbs a (seq 0 (length mb)) else Ok a.
End NormalAcceleration.
