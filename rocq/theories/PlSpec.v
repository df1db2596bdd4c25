(* Planes in motion and the distance to them. *)
Require Import Reals List Bool.
Require Import Verif.ConeModel Verif.FrSpec Verif.PlModel.
Import ListNotations.
Local Open Scope R_scope.

Definition scalar (a b : v3) : R := vx a * vx b + vy a * vy b + vz a * vz b.
Definition distance (a b : v3) : R := sqrt ((vx a - vx b) * (vx a - vx b) + (vy a - vy b) * (vy a - vy b) + (vz a - vz b) * (vz a - vz b)).
(* the planes added since the last reset *)
Fixpoint added (acc : list nat) (ops : list ciop) : list nat :=
  match ops with [] => acc | IAdd k :: ops => added (acc ++ [k]) ops | IReset :: ops => added [] ops | _ :: ops => added acc ops end.
(* A plane given by a point at the time t: normal and point, with their first and second derivatives *)
Definition describes (L : plane) (n p : R -> v3) (n' p' : R -> v3) (n'' p'' : v3) (t : R) : Prop :=
  l_n L = n t /\ l_pt L = p t /\ l_off L = - scalar (n t) (p t) /\ l_nd L = n' t /\ l_sp L = p' t /\ l_ndd L = n'' /\ l_acc L = p'' /\
  (forall s, derives n s (n' s)) /\ (forall s, derives p s (p' s)) /\ derives n' t n'' /\ derives p' t p''.
(* J q'' *)
Fixpoint weigh (k : nat) (q : nat -> R) (J : nat -> v3) : v3 :=
  match k with O => mkV3 0 0 0 | S k => let a := weigh k q J in mkV3 (vx a + q k * vx (J k)) (vy a + q k * vy (J k)) (vz a + q k * vz (J k)) end.
(* what was given last *)
Fixpoint last_normal (n : v3) (ops : list plop) : v3 := match ops with [] => n | PlOff n _ :: ops | PlPt n _ :: ops => last_normal n ops | _ :: ops => last_normal n ops end.
Fixpoint last_point (p : v3) (ops : list plop) : v3 := match ops with [] => p | PlPt _ p :: ops => last_point p ops | _ :: ops => last_point p ops end.
Fixpoint last_offset (x : R) (ops : list plop) : R :=
  match ops with [] => x | PlOff _ x :: ops => last_offset x ops | PlPt n p :: ops => last_offset (- scalar n p) ops | _ :: ops => last_offset x ops end.
Fixpoint last_velocity (x : v3 * v3) (ops : list plop) : v3 * v3 := match ops with [] => x | PlVel a b :: ops => last_velocity (a, b) ops | _ :: ops => last_velocity x ops end.
Fixpoint last_acceleration (x : v3 * v3) (ops : list plop) : v3 * v3 := match ops with [] => x | PlAcc a b :: ops => last_acceleration (a, b) ops | _ :: ops => last_acceleration x ops end.
(* The value of the function of the centre of mass: com minus target at the last update; cur is the current centre of mass *)
Fixpoint com_value (cur goal : v3) (val : option v3) (ops : list coop) : option v3 :=
  match ops with
  | [] => val
  | CRobot m :: ops => com_value (m_com m) goal val ops
  | CReset :: ops => com_value cur cur val ops
  | CSet x :: ops => com_value cur x val ops
  | CValue :: ops => com_value cur goal (Some (mkV3 (vx cur - vx goal) (vy cur - vy goal) (vz cur - vz goal))) ops
  | _ :: ops => com_value cur goal val ops
  end.
(* the robot at the last call of a given kind *)
Fixpoint at_last (is : coop -> bool) (cur : mass) (val : option mass) (ops : list coop) : option mass :=
  match ops with
  | [] => val
  | CRobot m :: ops => at_last is m val ops
  | o :: ops => at_last is cur (if is o then Some cur else val) ops
  end.
