(* What is expected of a robot, without the functions of the model. *)
From Coq Require Import List Bool Arith ZArith QArith.
Import ListNotations.
From Verif Require Import Base RobModel.
Local Open Scope nat_scope.

(* A multi-body of RBDyn: distinct names, a free flyer has 7 parameters and 6 degrees of freedom and no joint has more degrees
   of freedom than parameters. *)
Definition proper (mb : rbody) : Prop :=
  NoDup (map rj_name mb) /\
  (forall j, In j mb -> rj_nd j <= rj_np j /\ (rj_free j = true -> rj_np j = 7 /\ rj_nd j = 6)).
(* j is the joint of a body after the joints of before *)
Definition splits (mb before : rbody) (j : rjoint) : Prop := exists after, mb = before ++ j :: after.
(* the first joint, when it is a free flyer, is in no vector of limits on positions and velocities *)
Definition isRoot (before : rbody) (j : rjoint) : Prop := before = [] /\ rj_free j = true.
Definition sumOf (w : rjoint -> nat) (l : rbody) : nat := fold_right (fun j n => w j + n) 0 l.
(* The free flyer at the root, if any, and the other joints. *)
Definition root (mb : rbody) : rbody := match mb with j :: _ => if rj_free j then [j] else [] | [] => [] end.
Definition joints (mb : rbody) : rbody := match mb with j :: l => if rj_free j then l else mb | [] => [] end.
(* Rank of coordinate c of the joint after before, in a vector without the coordinates of the free flyer. *)
Definition rank (w : rjoint -> nat) (before : rbody) (c : nat) : nat := sumOf w (joints before) + c.
(* Rank in a vector with them. *)
Definition fullRank (w : rjoint -> nat) (before : rbody) (c : nat) : nat := sumOf w before + c.
(* The limit given for coordinate c of the joint with name n. *)
Definition given (t : table) (n c : nat) (v : Q) : Prop := exists vs, In (n, vs) t /\ nth_error vs c = Some v.
(* Each vector of limits is that of a joint with at least as many coordinates; the others are for other robots. *)
Definition fits (w : rjoint -> nat) (mb : rbody) (t : table) : Prop :=
  NoDup (map fst t) /\ forall j vs, In j mb -> In (rj_name j, vs) t -> length vs <= w j.
Definition notRoot (mb : rbody) (t : table) : Prop := forall j vs, In j (root mb) -> In (rj_name j, vs) t -> vs = [].
(* Entry p of l is m * v for a limit v given for coordinate c of j, and d when there is none. *)
Definition entry (t : table) (m d : Q) (j : rjoint) (c p : nat) (l : list Q) : Prop :=
  exists x, nth_error l p = Some x /\ ((exists v, given t (rj_name j) c v /\ x = (m * v)%Q) \/ ((forall v, ~ given t (rj_name j) c v) /\ x = d)).
(* The coordinates of the vectors of limits of t are in a vector of size n (with off coordinates less) *)
Definition inside (w : rjoint -> nat) (off n : nat) (mb : rbody) (t : table) : Prop :=
  forall before j vs, splits mb before j -> In (rj_name j, vs) t -> vs <> [] ->
    off <= sumOf w before /\ sumOf w before + length vs <= off + n.

(* A configuration with as many numbers for each joint as the robot has *)
Definition shaped (mb : rbody) (c : config) : Prop :=
  map (@length Q) (c_q c) = map rj_np mb /\ map (@length Q) (c_alpha c) = map rj_nd mb /\ map (@length Q) (c_alphaD c) = map rj_nd mb.
Definition keeps (mb : rbody) (integ : config -> config) : Prop := forall c, shaped mb c -> shaped mb (integ c).
(* The calls with values of the right size. *)
Definition legal (mb : rbody) (o : rop) : Prop :=
  match o with
  | SetQ v => length v = sumOf rj_np mb
  | SetDq v => length v = sumOf rj_nd mb
  | SetDdq v => length v = sumOf rj_nd mb
  | SetMbc c => shaped mb c
  | _ => True
  end.
Fixpoint ticksIn (h : list rop) : Z := match h with [] => 0%Z | RTick :: h' => (1 + ticksIn h')%Z | _ :: h' => ticksIn h' end.
(* whether the clock advanced since the last update (or the construction) *)
Definition due (h : list rop) : Prop := exists h1 h2, h = h1 ++ RTick :: h2 /\ ~ In RUpdate h2.
(* The history without the values of q and dq set by hand *)
Definition byHand (o : rop) : bool := match o with SetQ _ | SetDq _ => true | _ => false end.
(* Calls that leave q, its velocity and the configuration to the update *)
Definition steady (o : rop) : Prop := match o with SetQ _ | SetDq _ | SetMbc _ => False | _ => True end.

(* Update u is computed before output o is read, as a consequence of the dependencies. *)
Inductive reaches : upd -> upd -> Prop :=
| reaches_self u : reaches u u
| reaches_step u v w : In (u, v) internalDependencies -> reaches v w -> reaches u w.
Definition computed (o : out) (u : upd) : Prop := exists v, In (o, v) outputDependencies /\ reaches v u.

(* A tree of n bodies: joint i goes from body pred i (none for the root) to body succ i, and the bodies are reached once, after
   their predecessor. *)
Definition tree (n : nat) (pred : list (option nat)) (succ : list nat) : Prop :=
  length pred = n /\ length succ = n /\ NoDup succ /\ (forall b, In b succ -> b < n) /\
  (forall i p, nth_error pred i = Some (Some p) -> exists k, k < i /\ nth_error succ k = Some p).
