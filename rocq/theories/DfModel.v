(* Model of tvm::robot::internal::DynamicFunction (src/robot/DynamicFunction.cpp,
   include/tvm/robot/internal/DynamicFunction.h) with what it uses of LinearFunction.cpp and Contact.h.
   Doubles are real numbers.  Robots and frames are numbers (their names).  RBDyn is an oracle: a configuration gives
   H, C and, for a frame and a point of it, the last three rows of the full Jacobian of this point
   (translateBodyJacobian then fullJacobian).  The variables dot(q, 2) and tau, which belong to the robot, have the
   numbers 0 and 1; the variables that are created have the following ones.  dot(q, 2) is one vector here: splitJacobian
   cuts H into the columns of its variables, and their products are summed again (see LinFunModel.v). *)
Require Import Reals List Arith Bool.
Require Import Verif.Base Verif.ConeModel.
Import ListNotations.
Local Open Scope R_scope.

(* sva::PTransformd *)
Record ptr := mkPT { p_rot : m3; p_tr : v3 }.
(* Contact::Id and its operator==, Contact.h:31-56 *)
Record cid := mkId { i_r1 : nat; i_f1 : nat; i_r2 : nat; i_f2 : nat; i_amb : nat }.
Definition cid_eqb (a b : cid) : bool :=
  Nat.eqb (i_r1 a) (i_r1 b) && Nat.eqb (i_f1 a) (i_f1 b) && Nat.eqb (i_r2 a) (i_r2 b) && Nat.eqb (i_f2 a) (i_f2 b) && Nat.eqb (i_amb a) (i_amb b).
(* Contact: its id, which names the robots and the frames, and its points in both frames *)
Record contact := mkCt { t_id : cid; t_p1 : list ptr; t_p2 : list ptr }.
Record config := mkCfg { g_H : nat -> nat -> R; g_C : nat -> R; g_J : nat -> v3 -> nat -> nat -> R }.

(* component of a vector *)
Definition comp (a : v3) (k : nat) : R := match k with 0%nat => vx a | 1%nat => vy a | _ => vz a end.
Definition zero3 : v3 := mkV3 0 0 0.
Fixpoint sumR (n : nat) (f : nat -> R) : R := match n with O => 0 | S n => sumR n f + f n end.

(* A force variable of the function, with its size and its Jacobian, which is not initialised when it is resized *)
Record fvar := mkFV { w_id : nat; w_size : nat; w_jac : option (nat -> nat -> R) }.
(* ForceContact, DynamicFunction.h:106-132; the two functions are given by what they capture *)
Record fcontact := mkFC { k_id : cid; k_lin : bool; k_forces : list nat; k_frame : nat; k_points : list ptr; k_dir : R; k_nrGen : nat; k_gens : list v3 }.
Record dyn := mkDyn { y_robot : nat; y_next : nat; y_vars : list fvar; y_H : option (nat -> nat -> R); y_b : option (nat -> R); y_contacts : list fcontact }.

Section Df.
Variable nq : nat. (* robot->mb().nrDof() *)

(* DynamicFunction::DynamicFunction, lines 24-38 *)
Definition newDyn (robot : nat) : dyn := mkDyn robot 2 [] None None [].

(* getContact, lines 211-219 *)
Definition getContact (d : dyn) (i : cid) : option fcontact := find (fun c => cid_eqb (k_id c) i) (y_contacts d).
(* addContact_, lines 67-161 *)
Definition addContact_ (d : dyn) (i : cid) (f : nat) (points : list ptr) (linearize : bool) (mu : R) (nrGen : nat) (dir : R) : dyn :=
  let ids := seq (y_next d) (length points) in
  let gens := if linearize then flat_map (fun p => map vopp (frictionCone (mscale dir (p_rot p)) nrGen mu dir)) points else [] in
  mkDyn (y_robot d) (y_next d + length points) (y_vars d ++ map (fun v => mkFV v (if linearize then nrGen else 3%nat) None) ids) (y_H d) (y_b d)
        (y_contacts d ++ [mkFC i linearize ids f points dir nrGen gens]).
(* addContact, lines 40-65 *)
Definition addContact (d : dyn) (ct : contact) (linearize : bool) (mu : R) (nrGen : nat) : dyn * bool :=
  match getContact d (t_id ct) with
  | Some _ => (d, false)
  | None =>
      let in1 := Nat.eqb (i_r1 (t_id ct)) (y_robot d) in
      let in2 := Nat.eqb (i_r2 (t_id ct)) (y_robot d) in
      let d := if in1 then addContact_ d (t_id ct) (i_f1 (t_id ct)) (t_p1 ct) linearize mu nrGen 1 else d in
      let d := if in2 then addContact_ d (t_id ct) (i_f2 (t_id ct)) (t_p2 ct) linearize mu nrGen (-1) else d in
      (d, in1 || in2)
  end.
(* removeContact, lines 163-170 *)
Fixpoint eraseFirst (i : cid) (l : list fcontact) : list fcontact :=
  match l with [] => [] | c :: l => if cid_eqb (k_id c) i then l else c :: eraseFirst i l end.
Definition removeContact (d : dyn) (i : cid) : dyn := mkDyn (y_robot d) (y_next d) (y_vars d) (y_H d) (y_b d) (eraseFirst i (y_contacts d)).

(* jacobian_[v] = J *)
Definition setJ (l : list fvar) (v : nat) (J : nat -> nat -> R) : list fvar :=
  map (fun w => if Nat.eqb (w_id w) v then mkFV (w_id w) (w_size w) (Some J) else w) l.
(* the Jacobian of one force variable: line 96, and lines 136-139 (column j of the generators of the point number i) *)
Definition forceJ (g : config) (c : fcontact) (i : nat) (p : ptr) : nat -> nat -> R :=
  if k_lin c then fun r j => let n := nth (k_nrGen c * i + j) (k_gens c) zero3 in sumR 3 (fun k => comp n k * g_J g (k_frame c) (p_tr p) k r)
  else fun r k => k_dir c * g_J g (k_frame c) (p_tr p) k r.
(* updateJacobians_, lines 88-98 and 129-141 *)
Fixpoint updJ (g : config) (c : fcontact) (i : nat) (vs : list nat) (ps : list ptr) (l : list fvar) : list fvar :=
  match vs, ps with v :: vs, p :: ps => updJ g c (S i) vs ps (setJ l v (forceJ g c i p)) | _, _ => l end.
(* updateJacobian, lines 202-209, and updateb, line 200 *)
Definition update (d : dyn) (g : config) : dyn :=
  mkDyn (y_robot d) (y_next d) (fold_left (fun l c => updJ g c 0 (k_forces c) (k_points c) l) (y_contacts d) (y_vars d)) (Some (g_H g)) (Some (g_C g)) (y_contacts d).

(* LinearFunction::updateValue_, LinearFunction.cpp:38-43, row r *)
Fixpoint forceTerms (env : nat -> nat -> R) (r : nat) (l : list fvar) (acc : R) : res R :=
  match l with
  | [] => Ok acc
  | w :: l => match w_jac w with None => UB | Some J => forceTerms env r l (acc + sumR (w_size w) (fun j => J r j * env (w_id w) j)) end
  end.
Definition value (d : dyn) (env : nat -> nat -> R) (r : nat) : res R :=
  match y_H d, y_b d with
  | Some H, Some b => forceTerms env r (y_vars d) (b r + sumR nq (fun j => H r j * env 0%nat j) + - env 1%nat r)
  | _, _ => UB
  end.

(* sva::PTransformd::transMul of a pure force: the couple and the force *)
Definition cross3 (a b : v3) : v3 := mkV3 (vy a * vz b - vz a * vy b) (vz a * vx b - vx a * vz b) (vx a * vy b - vy a * vx b).
Definition tmul (M : m3) (a : v3) : v3 := vplus (vscale (vx a) (row0 M)) (vplus (vscale (vy a) (row1 M)) (vscale (vz a) (row2 M))).
Definition transMul (p : ptr) (f : v3) : v3 * v3 := let f := tmul (p_rot p) f in (cross3 (p_tr p) f, f).
Definition wplus (a b : v3 * v3) : v3 * v3 := (vplus (fst a) (fst b), vplus (snd a) (snd b)).
(* force_, lines 99-110 and 142-154 *)
Fixpoint forceN (env : nat -> nat -> R) (vs : list nat) (ps : list ptr) (acc : v3 * v3) : v3 * v3 :=
  match vs, ps with v :: vs, p :: ps => forceN env vs ps (wplus acc (transMul p (mkV3 (env v 0%nat) (env v 1%nat) (env v 2%nat)))) | _, _ => acc end.
Fixpoint forceL (env : nat -> nat -> R) (c : fcontact) (i : nat) (ps : list ptr) (acc : v3 * v3) : res (v3 * v3) :=
  match ps with
  | [] => Ok acc
  | p :: ps =>
      match nth_error (k_forces c) (k_nrGen c * i) with
      | None => UB
      | Some v => forceL env c (S i) ps (wplus acc (transMul p (
          let F k := sumR (k_nrGen c) (fun j => - comp (nth (k_nrGen c * i + j) (k_gens c) zero3) k * env v j) in mkV3 (F 0%nat) (F 1%nat) (F 2%nat))))
      end
  end.
(* contactForce, lines 172-184 *)
Definition contactForce (d : dyn) (env : nat -> nat -> R) (i : cid) : res (v3 * v3) :=
  match getContact d i with
  | Some c => if k_lin c then forceL env c 0 (k_points c) (zero3, zero3) else Ok (forceN env (k_forces c) (k_points c) (zero3, zero3))
  | None => Ok (zero3, zero3)
  end.
(* addPositiveLambdaToProblem, lines 186-198: the variables constrained to be non-negative *)
Definition positives (d : dyn) : list nat := flat_map (fun c => if k_lin c then k_forces c else []) (y_contacts d).

(* The calls *)
Inductive dop := DAdd (ct : contact) (linearize : bool) (mu : R) (nrGen : nat) | DRemove (i : cid) | DUpdate (g : config).
Definition dstep (d : dyn) (o : dop) : dyn :=
  match o with
  | DAdd ct li mu n => fst (addContact d ct li mu n)
  | DRemove i => removeContact d i
  | DUpdate g => update d g
  end.
Definition drun (d : dyn) (ops : list dop) : dyn := fold_left dstep ops d.
End Df.
