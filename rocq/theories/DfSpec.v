(* The equation of motion with contact forces: what the function is documented to stand for. *)
Require Import Reals List Arith Bool.
Require Import Verif.Base Verif.ConeModel Verif.ConeSpec Verif.DfModel.
Import ListNotations.
Local Open Scope R_scope.

(* One side of a contact, as seen by one robot: the frame in contact, its points, how the forces are represented *)
Record part := mkPart { a_id : cid; a_frame : nat; a_points : list ptr; a_dir : R; a_lin : bool; a_mu : R; a_gen : nat }.
Definition parts (robot : nat) (ct : contact) (li : bool) (mu : R) (n : nat) : list part :=
  (if Nat.eqb (i_r1 (t_id ct)) robot then [mkPart (t_id ct) (i_f1 (t_id ct)) (t_p1 ct) 1 li mu n] else []) ++
  (if Nat.eqb (i_r2 (t_id ct)) robot then [mkPart (t_id ct) (i_f2 (t_id ct)) (t_p2 ct) (-1) li mu n] else []).

(* The force exerted on the body at a point, in the frame of the body, as a function of the variable v *)
Definition on_body (env : nat -> nat -> R) (a : part) (v : nat) (p : ptr) : v3 :=
  if a_lin a then combine3 (map (env v) (seq 0 (a_gen a))) (frictionCone (mscale (a_dir a) (p_rot p)) (a_gen a) (a_mu a) (a_dir a))
  else mkV3 (- (a_dir a * env v 0%nat)) (- (a_dir a * env v 1%nat)) (- (a_dir a * env v 2%nat)).
(* J^T F for the points of a side, of which the variables are v, v+1, ... *)
Fixpoint generalised (g : config) (env : nat -> nat -> R) (a : part) (r v : nat) (ps : list ptr) : R :=
  match ps with
  | [] => 0
  | p :: ps => sumR 3 (fun k => g_J g (a_frame a) (p_tr p) k r * comp (on_body env a v p) k) + generalised g env a r (S v) ps
  end.

(* What there is in the function: the sides that were added, if they are still there, with the configuration their
   Jacobians were computed for *)
Definition entry := (part * bool * option config)%type.
Definition id_dec (a b : cid) : {a = b} + {a <> b}.
Proof. decide equality; apply Nat.eq_dec. Defined.
Definition same_id (a b : cid) : bool := if id_dec a b then true else false.
Fixpoint stop (i : cid) (L : list entry) : list entry :=
  match L with
  | [] => []
  | (a, alive, g) :: L => if alive && same_id (a_id a) i then (a, false, g) :: L else (a, alive, g) :: stop i L
  end.
Definition dadded (L : list entry) (i : cid) : bool := existsb (fun e : entry => let '(a, alive, _) := e in alive && same_id (a_id a) i) L.
Definition hstep (robot : nat) (L : list entry) (o : dop) : list entry :=
  match o with
  | DAdd ct li mu n => if dadded L (t_id ct) then L else L ++ map (fun a => (a, true, None)) (parts robot ct li mu n)
  | DRemove i => stop i L
  | DUpdate g => map (fun e : entry => let '(a, alive, g0) := e in (a, alive, if alive then Some g else g0)) L
  end.
Definition history (robot : nat) (ops : list dop) : list entry := fold_left (hstep robot) ops [].
(* the number of the first variable of each of them *)
Fixpoint numbered (v : nat) (L : list entry) : list (nat * entry) :=
  match L with [] => [] | e :: L => (v, e) :: numbered (v + length (a_points (fst (fst e)))) L end.
(* the last configuration *)
Fixpoint last_config (ops : list dop) (g0 : option config) : option config :=
  match ops with [] => g0 | DUpdate g :: ops => last_config ops (Some g) | _ :: ops => last_config ops g0 end.

(* the sum of the generalised forces, undefined if a Jacobian was never computed *)
Fixpoint total (env : nat -> nat -> R) (r : nat) (l : list (nat * entry)) : option R :=
  match l with
  | [] => Some 0
  | (v, (a, _, g)) :: l =>
      match a_points a, g, total env r l with
      | [], _, t => t
      | _, Some g, Some t => Some (generalised g env a r v (a_points a) + t)
      | _, _, _ => None
      end
  end.

(* the wrench exerted by forces applied at points, at the origin of the frame: (couple, force) *)
Fixpoint wrench (l : list (v3 * v3)) : v3 * v3 :=
  match l with
  | [] => (mkV3 0 0 0, mkV3 0 0 0)
  | (p, f) :: l => let w := wrench l in
      (mkV3 (vy p * vz f - vz p * vy f + vx (fst w)) (vz p * vx f - vx p * vz f + vy (fst w)) (vx p * vy f - vy p * vx f + vz (fst w)),
       mkV3 (vx f + vx (snd w)) (vy f + vy (snd w)) (vz f + vz (snd w)))
  end.

(* the first side with a given id that is there, with its first variable *)
Fixpoint the_side (i : cid) (l : list (nat * entry)) : option (nat * part) :=
  match l with
  | [] => None
  | (v, (a, alive, _)) :: l => if alive && same_id (a_id a) i then Some (v, a) else the_side i l
  end.
(* the forces on the body at the points of a side: (point, force) *)
Fixpoint point_forces (env : nat -> nat -> R) (a : part) (v : nat) (ps : list ptr) : list (v3 * v3) :=
  match ps with [] => [] | p :: ps => (p_tr p, on_body env a v p) :: point_forces env a (S v) ps end.
Definition identity3 : m3 := mkM3 (mkV3 1 0 0) (mkV3 0 1 0) (mkV3 0 0 1).
Fixpoint sum_list (l : list R) : R := match l with [] => 0 | x :: l => x + sum_list l end.
