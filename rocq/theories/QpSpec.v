(* What the numerical solvers are documented to solve, and what the user asked for. *)
Require Import QArith Qminmax Qabs List Arith Bool.
Require Import Verif.Base Verif.QSum Verif.AssignModel Verif.AssignSpec Verif.BoundModel Verif.BoundSpec Verif.QpModel.
Import ListNotations.
Local Open Scope Q_scope.

(* ---- the numerical solvers ---- *)
Definition dot (n : nat) (c z : vec) : Q := qsumn (fun j => c j * z j) n.
Definition rowv (n : nat) (A : mat) (z : vec) (r : nat) : Q := dot n (A r) z.
Definition sumsq (n : nat) (f : vec) : Q := qsumn (fun r => f r * f r) n.
Definition in_box (n : nat) (xl xu z : vec) : Prop := forall j, (j < n)%nat -> xl j <= z j <= xu j.
(* QLD:      A z + b = 0 (first rows), A z + b >= 0 (others), xl <= z <= xu
   Quadprog: A z = b (first rows), A z <= b (others)
   LSSOL:    l <= (z, C z) <= u
   LexLS:    xl <= z <= xu, then l1 <= A1 z <= u1 *)
Definition feasible (h : handed) (z : vec) : Prop :=
  match h with
  | HQLD _ n nEq m _ _ A b xl xu =>
      (forall r, (r < nEq)%nat -> rowv n A z r + b r == 0) /\
      (forall r, (nEq <= r < m)%nat -> 0 <= rowv n A z r + b r) /\ in_box n xl xu z
  | HQuadprog _ n nEq m _ _ A b =>
      (forall r, (r < nEq)%nat -> rowv n A z r == b r) /\
      (forall r, (nEq <= r < m)%nat -> rowv n A z r <= b r)
  | HLSSOL n _ m _ _ C cl cu xl xu | HLSSOL_FP n m C cl cu xl xu | HLexLS n _ m _ _ _ C cl cu xl xu =>
      (forall r, (r < m)%nat -> cl r <= rowv n C z r <= cu r) /\ in_box n xl xu z
  end.
(* QLD:      z'Hz/2 + c'z, or z'R'Rz/2 + c'z when the factor R is given
   Quadprog: the same, the inverse of R being given: |w|^2/2 + c'z for z = (inverse of R) w
   LSSOL:    |b - A z|^2/2, or nothing
   LexLS:    half of the square of the distance of A2 z to [l2, u2]
   cost h z v: v is the cost at z. *)
Definition gap (l u y : Q) : Q := Qmax 0 (l - y) + Qmax 0 (y - u).
Definition cost (h : handed) (z : vec) (v : Q) : Prop :=
  match h with
  | HQLD false n _ _ H c _ _ _ _ | HQuadprog false n _ _ H c _ _ =>
      v == (1 # 2) * dot n z (rowv n H z) + dot n c z
  | HQLD true n _ _ R c _ _ _ _ => v == (1 # 2) * sumsq n (rowv n R z) + dot n c z
  | HQuadprog true n _ _ Ri c _ _ =>
      exists w, (forall i, (i < n)%nat -> z i == rowv n Ri w i) /\ v == (1 # 2) * sumsq n w + dot n c z
  | HLSSOL n nObj _ A b _ _ _ _ _ => v == (1 # 2) * sumsq nObj (fun r => b r - rowv n A z r)
  | HLSSOL_FP _ _ _ _ _ _ _ => v == 0
  | HLexLS n nObj _ A2 l2 u2 _ _ _ _ _ => v == (1 # 2) * sumsq nObj (fun r => gap (l2 r) (u2 r) (rowv n A2 z r))
  end.

(* ---- the user's problem ---- *)
Section User.
Variable sqrtf : Q -> Q.
Variable v_size : nat -> nat.
Variable P : problem.
Variable V : data.
(* the first column of a variable: the sizes of those before it *)
Fixpoint offset (vars : list nat) (y : nat) : nat :=
  match vars with [] => O | z :: l => if Nat.eqb z y then O else (v_size z + offset l y)%nat end.
(* the values of the variables in the vector z, the substituted ones included *)
Definition point_of (z : vec) : point := fun y k => z (offset (p_vars P) y + k)%nat.
Definition full_point (z : vec) : point :=
  completed v_size (p_sub P) (mkVal (fun _ _ _ => 0) (fun _ => 0) (fun _ => 0) (fun _ => 0) (d_sjac V) (d_sb V)) (point_of z).
(* J x - rhs at row i, and the value J x *)
Definition value (c : source) (W : cvalues) (x : point) (i : nat) : Q :=
  qsum (fun y => qsumn (fun k => cv_jac W y i k * x y k) (v_size y)) (c_vars c).
Definition meets (c : source) (W : cvalues) (x : point) : Prop :=
  forall i, (i < c_size c)%nat ->
  holds (c_type c) (rsign (c_rhs c) * cv_e W i) (rsign (c_rhs c) * cv_l W i) (rsign (c_rhs c) * cv_u W i) (value c W x i).
(* all constraints and bounds hold *)
Definition user_feasible (z : vec) : Prop :=
  (forall c W, In (c, W) (combine (p_cstrs P) (d_cstrs V)) -> meets c W (full_point z)) /\
  (forall y b W k, In ((y, b), W) (combine (p_bnds P) (d_bnds V)) -> (k < v_size y)%nat -> bound_holds b (W k) (point_of z y k)).
(* the sum of the squares of the weighted errors of the objectives *)
Definition error2 (j : objective) (W : cvalues) (x : point) : Q :=
  sumsq (c_size (j_src j)) (fun i =>
    row_weight sqrtf (Some (j_req j)) (j_scal j) i * (value (j_src j) W x i - rsign (c_rhs (j_src j)) * cv_e W i)).
Definition user_error (z : vec) : Q :=
  qsum (fun a => error2 (fst a) (snd a) (full_point z)) (combine (p_objs P) (d_objs V)).

(* The problem is well-formed: the variables of the solver are distinct; the substitutions are
   resolved; the objectives are equalities; without objectives only the minimum norm is asked. *)
Definition wf : Prop :=
  NoDup (p_vars P) /\
  (forall c, In c (p_cstrs P) -> resolved c (p_sub P)) /\
  (forall j, In j (p_objs P) -> resolved (j_src j) (p_sub P) /\ c_type (j_src j) = EQUAL /\ default_one sqrtf (Some (j_req j))) /\
  (p_minNorm P = true -> p_objs P = []).
(* One value per constraint, objective and bound; they agree with the declared properties of the
   matrices. *)
Definition wf_data : Prop :=
  length (d_cstrs V) = length (p_cstrs P) /\ length (d_objs V) = length (p_objs P) /\ length (d_bnds V) = length (p_bnds P) /\
  (forall c W, In (c, W) (combine (p_cstrs P) (d_cstrs V)) -> agrees v_size c (p_sub P) (valuesOf V W)) /\
  (forall j W, In (j, W) (combine (p_objs P) (d_objs V)) -> agrees v_size (j_src j) (p_sub P) (valuesOf V W)).
(* z is where the constants that stand for infinity are large enough: abig is Assignment::big_, big
   the option of the solver. [fits] is about bounds (C24); a single-sided constraint of a solver
   with double-sided constraints gets -big or big on the other side (C22, C25). *)
Definition in_range (sv : solver) (abig big : Q) (z : vec) : Prop :=
  (forall j, (j < list_sum (map v_size (p_vars P)))%nat -> Qabs (z j) <= big) /\
  (forall y b W k, In ((y, b), W) (combine (p_bnds P) (d_bnds V)) -> (k < v_size y)%nat -> fits abig (point_of z y k) (b, W k)) /\
  (native sv = true -> forall c W i, In (c, W) (combine (p_cstrs P) (d_cstrs V)) ->
     c_type c = GREATER_THAN \/ c_type c = LOWER_THAN -> (i < c_size c)%nat ->
     - abig <= value c W (full_point z) i - value c W (full_point (fun _ => 0)) i <= abig).
End User.

(* The life of a solver object: problems are built one after the other, each one followed by
   resolutions. *)
Fixpoint lives (debug : bool) (sqrtf : Q -> Q) (abig : Q) (v_size : nat -> nat) (sv : solver) (o : options)
    (hist : list (problem * list (data * (mat * mat * mat)))) (s : state) : res state :=
  match hist with
  | [] => Ok s
  | (P, l) :: hist' =>
      do s1 <- build debug sqrtf abig v_size sv o P s;
      do s2 <- solves v_size sv o (p_vars P) l s1;
      lives debug sqrtf abig v_size sv o hist' s2
  end.
(* s is the state after the history, the build of P and the resolutions l *)
Definition reached debug sqrtf abig v_size sv o hist (P : problem) (l : list (data * (mat * mat * mat))) (s : state) : Prop :=
  exists s0 s1, lives debug sqrtf abig v_size sv o hist fresh = Ok s0 /\ build debug sqrtf abig v_size sv o P s0 = Ok s1 /\
    solves v_size sv o (p_vars P) l s1 = Ok s.
(* for LexLS, the build just before, if any, was not for the minimum norm: see C53_lexls_rebuild_refuted *)
Definition clean_start (sv : solver) (hist : list (problem * list (data * (mat * mat * mat)))) : Prop :=
  sv = SLexLS -> match rev hist with [] => True | (P, _) :: _ => p_minNorm P = false end.

(* the weight of |z|^2 in the cost handed *)
Definition regularization (sv : solver) (o : options) (n nObj : nat) : Q :=
  let rows := if Nat.ltb nObj n then o_cdamp o * o_cdamp o else 0 in
  match sv with
  | SQLD => if o_chol o then rows else 0
  | SQuadprog => if o_chol o then rows else o_damp o
  | SLSSOL | SLexLS => 0
  end.
(* R'R = D'D for the matrix D of the objectives (QR decomposition), and Ri is the inverse of R *)
Definition factor_of (rows n : nat) (D R : mat) : Prop :=
  forall i j, (i < n)%nat -> (j < n)%nat ->
  qsumn (fun r => R r i * R r j) n == qsumn (fun r => D r i * D r j) rows.
Definition inverse_of (n : nat) (R Ri : mat) : Prop :=
  forall i j, (i < n)%nat -> (j < n)%nat ->
  qsumn (fun k => R i k * Ri k j) n == (if Nat.eqb i j then 1 else 0) /\
  qsumn (fun k => Ri i k * R k j) n == (if Nat.eqb i j then 1 else 0).
(* a point of S where f is the least over S *)
Definition minimizer (S : vec -> Prop) (f : vec -> Q -> Prop) (z : vec) : Prop :=
  S z /\ forall z' v v', S z' -> f z v -> f z' v' -> v <= v'.
