(* What a constraint and the rows of a target say of a point. *)
Require Import QArith List Arith.
Require Import Verif.Base Verif.QSum Verif.AssignModel.
Import ListNotations.
Local Open Scope Q_scope.

(* a value for each variable *)
Definition point := nat -> vec.
(* the factor of the right-hand side: 0, rhs or -rhs *)
Definition rsign (r : rhs) : Q := match r with RZERO => 0 | AS_GIVEN => 1 | OPPOSITE => -(1) end.
(* y = e, y >= l, y <= u or l <= y <= u *)
Definition holds (ct : ctype) (e l u y : Q) : Prop :=
  match ct with
  | EQUAL => y == e | GREATER_THAN => l <= y | LOWER_THAN => y <= u | DOUBLE_SIDED => l <= y <= u
  end.

Section Spec.
Variable v_size : nat -> nat.
(* the left-hand side of the constraint at x: sum over its variables of J(y) y *)
Definition lhs (V : values) (vars : list nat) (x : point) (i : nat) : Q :=
  qsum (fun y => qsumn (fun k => v_jac V y i k * x y k) (v_size y)) vars.
Definition satisfied (s : source) (V : values) (x : point) : Prop :=
  forall i, (i < c_size s)%nat ->
  holds (c_type s) (rsign (c_rhs s) * v_e V i) (rsign (c_rhs s) * v_l V i) (rsign (c_rhs s) * v_u V i)
        (lhs V (c_vars s) x i).

(* the solver's variables: those of the list, in disjoint columns *)
Definition layout (vars : list nat) (mapping : nat -> option nat) : Prop :=
  NoDup vars /\ (forall y, In y vars <-> mapping y <> None) /\
  forall y z c c', y <> z -> mapping y = Some c -> mapping z = Some c' ->
    forall k k', (k < v_size y)%nat -> (k' < v_size z)%nat -> (c + k <> c' + k')%nat.
Definition col (mapping : nat -> option nat) (y : nat) : nat := match mapping y with Some c => c | None => 0%nat end.
(* row r of the solver's matrix times the solver's variables *)
Definition rowval (mapping : nat -> option nat) (vars : list nat) (A : mat) (x : point) (r : nat) : Q :=
  qsum (fun y => qsumn (fun k => A r (col mapping y + k)%nat * x y k) (v_size y)) vars.
(* the rows of the target hold at x *)
Definition rows_hold (mapping : nat -> option nat) (vars : list nat) (t : target) (m : mem) (x : point) : Prop :=
  forall i, (i < t_dim t)%nat -> let r := (t_start t + i)%nat in
  let b := rsign (t_rhs t) * mb m r in
  match t_type t with
  | DOUBLE_SIDED => rsign (t_rhs t) * ml m r <= rowval mapping vars (mA m) x r <= rsign (t_rhs t) * mu m r
  | ct => holds ct b b b (rowval mapping vars (mA m) x r)
  end.

(* the point with the values of the substituted variables *)
Definition completed (sub : substs) (V : values) (x : point) : point := fun y =>
  match findSub y sub with
  | None => x y
  | Some s => fun j => qsum (fun z => qsumn (fun k => v_sjac V y z j k * x z k) (v_size z)) (s_vars s) + v_sb V y j
  end.

(* The data agrees with the properties the assignment was built from: a jacobian declared
   +-identity is so, and a b declared to be a constant zero is zero. *)
Definition agrees (s : source) (sub : substs) (V : values) : Prop :=
  (forall y, In y (c_vars s) -> c_prop s y = PId -> v_size y = c_size s /\
     forall i k, v_jac V y i k == if Nat.eqb i k then 1 else 0) /\
  (forall y, In y (c_vars s) -> c_prop s y = PMinusId -> v_size y = c_size s /\
     forall i k, v_jac V y i k == if Nat.eqb i k then -(1) else 0) /\
  (forall y u, findSub y sub = Some u -> s_bnz u = false -> forall j, v_sb V y j == 0).
(* No variable is substituted by itself or by another substituted one, nor listed twice. *)
Definition resolved (s : source) (sub : substs) : Prop :=
  NoDup (c_vars s) /\
  forall y u, findSub y sub = Some u -> NoDup (s_vars u) /\ forall z, In z (s_vars u) -> findSub z sub = None.
(* Before the first run, the matrix is zero outside the columns the constraint is about. *)
Definition clean (mapping : nat -> option nat) (vars : list nat) (s : source) (sub : substs) (t : target) (A : mat) : Prop :=
  forall r y k, (t_start t <= r < t_start t + t_dim t)%nat -> In y vars -> (k < v_size y)%nat ->
  ~ (In y (c_vars s) /\ findSub y sub = None) -> (forall z u, In z (c_vars s) -> findSub z sub = Some u -> ~ In y (s_vars u)) ->
  A r (col mapping y + k)%nat == 0.
End Spec.

(* the default weight is 1 (include/tvm/requirements/Weight.h) *)
Definition default_one (sqrtf : Q -> Q) (r : option reqs) : Prop :=
  match r with Some q => q_wdef q = true -> sqrtf (q_weight q) == 1 | None => True end.
(* the weight of row i, from the requirements: sqrt(w)*scalarization*sqrt(a_i) *)
Definition row_weight (sqrtf : Q -> Q) (r : option reqs) (scal : Q) (i : nat) : Q :=
  match r with
  | None => 1
  | Some q => sqrtf (q_weight q) * scal * (if q_adef q then 1 else sqrtf (q_aniso q i))
  end.

(* An event with the flags (scalar, vector) after which the requirements are q': what is not
   flagged did not change; setting a weight makes it non-default
   (include/tvm/requirements/abstract/SingleSolvingRequirement.h). The last condition excludes
   the case of C23_stale_refuted: the scalar weight changes alone under an anisotropic weight. *)
Definition proper_step (q : reqs) (u : reqs * bool * bool) : Prop :=
  let '(q', sc, ve) := u in
  (sc = false -> q_weight q' = q_weight q /\ q_wdef q' = q_wdef q) /\
  (ve = false -> q_adef q' = q_adef q /\ forall i, q_aniso q' i = q_aniso q i) /\
  (sc = true -> q_wdef q' = false) /\ (ve = true -> q_adef q' = false) /\
  (sc = true -> ve = false -> q_adef q' = true).
Fixpoint proper_hist (sqrtf : Q -> Q) (q : reqs) (us : list (reqs * bool * bool)) : Prop :=
  match us with
  | [] => True
  | (q', sc, ve) :: us' => default_one sqrtf (Some q') /\ proper_step q (q', sc, ve) /\ proper_hist sqrtf q' us'
  end.
Fixpoint last_req (q : reqs) (us : list (reqs * bool * bool)) : reqs :=
  match us with [] => q | (q', _, _) :: us' => last_req q' us' end.

(* the targets a constraint may be assigned to *)
Definition compatible (s : source) (t : target) (b : bool) : Prop :=
  ((t_type t = EQUAL -> c_type s = EQUAL) /\ (c_type s = EQUAL -> t_type t = EQUAL \/ t_type t = DOUBLE_SIDED)) /\
  ((c_rhs s <> RZERO \/ b = true) -> t_rhs t <> RZERO) /\
  t_dim t = (if ct_eqb (c_type s) DOUBLE_SIDED && negb (ct_eqb (t_type t) DOUBLE_SIDED) then 2 * c_size s else c_size s)%nat.

(* the variables that the assignment needs are variables of the solver *)
Definition has_columns (v_size : nat -> nat) (mapping : nat -> option nat) (s : source) (sub : substs) : Prop :=
  (forall y, In y (c_vars s) -> findSub y sub = None -> v_size y <> 0%nat -> mapping y <> None) /\
  (forall z u y, In z (c_vars s) -> findSub z sub = Some u -> In y (s_vars u) -> ~ In y (c_vars s) -> mapping y <> None) /\
  (forall z u y, In z (c_vars s) -> findSub z sub = Some u -> In y (s_vars u) -> v_size z <> 0%nat -> mapping y <> None).

(* The residual of the rows of the target is the one of the rows of the constraint times w,
   up to the sign when the direction of the inequality changes. *)
Definition weighted_rows v_size mapping vars src tgt sub (w : nat -> Q) (V : values) (m : mem) : Prop :=
  forall i x, (i < c_size src)%nat ->
  let R (b : mem -> vec) (r : nat) (sign : Q) (f : vec) :=
    rowval v_size mapping vars (mA m) x r - rsign (t_rhs tgt) * b m r ==
    sign * w i * (lhs v_size V (c_vars src) (completed v_size sub V x) i - rsign (c_rhs src) * f i) in
  let r := (t_start tgt + i)%nat in
  let r2 := (t_start tgt + c_size src + i)%nat in
  match c_type src, t_type tgt with
  | EQUAL, EQUAL => R mb r 1 (v_e V)
  | EQUAL, DOUBLE_SIDED => R ml r 1 (v_e V) /\ R mu r 1 (v_e V)
  | GREATER_THAN, GREATER_THAN => R mb r 1 (v_l V)
  | GREATER_THAN, LOWER_THAN => R mb r (-(1)) (v_l V)
  | LOWER_THAN, GREATER_THAN => R mb r (-(1)) (v_u V)
  | LOWER_THAN, LOWER_THAN => R mb r 1 (v_u V)
  | GREATER_THAN, DOUBLE_SIDED => R ml r 1 (v_l V)
  | LOWER_THAN, DOUBLE_SIDED => R mu r 1 (v_u V)
  | DOUBLE_SIDED, DOUBLE_SIDED => R ml r 1 (v_l V) /\ R mu r 1 (v_u V)
  | DOUBLE_SIDED, GREATER_THAN => R mb r 1 (v_l V) /\ R mb r2 (-(1)) (v_u V)
  | DOUBLE_SIDED, LOWER_THAN => R mb r 1 (v_u V) /\ R mb r2 (-(1)) (v_l V)
  | _, _ => False
  end.
(* a single-sided constraint in a double-sided target *)
Definition single_to_double (src : source) (tgt : target) : Prop :=
  (c_type src = GREATER_THAN \/ c_type src = LOWER_THAN) /\ t_type tgt = DOUBLE_SIDED.
Definition origin : point := fun _ _ => 0.
(* the side that a single-sided constraint leaves free is at +-big, with the sign the target reads: the value,
   without its constant part, is within it *)
Definition far_side (v_size : nat -> nat) (big : Q) (src : source) (tgt : target) (sub : substs) (V : values) (x : point) : Prop :=
  forall i, (i < c_size src)%nat ->
  let d := lhs v_size V (c_vars src) (completed v_size sub V x) i - lhs v_size V (c_vars src) (completed v_size sub V origin) i in
  match c_type src with
  | GREATER_THAN => d <= rsign (t_rhs tgt) * big
  | _ => rsign (t_rhs tgt) * - big <= d
  end.
