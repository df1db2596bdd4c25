(* Specification for C33. *)
From Coq Require Import List Arith QArith.
Import ListNotations.
From Verif Require Import QSum SubstModel.
From Verif Require Base DiagSpec.
Local Open Scope nat_scope.

(* the value of the right-hand side of a constraint *)
Definition rhsValue (r : rhs) (e : Q) : Q := match r with ZERO => 0 | AS_GIVEN => e | OPPOSITE => - e end.
(* val satisfies every constraint of every substitution; [k0] is the index of the first one *)
Definition satisfied (sz : nat -> nat) (jac : nat -> nat -> nat -> mat) (e : nat -> nat -> vec) (k0 : nat) (l : list sub) (val : nat -> vec) : Prop :=
  forall k s i c a, nth_error l k = Some s -> nth_error (s_cs s) i = Some c -> a < c_size c ->
    (qsum (fun v => qsumn (fun t => jac (k0 + k)%nat i v a t * val v t) (sz v)) (c_vars c) == rhsValue (c_rhs c) (e (k0 + k)%nat i a))%Q.

(* a variable is substituted once; a constraint has a variable once *)
Definition wellFormed (l : list sub) : Prop :=
  NoDup (flat_map s_xs l) /\ (forall s c, In s l -> In c (s_cs s) -> NoDup (c_vars c)).
(* Groups as Substitutions::finalize orders them: the constraints of a substitution do not use the
   variables of later ones. *)
Definition ordered (l : list sub) : Prop :=
  forall l1 s l2 c v, l = l1 ++ s :: l2 -> In c (s_cs s) -> In v (c_vars c) -> ~ In v (flat_map s_xs l2).

(* The contract of the calculators (SubstitutionCalculatorImpl.h:24-36): A^# is a generalized
   inverse of the matrix A of the substituted variables, N and S are bases of the null spaces of A
   and A^T, and the declared rank is that of A. *)
Definition contract (m n r : nat) (A : mat) (K : calc) : Prop :=
  DiagSpec.eqm m n (DiagSpec.mul m (DiagSpec.mul n A (k_Ash K)) A) A /\
  DiagSpec.nullBasis m n (n - r) A (k_N K) /\
  DiagSpec.nullBasis n m (m - r) (DiagSpec.tr A) (k_S K).
Definition contracts (sz : nat -> nat) (jac : nat -> nat -> nat -> mat) (cal : nat -> calc) (k0 : nat) (l : list sub) : Prop :=
  forall k s, nth_error l k = Some s ->
    contract (rows (s_cs s)) (total sz (s_xs s)) (s_rank s) (fillA sz (jac (k0 + k)) s) (cal (k0 + k)).

(* The data of an update: jacobians, right-hand sides and updated calculators. *)
Record data := mkD { d_jac : nat -> nat -> nat -> mat; d_e : nat -> nat -> vec; d_cal : nat -> calc }.
(* successive updates *)
Fixpoint updates (sz : nat -> nat) (l : list urec) (ds : list data) (s : ust) : Base.res ust :=
  match ds with
  | [] => Base.Ok s
  | d :: ds' => Base.bind (update sz (d_jac d) (d_e d) (d_cal d) l s) (updates sz l ds')
  end.
(* The unit of a group, its memory [s] being arbitrary before initialization, after the updates [ds]. *)
Definition unitAfter (sz : nat -> nat) (l : list sub) (s : ust) (ds : list data) : Base.res ust :=
  updates sz (scan sz start l) ds (initialize (scan sz start l) s).
(* The substitutions with the flag "the constant part is ZERO" given to the functions. *)
Definition flagged (sz : nat -> nat) (cal : nat -> calc) (l : list urec) (s : ust) : list (bool * (nat * ((nat -> vec) -> (nat -> vec) -> vec))) :=
  map (fun x => (bIsZero s x, (x_v x, valueOf sz cal (zs l) s x))) (flat_map u_xs l).
Definition zeros : nat -> vec := fun _ _ => 0%Q.
