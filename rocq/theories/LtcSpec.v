(* What a linearized task constraint should say *)
From Coq Require Import ZArith List Bool QArith.
From Verif Require Import Base RangeModel SpaceModel VariableModel VariableSpec MapVarModel MapVarSpec QSum LtcModel.
Import ListNotations.

Definition num (o : order) : nat := match o with Zero => 0 | One => 1 | Two => 2 end.
(* d is the derivative of order o of v *)
Definition derivative (h : heap) (o : order) (v d : nat) : Prop :=
  match o with Zero => d = v | _ => dot h v (num o) false = Ok (h, d) end.
(* vs, not empty, do not overlap *)
Definition disjointVars (h : heap) (vs : list nat) : Prop :=
  ForallOrdPairs (fun x y => vintersects h x y = Ok false) vs /\ Forall (fun x => exists c, cell h x c) vs.
(* A function as built by its constructor: one jacobian for each variable, with one column for each
   dimension of the tangent space, and a normal acceleration of its size *)
Definition goodFunc (h : heap) (f : func) : Prop :=
  Forall (fun v => (v < length (objs h))%nat) (f_vars f) /\ map fst (f_J f) = f_vars f /\ NoDup (f_vars f) /\
  goodMap h (f_J f) /\ length (f_na f) = f_n f.
(* All the values have the size of the variables *)
Definition sized (h : heap) (env : nat -> list Q) : Prop :=
  forall v o, nth_error (objs h) v = Some o -> Z.of_nat (length (env v)) = v_size o.
(* coefficient i of the sum over the variables of the jacobian times the derivative *)
Definition chainRule (f : func) (env : nat -> list Q) (ds : list nat) (i : nat) : Q :=
  qsum (fun p => qsum (fun cx => nth i (fst cx) 0 * snd cx)%Q (combine (snd (fst p)) (env (snd p)))) (combine (f_J f) ds).
(* the part of the o-th derivative of f not in the sum *)
Definition drift (f : func) (o : order) (i : nat) : Q := match o with Two => nth i (f_na f) 0%Q | _ => 0%Q end.
(* x ~ y for the type of constraint *)
Definition related (t : ctype) (x y : Q) : Prop :=
  match t with EQUAL => x == y | GREATER_THAN => y <= x | LOWER_THAN => x <= y | DOUBLE_SIDED => False end%Q.
(* a point satisfies the constraint, as read from its value and its bounds *)
Definition satisfied (h : heap) (c : ltc) (env : nat -> list Q) : Prop :=
  forall i, (i < f_n (c_f c))%nat -> exists x l u e, ltcValue h c env i = Ok x /\ ltcL c = Ok l /\ ltcU c = Ok u /\ ltcE c = Ok e /\
    match l with Some l => nth i l 0 <= x | None => True end%Q /\
    match u with Some u => x <= nth i u 0 | None => True end%Q /\
    match e with Some e => x == nth i e 0 | None => True end%Q.
(* the derivatives of the variables, one after the other *)
Fixpoint derive (h : heap) (o : order) (vs : list nat) : res (heap * list nat) :=
  match vs with
  | [] => Ok (h, [])
  | v :: vs =>
      do (h, d) <- match o with Zero => Ok (h, v) | _ => dot h v (num o) false end;
      do (h, ds) <- derive h o vs; Ok (h, d :: ds)
  end.
