(* The columns of a variable: the derivative of a variable is stored in the derivative of its
   super-variable, starting after the tangent size of the preceding spaces. *)
Require Import ZArith List Bool.
Require Import Verif.Base Verif.RangeModel Verif.SpaceModel Verif.VariableModel Verif.VariableSpec Verif.MapVarModel.
Import ListNotations.
Local Open Scope Z_scope.

(* v occupies the columns from t on, n of them, of its super-variable *)
Definition columns (h : heap) (v : nat) (t n : Z) : Prop :=
  exists o, nth_error (objs h) v = Some o /\ t = tSize (v_shift o) /\ n = tSize (v_space o).
(* the same for its value: the representation *)
Definition entries (h : heap) (v : nat) (t n : Z) : Prop := subvariableRange h v = Ok (mkRange t n).

(* y, part of x, is also part of it as for the tangent space, and is the whole of it only if it is the
   whole of it as for the tangent space *)
Definition aligned (h : heap) (x y : nat) : Prop :=
  forall tx nx ty ny, columns h x tx nx -> columns h y ty ny ->
    tx <= ty /\ ty + ny <= tx + nx /\ (forall r, subvariableRange h x = Ok r -> subvariableRange h y = Ok r -> ty = tx /\ ny = nx).

(* A map from variables to matrices with one column for each dimension of the tangent space *)
Definition goodMap {A} (h : heap) (m : vmap A) : Prop :=
  forall x J, In (x, J) m -> exists t, columns h x t (Z.of_nat (length J)).

(* M is the part of J, matrix for x, corresponding to y *)
Definition part {A} (h : heap) (x : nat) (J : list A) (y : nat) (M : list A) : Prop :=
  exists tx nx ty ny, columns h x tx nx /\ columns h y ty ny /\ Z.of_nat (length M) = ny /\
    forall k, 0 <= k < ny -> nth_error M (Z.to_nat k) = nth_error J (Z.to_nat (ty + k - tx)).
(* Values and derivatives have the same layout *)
Definition flat (h : heap) (v : nat) : Prop :=
  exists o, nth_error (objs h) v = Some o /\ (v_dn o <> O \/ (rSize (v_space o) = tSize (v_space o) /\ rSize (v_shift o) = tSize (v_shift o))).
(* Only sub-variables are taken *)
Definition onlySub (c : cop) : Prop := match c with CSub _ _ _ => True | _ => False end.
