(* What belonging to a matrix means. *)
Require Import ZArith QArith List.
Require Import Verif.MiModel.
Local Open Scope Z_scope.

(* the address p is the one of a coefficient of M *)
Definition element (p : Z) (M : emat) : Prop :=
  exists i j, 0 <= i < e_rows M /\ 0 <= j < e_cols M /\ p = e_data M + i * e_rowStride M + j * e_colStride M.
(* the last coefficient of a column is before the first one of the next column *)
Definition columns (M : emat) : Prop := 0 < e_rowStride M /\ (e_rows M - 1) * e_rowStride M < e_colStride M.
(* the values that doubles stand for; x <= y *)
Definition below (x y : fl) : Prop :=
  match x, y with
  | Nan, _ | _, Nan => False
  | Fin p, Fin q => (p <= q)%Q
  | Inf n, Inf m => n = false -> m = false
  | Inf n, Fin _ => n = true
  | Fin _, Inf n => n = false
  end.
(* the absolute value of x is between a and b *)
Definition between (a x b : fl) : Prop :=
  match x with
  | Nan => False
  | Inf _ => below a (Inf false) /\ below (Inf false) b
  | Fin q => exists y, (0 <= y)%Q /\ (y == q \/ y == - q)%Q /\ below a (Fin y) /\ below (Fin y) b
  end.
