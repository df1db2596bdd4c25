(* The friction cone (Coulomb): the norm of the tangential part of a force is at most mu times its normal part. *)
Require Import Reals List.
Require Import Verif.ConeModel.
Import ListNotations.
Local Open Scope R_scope.

Definition norm3 (a : v3) : R := sqrt (vx a * vx a + vy a * vy a + vz a * vz a).
Definition along (n a : v3) : R := vx n * vx a + vy n * vy a + vz n * vz a.
Definition tangential (n a : v3) : v3 := mkV3 (vx a - along n a * vx n) (vy a - along n a * vy n) (vz a - along n a * vz n).
Definition in_cone (n : v3) (mu : R) (f : v3) : Prop := norm3 (tangential n f) <= mu * along n f.
(* Its boundary *)
Definition on_cone (n : v3) (mu : R) (f : v3) : Prop := 0 <= along n f /\ norm3 (tangential n f) = mu * along n f.

(* a frame: the first and the last rows are orthogonal unit vectors *)
Definition framed (E : m3) : Prop := norm3 (row0 E) = 1 /\ norm3 (row2 E) = 1 /\ along (row0 E) (row2 E) = 0.

(* the combination of vectors with given coefficients *)
Fixpoint combine3 (ls : list R) (gs : list v3) : v3 :=
  match ls, gs with
  | l :: ls, g :: gs => let r := combine3 ls gs in mkV3 (l * vx g + vx r) (l * vy g + vy r) (l * vz g + vz r)
  | _, _ => mkV3 0 0 0
  end.
