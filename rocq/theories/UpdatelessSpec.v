(* What C51 speaks about. *)
From Coq Require Import List Bool Arith QArith.
Import ListNotations.
From Verif Require Import Base UpdatelessModel.
Local Open Scope nat_scope.

(* The value and the velocity of a variable. *)
Definition valueOf (m : mem) (x : var) : list Q := map (m (blk x)) (seq (off x) (sz x)).
Definition velOf (m : mem) (x : var) : list Q := map (m (dblk x)) (seq (doff x) (dsz x)).
Definition inValue (x : var) (b c : nat) : Prop := b = blk x /\ off x <= c < off x + sz x.
Definition inVel (x : var) (b c : nat) : Prop := b = dblk x /\ doff x <= c < doff x + dsz x.
(* The variables do not overlap. *)
Definition apartV (xs : list var) : Prop := NoDup (map vid xs) /\
  forall i j x y, i <> j -> nth_error xs i = Some x -> nth_error xs j = Some y -> forall b c, inValue x b c -> inValue y b c -> False.
(* Neither do their derivatives, and no variable overlaps the derivative of another (as x and dot(x) would). *)
Definition apartD (xs : list var) : Prop := apartV xs /\
  (forall i j x y, i <> j -> nth_error xs i = Some x -> nth_error xs j = Some y -> forall b c, inVel x b c -> inVel y b c -> False) /\
  (forall x y, In x xs -> In y xs -> forall b c, inValue x b c -> inVel y b c -> False).
Definition sizes (xs : list var) : list nat := map sz xs.
Definition dsizes (xs : list var) : list nat := map dsz xs.
Definition lens (vs : list (list Q)) : list nat := map (@length Q) vs.
Definition total (l : list nat) : nat := fold_right Nat.add 0 l.
(* The last value given for a variable, d if none. *)
Fixpoint lastGiven {A} (n : nat) (ps : list (nat * A)) (d : A) : A :=
  match ps with [] => d | (k, v) :: r => lastGiven n r (if k =? n then v else d) end.
(* The argument lists that fit the variables. *)
Definition fits (xs : list var) (a : args) : Prop :=
  match a with
  | Vals v vs => lens (v :: vs) = sizes xs \/ (vs = [] /\ xs <> [] /\ length v = total (sizes xs))
  | Pairs p ps => forall n v, In (n, v) (p :: ps) -> exists x, In x xs /\ vid x = n /\ length v = sz x
  end.
Definition fits2 (xs : list var) (a : args2) : Prop :=
  match a with
  | Vals2 v vs => (lens (map fst (v :: vs)) = sizes xs /\ lens (map snd (v :: vs)) = dsizes xs) \/
                  (vs = [] /\ xs <> [] /\ length (fst v) = total (sizes xs) /\ length (snd v) = total (dsizes xs))
  | Pairs2 p ps => forall n v w, In (n, (v, w)) (p :: ps) -> exists x, In x xs /\ vid x = n /\ length v = sz x /\ length w = dsz x
  end.
(* The value given for variable number i (object x), when it was d. *)
Definition given (xs : list var) (a : args) (i : nat) (x : var) (d : list Q) : list Q :=
  match a with
  | Vals v [] => firstn (sz x) (skipn (total (sizes (firstn i xs))) v)
  | Vals v vs => nth i (v :: vs) d
  | Pairs p ps => lastGiven (vid x) (p :: ps) d
  end.
Definition given2 (xs : list var) (a : args2) (i : nat) (x : var) (d : list Q * list Q) : list Q * list Q :=
  match a with
  | Vals2 v [] => (firstn (sz x) (skipn (total (sizes (firstn i xs))) (fst v)), firstn (dsz x) (skipn (total (dsizes (firstn i xs))) (snd v)))
  | Vals2 v vs => nth i (v :: vs) d
  | Pairs2 p ps => lastGiven (vid x) (p :: ps) d
  end.
