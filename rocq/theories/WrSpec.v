(* What a written relation means *)
Require Import QArith ZArith List Bool.
Require Import Verif.Base Verif.LinFunModel Verif.WrModel.
Import ListNotations.

(* coordinate i of what is given as a right-hand side *)
Definition at_ (g : given) (i : nat) : Q := match g with GDouble d => d | GVec v => ve v i end.
Definition compare (a : Q) (c : cmp) (b : Q) : Prop := match c with CEq => a == b | CGe => b <= a | CLe => a <= b end%Q.
(* the relation for the coordinate i of what it is about, which is y there: l <= f <= u is l <= f and f <= u *)
Fixpoint holds (w : written) (y : Q) (i : nat) : Prop :=
  match w with
  | WRight c g => compare y c (at_ g i)
  | WLeft g c => compare (at_ g i) c y
  | WChain w c g => holds w y i /\ compare y c (at_ g i)
  end.
(* the right-hand sides of a relation *)
Fixpoint sides (w : written) : list given := match w with WRight _ g | WLeft g _ => [g] | WChain w _ g => g :: sides w end.
Definition sized (n : nat) (g : given) : Prop := match g with GDouble _ => True | GVec v => vn v = n end.
(* the relations which can be written: f == r, f >= r, f <= r, the same three with r first, and the ones with two sides: l <= f <= u,
   u >= f >= l, f >= l <= u, f <= u >= l *)
Definition lower (w : written) : Prop := exists g, w = WRight CGe g \/ w = WLeft g CLe.
Definition upper (w : written) : Prop := exists g, w = WRight CLe g \/ w = WLeft g CGe.
Definition writable (w : written) : Prop :=
  (exists c g, w = WRight c g \/ w = WLeft g c) \/ (exists v g, (lower v /\ w = WChain v CLe g) \/ (upper v /\ w = WChain v CGe g)).

(* A point satisfies the constraint, as read from its value and from the bounds it has *)
Definition satisfied (base : nat -> bool) (env : nat -> Z -> Q) (c : constr) (f : blf) : Prop :=
  exists x, cValue base env c f = Some x /\ vn x = n_size c /\
  let side (o : option (option vec)) (P : Q -> Q -> Prop) := match o with None => True | Some None => False | Some (Some b) => vn b = n_size c /\ forall i, (i < n_size c)%nat -> P (ve x i) (ve b i) end in
  side (cL c f) (fun x l => l <= x)%Q /\ side (cU c f) (fun x u => x <= u)%Q /\ side (cE c f) (fun x e => x == e)%Q.
(* The function after its matrices and its constant were changed *)
Inductive changed (base : nat -> bool) (f : blf) : blf -> Prop :=
  | ChNo : changed base f f
  | ChA g i A sh g' : changed base f g -> setA base g i A sh = Ok g' -> changed base f g'
  | ChB g b g' : changed base f g -> setB g b = Ok g' -> changed base f g'.
