(* What a linear constraint stands for: what it was given, as replaced by the calls since. *)
Require Import QArith ZArith List Bool.
Require Import Verif.QSum Verif.SpaceModel Verif.VarCountingModel Verif.LinFunModel Verif.LinFunSpec Verif.BlcModel.
Import ListNotations.
Local Open Scope Z_scope.

(* A variable with at least one coordinate, as many as its derivative; in a Euclidean space unless it is a
   derivative *)
Definition plain (base : nat -> bool) (x : cvar) : Prop :=
  0 < tSize (c_space x) /\ (base (c_sup x) = true -> type_ (c_space x) = Euclidean /\ rSize (c_space x) = tSize (c_space x)).

(* Parts of the arguments of a constructor *)
Definition k_type (k : ctor) : btype := match k with Homogeneous _ _ t | WithB _ _ _ t _ | Allocated _ _ t _ => t | WithLU _ _ _ _ _ => BDouble end.
Definition k_rhs (k : ctor) : brhs := match k with Homogeneous _ _ _ => BZero | WithB _ _ _ _ r | WithLU _ _ _ _ r | Allocated _ _ _ r => r end.
Definition k_vars (k : ctor) : list nat := match k with Homogeneous _ xs _ | WithB _ xs _ _ _ | WithLU _ xs _ _ _ | Allocated _ xs _ _ => xs end.
Definition k_mats (k : ctor) : list mat := match k with Homogeneous As _ _ | WithB As _ _ _ _ | WithLU As _ _ _ _ => As | Allocated _ _ _ _ => [] end.
Definition k_rows (k : ctor) : nat := match k with Allocated m _ _ _ => m | _ => match k_mats k with A :: _ => mr A | [] => 0 end end.
(* the properties a matrix has after the construction: constant if it was given *)
Definition k_props (k : ctor) : mprops := match k with Allocated _ _ _ _ => mkMP General false | _ => mkMP General true end.
Definition allocates (k : ctor) : Prop := match k with Allocated _ _ _ _ => True | _ => False end.

(* Each variable is, as an object, one of those before it, or shares no coordinate with them *)
Definition separate (base : nat -> bool) (V : nat -> cvar) (xs : list nat) : Prop :=
  forall a y b, xs = a ++ y :: b -> In y a \/ (forall x, In x a -> apart base (V x) (V y)).

(* The constructor is called as documented *)
Definition proper (base : nat -> bool) (V : nat -> cvar) (k : ctor) : Prop :=
  match k with
  | Allocated m xs t r => ~ (t = BDouble /\ r = BZero) /\ compatible base (map V xs)
  | _ =>
      Forall2 (fun A x => matrix_for base (k_rows k) A (V x) /\ ~ curved base (V x)) (k_mats k) (k_vars k) /\ separate base V (k_vars k) /\
      match k with
      | Homogeneous _ _ t => t <> BDouble
      | WithB _ _ b t r => t <> BDouble /\ r <> BZero /\ vn b = k_rows k
      | WithLU _ _ l u r => r <> BZero /\ vn l = k_rows k /\ vn u = k_rows k
      | Allocated _ _ _ _ => True
      end
  end.

(* The calls that are for a constraint of this type, right-hand side, number of rows and variables *)
Definition allowed (base : nat -> bool) (V : nat -> cvar) (t : btype) (r : brhs) (n : nat) (vs : list nat) (o : bop) : Prop :=
  match o with
  | OA A x _ => In x vs /\ matrix_for base n A (V x)
  | OA1 A _ => exists x, vs = [x] /\ matrix_for base n A (V x)
  | Ob b => t <> BDouble /\ r <> BZero /\ vn b = n
  | Ol l => t = BDouble /\ r <> BZero /\ vn l = n
  | Ou u => t = BDouble /\ r <> BZero /\ vn u = n
  end.

(* [latest P ops init v]: v is what the last of the calls ops that gives something gives, init if none does *)
Inductive latest {T : Type} (gives : bop -> T -> Prop) (init : T) : list bop -> T -> Prop :=
  | Lnone ops : (forall o v, In o ops -> ~ gives o v) -> latest gives init ops init
  | Llast before o after v : gives o v -> (forall o' v', In o' after -> ~ gives o' v') -> latest gives init (before ++ o :: after) v.
(* The last of the matrices given to a constructor for the variable x *)
Inductive initially (k : ctor) (x : nat) : option mat -> Prop :=
  | Inone : allocates k -> initially k x None
  | Ilast a A b xa xb : k_mats k = a ++ A :: b -> k_vars k = xa ++ x :: xb -> length a = length xa -> ~ In x xb -> initially k x (Some A).

(* The matrix that a call gives to the variable x, with its properties; the right-hand sides a call gives *)
Definition gives_matrix (base : nat -> bool) (V : nat -> cvar) (n : nat) (vs : list nat) (x : nat) (o : bop) (w : option mat * mprops) : Prop :=
  match o with
  | OA A y p => y = x /\ In x vs /\ matrix_for base n A (V x) /\ w = (Some A, p)
  | OA1 A p => vs = [x] /\ matrix_for base n A (V x) /\ w = (Some A, p)
  | _ => False
  end.
Definition gives_b (n : nat) (o : bop) (w : option vec) : Prop := match o with Ob b => vn b = n /\ w = Some b | _ => False end.
Definition gives_l (n : nat) (o : bop) (w : option vec) : Prop := match o with Ol l => vn l = n /\ w = Some l | _ => False end.
Definition gives_u (n : nat) (o : bop) (w : option vec) : Prop := match o with Ou u => vn u = n /\ w = Some u | _ => False end.
Definition init_b (k : ctor) : option vec := match k with WithB _ _ b _ _ => Some b | _ => None end.
Definition init_l (k : ctor) : option vec := match k with WithLU _ _ l _ _ => Some l | _ => None end.
Definition init_u (k : ctor) : option vec := match k with WithLU _ _ _ u _ => Some u | _ => None end.

(* The right-hand sides of a constraint: none for RHS::ZERO, else e, l or u according to the type *)
Definition right_sides (k : ctor) (ops : list bop) (l u e : option (option vec)) : Prop :=
  match k_rhs k with
  | BZero => l = None /\ u = None /\ e = None
  | _ =>
      match k_type k with
      | BEqual => l = None /\ u = None /\ exists b, e = Some b /\ latest (gives_b (k_rows k)) (init_b k) ops b
      | BGreater => u = None /\ e = None /\ exists b, l = Some b /\ latest (gives_b (k_rows k)) (init_b k) ops b
      | BLower => l = None /\ e = None /\ exists b, u = Some b /\ latest (gives_b (k_rows k)) (init_b k) ops b
      | BDouble => e = None /\ exists bl bu, l = Some bl /\ u = Some bu /\
          latest (gives_l (k_rows k)) (init_l k) ops bl /\ latest (gives_u (k_rows k)) (init_u k) ops bu
      end
  end.
