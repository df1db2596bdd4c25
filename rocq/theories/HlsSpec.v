(* What C48 speaks about. *)
From Coq Require Import List Bool Arith.
Import ListNotations.
From Verif Require Import Base HlsModel.

Definition sum (l : list nat) : nat := fold_right plus 0 l.
(* rows asked for at level l by the equalities (b = true) or inequalities (b = false) of cs *)
Definition wanted (cs : list cstr) (l : nat) (b : bool) : nat :=
  sum (map csize (filter (fun c => (clvl c =? l) && Bool.eqb (ceq c) b) cs)).
(* rows of level l taken by the constraints of cs *)
Definition taken (cs : list cstr) (l : nat) : nat := sum (map csize (filter (fun c => clvl c =? l) cs)).
(* The constraints cs were assigned rows one after the other, from row [from l] of their level l on. *)
Definition stacked (from : nat -> nat) (cs : list cstr) (s : solver) : Prop :=
  length (assignments s) = length cs /\
  forall k c, nth_error cs k = Some c ->
    nth_error (assignments s) k = Some (mkA (clvl c) (from (clvl c) + taken (firstn k cs) (clvl c)) (csize c)).
(* The k-th assignment covers row r of level l. *)
Definition covers (s : solver) (k l r : nat) : Prop :=
  exists a, nth_error (assignments s) k = Some a /\ alvl a = l /\ astart a <= r < astart a + adim a.
(* The assignments to level l are made exactly once to each of the first m rows and to no other row. *)
Definition tiled (s : solver) (l m : nat) : Prop :=
  (forall r, r < m -> exists k, covers s k l r /\ forall k', covers s k' l r -> k' = k) /\
  (forall k r, covers s k l r -> r < m).
(* The sequence of calls of one build. *)
Definition build (n : nat) (ne ni : list nat) (ub : bool) (cs : list cstr) (minNorm : bool) (bounds : list (nat * nat)) : list call :=
  StartBuild n ne ni ub :: map AddConstraint cs ++ (if minNorm then [SetMinimumNorm] else [])
  ++ map (fun b => AddBound (fst b) (snd b)) bounds ++ [FinalizeBuild].
(* ne and ni are the numbers of rows needed by cs; with a minimum norm, the last level is for it only. *)
Definition announced (n : nat) (ne ni : list nat) (cs : list cstr) (minNorm : bool) : Prop :=
  length ne = length ni /\
  (forall c, In c cs -> clvl c < length ne - (if minNorm then 1 else 0)) /\
  (forall l, l < length ne - (if minNorm then 1 else 0) -> nth l ne 0 = wanted cs l true /\ nth l ni 0 = wanted cs l false) /\
  (minNorm = true -> ne <> [] /\ nth (length ne - 1) ne 0 = n /\ nth (length ne - 1) ni 0 = 0).
(* The ranges of the bounds are within the variables and bounds were announced. *)
Definition boundsFit (n : nat) (ub : bool) (bounds : list (nat * nat)) : Prop :=
  forall b, In b bounds -> fst b + snd b <= n /\ ub = true.
(* The data handed to the library is for its objectives, in number, kind, and dimensions. *)
Definition accepts (c : config) (d : list (nat * nat * bool)) : Prop :=
  exists n objs, c = Some (n, objs) /\ d = map (fun o : nat * bool => let '(m, b) := o in (m, if b then 2 else n + 2, b)) objs.
(* number of levels used by constraints *)
Definition levels (cs : list cstr) : nat := fold_right Nat.max 0 (map (fun c => S (clvl c)) cs).
(* The data a build must hand to the library: the bounds, in an objective of their own if the first level is feasible
   and in the first level otherwise, and the rows of the levels; each row has its coefficients and two bounds. *)
Definition expectedData (ffl ub : bool) (n : nat) (ne ni : list nat) : list (nat * nat * bool) :=
  (if ub && ffl then [(n, 2, true)] else []) ++
  map (fun l => (nth l ne 0 + nth l ni 0 + (if (l =? 0) && (ub && negb ffl) then n else 0), n + 2, false)) (seq 0 (length ne)).
