(* Model of hint::internal::SubstitutionUnit (src/hint/SubstitutionUnit.cpp): the elimination of
   the variables of a group of dependent substitutions.
   Simplifications: variables are disjoint (no sub-variables: the partition of scanSubstitutions is
   the identity) and named by nat; a variable of y_ or a dependency on it is the variable itself
   instead of its index; doubles are Q and matrices are functions of the row and the column;
   the matrices B_, Z_, M_, AsZ_, StB_ and StZ_ are split in their column blocks, one per variable
   of y_ or z_ (the ranges of the variables are disjoint), their rows being those of the code;
   std::set<int> is a list without duplicates (the order of the terms does not matter). *)
From Coq Require Import List Bool Arith QArith.
Import ListNotations.
From Verif Require Import Base QSum.
Local Open Scope nat_scope.

Definition mat := nat -> nat -> Q.
Definition vec := nat -> Q.
Definition mem (x : nat) (l : list nat) : bool := existsb (Nat.eqb x) l.
Definition fupd {A} (f : nat -> A) (i : nat) (a : A) : nat -> A := fun j => if j =? i then a else f j.

(* include/tvm/constraint/enums.h:21-27 *)
Inductive rhs := ZERO | AS_GIVEN | OPPOSITE.
(* an equality constraint: size, variables, rhs *)
Record cst := mkCst { c_size : nat; c_vars : list nat; c_rhs : rhs }.
(* Substitution: constraints, variables, rank (include/tvm/hint/Substitution.h) *)
Record sub := mkSub { s_cs : list cst; s_xs : list nat; s_rank : nat }.
(* a calculator after its update: A^#, N and S *)
Record calc := mkCalc { k_Ash : mat; k_N : mat; k_S : mat }.

Section Unit.
Variable sz : nat -> nat. (* sizes of the variables *)

Definition total (l : list nat) : nat := fold_right (fun v n => sz v + n) 0 l.
Definition rows (l : list cst) : nat := fold_right (fun c n => c_size c + n) 0 l.

(* What is known of a substituted variable: x_, x2sub_, its index and its mapping in x_, xRange_,
   XYdependencies_, XZdependencies_ (SubstitutionUnit.h) *)
Record xrec := mkX { x_v : nat; x_sub : nat; x_idx : nat; x_row : nat; x_off : nat; x_Y : list nat; x_Z : list nat }.
(* of a constraint: its index and its index in its substitution, its first row, size and rhs,
   constraintsY_, CXdependencies_ *)
Record crec := mkK { k_idx : nat; k_loc : nat; k_row : nat; k_size : nat; k_rhs : rhs; k_Y : list nat; k_X : list xrec }.
(* of a substitution: index, substitutionMRanges_, substitutionNRanges_, size of z_[k],
   rank, sub2cstr_, sub2x_, SYdependencies_, SZdependencies_ *)
Record urec := mkU { u_k : nat; u_m0 : nat; u_m : nat; u_n0 : nat; u_n : nat; u_nz : nat; u_r : nat;
                     u_cs : list crec; u_xs : list xrec; u_SY : list nat; u_SZ : list nat }.
(* what scanSubstitutions has gathered: number of substitutions, rows, columns, constraints; x_ *)
Record ctx := mkCtx { t_k : nat; t_m : nat; t_n : nat; t_c : nat; t_x : list xrec }.

Fixpoint lookup (v : nat) (l : list xrec) : option xrec :=
  match l with [] => None | x :: l' => if x_v x =? v then Some x else lookup v l' end.
Fixpoint collect (vs : list nat) (l : list xrec) : list xrec :=
  match vs with [] => [] | v :: vs' => match lookup v l with Some x => x :: collect vs' l | None => collect vs' l end end.
(* the loop on the variables of a constraint, SubstitutionUnit.cpp:330-352: a variable not in x_
   is an y; one in x_ not substituted by s is a dependency *)
Fixpoint scanCs (prev : list xrec) (own : list nat) (cs : list cst) (idx loc row : nat) : list crec :=
  match cs with
  | [] => []
  | c :: cs' =>
      mkK idx loc row (c_size c) (c_rhs c)
          (filter (fun v => negb (mem v (map x_v prev)) && negb (mem v own)) (c_vars c))
          (collect (filter (fun v => negb (mem v own)) (c_vars c)) prev)
      :: scanCs prev own cs' (S idx) (S loc) (row + c_size c)
  end.
(* the loop on the variables of a substitution, SubstitutionUnit.cpp:312-322 *)
Fixpoint scanXs (k : nat) (xs : list nat) (idx row off : nat) (Y Z : list nat) : list xrec :=
  match xs with
  | [] => []
  | v :: xs' => mkX v k idx row off Y Z :: scanXs k xs' (S idx) (row + sz v) (off + sz v) Y Z
  end.
(* one iteration of scanSubstitutions (SubstitutionUnit.cpp:302-361) and of computeDependencies
   (407-436), which for a substitution only uses those of the previous ones *)
Definition scanOne (t : ctx) (s : sub) : urec :=
  let cs := scanCs (t_x t) (s_xs s) (s_cs s) (t_c t) 0 (t_m t) in
  let SY := nodup Nat.eq_dec (flat_map (fun c => k_Y c ++ flat_map x_Y (k_X c)) cs) in
  let SZ := nodup Nat.eq_dec (flat_map (fun c => flat_map x_Z (k_X c)) cs) in
  let n := total (s_xs s) in
  let nz := n - s_rank s in
  mkU (t_k t) (t_m t) (rows (s_cs s)) (t_n t) n nz (s_rank s) cs
      (scanXs (t_k t) (s_xs s) (length (t_x t)) (t_n t) 0 SY (if 0 <? nz then SZ ++ [t_k t] else SZ)) SY SZ.
Definition next (t : ctx) (s : sub) (u : urec) : ctx :=
  mkCtx (S (t_k t)) (t_m t + u_m u) (t_n t + u_n u) (t_c t + length (s_cs s)) (t_x t ++ u_xs u).
Fixpoint scan (t : ctx) (l : list sub) : list urec :=
  match l with [] => [] | s :: l' => let u := scanOne t s in u :: scan (next t s u) l' end.
Definition start : ctx := mkCtx 0 0 0 0 [].

(* The matrices and the flags, SubstitutionUnit.h *)
Record ust := mkS {
  B : nat -> mat; Z : nat -> mat; c : vec; M : nat -> mat; AsZ : nat -> mat; u : vec;
  StB : nat -> nat -> mat; StZ : nat -> nat -> mat; Stc : nat -> vec;
  cIsZero : list bool; uIsZero : list bool }.

Definition inRows (r0 nr a : nat) : bool := (r0 <=? a) && (a <? r0 + nr).
(* F.block(r0, ., nr, .) = V and += V *)
Definition setBlock (F : mat) (r0 nr : nat) (V : mat) : mat := fun a b => if inRows r0 nr a then V (a - r0) b else F a b.
Definition addBlock (F : mat) (r0 nr : nat) (V : mat) : mat := fun a b => if inRows r0 nr a then (F a b + V (a - r0)%nat b)%Q else F a b.
Definition block (F : mat) (r0 : nat) : mat := fun a b => F (r0 + a) b.
Definition setSeg (f : vec) (r0 nr : nat) (v : vec) : vec := fun a => if inRows r0 nr a then v (a - r0) else f a.
Definition mmul (n : nat) (A1 A2 : mat) : mat := fun i j => qsumn (fun k => A1 i k * A2 k j)%Q n.
Definition mulv (n : nat) (A1 : mat) (v : vec) : vec := fun i => qsumn (fun k => A1 i k * v k)%Q n.

(* initializeMatrices, SubstitutionUnit.cpp:364-405: the blocks of B_ and Z_ used by the
   substitutions are zeroed, the rest is left as it is *)
Definition initOne (s : ust) (r : urec) : ust :=
  mkS (fun j => if mem j (u_SY r) then setBlock (B s j) (u_m0 r) (u_m r) (fun _ _ => 0%Q) else B s j)
      (fun j => if mem j (u_SZ r) then setBlock (Z s j) (u_m0 r) (u_m r) (fun _ _ => 0%Q) else Z s j)
      (c s) (M s) (AsZ s) (u s) (StB s) (StZ s) (Stc s) (cIsZero s) (uIsZero s).
(* the flags: one of cIsZero_ per substituted variable, one of uIsZero_ per substitution
   (SubstitutionUnit.cpp:310 and 321) *)
Definition initialize (l : list urec) (s : ust) : ust :=
  let s' := fold_left initOne l s in
  mkS (B s') (Z s') (c s') (M s') (AsZ s') (u s') (StB s') (StZ s') (Stc s')
      (map (fun _ => false) (flat_map u_xs l)) (map (fun _ => false) l).

Section Update.
(* jac k i v, e k i: the jacobian with respect to v and the right-hand side of the i-th constraint
   of the k-th substitution; cal k: the k-th calculator, updated *)
Variable jac : nat -> nat -> nat -> mat.
Variable e : nat -> nat -> vec.
Variable cal : nat -> calc.

(* an assignment or an accumulation in the block of the j-th variable, according to firstY_ or
   firstZ_ (SubstitutionUnit.cpp:150-158 and 164-178); [seen] are the variables whose flag is false *)
Definition acc (r0 nr : nat) (x : (nat -> mat) * list nat) (p : nat * mat) : (nat -> mat) * list nat :=
  let '(F, seen) := x in
  let '(j, V) := p in
  (fupd F j (if mem j seen then addBlock (F j) r0 nr V else setBlock (F j) r0 nr V), j :: seen).
(* the loop SubstitutionUnit.cpp:121-126 *)
Definition fillY (k : nat) (r : crec) (F : nat -> mat) : (nat -> mat) * list nat :=
  fold_left (fun x j => (fupd (fst x) j (setBlock (fst x j) (k_row r) (k_size r) (jac k (k_loc r) j)), j :: snd x)) (k_Y r) (F, []).
(* the loops SubstitutionUnit.cpp:147-159 and 161-179 *)
Definition addYof (k : nat) (r : crec) (Ms : nat -> mat) (x : (nat -> mat) * list nat) (l : xrec) :=
  fold_left (fun x j => acc (k_row r) (k_size r) x (j, mmul (sz (x_v l)) (jac k (k_loc r) (x_v l)) (block (Ms j) (x_row l)))) (x_Y l) x.
Definition zBlock (As : nat -> mat) (l : xrec) (j : nat) : mat :=
  if j =? x_sub l then block (k_N (cal j)) (x_off l) else block (As j) (x_row l).
Definition addZof (k : nat) (r : crec) (As : nat -> mat) (x : (nat -> mat) * list nat) (l : xrec) :=
  fold_left (fun x j => acc (k_row r) (k_size r) x (j, mmul (sz (x_v l)) (jac k (k_loc r) (x_v l)) (zBlock As l j))) (x_Z l) x.
(* SubstitutionUnit.cpp:182 *)
Definition subU (k : nat) (r : crec) (us : vec) (cv : vec) (l : xrec) : vec :=
  setSeg cv (k_row r) (k_size r)
    (fun a => cv (k_row r + a)%nat - mulv (sz (x_v l)) (jac k (k_loc r) (x_v l)) (fun t => us (x_row l + t)%nat) a)%Q.
(* SubstitutionUnit.cpp:127-141 *)
Definition rhsOf (k : nat) (r : crec) : vec :=
  match k_rhs r with ZERO => fun _ => 0%Q | AS_GIVEN => e k (k_loc r) | OPPOSITE => fun a => (- e k (k_loc r) a)%Q end.

(* std::vector<bool>::operator[]: UB out of the vector *)
Definition getFlag (l : list bool) (i : nat) : res bool := match nth_error l i with Some b => Ok b | None => UB end.
Fixpoint setFlag (l : list bool) (i : nat) (b : bool) : res (list bool) :=
  match l, i with
  | [], _ => UB
  | _ :: l', 0 => Ok (b :: l')
  | x :: l', S i' => do r <- setFlag l' i' b; Ok (x :: r)
  end.
(* cIsZero_[i] = cIsZero_[i] && uIsZero_[l], SubstitutionUnit.cpp:183, for each dependency: l is the
   index of the variable *)
Fixpoint andFlags (ls : list xrec) (b : bool) (uz : list bool) : res bool :=
  match ls with
  | [] => Ok b
  | l :: ls' => if b then do x <- getFlag uz (x_idx l); andFlags ls' x uz else andFlags ls' false uz
  end.
Definition isZeroRhs (r : rhs) : bool := match r with ZERO => true | _ => false end.

(* one constraint of substitution k, SubstitutionUnit.cpp:117-186; returns the new state and
   cIsZero_[i] *)
Definition updCst (k : nat) (s : ust) (r : crec) : res (ust * bool) :=
  let B' := fst (fold_left (addYof k r (M s)) (k_X r) (fillY k r (B s))) in
  let Z' := fst (fold_left (addZof k r (AsZ s)) (k_X r) (Z s, [])) in
  let c' := fold_left (subU k r (u s)) (k_X r) (setSeg (c s) (k_row r) (k_size r) (rhsOf k r)) in
  do z <- andFlags (k_X r) (isZeroRhs (k_rhs r)) (uIsZero s);
  do cz <- setFlag (cIsZero s) (k_idx r) z;
  Ok (mkS B' Z' c' (M s) (AsZ s) (u s) (StB s) (StZ s) (Stc s) cz (uIsZero s), z).
Fixpoint updCsts (k : nat) (l : list crec) (s : ust) (z : bool) : res (ust * bool) :=
  match l with
  | [] => Ok (s, z)
  | r :: l' => do x <- updCst k s r; updCsts k l' (fst x) (z && snd x)
  end.
Definition tr (A : mat) : mat := fun i j => A j i.
Definition opp (A : mat) : mat := fun i j => (- A i j)%Q.
(* one substitution, SubstitutionUnit.cpp:113-208 *)
Definition updSub (s0 : ust) (r : urec) : res ust :=
  do x <- updCsts (u_k r) (u_cs r) s0 true;
  let '(s, cZero) := x in
  let k := u_k r in
  let K := cal k in
  do uz <- setFlag (uIsZero s) k cZero;
  Ok (mkS (B s) (Z s) (c s)
    (fun j => if mem j (u_SY r) then setBlock (M s j) (u_n0 r) (u_n r) (opp (mmul (u_m r) (k_Ash K) (block (B s j) (u_m0 r)))) else M s j)
    (fun j => if mem j (u_SZ r) then setBlock (AsZ s j) (u_n0 r) (u_n r) (opp (mmul (u_m r) (k_Ash K) (block (Z s j) (u_m0 r)))) else AsZ s j)
    (setSeg (u s) (u_n0 r) (u_n r) (mulv (u_m r) (k_Ash K) (fun a => c s (u_m0 r + a))))
    (fupd (StB s) k (fun j => if mem j (u_SY r) then mmul (u_m r) (tr (k_S K)) (block (B s j) (u_m0 r)) else StB s k j))
    (fupd (StZ s) k (fun j => if mem j (u_SZ r) then mmul (u_m r) (tr (k_S K)) (block (Z s j) (u_m0 r)) else StZ s k j))
    (fupd (Stc s) k (mulv (u_m r) (tr (k_S K)) (fun a => c s (u_m0 r + a))))
    (cIsZero s) uz).
(* update, SubstitutionUnit.cpp:93-209, after the update of the calculators *)
Fixpoint update (l : list urec) (s : ust) : res ust :=
  match l with [] => Ok s | r :: l' => do s' <- updSub s r; update l' s' end.

(* varSubstitutions_, as set by SubstitutionUnit.cpp:212-242: the value of each substituted variable
   given the values of the y and z variables *)
Definition zs (l : list urec) (k : nat) : nat := match nth_error l k with Some r => u_nz r | None => 0 end.
Definition valueOf (zz : nat -> nat) (s : ust) (x : xrec) (val zv : nat -> vec) : vec := fun t =>
  (qsum (fun j => mulv (sz j) (block (M s j) (x_row x)) (val j) t) (x_Y x)
   + qsum (fun j => mulv (zz j) (zBlock (AsZ s) x j) (zv j) t) (x_Z x)
   + u s (x_row x + t)%nat)%Q.
Definition varSubstitutions (l : list urec) (s : ust) : list (nat * ((nat -> vec) -> (nat -> vec) -> vec)) :=
  map (fun x => (x_v x, valueOf (zs l) s x)) (flat_map u_xs l).
(* the flag ZERO of the constant part of the substitution, SubstitutionUnit.cpp:235-241 *)
Definition bIsZero (s : ust) (x : xrec) : bool := nth (x_sub x) (uIsZero s) false.
(* remaining_, SubstitutionUnit.cpp:244-254: number of rows of the calculator's S^T and value of the
   left-hand side minus the right-hand side *)
Definition remaining (l : list urec) (s : ust) : list (nat * ((nat -> vec) -> (nat -> vec) -> vec)) :=
  map (fun r => (u_m r - u_r r, fun val zv a =>
     (qsum (fun j => mulv (sz j) (StB s (u_k r) j) (val j) a) (u_SY r)
      + qsum (fun j => mulv (zs l j) (StZ s (u_k r) j) (zv j) a) (u_SZ r)
      - Stc s (u_k r) a)%Q)) l.
End Update.

(* SubstitutionCalculatorImpl::fillA, SubstitutionCalculatorImpl.cpp:117-123, with the blocks set
   up by the constructor (148-168); zero where a constraint does not have the variable *)
Fixpoint stackCols (l : list (nat * mat)) : mat :=
  match l with [] => fun _ _ => 0%Q | (n, A) :: l' => fun a b => if b <? n then A a b else stackCols l' a (b - n) end.
Fixpoint stackRows (l : list (nat * mat)) : mat :=
  match l with [] => fun _ _ => 0%Q | (n, A) :: l' => fun a b => if a <? n then A a b else stackRows l' (a - n) b end.
Fixpoint fillRows (jac : nat -> nat -> mat) (xs : list nat) (cs : list cst) (i : nat) : list (nat * mat) :=
  match cs with
  | [] => []
  | c :: cs' => (c_size c, stackCols (map (fun v => (sz v, if mem v (c_vars c) then jac i v else fun _ _ => 0%Q)) xs)) :: fillRows jac xs cs' (S i)
  end.
Definition fillA (jac : nat -> nat -> mat) (s : sub) : mat := stackRows (fillRows jac (s_xs s) (s_cs s) 0).
End Unit.
