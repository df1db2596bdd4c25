(* C55: a basic linear constraint is the one it was given. *)
Require Import QArith ZArith List Bool Lia.
Require Import Verif.Base Verif.QSum Verif.RangeModel Verif.SpaceModel Verif.VarCountingModel.
Require Import Verif.LinFunModel Verif.LinFunSpec Verif.BlcModel Verif.BlcSpec Verif.BlcProofs5 Verif.BlcProofs6.
Import ListNotations.
Local Open Scope Z_scope.

(* A constructor returns or throws, and returns exactly if it is called as documented: sizes that agree, no
   variable in a space that is not Euclidean, variables that do not overlap.  (The lists are not empty.) *)
Theorem C55_accepts : forall (base : nat -> bool) (V : nat -> cvar) (k : ctor),
  (forall x, In x (k_vars k) -> plain base (V x) \/ (curved base (V x) /\ 0 < rSize (c_space (V x)))) -> allocates k \/ k_mats k <> [] ->
  ((exists c, construct base V k = Ok c) \/ construct base V k = Throw) /\ ((exists c, construct base V k = Ok c) <-> proper base V k).
Proof. exact accepts. Qed.
Print Assumptions C55_accepts.

(* The variables of the constraint: different objects, without a common coordinate, that cover those given. *)
Theorem C55_variables : forall (base : nat -> bool) (V : nat -> cvar) (k : ctor) (c : blc),
  (forall x, In x (k_vars k) -> plain base (V x)) -> construct base V k = Ok c ->
  NoDup (map fst (b_jac c)) /\ (forall x y, In x (map fst (b_jac c)) -> In y (map fst (b_jac c)) -> x <> y -> apart base (V x) (V y)) /\
  (forall x, In x (map fst (b_jac c)) -> In x (k_vars k)) /\ (forall x, In x (k_vars k) -> exists y, In y (map fst (b_jac c)) /\ inside base (V x) (V y)) /\
  (~ allocates k -> forall x, In x (k_vars k) -> In x (map fst (b_jac c))).
Proof. exact variables. Qed.
Print Assumptions C55_variables.

(* The value of a new constraint is A_1 x_1 + ... + A_n x_n, if no variable is repeated. *)
Theorem C55_sum_partial : forall (base : nat -> bool) (V : nat -> cvar) (k : ctor) (c : blc),
  (forall x, In x (k_vars k) -> plain base (V x)) -> construct base V k = Ok c -> ~ allocates k -> NoDup (k_vars k) ->
  forall env, exists w, blcValue base V env c = Ok w /\ vn w = k_rows k /\ forall i, (ve w i == sumAx (coord base env) (k_mats k) (map V (k_vars k)) i)%Q.
Proof. exact sum_spec. Qed.
Print Assumptions C55_sum_partial.

(* After any sequence of calls, some of which may have thrown: type, kind of right-hand side, size and variables
   are those of the construction; the calls that returned are exactly those allowed; each matrix, with its
   properties, and each right-hand side is the one of the last allowed call, or else of the construction; and
   the outputs are those the type and the kind of right-hand side prescribe. *)
Theorem C55_history : forall (base : nat -> bool) (V : nat -> cvar) (k : ctor) (c : blc) (ops : list bop),
  (forall x, In x (k_vars k) -> plain base (V x)) -> construct base V k = Ok c ->
  exists c' fl, brun base V c ops = Ok (c', fl) /\
    b_type c' = k_type k /\ b_rhs c' = k_rhs k /\ b_size c' = k_rows k /\ map fst (b_jac c') = map fst (b_jac c) /\
    Forall2 (fun o f => f = true <-> allowed base V (k_type k) (k_rhs k) (k_rows k) (map fst (b_jac c)) o) ops fl /\
    (forall x J, In (x, J) (b_jac c') -> exists A0, initially k x A0 /\
       latest (gives_matrix base V (k_rows k) (map fst (b_jac c)) x) (A0, k_props k) ops (q_mat J, q_props J)) /\
    right_sides k ops (b_l c') (b_u c') (b_e c').
Proof.
  intros base V k c ops S E. destruct (history base V k c ops S E) as (c' & fl & E1 & [I T R N K M Rs] & F). exists c', fl. repeat (split; [assumption|]). split; [|exact Rs].
  intros x J Hx. destruct (M x J Hx) as (A0 & H1 & H2 & H3 & H4). exists A0. split; [exact H1|]. rewrite <- (k_props_ok k A0 H2 H3). exact H4.
Qed.
Print Assumptions C55_history.

(* Its value is then the sum of the products of the matrices that are now those of the variables, for all values
   of the variables; and it may not be computed exactly if a matrix has never been given. *)
Theorem C55_value : forall (base : nat -> bool) (V : nat -> cvar) (k : ctor) (c : blc) (ops : list bop) (c' : blc) (fl : list bool),
  (forall x, In x (k_vars k) -> plain base (V x)) -> construct base V k = Ok c -> brun base V c ops = Ok (c', fl) ->
  (exists x p, In x (map fst (b_jac c)) /\ allocates k /\ latest (gives_matrix base V (k_rows k) (map fst (b_jac c)) x) (None, k_props k) ops (None, p) /\
     forall env, blcValue base V env c' = UB) \/
  (exists M, (forall x, In x (map fst (b_jac c)) -> exists A0 p, initially k x A0 /\
       latest (gives_matrix base V (k_rows k) (map fst (b_jac c)) x) (A0, k_props k) ops (Some (M x), p)) /\
     forall env, exists w, blcValue base V env c' = Ok w /\ vn w = k_rows k /\
       forall i, (ve w i == qsum (fun x => qsumn (fun j => me (M x) i j * coord base env (V x) j)%Q (mc (M x))) (map fst (b_jac c)))%Q).
Proof. exact value_spec. Qed.
Print Assumptions C55_value.

(* An allocated constraint on a variable whose space is not Euclidean is accepted, but can never be used: no matrix
   can be given to it. *)
Theorem C55_curved_unusable : forall (base : nat -> bool) (V : nat -> cvar) (m x : nat) (t : btype) (r : brhs),
  curved base (V x) -> 0 < rSize (c_space (V x)) -> rSize (c_space (V x)) <> tSize (c_space (V x)) -> ~ (t = BDouble /\ r = BZero) ->
  exists c, construct base V (Allocated m [x] t r) = Ok c /\ (forall env, blcValue base V env c = UB) /\
    (forall A p, matrix_for base m A (V x) -> bstep base V c (OA A x p) = UB) /\ (forall A p, ~ matrix_for base m A (V x) -> bstep base V c (OA A x p) = Throw).
Proof. exact curved_unusable. Qed.
Print Assumptions C55_curved_unusable.

(* ---- concrete cases: a vector of R^2 (0), a variable of R (1), another object equal to 0 (2), its first
   coordinate (3), an SO3 variable (4), the derivative of an SO3 variable (5) ---- *)
Definition eu (s d : Z) : space * space := (mkSpace s s s Euclidean, mkSpace d d d Euclidean).
Definition vE (x : nat) : cvar :=
  match x with
  | 1%nat => mkCV 1 (fst (eu 0 1)) (snd (eu 0 1))
  | 3%nat => mkCV 0 (fst (eu 0 1)) (snd (eu 0 1))
  | 4%nat => mkCV 2 (fst (eu 0 0)) (mkSpace 3 4 3 SO3)
  | 5%nat => mkCV 3 (fst (eu 0 0)) (mkSpace 3 4 3 SO3)
  | _ => mkCV 0 (fst (eu 0 2)) (snd (eu 0 2))
  end.
Definition bE (k : nat) : bool := negb (Nat.eqb k 3).
Definition AE : mat := mkMat 2 2 (fun i j => if Nat.eqb i j then 1 else 2)%Q.
Definition BE : mat := mkMat 2 1 (fun i _ => inject_Z (Z.of_nat i))%Q.
Definition CE : mat := mkMat 2 3 (fun i j => inject_Z (Z.of_nat (i + j)))%Q.
Definition rE : vec := mkVec 2 (fun i => inject_Z (Z.of_nat i + 7))%Q.
Definition envE (k : nat) (c : Z) : Q := inject_Z (Z.of_nat k * 10 + c + 1).
Definition kE : ctor := WithB [AE; BE; CE] [0; 1; 5]%nat rE BGreater BOpposite.
Example plainE : forall x, In x (k_vars kE) -> plain bE (vE x).
Proof. intros x [<-|[<-|[<-|[]]]]; (split; [cbn; lia|]); cbn; intros H; try discriminate; auto. Qed.
Example acceptedE : is_ok (construct bE vE kE) = true.
Proof. vm_compute. reflexivity. Qed.
Example valueE : (do c <- construct bE vE kE; do w <- blcValue bE vE envE c; Ok (vn w, map (fun i => Qred (ve w i)) [0; 1]%nat, b_l c, b_u c, b_e c)) = Ok (2%nat, [103; 209]%Q, Some (Some rE), None, None).
Proof. vm_compute. reflexivity. Qed.
(* calls: a matrix, wrong sizes, a right-hand side that is not of this type, an equal variable, a part of a variable *)
Definition opsE : list bop := [OA BE 0 dfltP; OA AE 0 (mkMP General false); Ol rE; Ob (mkVec 1 (fun _ => 0%Q)); OA AE 2 dfltP; OA BE 3 dfltP; OA1 AE dfltP; OA CE 4 dfltP; Ob rE].
Example callsE : (do c <- construct bE vE kE; do (c, fl) <- brun bE vE c opsE; Ok fl) = Ok [false; true; false; false; false; false; false; false; true].
Proof. vm_compute. reflexivity. Qed.
(* what is refused: overlapping variables, an equal variable, an SO3 variable, sizes *)
Example refusedE : map (fun p => match construct bE vE (Homogeneous (fst p) (snd p) BEqual) with Throw => true | _ => false end)
  [([BE; AE], [3; 0]); ([AE; BE], [0; 3]); ([AE; AE], [0; 2]); ([mkMat 2 4 (fun _ _ => 0%Q)], [4]); ([AE; BE], [0; 0]); ([AE], [0; 1]); ([AE; mkMat 1 1 (fun _ _ => 0%Q)], [0; 1])]%nat =
  [true; true; true; true; true; true; true].
Proof. vm_compute. reflexivity. Qed.
(* an allocated constraint: its value cannot be read before its matrices are set *)
Example allocatedE : (do c <- construct bE vE (Allocated 2 [0; 3; 1]%nat BDouble BAsGiven);
    Ok (map fst (b_jac c), match blcValue bE vE envE c with UB => true | _ => false end,
        match brun bE vE c [OA AE 0 dfltP; Ol rE; OA BE 1 dfltP; Ou rE] with
        | Ok (c, fl) => (fl, b_l c, b_u c, b_e c, match blcValue bE vE envE c with Ok w => Some (map (fun i => Qred (ve w i)) [0; 1]%nat) | _ => None end)
        | _ => ([], None, None, None, None) end)) = Ok ([0; 1]%nat, true, ([true; true; true; true], Some (Some rE), Some (Some rE), None, Some [5; 15]%Q)).
Proof. vm_compute. reflexivity. Qed.
Example curvedE : curved bE (vE 4) /\ rSize (c_space (vE 4)) <> tSize (c_space (vE 4)) /\ plain bE (vE 5).
Proof. split; [split; [reflexivity|discriminate]|]. split; [discriminate|]. split; [cbn; lia|discriminate]. Qed.

(* The same object twice is accepted, and the first of its matrices is lost. *)
Theorem C55_repeated_refuted : exists base V k c env w i, (forall x, In x (k_vars k) -> plain base (V x)) /\ construct base V k = Ok c /\ ~ allocates k /\
  blcValue base V env c = Ok w /\ (i < vn w)%nat /\ ~ (ve w i == sumAx (coord base env) (k_mats k) (map V (k_vars k)) i)%Q.
Proof.
  exists bE, vE, (Homogeneous [AE; AE] [0; 0]%nat BEqual). eexists. exists envE. eexists. exists 0%nat.
  split; [intros x [<-|[<-|[]]]; (split; [cbn; lia|cbn; auto])|]. split; [vm_compute; reflexivity|]. split; [intros []|]. split; [vm_compute; reflexivity|]. split; [cbn; lia|]. vm_compute. discriminate.
Qed.
Print Assumptions C55_repeated_refuted.

(* Empty lists are dereferenced before they are looked at. *)
Theorem C55_empty_refuted : forall base V xs t b l u r,
  construct base V (Homogeneous [] xs t) = UB /\ construct base V (WithB [] xs b t r) = UB /\ construct base V (WithLU [] xs l u r) = UB.
Proof. intros. repeat split. Qed.
Print Assumptions C55_empty_refuted.
