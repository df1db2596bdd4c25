(* C42: linear functions and affine expressions evaluate to their meaning. *)
Require Import QArith ZArith List Bool Lia.
Require Import Verif.Base Verif.QSum Verif.RangeModel Verif.SpaceModel Verif.VarCountingModel Verif.VarCountingSpec.
Require Import Verif.LinFunModel Verif.LinFunSpec Verif.LinFunProofs5 Verif.LinFunProofs6.
Import ListNotations.
Local Open Scope Z_scope.

(* Every expression over usable variables whose sizes agree, that is neither a variable nor a constant,
   compiles, and the function built from it has its value and its velocity, whatever the values of the
   variables and however the variables of the expression overlap; the shapes recorded for the jacobians
   are true. *)
Theorem C42_expression : forall (L : layout) (spOf : nat -> space) (base : nat -> bool) (e : expr) (n : nat),
  good L spOf -> fits base e n -> (forall x, In x (vars e) -> usable L base x) -> vars e <> [] -> (forall x, e <> EVar x) ->
  exists p f, build base e = Some p /\ ofOperand spOf base p = Some (Ok f) /\ f_size f = n /\
    Forall (fun j => shape_true (j_mat j) (j_shape j)) (f_jac f) /\
    (forall env, exists w, value base env f = Some w /\ vn w = n /\ forall i, (i < n)%nat -> (ve w i == meaning (coord base env) constant e i)%Q) /\
    (forall denv, exists w, velocity denv f = Some w /\ vn w = n /\ forall i, (i < n)%nat -> (ve w i == meaning (dcoord denv) nothing e i)%Q).
Proof. exact c42_expression. Qed.
Print Assumptions C42_expression.

(* From matrices and variables: if the sizes agree, the function is A_1 x_1 + ... + A_n x_n + b exactly if
   every variable is inside one of those before it or apart from all of them, and the call throws otherwise. *)
Theorem C42_matrices : forall (L : layout) (spOf : nat -> space) (base : nat -> bool) (n : nat) (As : list mat) (xs : list cvar) (b : vec),
  good L spOf -> As <> [] -> Forall2 (matrix_for base n) As xs -> Forall (usable L base) xs ->
  (compatible base xs -> vn b = n -> exists f, ofMatrices base As xs b = Ok f /\ f_size f = n /\
     (forall env, exists w, value base env f = Some w /\ vn w = n /\ forall i, (ve w i == ve b i + sumAx (coord base env) As xs i)%Q) /\
     (forall denv, exists w, velocity denv f = Some w /\ vn w = n /\ forall i, (ve w i == sumAx (dcoord denv) As xs i)%Q)) /\
  (~ compatible base xs \/ vn b <> n -> ofMatrices base As xs b = Throw).
Proof. exact c42_matrices. Qed.
Print Assumptions C42_matrices.

(* Wrong numbers, sizes or spaces are reported by an exception. *)
Theorem C42_matrices_throw : forall (L : layout) (spOf : nat -> space) (base : nat -> bool) (As : list mat) (xs : list cvar) (b : vec) (A0 : mat),
  good L spOf -> hd_error As = Some A0 -> (forall x, In x xs -> usable L base x \/ curved base x) ->
  length As <> length xs \/ (exists i A x, nth_error As i = Some A /\ nth_error xs i = Some x /\ (curved base x \/ ~ matrix_for base (mr A0) A x)) ->
  ofMatrices base As xs b = Throw.
Proof. exact c42_matrices_throw. Qed.
Print Assumptions C42_matrices_throw.

(* An expression in which some variable lives in a space that is not Euclidean is refused. *)
Theorem C42_curved : forall (L : layout) (spOf : nat -> space) (base : nat -> bool) (e : expr) (n : nat),
  good L spOf -> fits base e n -> (forall x, In x (vars e) -> usable L base x \/ (curved base x /\ exists q, 0 < dim q /\ made_of L x q)) ->
  (exists x, In x (vars e) /\ curved base x) -> (forall x, e <> EVar x) ->
  exists p, build base e = Some p /\ ofOperand spOf base p = Some Throw.
Proof. exact c42_curved. Qed.
Print Assumptions C42_curved.

(* Setting the matrix of one variable replaces its term, and nothing else; wrong sizes throw. *)
Theorem C42_setA : forall (base : nat -> bool) (f : blf) (i : nat) (j : jent) (A : mat) (sh : mshape) (env : nat -> Z -> Q) (w : vec),
  nth_error (f_jac f) i = Some j -> value base env f = Some w -> vn (f_b f) = f_size f ->
  (matrix_for base (f_size f) A (j_var j) -> exists f' w', setA base f i A sh = Ok f' /\ value base env f' = Some w' /\ vn w' = vn w /\
    forall r, (ve w' r == ve w r - qsumn (fun c => me (j_mat j) r c * coord base env (j_var j) c) (mc (j_mat j)) + qsumn (fun c => me A r c * coord base env (j_var j) c) (mc A))%Q) /\
  (~ matrix_for base (f_size f) A (j_var j) -> setA base f i A sh = Throw).
Proof. exact c42_setA. Qed.
Print Assumptions C42_setA.

(* Setting the constant replaces it. *)
Theorem C42_setB : forall (base : nat -> bool) (f : blf) (b : vec) (env : nat -> Z -> Q) (w : vec),
  value base env f = Some w -> vn (f_b f) = f_size f ->
  (vn b = f_size f -> exists f' w', setB f b = Ok f' /\ value base env f' = Some w' /\ vn w' = vn w /\ forall r, (ve w' r == ve w r - ve (f_b f) r + ve b r)%Q) /\
  (vn b <> f_size f -> setB f b = Throw).
Proof. exact c42_setB. Qed.
Print Assumptions C42_setB.

(* ---- a concrete case: a vector of R^3 (0), a derivative with 3 coordinates (1), an SO3 variable (2) ---- *)
Definition spOfE (k : nat) : space := match k with 2%nat => mkSpace 3 4 3 SO3 | _ => mkSpace 3 3 3 Euclidean end.
Definition baseE (k : nat) : bool := negb (Nat.eqb k 1).
Definition LE : layout := mkLayout (fun k a => match k with 2%nat => 3 * a | _ => a end) (fun k a => match k with 2%nat => 4 * a | _ => a end)
  (fun k a => match k with 2%nat => 3 * a | _ => a end) (fun k => match k with 2%nat => 1 | _ => 3 end).
Example goodE : good LE spOfE.
Proof. intros k. destruct k as [|[|[|k]]]; cbn [om or_ ot natoms LE mSize rSize tSize spOfE]; repeat split; intros; lia. Qed.
Definition sub (k : nat) (s d : Z) : cvar := mkCV k (mkSpace s s s Euclidean) (mkSpace d d d Euclidean).
Definition zE : cvar := sub 0 0 2.
Definition yE : cvar := sub 0 1 2.
Definition tE : cvar := sub 1 0 2.
Definition qE : cvar := mkCV 2 (mkSpace 0 0 0 Euclidean) (mkSpace 3 4 3 SO3).
Definition bE : vec := mkVec 2 (fun i => if Nat.eqb i 0 then 7 else 11)%Q.
Definition ME : mat := mkMat 2 2 (fun i j => if Nat.eqb i 0 then (if Nat.eqb j 0 then 1 else 2) else (if Nat.eqb j 0 then 3 else 4))%Q.
(* M (z + 2 y - b) - t: z and y overlap *)
Definition eE : expr := ESub (EMul ME (ESub (EAdd (EVar zE) (EScal 2 (EVar yE))) (ECst bE))) (EVar tE).
Example usableE : usable LE baseE zE /\ usable LE baseE yE /\ usable LE baseE tE.
Proof.
  assert (K : forall k s d, (k = 0 \/ k = 1)%nat -> 0 <= s -> 0 < d -> s + d <= 3 -> usable LE baseE (sub k s d)).
  { intros k s d Hk Hs Hd H. split; [|intros _; repeat split]. exists (mkRange s d). split; [exact Hd|]. unfold made_of, sub, rend. destruct Hk; subst k; cbn; lia. }
  split; [apply K; auto; lia|]. split; apply K; auto; lia.
Qed.
Example fitsE : fits baseE eE 2.
Proof.
  apply FSub; [|exact (FVar baseE tE)|discriminate]. apply (FMul baseE ME). apply FSub; [|exact (FCst baseE bE)|discriminate].
  apply FAdd; [exact (FVar baseE zE)|]. apply FScal; [exact (FVar baseE yE)|]. intros _ H. discriminate.
Qed.
(* the values of the super-variables *)
Definition envE (k : nat) (c : Z) : Q := inject_Z (Z.of_nat k * 10 + c + 1).
Example valueE : match build baseE eE with
  | Some p => match ofOperand spOfE baseE p with
    | Some (Ok f) => (length (f_jac f), option_map (fun w => (vn w, Qred (ve w 0%nat), Qred (ve w 1%nat))) (value baseE envE f))
    | _ => (0%nat, None) end
  | None => (0%nat, None) end = (2%nat, Some (2%nat, (-19)%Q, (-30)%Q)) /\
  map (fun i => Qred (meaning (coord baseE envE) constant eE i)) [0%nat; 1%nat] = [(-19)%Q; (-30)%Q].
Proof. split; vm_compute; reflexivity. Qed.
(* the constructor from matrices refuses the overlap, and accepts a sub-variable after the variable *)
Definition xE : cvar := sub 0 0 3.
Definition NE : mat := mkMat 2 3 (fun i j => if Nat.eqb i j then 1 else 0)%Q.
Example overlapE : ofMatrices baseE [ME; ME] [zE; yE] bE = Throw /\ ~ compatible baseE [zE; yE] /\ compatible baseE [xE; yE].
Proof.
  split; [vm_compute; reflexivity|]. split.
  - intros H. destruct (H [zE] yE [] eq_refl) as [(x & [<-|[]] & Hi)|Hn].
    + destruct (Hi 0%nat 2) as [_ X]; [split; [reflexivity|cbn; lia]|cbn in X; lia].
    + apply (Hn zE (or_introl eq_refl) 0%nat 1). split; (split; [reflexivity|cbn; lia]).
  - intros a y b E. destruct a as [|u [|v a]]; simpl in E.
    + right. intros x [].
    + injection E as E1 E2 _. subst u y. left. exists xE. split; [left; reflexivity|]. intros k c [Hk Hc]. cbn in Hk. subst k. split; [reflexivity|]. cbn in *. lia.
    + injection E as _ _ E2. destruct a; discriminate.
Qed.
Example matricesE : match ofMatrices baseE [NE; ME] [xE; yE] bE with
  | Ok f => (length (f_jac f), option_map (fun w => (Qred (ve w 0%nat), Qred (ve w 1%nat))) (value baseE envE f))
  | _ => (0%nat, None) end = (1%nat, Some (16%Q, 31%Q)).
Proof. vm_compute. reflexivity. Qed.
Example curvedE : curved baseE qE /\ match build baseE (EMul (mkMat 1 4 (fun _ _ => 1%Q)) (EVar qE)) with
  | Some p => ofOperand spOfE baseE p | None => None end = Some Throw.
Proof. split; [split; [reflexivity|discriminate]|vm_compute; reflexivity]. Qed.
(* a function whose matrix is set *)
Example setE : match ofMatrices baseE [NE] [xE] bE with
  | Ok f => match setA baseE f 0 (mkMat 2 3 (fun _ _ => 1%Q)) General with
    | Ok f' => option_map (fun w => (Qred (ve w 0%nat), Qred (ve w 1%nat))) (value baseE envE f') | _ => None end
  | _ => None end = Some (13%Q, 17%Q) /\ matrix_for baseE 2 NE xE.
Proof. split; [vm_compute; reflexivity|split; reflexivity]. Qed.
