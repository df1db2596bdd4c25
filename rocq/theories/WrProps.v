(* C66: a written relation constrains the points to the ones which satisfy it. *)
Require Import QArith ZArith List Bool Lia Lqa.
Require Import Verif.Base Verif.QSum Verif.RangeModel Verif.SpaceModel Verif.VarCountingModel Verif.VarCountingSpec.
Require Import Verif.LinFunModel Verif.LinFunSpec Verif.LinFunProps Verif.WrModel Verif.WrSpec Verif.WrProofs Verif.WrProofs2 Verif.WrProofs3.
Import ListNotations.
Local Open Scope nat_scope.

(* An expression: every relation between an expression over usable variables and right-hand sides of its size is accepted, and the
   constraint is satisfied exactly at the points at which the relation holds. *)
Theorem C66_expression : forall (L : layout) (spOf : nat -> space) (base : nat -> bool) (e : expr) (n : nat) (w : written),
  good L spOf -> fits base e n -> (forall x, In x (vars e) -> usable L base x) -> vars e <> [] -> (forall x, e <> EVar x) ->
  writable w -> Forall (WrSpec.sized n) (sides w) ->
  exists f p c, toFunction spOf base (SExpr e) = Some (Ok f) /\ relation spOf base (SExpr e) w = Some (Ok p) /\ add n p = Ok c /\
    forall env, satisfied base env c f <-> forall i, i < n -> holds w (meaning (coord base env) constant e i) i.
Proof. exact expression_points. Qed.
Print Assumptions C66_expression.

(* A variable alone *)
Theorem C66_variable : forall (L : layout) (spOf : nat -> space) (base : nat -> bool) (x : cvar) (w : written),
  good L spOf -> usable L base x -> writable w -> Forall (WrSpec.sized (Z.to_nat (if base (c_sup x) then rSize (c_space x) else tSize (c_space x)))) (sides w) ->
  exists f p c, toFunction spOf base (SVar x) = Some (Ok f) /\ relation spOf base (SVar x) w = Some (Ok p) /\ add (f_size f) p = Ok c /\
    forall env, satisfied base env c f <-> forall i, (Z.of_nat i < if base (c_sup x) then rSize (c_space x) else tSize (c_space x))%Z -> holds w (coord base env x i) i.
Proof. exact variable_points. Qed.
Print Assumptions C66_variable.

(* A linear function: the constraint follows the function when its matrices and its constant are changed afterwards. *)
Theorem C66_function : forall (spOf : nat -> space) (base : nat -> bool) (f : blf) (w : written),
  vn (f_b f) = f_size f -> writable w -> Forall (WrSpec.sized (f_size f)) (sides w) ->
  exists p c, relation spOf base (SFun f) w = Some (Ok p) /\ add (f_size f) p = Ok c /\
    forall f' env v, changed base f f' -> value base env f' = Some v ->
      (satisfied base env c f' <-> forall i, i < f_size f -> holds w (ve v i) i).
Proof. exact function_points. Qed.
Print Assumptions C66_function.

(* A vector of another size is refused, and so are variables in spaces which are not Euclidean; the other relations do not compile. *)
Theorem C66_refused : forall (L : layout) (spOf : nat -> space) (base : nat -> bool) (s : subject) (w : written), good L spOf ->
  (~ writable w -> relation spOf base s w = None) /\
  (writable w -> forall f, toFunction spOf base s = Some (Ok f) -> vn (f_b f) = f_size f -> ~ Forall (WrSpec.sized (f_size f)) (sides w) -> relation spOf base s w = Some Throw) /\
  (writable w -> (exists x, curved base x /\ (s = SVar x \/ exists e n, s = SExpr e /\ fits base e n /\ In x (vars e) /\ (forall y, e <> EVar y) /\
     forall y, In y (vars e) -> usable L base y \/ (curved base y /\ exists q, (0 < dim q)%Z /\ made_of L y q))) -> relation spOf base s w = Some Throw).
Proof. exact refused. Qed.
Print Assumptions C66_refused.

(* If the function has been given another size since the relation was written, a double still does, but the addition is undefined with a
   vector, even though the exception for a vector of a wrong size was passed. *)
Theorem C66_resized : forall (F : Type) (f : F) (n m : nat) (w : written) (p : proto F), writable w -> evaluate n f w = Ok p ->
  (Forall (WrSpec.sized m) (sides w) -> exists c, add m p = Ok c /\ n_size c = m) /\ (~ Forall (WrSpec.sized m) (sides w) -> add m p = UB).
Proof. exact @resized. Qed.
Print Assumptions C66_resized.

(* ---- the case of LinFunProps.v: (-1, -1) <= M (z + 2 y - b) - t <= 100, and t >= 3 ---- *)
Definition wE : written := WChain (WLeft (GVec (mkVec 2 (fun _ => -1)%Q)) CLe) CLe (GDouble 100).
Example ex_writable : writable wE /\ Forall (WrSpec.sized 2) (sides wE) /\ ~ writable (WChain (WRight CEq (GDouble 1)) CLe (GDouble 2)).
Proof.
  split; [right; exists (WLeft (GVec (mkVec 2 (fun _ => -1)%Q)) CLe), (GDouble 100); left; split; [exists (GVec (mkVec 2 (fun _ => -1)%Q)); right; reflexivity|reflexivity]|].
  split; [repeat constructor|]. intros H. apply writable_iff in H. destruct H as (t & H). discriminate.
Qed.
Example ex_hypotheses : good LE spOfE /\ fits baseE eE 2 /\ (forall x, In x (vars eE) -> usable LE baseE x) /\ usable LE baseE tE.
Proof. split; [exact goodE|]. split; [exact fitsE|]. destruct usableE as (A & B & C). split; [|exact C]. intros x [<-|[<-|[<-|[]]]]; assumption. Qed.
Example ex_constraint : match relation spOfE baseE (SExpr eE) wE with
  | Some (Ok p) => match add 2 p with
    | Ok c => match toFunction spOfE baseE (SExpr eE) with
      | Some (Ok f) => (n_type c, match cL c f with Some (Some l) => [Qred (ve l 0); Qred (ve l 1)] | _ => [] end, match cU c f with Some (Some l) => [Qred (ve l 0); Qred (ve l 1)] | _ => [] end)
      | _ => (WEqual, [], []) end
    | _ => (WEqual, [], []) end
  | _ => (WEqual, [], []) end = (WDouble, [28; 64]%Q, [129; 165]%Q).
Proof. vm_compute. reflexivity. Qed.
Example ex_variable : match relation spOfE baseE (SVar tE) (WRight CGe (GDouble 3)) with
  | Some (Ok p) => match add 2 p, toFunction spOfE baseE (SVar tE) with
    | Ok c, Some (Ok f) => (n_type c, match cL c f with Some (Some l) => [Qred (ve l 0); Qred (ve l 1)] | _ => [] end, map j_shape (f_jac f), match cU c f with None => true | _ => false end)
    | _, _ => (WEqual, [], [], false) end
  | _ => (WEqual, [], [], false) end = (WGreater, [3; 3]%Q, [Ident], true).
Proof. vm_compute. reflexivity. Qed.
Example ex_refused : relation spOfE baseE (SExpr eE) (WRight CEq (GVec (mkVec 3 (fun _ => 0%Q)))) = Some Throw /\ relation spOfE baseE (SVar qE) (WRight CEq (GDouble 0)) = Some Throw /\
  match evaluate 2 tt wE with Ok p => add 3 p | _ => Throw end = UB.
Proof. split; [|split]; vm_compute; reflexivity. Qed.
