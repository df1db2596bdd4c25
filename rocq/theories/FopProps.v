(* C62: the variables and the caches of functions. *)
Require Import ZArith List Bool Lia.
Require Import Verif.Base Verif.RangeModel Verif.VarVectorModel Verif.FopModel Verif.FopSpec Verif.FopProofs.
Import ListNotations.
Local Open Scope Z_scope.

(* After any calls, the function has the variables that were declared, their derivatives, one matrix with the right size for each of them in
   the Jacobian and in its derivative, and vectors with the size of the image.
   Restricted to variables that are not empty (see C62_empty_refuted). *)
Theorem C62_sizes_partial : forall (A P : Type) (p0 : P) (V : nat -> vslice) (ts : nat -> Z) (dv : nat -> nat), (forall x y, dv x = dv y -> x = y) ->
  forall (e : enabled) (rs t : Z) (eu : bool) (ops : list (fop A P)) (s : fn A P), 0 <= t -> Forall (plain_op V ts) ops -> proper V ops -> frun p0 V ts dv e (newFn rs t eu) ops = Ok s ->
  let vs := map fst (declared V ops) in
  f_vars s = vs /\ f_vdot s = map dv vs /\ NoDup vs /\ (forall v, In v vs <-> mget (f_jac s) v <> None) /\ (forall v, In v vs <-> mget (f_jdot s) v <> None) /\
  (forall v M, mget (f_jac s) v = Some M -> m_cols M = ts v /\ (enJacobian e = true -> m_rows M = size_after t ops)) /\
  (forall v M, mget (f_jdot s) v = Some M -> m_cols M = ts v /\ (enJDot e = true -> m_rows M = size_after t ops)) /\
  (enValue e = true -> f_value s = size_after rs ops) /\ (enVelocity e = true -> f_velocity s = size_after t ops) /\ (enNormal e = true -> f_normal s = size_after t ops).
Proof. exact @bookkeeping. Qed.
Print Assumptions C62_sizes_partial.
(* The linearity with respect to a variable, or to a part of it, is the one it was declared with; it is an error for other variables. *)
Theorem C62_linear_partial : forall (A P : Type) (p0 : P) (V : nat -> vslice) (ts : nat -> Z) (dv : nat -> nat), (forall x y, dv x = dv y -> x = y) ->
  forall (e : enabled) (rs t : Z) (eu : bool) (ops : list (fop A P)) (s : fn A P) (x : nat), 0 <= t -> Forall (plain_op V ts) ops -> proper V ops -> frun p0 V ts dv e (newFn rs t eu) ops = Ok s ->
  0 < dim (rng (V x)) ->
  (forall v b, In (v, b) (declared V ops) -> part_of V x v = true -> linearIn V s x = Ok b) /\
  ((forall v b, In (v, b) (declared V ops) -> part_of V x v = false) -> linearIn V s x = Throw).
Proof. exact @linear_ok. Qed.
Print Assumptions C62_linear_partial.
(* Removing is defined for the variables of the function only, resizing for a Euclidean image and a size that is not negative.  Adding is
   always defined: it throws when the variable has something in common with a variable of the function and is not part of one; then,
   and when it is part of one, nothing changes. *)
Theorem C62_defined_partial : forall (A P : Type) (p0 : P) (V : nat -> vslice) (ts : nat -> Z) (dv : nat -> nat), (forall x y, dv x = dv y -> x = y) ->
  forall (e : enabled) (rs t : Z) (eu : bool) (ops : list (fop A P)) (s : fn A P), 0 <= t -> Forall (plain_op V ts) ops -> proper V ops -> frun p0 V ts dv e (newFn rs t eu) ops = Ok s ->
  (forall v, (exists s1, fstep p0 V ts dv e s (FRemove v) = Ok (s1, false)) <-> In v (map fst (declared V ops))) /\
  (forall v, fstep p0 V ts dv e s (FRemove v) = UB <-> ~ In v (map fst (declared V ops))) /\
  (forall m, (exists s1, fstep p0 V ts dv e s (FResize m) = Ok (s1, false)) <-> eu = true /\ 0 <= m) /\
  (forall v b, plain V ts v -> exists s1, fstep p0 V ts dv e s (FAdd v b) = Ok (s1, existsb (common V v) (map fst (declared V ops)) && negb (existsb (part_of V v) (map fst (declared V ops)))) /\
     (existsb (common V v) (map fst (declared V ops)) = true -> s1 = s)).
Proof. exact @defined_ok. Qed.
Print Assumptions C62_defined_partial.
(* Splitting a matrix writes the Jacobian of each variable with its columns, and of no other one; the properties are kept or reset. *)
Theorem C62_split : forall (A P : Type) (p0 : P) (V : nat -> vslice) (ts : nat -> Z) (dv : nat -> nat), (forall x y, dv x = dv y -> x = y) ->
  forall (e : enabled) (rs t : Z) (eu : bool) (ops : list (fop A P)) (s : fn A P) (J : list A) (vars : list nat) (keep : bool),
  0 <= t -> Forall (plain_op V ts) ops -> proper V ops -> frun p0 V ts dv e (newFn rs t eu) ops = Ok s -> enJacobian e = true ->
  NoDup vars -> incl vars (map fst (declared V ops)) -> total ts vars <= Z.of_nat (length J) ->
  exists s1, fstep p0 V ts dv e s (FSplit (size_after t ops) J vars keep) = Ok (s1, false) /\
    (forall v B, In (v, B) (cut ts J vars) -> exists M M', mget (f_jac s) v = Some M /\ mget (f_jac s1) v = Some M' /\ m_data M' = Some B /\ m_rows M' = size_after t ops /\ m_cols M' = ts v /\ m_props M' = if keep then m_props M else p0) /\
    (forall x, ~ In x vars -> mget (f_jac s1) x = mget (f_jac s) x).
Proof. exact @write_ok. Qed.
Print Assumptions C62_split.
(* Resizing keeps the content of the Jacobians when the size does not change, otherwise it is lost; the properties stay in both cases. *)
Theorem C62_resize : forall (A P : Type) (p0 : P) (V : nat -> vslice) (ts : nat -> Z) (dv : nat -> nat), (forall x y, dv x = dv y -> x = y) ->
  forall (e : enabled) (rs t : Z) (ops : list (fop A P)) (s : fn A P) (m : Z), 0 <= t -> Forall (plain_op V ts) ops -> proper V ops -> frun p0 V ts dv e (newFn rs t true) ops = Ok s -> 0 <= m -> enJacobian e = true ->
  exists s1, fstep p0 V ts dv e s (FResize m) = Ok (s1, false) /\ forall v, In v (map fst (declared V ops)) ->
    exists M M', mget (f_jac s) v = Some M /\ mget (f_jac s1) v = Some M' /\ m_props M' = m_props M /\ m_data M' = if size_after t ops =? m then m_data M else None.
Proof. exact @resize_ok. Qed.
Print Assumptions C62_resize.

(* ---- a case: x (0) in R^4, z (1) in R^2, y (2) the last two entries of x, y' (3) another object for them, 4 an empty variable, 5 overlaps y ---- *)
Definition VV (v : nat) : vslice :=
  match v with
  | 0%nat => mkVS 0 (mkRange 0 4) | 1%nat => mkVS 1 (mkRange 0 2) | 2%nat => mkVS 0 (mkRange 2 2) | 3%nat => mkVS 0 (mkRange 2 2) | 4%nat => mkVS 4 (mkRange 0 0)
  | _ => mkVS 0 (mkRange 1 2)
  end.
Definition tt (v : nat) : Z := dim (rng (VV v)).
Definition all_on := mkEn true true true true true.
Definition go := @frun nat nat 0%nat VV tt (fun v => (v + 100)%nat) all_on (newFn 3 3 true).
Definition history : list (fop nat nat) :=
  [FAdd 2 true; FAdd 1 false; FAdd 5 true; FAdd 3 true; FSplit 3 [10; 11; 12; 13]%nat [1; 2]%nat false; FProps 2 7%nat; FRemove 1; FResize 5; FAddAll [1; 0]%nat true].
Definition after (ops : list (fop nat nat)) : fn nat nat := match go ops with Ok s => s | _ => newFn 0 0 true end.
Definition at_ (s : fn nat nat) (v : nat) : mat nat nat := match mget (f_jac s) v with Some M => M | None => mat0 0%nat end.
Example C62_case : (exists s, go history = Ok s /\ f_vars s = [2; 1]%nat /\ linearIn VV s 3 = Ok true /\ f_vdot s = [102; 101]%nat) /\ Forall (plain_op VV tt) history /\ proper VV history /\
  declared VV history = [(2%nat, true); (1%nat, true)] /\ size_after 3 history = 5.
Proof.
  split; [exists (after history); split; [vm_compute; reflexivity|split; [|split]; vm_compute; reflexivity]|]. split; [repeat constructor; unfold plain, tt; cbn; try lia|]. split; [|split; vm_compute; reflexivity].
  intros a o b E. do 9 (destruct a as [|? a]; [injection E as <- E; cbn; try exact I; try (intros v Hv; cbn in Hv |- *; intuition congruence); try (intuition congruence)|injection E as <- E]). destruct a; discriminate.
Qed.
Example C62_dv : forall x y : nat, (x + 100 = y + 100)%nat -> x = y.
Proof. intros. lia. Qed.

(* ---- what does not hold ---- *)
(* An empty variable can be added twice; once removed it is still there, with no Jacobian. *)
Theorem C62_empty_refuted : exists (ops : list (fop nat nat)) (s : fn nat nat) (v : nat), go ops = Ok s /\ In v (f_vars s) /\ mget (f_jac s) v = None.
Proof. exists [FAdd 4 true; FAdd 4 true; FRemove 4], (after [FAdd 4 true; FAdd 4 true; FRemove 4]), 4%nat. split; [vm_compute; reflexivity|]. split; [vm_compute; left; reflexivity|vm_compute; reflexivity]. Qed.
Print Assumptions C62_empty_refuted.
(* A part of a linear variable declared as nonlinear is silently taken as linear. *)
Theorem C62_linear_refuted : exists (ops : list (fop nat nat)) (s : fn nat nat) (v : nat), go (ops ++ [FAdd v false]) = Ok s /\ linearIn VV s v = Ok true.
Proof. exists [FAdd 0 true], (after [FAdd 0 true; FAdd 2 false]), 2%nat. split; vm_compute; reflexivity. Qed.
Print Assumptions C62_linear_refuted.
(* Removing a variable that is equal to a variable of the function, but is another object, is undefined. *)
Theorem C62_remove_refuted : exists (ops : list (fop nat nat)) (s : fn nat nat) (v x : nat), go ops = Ok s /\ In x (f_vars s) /\ s_eq (VV x) (VV v) = true /\ go (ops ++ [FRemove v]) = UB.
Proof. exists [FAdd 2 true], (after [FAdd 2 true]), 3%nat, 2%nat. split; [vm_compute; reflexivity|]. split; [vm_compute; left; reflexivity|]. split; vm_compute; reflexivity. Qed.
Print Assumptions C62_remove_refuted.
(* After a resize the properties describe a matrix whose content is lost. *)
Theorem C62_properties_refuted : exists (ops : list (fop nat nat)) (m : Z) (s s1 : fn nat nat) (v : nat) (M M1 : mat nat nat), go ops = Ok s /\ mget (f_jac s) v = Some M /\ m_data M <> None /\
  go (ops ++ [FResize m]) = Ok s1 /\ mget (f_jac s1) v = Some M1 /\ m_data M1 = None /\ m_props M1 <> 0%nat.
Proof.
  set (ops := [FAdd 1 true; FSplit 3 [10; 11]%nat [1%nat] false; FProps 1 7%nat]). exists ops, 4, (after ops), (after (ops ++ [FResize 4])), 1%nat, (at_ (after ops) 1), (at_ (after (ops ++ [FResize 4])) 1).
  split; [vm_compute; reflexivity|]. split; [vm_compute; reflexivity|]. split; [vm_compute; discriminate|]. split; [vm_compute; reflexivity|]. split; [vm_compute; reflexivity|]. split; [vm_compute; reflexivity|vm_compute; discriminate].
Qed.
Print Assumptions C62_properties_refuted.
