(* C80: task dynamics following a reference *)
From Coq Require Import ZArith List Bool QArith Lia Lqa.
From Verif Require Import Base RangeModel SpaceModel VariableModel VariableSpec MapVarModel MapVarSpec QSum LtcModel LtcSpec LtcProofs LtcProps RdModel RdSpec RdProofs.
Import ListNotations.
Local Open Scope nat_scope.

(* At order one or two, the constraint of a one-sided task following a reference of the size of its function holds
   if and only if the derivative of the function is in the relation with the reference; the right-hand side, of which
   the derivative is zero, has no effect. *)
Theorem C80_constraint : forall h f t o ref rhs r h' ds, reachable h -> goodFunc h f -> f_eu f = true -> t <> DOUBLE_SIDED -> o <> Zero ->
  newReference o (Some ref) = Ok r -> length rhs = f_n f -> length ref = f_n f -> derive h o (f_vars f) = Ok (h', ds) -> disjointVars h' ds ->
  exists k c, newTask f t (referenceTD r) rhs = Ok k /\ newLtc h k = Ok (h', c) /\ c_vars c = ds /\
    forall env, sized h' env -> (satisfied h' c env <-> forall i, i < f_n f -> related t (chainRule f env ds i + drift f o i) (nth i ref 0%Q)).
Proof.
  intros h f t o ref rhs r h' ds R G Eu Ht Ho Er Lr Lf D Dj. injection Er as <-.
  exact (C41_constraint h f t (referenceTD (mkRef o (Some ref))) rhs ref h' ds R G Eu Ht (impl_ok (mkRef o (Some ref)) f t rhs ref eq_refl Eu Lr) Lf D Dj (fun E => False_ind _ (Ho E))).
Qed.
Print Assumptions C80_constraint.

(* The two shortcuts are at the orders one and two. *)
Theorem C80_shortcuts : forall ref, newReferenceVelocity ref = newReference One ref /\ newReferenceAcceleration ref = newReference Two ref /\
  (forall o r, newReference o ref = Ok r -> t_order (referenceTD r) = o).
Proof. intros ref. split; [reflexivity|]. split; [reflexivity|]. intros o r [= <-]. reflexivity. Qed.
Print Assumptions C80_shortcuts.

(* When the constraints of an equality task with a linear function are satisfied at all instants, and the variables
   move by dt times their derivatives, the function has moved by the sum of the reference. *)
Theorem C80_tracks : forall h f rhs h' ds dt (refs : nat -> list Q) (r : nat -> reference) (k : nat -> task) (c : nat -> ltc) (env : nat -> nat -> list Q),
  reachable h -> goodFunc h f -> f_eu f = true -> length rhs = f_n f -> derive h One (f_vars f) = Ok (h', ds) -> disjointVars h' ds ->
  (forall n, length (refs n) = f_n f /\ newReferenceVelocity (Some (refs n)) = Ok (r n) /\ newTask f EQUAL (referenceTD (r n)) rhs = Ok (k n) /\ newLtc h (k n) = Ok (h', c n)) ->
  (forall n, sized h' (env n) /\ satisfied h' (c n) (env n) /\ moved dt (f_vars f) ds (env n) (env (S n))) ->
  forall n i, i < f_n f -> (linearPart f (env n) i == linearPart f (env 0%nat) i + integral dt refs n i)%Q.
Proof.
  intros h f rhs h' ds dt refs r k c env R G Eu Lr D Dj B W. apply (tracks f ds).
  - apply G.
  - intros n. apply (W n).
  - intros n i Hi. destruct (B n) as (L & Er & Ek & Ec). destruct (W n) as (Sz & Sa & _).
    destruct (C80_constraint h f EQUAL One (refs n) rhs (r n) h' ds R G Eu ltac:(discriminate) ltac:(discriminate) Er Lr L D Dj) as (k' & c' & Ek' & Ec' & _ & H).
    rewrite Ek in Ek'. injection Ek' as <-. rewrite Ec in Ec'. injection Ec' as <-. pose proof (proj1 (H (env n) Sz) Sa) as Sb. specialize (Sb i Hi). simpl in Sb. rewrite <- Sb. ring.
Qed.
Print Assumptions C80_tracks.

(* A null reference is accepted by the constructor and refused by every task; the reference of a task can never be
   changed. *)
Theorem C80_null : (forall o, exists r, newReference o None = Ok r) /\
  (forall o r f t rhs l u, newReference o None = Ok r -> newTask f t (referenceTD r) rhs = Throw /\ newTask2 f t (referenceTD r) l u = Throw) /\
  (forall v ref, changeReference v ref = Throw).
Proof.
  split; [intros o; eexists; reflexivity|]. split; [|reflexivity]. intros o r f t rhs l u [= <-]. unfold newTask, newTask2. simpl. unfold referenceImpl, tdCheck.
  split; [destruct (negb (f_n f =? length rhs)); [reflexivity|]|destruct (negb (f_n f =? length l)); [reflexivity|]]; destruct (negb (f_eu f)); reflexivity.
Qed.
Print Assumptions C80_null.

(* With a reference a double-sided task is an equality: the two bounds have no effect. *)
Theorem C80_double_sided : forall h f o ref l u r h' ds, reachable h -> goodFunc h f -> f_eu f = true -> o <> Zero ->
  newReference o (Some ref) = Ok r -> length l = f_n f -> length u = f_n f -> length ref = f_n f -> derive h o (f_vars f) = Ok (h', ds) -> disjointVars h' ds ->
  exists k c, newTask2 f DOUBLE_SIDED (referenceTD r) l u = Ok k /\ newLtc h k = Ok (h', c) /\ c_vars c = ds /\
    forall env, sized h' env -> (satisfied h' c env <-> forall i, i < f_n f -> (chainRule f env ds i + drift f o i == nth i ref 0)%Q).
Proof.
  intros h f o ref l u r h' ds R G Eu Ho Er Ll Lu Lf D Dj. injection Er as <-.
  destruct (C41_double_sided h f (referenceTD (mkRef o (Some ref))) l u ref ref h' ds R G Eu (impl_ok (mkRef o (Some ref)) f GREATER_THAN l ref eq_refl Eu Ll)
    (impl_ok (mkRef o (Some ref)) f LOWER_THAN u ref eq_refl Eu Lu) Lf Lf D Dj (fun E => False_ind _ (Ho E))) as (k & c & Ek & Ec & Ev & H).
  exists k, c. split; [exact Ek|]. split; [exact Ec|]. split; [exact Ev|]. intros env Sz. rewrite (H env Sz). simpl.
  split; intros K i Hi; specialize (K i Hi); [|split]; lra.
Qed.
Print Assumptions C80_double_sided.

(* At order zero the constant part of the function is left out, as with Constant. *)
Theorem C80_order_zero_refuted : exists h f ref r k c h' env b, reachable h /\ goodFunc h f /\ f_b f = Some b /\ newReference Zero (Some ref) = Ok r /\
  newTask f EQUAL (referenceTD r) [0; 0]%Q = Ok k /\ newLtc h k = Ok (h', c) /\ sized h' env /\ satisfied h' c env /\
  ~ (forall i, i < f_n f -> (linearPart f env i + nth i b 0 == nth i ref 0)%Q).
Proof.
  eexists h2, f2, [0; 0]%Q, _, _, _, h2, (vals [(0, [0; 0]%Q); (1, [0]%Q)]), [1; 1]%Q. split; [apply h2_reach|]. split; [apply f2_good|]. split; [reflexivity|]. split; [reflexivity|]. split; [reflexivity|]. split; [vm_compute; reflexivity|]. split.
  - intros v o E. destruct v as [|[|v]]; [vm_compute in E; injection E as <-; reflexivity..|]. destruct v; discriminate E.
  - split.
    + intros i Hi. destruct i as [|[|i]]; [| |simpl in Hi; lia]; (eexists _, _, _, _; split; [vm_compute; reflexivity|]; split; [reflexivity|]; split; [reflexivity|]; split; [reflexivity|]; split; [exact Logic.I|]; split; [exact Logic.I|]; reflexivity).
    + intros H. specialize (H 0 ltac:(simpl; lia)). vm_compute in H. discriminate.
Qed.
Print Assumptions C80_order_zero_refuted.

(* The size of the reference is not checked: the task and the constraint are built; at order two the difference of
   two vectors of different sizes is then taken, and at order one the right-hand side does not have the size of the
   constraint. *)
Theorem C80_size : forall h f o ref rhs r k h' c, goodFunc h f -> newReference o (Some ref) = Ok r -> newTask f EQUAL (referenceTD r) rhs = Ok k -> newLtc h k = Ok (h', c) ->
  length ref <> f_n f -> (o = Two -> ltcE c = UB) /\ (o <> Two -> exists e, ltcE c = Ok (Some e) /\ length e <> f_n (c_f c)).
Proof.
  intros h f o ref rhs r k h' c G [= <-] Ek Ec N. unfold newTask in Ek. simpl in Ek. unfold referenceImpl, tdCheck in Ek.
  destruct (negb (f_n f =? length rhs)); [discriminate Ek|]. destruct (negb (f_eu f)) eqn:Eu; [discriminate Ek|]. simpl in Ek. try rewrite Eu in Ek. injection Ek as <-.
  unfold newLtc in Ec. destruct (addVars _ _ _ _ _) as [[h1 vs]| |]; simpl in Ec; try discriminate. injection Ec as <- <-. unfold ltcE, rhsOf. simpl. split.
  - intros ->. unfold vsubL. destruct G as (_ & _ & _ & _ & ->). rewrite (proj2 (Nat.eqb_neq _ _) N). reflexivity.
  - intros No. exists ref. split; [destruct o; [reflexivity|reflexivity|congruence]|exact N].
Qed.
Print Assumptions C80_size.
Theorem C80_size_refuted : exists h f r k h' c, reachable h /\ goodFunc h f /\ newReferenceAcceleration (Some [1]%Q) = Ok r /\ newTask f EQUAL (referenceTD r) [0; 0]%Q = Ok k /\
  newLtc h k = Ok (h', c) /\ ltcE c = UB.
Proof. eexists h2, f2, _, _, _, _. split; [apply h2_reach|]. split; [apply f2_good|]. split; [reflexivity|]. split; [reflexivity|]. split; [vm_compute; reflexivity|]. reflexivity. Qed.
Print Assumptions C80_size_refuted.

(* The hypotheses of C80_constraint, C80_double_sided and C80_tracks: f2 of LtcProps.v, two equal instants *)
Example rd_ex : exists h' k c, derive h2 One (f_vars f2) = Ok (h', [2; 3]) /\ disjointVars h' [2; 3] /\ newTask f2 EQUAL (referenceTD (mkRef One (Some [14; 14]%Q))) [0; 0]%Q = Ok k /\
  newLtc h2 k = Ok (h', c) /\ sized h' (vals [(0, [0; 0]%Q); (1, [0]%Q); (2, [1; 2]%Q); (3, [3]%Q)]) /\ satisfied h' c (vals [(0, [0; 0]%Q); (1, [0]%Q); (2, [1; 2]%Q); (3, [3]%Q)]) /\
  moved (1 # 2) [0; 1] [2; 3] (vals [(0, [0; 0]%Q); (1, [0]%Q); (2, [1; 2]%Q); (3, [3]%Q)]) (vals [(0, [0 + (1 # 2) * 1; 0 + (1 # 2) * 2]%Q); (1, [0 + (1 # 2) * 3]%Q)]).
Proof.
  eexists _, _, _. split; [vm_compute; reflexivity|]. split; [|split; [reflexivity|split; [vm_compute; reflexivity|split; [|split]]]].
  - split; [repeat constructor|]. constructor; [|constructor; [|constructor]]; [exists (2, 0%Z)|exists (3, 0%Z)]; eexists; (split; [vm_compute; reflexivity|]); simpl; (split; [reflexivity|lia]).
  - intros v o E. do 4 (destruct v as [|v]; [vm_compute in E; injection E as <-; reflexivity|]). destruct v; discriminate E.
  - intros i Hi. destruct i as [|[|i]]; [| |simpl in Hi; lia]; (eexists _, _, _, _; split; [vm_compute; reflexivity|]; split; [reflexivity|]; split; [reflexivity|]; split; [reflexivity|]; split; [exact Logic.I|]; split; [exact Logic.I|]; reflexivity).
  - split; [reflexivity|]. intros v d [[= <- <-]|[[= <- <-]|[]]]; split; reflexivity.
Qed.
