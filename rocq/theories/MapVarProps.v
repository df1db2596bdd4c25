(* C43: access to the jacobians by sub-variable *)
Require Import ZArith List Bool Lia.
Require Import Verif.Base Verif.RangeModel Verif.SpaceModel Verif.SpaceProps Verif.VariableModel Verif.VariableSpec Verif.VariableProofs Verif.VariableProofs2 Verif.VariableProps Verif.MapVarModel Verif.MapVarSpec Verif.MapVarProofs.
Import ListNotations.
Local Open Scope Z_scope.

Definition so3 := mkSpace 3 4 3 SO3.
Lemma api_so3 : api so3. Proof. apply (apiT SO3 (-1)); [reflexivity|discriminate]. Qed.
Lemma api_se3 : api se3. Proof. apply (apiT SE3 (-1)); [reflexivity|discriminate]. Qed.
Lemma api_sp : api sp. Proof. apply (apiM se3 (R 4)); [apply api_se3|apply api_R; lia|reflexivity]. Qed.
(* x in SE3 x R^4 (variable 0), its part y in R^4 (1), the part z in R^2 of it (2), and another variable w (3) *)
Definition hx := match vrun empty_heap [VNew sp; VSub 0 (R 4) se3 true; VSub 1 (R 2) (R 1) true; VNew (R 3)] with Ok h => h | _ => empty_heap end.
Lemma hx_reach : reachable hx.
Proof.
  eapply (r_step _ (VNew (R 3))); [eapply (r_step _ (VSub 1 (R 2) (R 1) true)); [eapply (r_step _ (VSub 0 (R 4) se3 true)); [eapply (r_step _ (VNew sp)); [apply r_init| |]| |]| |]| |];
    try (vm_compute; reflexivity); simpl; try (repeat split; try lia; try apply api_se3; try apply api_R; try apply api_sp; lia).
Qed.
Definition Jx : vmap Z := [(0%nat, [10; 11; 12; 13; 14; 15; 16; 17; 18; 19]); (3%nat, [30; 31; 32])].
Example jac_ex : jacobian hx Jx 0 = Ok [10; 11; 12; 13; 14; 15; 16; 17; 18; 19] /\ jacobian hx Jx 1 = Ok [16; 17; 18; 19] /\ jacobian hx Jx 2 = Ok [17; 18] /\
  jacobian hx [(3%nat, [30; 31; 32])] 1 = Throw.
Proof. repeat split. Qed.

(* The general statement: a variable in no stored variable is rejected, otherwise the matrix returned
   is the part of that of a stored variable containing it; undefined only for unaligned variables. *)
Theorem C43_jacobian : forall (A : Type) h (m : vmap A) key, reachable h -> (key < length (objs h))%nat -> goodMap h m ->
  match jacobian h m key with
  | Throw => forall x J, In (x, J) m -> x <> key /\ vcontains h x key = Ok false
  | Ok M => exists x J, In (x, J) m /\ (x = key \/ vcontains h x key = Ok true) /\ (x = key \/ aligned h x key -> part h x J key M)
  | UB => exists x J, In (x, J) m /\ vcontains h x key = Ok true /\ ~ aligned h x key
  end.
Proof. intros A h m key R Hk G. apply at_ok; auto. Qed.
Print Assumptions C43_jacobian.

(* When the stored variables do not overlap: the part of the one containing the variable. *)
Theorem C43_jacobian_disjoint : forall (A : Type) h (m : vmap A) key x J, reachable h -> (key < length (objs h))%nat -> goodMap h m -> NoDup (map fst m) ->
  (forall x J y K, In (x, J) m -> In (y, K) m -> x <> y -> vintersects h x y = Ok false) -> (exists c, cell h key c) ->
  In (x, J) m -> x = key \/ vcontains h x key = Ok true /\ aligned h x key -> exists M, jacobian h m key = Ok M /\ part h x J key M.
Proof. intros. eapply at_unique; eauto. Qed.
Print Assumptions C43_jacobian_disjoint.

(* Sub-variables taken from a stored variable, at any depth, are aligned with it - unless one has the
   representation size of the whole but not its tangent size. *)
Theorem C43_subvariables_aligned : forall h x c h' y ox oy, reachable h -> nth_error (objs h) x = Some ox -> Forall onlySub c -> Forall valid_cop c -> chain h x c = Ok (h', y) ->
  nth_error (objs h') y = Some oy -> (rSize (v_space oy) = rSize (v_space ox) -> tSize (v_space oy) = tSize (v_space ox)) ->
  reachable h' /\ aligned h' x y /\ (0 < v_size oy -> vcontains h' x y = Ok true).
Proof. exact aligned_chain. Qed.
Print Assumptions C43_subvariables_aligned.
(* Variables whose values and derivatives have the same layout - in Euclidean spaces, or derivatives -
   are aligned as soon as one contains the other. *)
Theorem C43_flat_aligned : forall h x y, reachable h -> (x < length (objs h))%nat -> (y < length (objs h))%nat ->
  vcontains h x y = Ok true -> flat h x -> flat h y -> aligned h x y.
Proof. exact aligned_flat. Qed.
Print Assumptions C43_flat_aligned.
Example chain_ex : Forall onlySub [CSub (R 4) se3 true; CSub (R 2) (R 1) true] /\ chain (fst (newVar empty_heap sp)) 0 [CSub (R 4) se3 true; CSub (R 2) (R 1) true] =
  (do h <- vrun empty_heap [VNew sp; VSub 0 (R 4) se3 true; VSub 1 (R 2) (R 1) true]; Ok (h, 2%nat)).
Proof. split; [repeat constructor|vm_compute; reflexivity]. Qed.

(* Unaligned variables: a part of a rotation containing the last entry of its representation gives an
   access out of the matrix... *)
Definition hu := match vrun empty_heap [VNew (mkSpace 6 8 6 Unspecified); VSub 0 so3 (R 0) true; VSub 0 (R 1) (R 3) true] with Ok h => h | _ => empty_heap end.
Lemma hu_reach : reachable hu.
Proof.
  eapply (r_step _ (VSub 0 (R 1) (R 3) true)); [eapply (r_step _ (VSub 0 so3 (R 0) true)); [eapply (r_step _ (VNew (mkSpace 6 8 6 Unspecified))); [apply r_init| |]| |]| |];
    try (vm_compute; reflexivity); simpl; try (repeat split; try lia; try apply api_so3; try apply api_R; try lia).
  apply (apiM so3 so3); [apply api_so3|apply api_so3|reflexivity].
Qed.
Theorem C43_unaligned_refuted : exists h (m : vmap Z) key, reachable h /\ (key < length (objs h))%nat /\ goodMap h m /\
  (exists x J, In (x, J) m /\ vcontains h x key = Ok true) /\ jacobian h m key = UB.
Proof.
  exists hu, [(1%nat, [1; 2; 3])], 2%nat. split; [apply hu_reach|]. split; [vm_compute; lia|]. split; [|split; [|reflexivity]].
  - intros x J [[= <- <-]|[]]. exists 0. eexists. split; [vm_compute; reflexivity|]. split; reflexivity.
  - exists 1%nat, [1; 2; 3]. split; [left; reflexivity|reflexivity].
Qed.
Print Assumptions C43_unaligned_refuted.
(* ... and a part with the representation size of the whole gets the matrix of the whole, with too
   many columns. *)
Definition hw := match vrun empty_heap [VNew (R 4); VSub 0 so3 (R 0) true] with Ok h => h | _ => empty_heap end.
Lemma hw_reach : reachable hw.
Proof.
  eapply (r_step _ (VSub 0 so3 (R 0) true)); [eapply (r_step _ (VNew (R 4))); [apply r_init| |]| |];
    try (vm_compute; reflexivity); simpl; try (repeat split; try lia; try apply api_so3; try apply api_R; try lia).
Qed.
Theorem C43_whole_refuted : exists h (m : vmap Z) key M n, reachable h /\ goodMap h m /\ subvariable (fst (newVar empty_heap (R 4))) 0 so3 (R 0) true = Ok (h, key) /\
  jacobian h m key = Ok M /\ columns h key 0 n /\ Z.of_nat (length M) <> n.
Proof.
  exists hw, [(0%nat, [1; 2; 3; 4])], 1%nat. eexists _, 3. split; [apply hw_reach|]. split; [|split; [reflexivity|split; [reflexivity|split; [|discriminate]]]].
  - intros x J [[= <- <-]|[]]. exists 0. eexists. split; [vm_compute; reflexivity|]. split; reflexivity.
  - eexists. split; [vm_compute; reflexivity|]. split; reflexivity.
Qed.
Print Assumptions C43_whole_refuted.

(* JDot is correct when all variables are flat. *)
Theorem C43_JDot_partial : forall (A : Type) h (m : vmap A) key, reachable h -> (key < length (objs h))%nat -> goodMap h m ->
  flat h key -> (forall x J, In (x, J) m -> flat h x) ->
  match JDot h m key with
  | Throw => forall x J, In (x, J) m -> x <> key /\ vcontains h x key = Ok false
  | Ok M => exists x J, In (x, J) m /\ (x = key \/ vcontains h x key = Ok true) /\ part h x J key M
  | UB => False
  end.
Proof.
  intros A h m key R Hk G F1 F2. pose proof (at_ok h key R Hk false m (or_intror (conj F1 F2)) G) as H. unfold JDot. destruct (mapAt false h m key).
  - destruct H as (x & J & H1 & H2 & H3). exists x, J. split; [exact H1|]. split; [exact H2|]. apply H3. destruct H2 as [H2|H2]; [auto|right].
    apply aligned_flat; auto; [eapply good_lt; eassumption|eapply F2; eassumption].
  - exact H.
  - destruct H as (x & J & H1 & H2 & H3). apply H3. apply aligned_flat; auto; [eapply good_lt; eassumption|eapply F2; eassumption].
Qed.
Print Assumptions C43_JDot_partial.
(* Otherwise it slices the columns by the position of the value instead of that of the derivative:
   next to a free-flyer the columns returned are shifted by one, or out of the matrix. *)
Theorem C43_JDot_refuted : exists h (m : vmap Z) x J k1 k2 M, reachable h /\ goodMap h m /\ In (x, J) m /\ aligned h x k1 /\ vcontains h x k1 = Ok true /\ aligned h x k2 /\ vcontains h x k2 = Ok true /\
  JDot h m k1 = UB /\ JDot h m k2 = Ok M /\ ~ part h x J k2 M.
Proof.
  exists hx, Jx, 0%nat, [10; 11; 12; 13; 14; 15; 16; 17; 18; 19], 1%nat, 2%nat, [18; 19].
  split; [apply hx_reach|]. split; [|split; [left; reflexivity|]].
  - intros x J [[= <- <-]|[[= <- <-]|[]]]; exists 0; eexists; (split; [vm_compute; reflexivity|]); split; reflexivity.
  - assert (Al : forall y, y = 1%nat \/ y = 2%nat -> aligned hx 0 y).
    { intros y Hy tx nx ty ny (ox & Ex & -> & ->) (oy & Ey & -> & ->). vm_compute in Ex. injection Ex as <-.
      destruct Hy as [->| ->]; vm_compute in Ey; injection Ey as <-; (split; [vm_compute; discriminate|]); (split; [vm_compute; discriminate|]);
        intros r H1 H2; vm_compute in H1, H2; congruence. }
    split; [apply Al; auto|]. split; [reflexivity|]. split; [apply Al; auto|]. split; [reflexivity|]. split; [reflexivity|]. split; [reflexivity|].
    intros (tx & nx & ty & ny & (ox & Ex & -> & ->) & (oy & Ey & -> & ->) & _ & H). vm_compute in Ex, Ey. injection Ex as <-. injection Ey as <-.
    specialize (H 0). vm_compute in H. assert (K : Some 18 = Some 17); [apply H; split; [discriminate|reflexivity]|discriminate].
Qed.
Print Assumptions C43_JDot_refuted.
