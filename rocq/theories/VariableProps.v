(* C07: sub-variables denote slices. [reachable h] (VariableSpec.v): [h] is obtained from
   nothing by creating variables, derivating, taking sub-variables and writing values. *)
Require Import ZArith List Bool Lia.
Require Import Verif.Base Verif.RangeModel Verif.SpaceModel Verif.SpaceProps Verif.VariableModel Verif.VariableSpec Verif.VariableProofs Verif.VariableProofs2 Verif.VariableProofs3.
Import ListNotations.
Local Open Scope Z_scope.

(* No admissible call runs into undefined behaviour. *)
Theorem C07_calls_defined : forall h o, reachable h -> valid_vop h o -> vstep h o <> UB.
Proof. intros h o R V. exact (proj1 (vstep_ok h o (reach_hinv h R) V)). Qed.

(* Deriving a variable is defined exactly for a positive number of times. *)
Theorem C07_dot_defined : forall h v n a, reachable h -> (v < length (objs h))%nat ->
  (dot h v n a <> UB <-> (0 < n)%nat).
Proof.
  intros h v n a R V. split.
  - destruct n; [intros H; exfalso; apply H; reflexivity|lia].
  - intros Hn E. apply (C07_calls_defined h (VDot v n a) R); [simpl; split; [auto|lia]|]. simpl. rewrite E. reflexivity.
Qed.

(* Any chain of derivations and sub-variables from a whole base variable denotes the
   composed slice (of the n-th derivative), or throws when a slice does not fit. *)
Theorem C07_chain : forall h root ro c,
  reachable h -> nth_error (objs h) root = Some ro -> v_super ro = None -> v_dn ro = O -> Forall valid_cop c ->
  (chain_slice c (O, v_space ro, 0, 0) = None -> chain h root c = Throw) /\
  (forall n s r t, chain_slice c (O, v_space ro, 0, 0) = Some (n, s, r, t) ->
    exists h' v w, chain h root c = Ok (h', v) /\ superOf h' v = Ok w /\
      subvariableRange h' v = Ok (slice_range (n, s, r, t)) /\
      (n = O -> w = root) /\ (n <> O -> forall a, dot h' root n a = Ok (h', w))).
Proof. exact c07_chain. Qed.

(* contains, intersects and == are inclusion, intersection and equality of the sets of
   memory cells, for non-empty variables. *)
Theorem C07_contains : forall h u v, reachable h -> (u < length (objs h))%nat -> (v < length (objs h))%nat ->
  exists b, vcontains h u v = Ok b /\
   ((exists c, cell h v c) -> (b = true <-> forall c, cell h v c -> cell h u c)).
Proof. exact c07_contains. Qed.
Theorem C07_intersects : forall h u v, reachable h -> (u < length (objs h))%nat -> (v < length (objs h))%nat ->
  exists b, vintersects h u v = Ok b /\
   ((exists c, cell h u c) -> (exists c, cell h v c) -> (b = true <-> exists c, cell h u c /\ cell h v c)).
Proof. exact c07_intersects. Qed.
Theorem C07_equality : forall h u v, reachable h -> (u < length (objs h))%nat -> (v < length (objs h))%nat ->
  exists b, veq h u v = Ok b /\
   ((exists c, cell h u c) -> (b = true <-> forall c, cell h u c <-> cell h v c)).
Proof. exact c07_eq. Qed.

(* The derivative of a sub-variable is the same slice as the sub-variable of the
   derivative. *)
Theorem C07_dot_sub_commute : forall h v s sh a b h1 u h2 du,
  reachable h -> (v < length (objs h))%nat -> api s -> api sh ->
  subvariable h v s sh a = Ok (h1, u) -> dot h1 u 1 b = Ok (h2, du) ->
  exists h3 dv h4 sdv w r, dot h2 v 1 b = Ok (h3, dv) /\ subvariable h3 dv s sh a = Ok (h4, sdv) /\
    superOf h4 sdv = Ok w /\ superOf h4 du = Ok w /\
    subvariableRange h4 sdv = Ok r /\ subvariableRange h4 du = Ok r /\ veq h4 sdv du = Ok true.
Proof. exact c07_commute. Qed.

(* tSubvariableRange is the range of the derivative. *)
Theorem C07_tangent_range : forall h v o, reachable h -> nth_error (objs h) v = Some o ->
  exists h' d, dot h v 1 false = Ok (h', d) /\ tSubvariableRange h v = subvariableRange h' d.
Proof. exact c07_tsub. Qed.

(* Writes touch the cells of the written variable only, and are read back. *)
Theorem C07_set : forall h v x h', reachable h -> (v < length (objs h))%nat -> vset h v x = Ok h' ->
  value h' v = Ok x /\
  (forall c, 0 <= snd c -> ~ cell h v c -> content h' c = content h c) /\
  objs h' = objs h.
Proof. exact c07_set. Qed.
Theorem C07_set_size : forall h v x l, reachable h -> (v < length (objs h))%nat -> value h v = Ok l ->
  (vset h v x = Throw <-> length x <> length l) /\ vset h v x <> UB.
Proof. exact c07_set_size. Qed.
(* setZero makes every entry of the value zero, and touches no other cell. *)
Theorem C07_set_zero : forall h v, reachable h -> (v < length (objs h))%nat -> exists l h',
  value h v = Ok l /\ vsetZero h v = Ok h' /\ value h' v = Ok (repeat 0 (length l)) /\
  (forall c, 0 <= snd c -> ~ cell h v c -> content h' c = content h c) /\ objs h' = objs h.
Proof. exact c07_set_zero. Qed.
Theorem C07_set_segment : forall h v i n x, reachable h -> (v < length (objs h))%nat -> exists l, value h v = Ok l /\
  (~ (0 <= i /\ i + n <= Z.of_nat (length l) /\ Z.of_nat (length x) = n) -> vsetS h v i n x = Throw) /\
  (0 <= i /\ i + n <= Z.of_nat (length l) /\ Z.of_nat (length x) = n ->
   exists h' l', vsetS h v i n x = Ok h' /\ objs h' = objs h /\ value h' v = Ok l' /\ length l' = length l /\
    (forall k, nth_error l' k = if (Nat.leb (Z.to_nat i) k && Nat.ltb k (Z.to_nat i + length x))%bool
                                then nth_error x (k - Z.to_nat i) else nth_error l k) /\
    (forall c, 0 <= snd c -> ~ cell h v c -> content h' c = content h c)).
Proof. exact c07_setS. Qed.
Theorem C07_set_index : forall h v i x, vsetI h v i x = vsetS h v i 1 [x].
Proof. exact c07_setI. Qed.
(* The values read through a variable are the contents of its cells. *)
Theorem C07_value_cells : forall h v o, reachable h -> nth_error (objs h) v = Some o ->
  exists l, value h v = Ok l /\ length l = Z.to_nat (v_size o) /\
   forall k, (k < length l)%nat -> nth_error l k = content h (v_block o, v_off o + Z.of_nat k).
Proof. exact value_content. Qed.
Theorem C07_sub_keeps_values : forall h v s sh a h' u o, nth_error (objs h) v = Some o -> v_dn o = O ->
  subvariable h v s sh a = Ok (h', u) -> mem h' = mem h.
Proof. exact c07_sub_mem. Qed.

(* Space R^6 and slices used below. *)
Definition R (n : Z) := mkSpace n n n Euclidean.
Lemma api_R n : 0 <= n -> api (R n).
Proof. intros H. apply (apiT Euclidean n); auto. Qed.

(* Taking a sub-variable of a derivative erases the values of that slice: x = R^6,
   dx = dot(x) set to 1..6, then dx->subvariable(R^2, shift R^1) makes dx = 1 0 0 4 5 6. *)
Theorem C07_sub_of_derivative_keeps_values_refuted :
  exists h v s sh h' u, reachable h /\ (v < length (objs h))%nat /\ api s /\ api sh /\
    subvariable h v s sh true = Ok (h', u) /\ value h v = Ok [1;2;3;4;5;6] /\ value h' v = Ok [1;0;0;4;5;6].
Proof.
  destruct (vrun empty_heap [VNew (R 6); VDot 0 1 true; VSet 1 [1;2;3;4;5;6]]) as [h| |] eqn:E; try discriminate.
  assert (Rh : reachable h).
  { vm_compute in E. injection E as <-.
    eapply (r_step _ (VSet 1 [1;2;3;4;5;6])); [eapply (r_step _ (VDot 0 1 true)); [eapply (r_step _ (VNew (R 6))); [apply r_init| |]| |]| |];
      try reflexivity; simpl; try lia. apply api_R; lia. }
  vm_compute in E. injection E as <-.
  eexists _, 1%nat, (R 2), (R 1), _, _. split; [exact Rh|]. split; [simpl; lia|]. split; [apply api_R; lia|].
  split; [apply api_R; lia|]. split; [vm_compute; reflexivity|]. split; reflexivity.
Qed.

(* The automatic name of a sub-variable of a sub-variable: x[2:5] then [1:2] of it is
   labelled x[1:2] while it denotes x[3:4]. *)
Theorem C07_automatic_name_refuted :
  exists h v s sh h' u o r, reachable h /\ (v < length (objs h))%nat /\ api s /\ api sh /\
    subvariable h v s sh true = Ok (h', u) /\ nth_error (objs h') u = Some o /\
    subvariableRange h' u = Ok r /\ v_label o = Some (1, 2) /\ (start r, rend r - 1) = (3, 4).
Proof.
  destruct (vrun empty_heap [VNew (R 6); VSub 0 (R 4) (R 2) true]) as [h| |] eqn:E; try discriminate.
  assert (Rh : reachable h).
  { vm_compute in E. injection E as <-.
    eapply (r_step _ (VSub 0 (R 4) (R 2) true)); [eapply (r_step _ (VNew (R 6))); [apply r_init| |]| |];
      try reflexivity; simpl; try lia. apply api_R; lia. repeat split; try lia; apply api_R; lia. }
  vm_compute in E. injection E as <-.
  eexists _, 1%nat, (R 2), (R 1), _, _, _, _. split; [exact Rh|]. split; [simpl; lia|]. split; [apply api_R; lia|].
  split; [apply api_R; lia|]. split; [vm_compute; reflexivity|]. split; [reflexivity|]. split; [reflexivity|]. split; reflexivity.
Qed.

(* Non-vacuity: a chain of mixed sub-variables and derivations on SE3 x R^4. *)
Definition se3 := mkSpace 6 7 6 SE3.
Definition sp := mkSpace 10 11 10 Unspecified.
Example C07_chain_example :
  let c := [CSub (R 4) se3 true; CDot true; CSub (R 2) (R 1) true; CDot false] in
  api sp /\ Forall valid_cop c /\ chain_slice c (O, sp, 0, 0) = Some (2%nat, R 2, 8, 7) /\
  exists h' v w, chain (fst (newVar empty_heap sp)) 0 c = Ok (h', v) /\ superOf h' v = Ok w /\
     subvariableRange h' v = Ok (mkRange 7 2) /\ dot h' 0 2 true = Ok (h', w).
Proof.
  cbv zeta. assert (A : api se3) by (apply (apiT SE3 (-1)); [reflexivity|discriminate]).
  split; [|split; [|split]].
  - apply (apiM se3 (R 4)); auto. apply api_R; lia.
  - repeat constructor; auto; apply api_R; lia.
  - reflexivity.
  - vm_compute. eexists _, _, _. repeat split.
Qed.
(* the first slice that does not fit throws *)
Example C07_chain_throw : chain (fst (newVar empty_heap sp)) 0 [CSub (R 4) se3 true; CSub (R 4) (R 1) true] = Throw.
Proof. reflexivity. Qed.

Print Assumptions C07_calls_defined.
Print Assumptions C07_dot_defined.
Print Assumptions C07_chain.
Print Assumptions C07_contains.
Print Assumptions C07_intersects.
Print Assumptions C07_equality.
Print Assumptions C07_dot_sub_commute.
Print Assumptions C07_tangent_range.
Print Assumptions C07_set.
Print Assumptions C07_set_size.
Print Assumptions C07_set_zero.
Print Assumptions C07_set_segment.
Print Assumptions C07_set_index.
Print Assumptions C07_value_cells.
Print Assumptions C07_sub_keeps_values.
Print Assumptions C07_sub_of_derivative_keeps_values_refuted.
Print Assumptions C07_automatic_name_refuted.
