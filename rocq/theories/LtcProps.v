(* C41: linearized task constraints *)
From Coq Require Import ZArith List Bool QArith Lia Lqa.
From Verif Require Import Base RangeModel SpaceModel SpaceProps VariableModel VariableSpec VariableProofs VariableProofs2 VariableProps MapVarModel MapVarSpec MapVarProofs MapVarProps QSum LtcModel LtcSpec LtcProofs.
Import ListNotations.
Local Open Scope nat_scope.

(* The derivatives of the variables of a function always exist or are created. *)
Theorem C41_derive : forall o vs h, reachable h -> Forall (fun v => v < length (objs h)) vs ->
  exists h' ds, derive h o vs = Ok (h', ds) /\ reachable h' /\ Forall2 (derivative h' o) vs ds.
Proof. intros o vs h R F. destruct (derive_ok o vs h R F) as (h' & ds & A & B & _ & D & _). eauto. Qed.
Print Assumptions C41_derive.

(* One-sided tasks, any order and any dynamics: the constraint holds at a point if and only if the
   derivative of the function is in the relation with the value of the task dynamics. *)
Theorem C41_constraint : forall h f t td rhs v h' ds, reachable h -> goodFunc h f -> f_eu f = true -> t <> DOUBLE_SIDED ->
  t_impl td f t rhs = Ok v -> length v = f_n f -> derive h (t_order td) (f_vars f) = Ok (h', ds) -> disjointVars h' ds ->
  (t_order td = Zero -> Forall (fun v => f_lin f v = true /\ flat h v) (f_vars f)) ->
  exists k c, newTask f t td rhs = Ok k /\ newLtc h k = Ok (h', c) /\ c_vars c = ds /\
    forall env, sized h' env -> (satisfied h' c env <-> forall i, i < f_n f -> related t (chainRule f env ds i + drift f (t_order td) i) (nth i v 0%Q)).
Proof.
  intros h f t td rhs v h' ds R G Eu Ht Ei Lv D Dj Lin. exists (mkTask f t (t_order td) v None).
  destruct (main h f (mkTask f t (t_order td) v None) h' ds eq_refl R G D Dj Lin Lv Ht) as (c & E & Ec & H). exists c.
  split; [unfold newTask; rewrite Ei, Eu; destruct t; [reflexivity|reflexivity|reflexivity|congruence]|]. split; [exact E|]. split; [exact Ec|]. intros env Sz. specialize (H env Sz). simpl in H.
  destruct t; [exact H|exact H|exact H|congruence].
Qed.
Print Assumptions C41_constraint.

(* Double-sided tasks impose both sides. *)
Theorem C41_double_sided : forall h f td l u v w h' ds, reachable h -> goodFunc h f -> f_eu f = true ->
  t_impl td f GREATER_THAN l = Ok v -> t_impl td f LOWER_THAN u = Ok w -> length v = f_n f -> length w = f_n f ->
  derive h (t_order td) (f_vars f) = Ok (h', ds) -> disjointVars h' ds ->
  (t_order td = Zero -> Forall (fun v => f_lin f v = true /\ flat h v) (f_vars f)) ->
  exists k c, newTask2 f DOUBLE_SIDED td l u = Ok k /\ newLtc h k = Ok (h', c) /\ c_vars c = ds /\
    forall env, sized h' env -> (satisfied h' c env <-> forall i, i < f_n f ->
      (nth i v 0 <= chainRule f env ds i + drift f (t_order td) i)%Q /\ (chainRule f env ds i + drift f (t_order td) i <= nth i w 0)%Q).
Proof.
  intros h f td l u v w h' ds R G Eu Ev Ew Lv Lw D Dj Lin. exists (mkTask f DOUBLE_SIDED (t_order td) v (Some w)).
  destruct (main h f (mkTask f DOUBLE_SIDED (t_order td) v (Some w)) h' ds eq_refl R G D Dj Lin Lv Lw) as (c & E & Ec & H). exists c.
  split; [unfold newTask2; rewrite Ev, Ew, Eu; reflexivity|]. split; [exact E|]. split; [exact Ec|]. intros env Sz. specialize (H env Sz). simpl in H. rewrite H. split; intros K i Hi; specialize (K i Hi).
  - destruct K as (w' & [= <-] & K). exact K.
  - exists w. split; [reflexivity|exact K].
Qed.
Print Assumptions C41_double_sided.

(* No task mixes the two cases, and no task has a function in a non-Euclidean space. *)
Theorem C41_types : forall f t td rhs l u k, (newTask f t td rhs = Ok k -> t <> DOUBLE_SIDED /\ f_eu f = true) /\ (newTask2 f t td l u = Ok k -> t = DOUBLE_SIDED /\ f_eu f = true).
Proof.
  intros f t td rhs l u k. unfold newTask, newTask2. split.
  - destruct (t_impl td f t rhs); simpl; [|discriminate|discriminate]. destruct t; destruct (f_eu f); simpl; intros; try discriminate; split; congruence.
  - destruct (t_impl td f GREATER_THAN l); simpl; [|discriminate|discriminate]. destruct (t_impl td f LOWER_THAN u); simpl; [|discriminate|discriminate].
    destruct t; destruct (f_eu f); simpl; intros; try discriminate; split; congruence.
Qed.
Print Assumptions C41_types.

(* Order zero is refused for a function not linear in one of its variables; nothing is undefined in
   the construction. *)
Theorem C41_nonlinear : forall h k, reachable h -> Forall (fun v => v < length (objs h)) (f_vars (k_f k)) ->
  (k_order k = Zero -> (exists v, In v (f_vars (k_f k)) /\ f_lin (k_f k) v = false) -> newLtc h k = Throw) /\ newLtc h k <> UB.
Proof.
  intros h k R F. unfold newLtc. split.
  - intros -> N. rewrite addVars_nonlin; auto.
  - pose proof (addVars_noUB (k_order k) (f_lin (k_f k)) (f_vars (k_f k)) h [] R F (Forall_nil _)) as H. destruct (addVars _ _ _ _ _) as [[h' l]| |]; simpl; [discriminate|discriminate|destruct H].
Qed.
Print Assumptions C41_nonlinear.

(* The jacobian with respect to the derivative of any variable p - a variable of the function or a
   sub-variable of one - is the jacobian of the function with respect to p (see C43 for it). *)
Theorem C41_jacobian : forall h c p d, reachable h -> p < length (objs h) -> derivative h (c_order c) p d -> ltcJacobian h c d = jacobian h (f_J (c_f c)) p.
Proof. exact jac_deriv. Qed.
Print Assumptions C41_jacobian.

(* x in R^2 (variable 0) and y in R^1 (1); f of size 2 *)
Definition h2 := match vrun empty_heap [VNew (R 2); VNew (R 1)] with Ok h => h | _ => empty_heap end.
Lemma h2_reach : reachable h2.
Proof.
  eapply (r_step _ (VNew (R 1))); [eapply (r_step _ (VNew (R 2))); [apply r_init| |]| |]; try (vm_compute; reflexivity); simpl; apply api_R; lia.
Qed.
Definition f2 := mkF 2 true [0; 1] [(0, [[1; 0]; [2; 1]]%Q); (1, [[3; 4]]%Q)] (fun _ => true) (Some [1; 1]%Q) [5; 6]%Q.
Lemma f2_good : goodFunc h2 f2.
Proof.
  split; [repeat constructor|]. split; [reflexivity|]. split; [repeat constructor; simpl; intuition discriminate|]. split; [|reflexivity].
  intros x J [[= <- <-]|[[= <- <-]|[]]]; exists 0%Z; eexists; (split; [vm_compute; reflexivity|]); split; reflexivity.
Qed.
Definition td2 := mkTD Two (fun _ _ rhs => Ok rhs).
Definition vals (l : list (nat * list Q)) (v : nat) : list Q := match MapVarModel.find l v with Some x => x | None => [] end.
Example ltc_ex : exists h' k c, derive h2 Two (f_vars f2) = Ok (h', [3; 5]) /\ disjointVars h' [3; 5] /\ newTask f2 LOWER_THAN td2 [20; 20]%Q = Ok k /\ newLtc h2 k = Ok (h', c) /\
  ltcU c = Ok (Some [20 - 5; 20 - 6]%Q) /\ ltcValue h' c (vals [(3, [1; 2]%Q); (5, [3]%Q)]) 0 = Ok (1 * 1 + (2 * 2 + 0) + (3 * 3 + 0 + 0))%Q.
Proof.
  eexists _, _, _. split; [vm_compute; reflexivity|]. split; [|split; [reflexivity|split; [vm_compute; reflexivity|split; [reflexivity|vm_compute; reflexivity]]]].
  split; [repeat constructor|]. constructor; [|constructor; [|constructor]]; [exists (3, 0%Z)|exists (5, 0%Z)]; eexists; (split; [vm_compute; reflexivity|]); simpl; (split; [reflexivity|lia]).
Qed.

(* Order zero with None: the function itself is in the relation with the right-hand side. *)
Theorem C41_none : forall h f t rhs b h' ds, reachable h -> goodFunc h f -> f_eu f = true -> t <> DOUBLE_SIDED -> f_b f = Some b -> length b = f_n f -> length rhs = f_n f ->
  derive h Zero (f_vars f) = Ok (h', ds) -> disjointVars h' ds -> Forall (fun v => f_lin f v = true /\ flat h v) (f_vars f) ->
  exists k c, newTask f t noneTD rhs = Ok k /\ newLtc h k = Ok (h', c) /\
    forall env, sized h' env -> (satisfied h' c env <-> forall i, i < f_n f -> related t (chainRule f env (f_vars f) i + nth i b 0%Q) (nth i rhs 0%Q)).
Proof.
  intros h f t rhs b h' ds R G Eu Ht Eb Lb Lr D Dj Lin. destruct (vsubL_ok rhs b) as (v & Ev & Lv & Kv); [lia|].
  assert (Eds : ds = f_vars f). { clear -D. revert h h' ds D. induction (f_vars f) as [|x l IH]; intros h h' ds D; simpl in D; [congruence|]. destruct (derive h Zero l) as [[h1 d1]| |] eqn:E; simpl in D; try discriminate. injection D as _ <-. f_equal. eapply IH; exact E. }
  assert (Ei : t_impl noneTD f t rhs = Ok v). { simpl. unfold tdCheck. rewrite Lr, Nat.eqb_refl, Eu, Eb. exact Ev. }
  destruct (C41_constraint h f t noneTD rhs v h' ds R G Eu Ht Ei (eq_trans Lv Lr) D Dj (fun _ => Lin)) as (k & c & E1 & E2 & _ & H). exists k, c. split; [exact E1|]. split; [exact E2|].
  intros env Sz. rewrite (H env Sz). subst ds. simpl drift. split; intros K i Hi; specialize (K i Hi); specialize (Kv i ltac:(lia)); destruct t; simpl in *; try lra; congruence.
Qed.
Print Assumptions C41_none.
(* With Constant (documented as f* = rhs), the constant part of the function is ignored. *)
Theorem C41_constant_refuted : exists h f t rhs k c h' env, reachable h /\ goodFunc h f /\ newTask f t constantTD rhs = Ok k /\ newLtc h k = Ok (h', c) /\ sized h' env /\
  satisfied h' c env /\ exists b, f_b f = Some b /\ ~ (forall i, i < f_n f -> related t (chainRule f env (f_vars f) i + nth i b 0%Q) (nth i rhs 0%Q)).
Proof.
  eexists h2, f2, EQUAL, [0; 0]%Q, _, _, h2, (vals [(0, [0; 0]%Q); (1, [0]%Q)]). split; [apply h2_reach|]. split; [apply f2_good|]. split; [reflexivity|]. split; [vm_compute; reflexivity|]. split.
  - intros v o E. destruct v as [|[|v]]; [vm_compute in E; injection E as <-; reflexivity..|]. destruct v; discriminate E.
  - split.
    + intros i Hi. destruct i as [|[|i]]; [| |simpl in Hi; lia]; (eexists _, _, _, _; split; [vm_compute; reflexivity|]; split; [reflexivity|]; split; [reflexivity|]; split; [reflexivity|]; split; [exact Logic.I|]; split; [exact Logic.I|]; reflexivity).
    + exists [1; 1]%Q. split; [reflexivity|]. intros H. specialize (H 0 ltac:(simpl; lia)). vm_compute in H. discriminate.
Qed.
Print Assumptions C41_constant_refuted.

(* Without the hypothesis on the derivatives: two variables may share no entry while their derivatives
   do, for instance the seven entries of a free-flyer taken as R^7 and what follows it.  The second
   variable is then dropped without a word. *)
Definition sp1 := mkSpace 7 8 7 Unspecified.
Definition hA := match vrun empty_heap [VNew sp1; VSub 0 (R 7) (R 0) true; VSub 0 (R 1) se3 true] with Ok h => h | _ => empty_heap end.
Lemma hA_reach : reachable hA.
Proof.
  eapply (r_step _ (VSub 0 (R 1) se3 true)); [eapply (r_step _ (VSub 0 (R 7) (R 0) true)); [eapply (r_step _ (VNew sp1)); [apply r_init| |]| |]| |];
    try (vm_compute; reflexivity); simpl; try (repeat split; try lia; try apply api_se3; try apply api_R; lia).
  apply (apiM se3 (R 1)); [apply api_se3|apply api_R; lia|reflexivity].
Qed.
Definition fA := mkF 1 true [1; 2] [(1, [[0]; [0]; [0]; [0]; [0]; [0]; [0]]%Q); (2, [[1]]%Q)] (fun _ => true) None [0]%Q.
Definition td1 := mkTD One (fun _ _ rhs => Ok rhs).
Theorem C41_dropped_refuted : exists h f k c h' ds env, reachable h /\ goodFunc h f /\ disjointVars h (f_vars f) /\ newTask f EQUAL td1 [0]%Q = Ok k /\ newLtc h k = Ok (h', c) /\ derive h One (f_vars f) = Ok (h', ds) /\
  sized h' env /\ satisfied h' c env /\ ~ (forall i, i < f_n f -> related EQUAL (chainRule f env ds i) 0%Q).
Proof.
  eexists hA, fA, _, _, _, _, (vals [(0, [1; 1; 1; 1; 1; 1; 1; 1]%Q); (1, [1; 1; 1; 1; 1; 1; 1]%Q); (2, [1]%Q); (3, [1; 1; 1; 1; 1; 1; 1]%Q); (4, [1; 1; 1; 1; 1; 1; 1]%Q); (5, [1]%Q)]).
  split; [apply hA_reach|]. split; [|split; [|split; [reflexivity|split; [vm_compute; reflexivity|split; [vm_compute; reflexivity|]]]]].
  - split; [repeat constructor|]. split; [reflexivity|]. split; [repeat constructor; simpl; intuition discriminate|]. split; [|reflexivity].
    intros x J [[= <- <-]|[[= <- <-]|[]]]; [exists 0%Z|exists 6%Z]; eexists; (split; [vm_compute; reflexivity|]); split; reflexivity.
  - split; [repeat constructor|]. constructor; [|constructor; [|constructor]]; [exists (0, 0%Z)|exists (0, 7%Z)]; eexists; (split; [vm_compute; reflexivity|]); simpl; (split; [reflexivity|lia]).
  - split; [|split].
    + intros v o E. do 6 (destruct v as [|v]; [vm_compute in E; injection E as <-; reflexivity|]). destruct v; discriminate E.
    + intros i Hi. destruct i as [|i]; [|simpl in Hi; lia]. eexists _, _, _, _. split; [vm_compute; reflexivity|]. split; [reflexivity|]. split; [reflexivity|]. split; [reflexivity|]. split; [exact Logic.I|]. split; [exact Logic.I|]. reflexivity.
    + intros H. specialize (H 0 ltac:(simpl; lia)). vm_compute in H. discriminate.
Qed.
Print Assumptions C41_dropped_refuted.
