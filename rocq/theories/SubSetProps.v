(* Properties of a set of substitutions (C54). *)
From Coq Require Import List Bool Arith QArith.
Import ListNotations.
From Verif Require Import Base QSum SubstModel SubSetModel SubSetSpec SubSetProofs SubSetProofs6 SubSetExamples.
From Verif Require SubstSpec.
Local Open Scope nat_scope.

(* The constructor of Substitution succeeds exactly for the acceptable arguments. *)
Theorem C54_constructed : forall sz cdef cs xs r s,
  newSub sz cdef cs xs r = Ok s <-> s = mkSS cs xs (full cdef cs r) /\ acceptable sz cdef s.
Proof. exact newSub_ok. Qed.
Print Assumptions C54_constructed.
Example ex_constructed : newSub sz1 cdef1 [2] [2] None = Ok (mkSS [2] [2] 1) /\ newSub sz1 cdef1 [5] [0] None = Throw /\ newSub sz1 cdef1 [] [] None = UB /\
  newSub sz1 cdef1 [2] [2; 3] (Some 2) = UB.
Proof. vm_compute. auto. Qed.

(* After any history of additions, removals, finalizations and updates, exceptions being caught, the
   set holds the substitutions added and not removed, and finds the one using a constraint. *)
Theorem C54_present : forall sz cdef hist l t, present sz cdef hist l -> run sz cdef hist init = Some t ->
  subs t = l /\ (forall c, uses t c = true <-> exists s, In s l /\ In c (ss_cs s)) /\
  (forall c, match getSubstitutionFor t c with Some s => In s l /\ In c (ss_cs s) | None => forall s, In s l -> ~ In c (ss_cs s) end).
Proof. exact main_present. Qed.
Print Assumptions C54_present.
Example ex_present : present sz1 cdef1 hist1 l1 /\ run sz1 cdef1 hist1 init = Some t0_1 /\ length l1 = 6 /\ map (uses t0_1) [2; 6] = [true; false].
Proof. split; [exact present1|]. split; [exact run1|]. vm_compute. auto. Qed.

(* If no variable and no constraint is used twice, finalize succeeds. *)
Theorem C54_finalizes : forall sz cdef hist l mm t0, present sz cdef hist l -> run sz cdef hist init = Some t0 -> separate l ->
  exists t1, finalize sz cdef mm t0 = Done t1.
Proof. exact main_finalizes. Qed.
Print Assumptions C54_finalizes.
Example ex_finalizes : separate l1.
Proof. split; apply SubSetProofs.nodupb_NoDup; vm_compute; reflexivity. Qed.

(* variables(): the substituted variables, once each. *)
Theorem C54_variables : forall sz cdef hist l mm t1 ups t, present sz cdef hist l -> finalized sz cdef hist mm t1 -> updates sz cdef ups t1 = Ok t ->
  NoDup (vars t) /\ forall v, In v (vars t) <-> exists s, In s l /\ In v (ss_xs s).
Proof. exact main_variables. Qed.
Print Assumptions C54_variables.
Example ex_variables : finalized sz1 cdef1 hist1 mm0 t1_1 /\ updates sz1 cdef1 ([D0] ++ [D1]) t1_1 = Ok t_1 /\ vars t_1 = [2; 1; 0; 4; 5; 7].
Proof. split; [exact finalized1|]. split; [exact updated1|]. vm_compute. reflexivity. Qed.

(* otherVariables(): the variables of the constraints that are not substituted, once each. *)
Theorem C54_others : forall sz cdef hist l mm t1 ups t, present sz cdef hist l -> finalized sz cdef hist mm t1 -> updates sz cdef ups t1 = Ok t ->
  NoDup (others t) /\
  forall v, In v (others t) <-> (exists s c, In s l /\ In c (ss_cs s) /\ In v (c_vars (k_cst (cdef c)))) /\ ~ exists s, In s l /\ In v (ss_xs s).
Proof. exact main_others. Qed.
Print Assumptions C54_others.
Example ex_others : others t_1 = [3; 6].
Proof. vm_compute. reflexivity. Qed.

(* The values satisfy the constraints of all the substitutions if and only if, for some values of the
   nullspace variables, each substituted variable has the value of its function and the additional
   constraints hold.
   Missing from the full statement: that finalize and the updates succeed, and that the calculators
   can fulfil their contract; refuted below. *)
Theorem C54_elimination_partial : forall sz cdef hist l mm t1 ups t,
  present sz cdef hist l -> finalized sz cdef hist mm t1 -> updates sz cdef ups t1 = Ok t ->
  (forall c, NoDup (c_vars (k_cst (cdef c)))) -> forall ups' D val, ups = ups' ++ [D] -> contracted sz cdef D t ->
  (all_hold sz cdef D val l <->
   exists zv, (forall v f, In (v, f) (combine (vars t) (functions sz cdef t)) -> forall b, b < sz v -> (val v b == f val zv b)%Q) /\
              (forall n g, In (n, g) (additionalConstraints sz cdef t) -> forall a, a < n -> (g val zv a == 0)%Q)).
Proof. exact main_elimination. Qed.
Print Assumptions C54_elimination_partial.
Example ex_elimination : contracted sz1 cdef1 D1 t_1 /\ (forall c, NoDup (c_vars (k_cst (cdef1 c)))) /\
  map (fun p => map (fun b => Qred (snd p (fun _ _ => 1%Q) (fun _ _ _ => 5%Q) b)) (seq 0 (sz1 (fst p)))) (combine (vars t_1) (functions sz1 cdef1 t_1)) =
    [[29; 5]; [-200]; [407]; [38]; [0]; [182]]%Q /\
  map (fun p => map (fun b => Qred (snd p (fun _ _ => 1%Q) (fun _ _ _ => 5%Q) b)) (seq 0 (fst p))) (additionalConstraints sz1 cdef1 t_1) = [[(-59)%Q]].
Proof. split; [exact contracted1|]. split; [exact distinct1|]. split; vm_compute; reflexivity. Qed.

(* updateVariableValues changes the substituted variables only; if the additional constraints hold,
   the constraints of all the substitutions hold afterwards; and all the solutions are obtained. *)
Theorem C54_values_partial : forall sz cdef hist l mm t1 ups t,
  present sz cdef hist l -> finalized sz cdef hist mm t1 -> updates sz cdef ups t1 = Ok t ->
  (forall c, NoDup (c_vars (k_cst (cdef c)))) -> forall ups' D, ups = ups' ++ [D] -> contracted sz cdef D t ->
  (forall zv val v, ~ In v (vars t) -> updateVariableValues sz cdef t zv val v = val v) /\
  (forall zv val, (forall n g, In (n, g) (additionalConstraints sz cdef t) -> forall a, a < n -> (g val zv a == 0)%Q) ->
     all_hold sz cdef D (updateVariableValues sz cdef t zv val) l) /\
  (forall val, all_hold sz cdef D val l -> exists zv,
     (forall n g, In (n, g) (additionalConstraints sz cdef t) -> forall a, a < n -> (g val zv a == 0)%Q) /\
     forall v b, b < sz v -> (updateVariableValues sz cdef t zv val v b == val v b)%Q).
Proof. exact main_values. Qed.
Print Assumptions C54_values_partial.
Example ex_values : let val' := updateVariableValues sz1 cdef1 t_1 (fun _ _ _ => 5%Q) (fun v _ => if v =? 6 then 60%Q else 1%Q) in
  map (fun v => Qred (val' v 0)) (seq 0 8) = [407; -200; 29; 1; -80; 0; 60; 5]%Q /\
  map (fun p => map (fun b => Qred (snd p (fun _ _ => 60%Q) (fun _ _ _ => 5%Q) b)) (seq 0 (fst p))) (additionalConstraints sz1 cdef1 t_1) = [[0%Q]].
Proof. split; vm_compute; reflexivity. Qed.

(* substitute: a variable that is not substituted is itself; the others are replaced by variables
   that are not substituted and nullspace variables, on which their function depends, and on nothing else. *)
Theorem C54_substitute : forall sz cdef hist l mm t1 ups t, present sz cdef hist l -> finalized sz cdef hist mm t1 -> updates sz cdef ups t1 = Ok t ->
  (forall v, ~ In v (vars t) -> substitute sz cdef t v = [SV v]) /\
  (forall v w, In v (vars t) -> In (SV w) (substitute sz cdef t v) -> In w (others t)) /\
  (forall v z, In v (vars t) -> In (SZ z) (substitute sz cdef t v) -> In z (addVars t)) /\
  (forall v f, In (v, f) (combine (vars t) (functions sz cdef t)) -> forall val val' zv zv',
    (forall w, In (SV w) (substitute sz cdef t v) -> forall b, b < sz w -> (val w b == val' w b)%Q) ->
    (forall z, In (SZ z) (substitute sz cdef t v) -> forall b, b < z_size z -> (zv (z_unit z) (z_idx z) b == zv' (z_unit z) (z_idx z) b)%Q) ->
    forall b, (f val zv b == f val' zv' b)%Q).
Proof. exact main_substitute. Qed.
Print Assumptions C54_substitute.
Example ex_substitute : map (substitute sz1 cdef1 t_1) [0; 3; 4; 7] =
  [[SV 3; SZ (mkZv 1 0 0 1)]; [SV 3]; [SV 6]; [SV 6; SZ (mkZv 1 2 0 1)]].
Proof. vm_compute. reflexivity. Qed.

(* additionalVariables(): after the first finalization, the nullspace variables of the functions, once each. *)
Theorem C54_additional : forall sz cdef hist l mm t1 ups t, present sz cdef hist l -> finalized sz cdef hist mm t1 -> updates sz cdef ups t1 = Ok t ->
  (forall mm', ~ In (OFinalize mm') hist) -> NoDup (addVars t) /\
  forall z, In z (addVars t) <-> exists v, In v (vars t) /\ In (SZ z) (substitute sz cdef t v).
Proof. exact main_additional. Qed.
Print Assumptions C54_additional.
Example ex_additional : (forall mm', ~ In (OFinalize mm') hist1) /\ addVars t_1 = [mkZv 1 0 0 1; mkZv 1 2 0 1].
Proof.
  split; [|vm_compute; reflexivity]. intros mm' I. unfold hist1 in I. repeat (destruct I as [I|I]; [discriminate|]). destruct I.
Qed.

(* It is not after the next ones: the variables of the previous ones stay. *)
Theorem C54_additional_refuted : exists sz cdef hist l mm t1 z, present sz cdef hist l /\ finalized sz cdef hist mm t1 /\ In z (addVars t1) /\
  forall v, In v (vars t1) -> ~ In (SZ z) (substitute sz cdef t1 v).
Proof. exact stale_additional. Qed.
Print Assumptions C54_additional_refuted.
(* Two substitutions of a same variable: finalize throws. *)
Theorem C54_shared_variable_refuted : exists sz cdef hist s s' v t0 mm t1, present sz cdef hist [s; s'] /\ run sz cdef hist init = Some t0 /\
  In v (ss_xs s) /\ In v (ss_xs s') /\ finalize sz cdef mm t0 = Threw t1.
Proof. exact shared_variable. Qed.
Print Assumptions C54_shared_variable_refuted.
(* Two substitutions of distinct variables by a same constraint: an assert is violated. *)
Theorem C54_shared_constraint_refuted : exists sz cdef hist s s' c t0 mm, present sz cdef hist [s; s'] /\ run sz cdef hist init = Some t0 /\
  In c (ss_cs s) /\ In c (ss_cs s') /\ NoDup (ss_xs s ++ ss_xs s') /\ finalize sz cdef mm t0 = Undef.
Proof. exact shared_constraint. Qed.
Print Assumptions C54_shared_constraint_refuted.
(* A call of finalize that throws drops the units and keeps the variables: the functions are not
   updated anymore. *)
Theorem C54_atomic_refuted : exists sz cdef hist l t0 mm t1, present sz cdef hist l /\ run sz cdef hist init = Some t0 /\ finalize sz cdef mm t0 = Threw t1 /\
  units t0 <> [] /\ units t1 = [] /\ vars t1 = vars t0 /\ vars t1 <> [] /\ forall D, updateSubstitutions sz cdef D t1 = Ok t1.
Proof. exact not_atomic. Qed.
Print Assumptions C54_atomic_refuted.
(* Substitutions whose ranks are correct, grouped with a rank for which no calculator fulfils its contract. *)
Theorem C54_group_rank_refuted : exists sz cdef hist l mm t1 D, present sz cdef hist l /\ separate l /\ finalized sz cdef hist mm t1 /\
  (forall s, In s l -> exists K, SubstSpec.contract (list_sum (map (fun c => c_size (k_cst (cdef c))) (ss_cs s))) (list_sum (map sz (ss_xs s))) (ss_rank s)
     (fillA sz (fun i v => match nth_error (ss_cs s) i with Some c => d_jac D c v | None => fun _ _ => 0%Q end) (toSub cdef s)) K) /\
  forall cal, ~ contracted sz cdef (mkD (d_jac D) (d_e D) cal) t1.
Proof. exact group_rank. Qed.
Print Assumptions C54_group_rank_refuted.
(* A set finalized without exception whose update is undefined. *)
Theorem C54_update_refuted : exists sz cdef hist l mm t1 D, present sz cdef hist l /\ separate l /\ finalized sz cdef hist mm t1 /\ updates sz cdef [D] t1 = UB.
Proof. exact update_undefined. Qed.
Print Assumptions C54_update_refuted.
