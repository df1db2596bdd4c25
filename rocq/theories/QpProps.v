(* C53: what the least-square solvers hand to the numerical solvers. *)
Require Import QArith Qminmax Qabs List Arith Bool Lia Lqa.
Require Import Verif.Base Verif.QSum Verif.AssignModel Verif.AssignSpec Verif.BoundModel Verif.BoundSpec
  Verif.QpModel Verif.QpSpec Verif.QpProofs6 Verif.QpProofs7 Verif.QpExamples.
Import ListNotations.
Local Open Scope Q_scope.

(* The hypotheses of the theorems below hold for P0 (a constraint, an objective, a bound), with each
   solver, with the asserts compiled. *)
Example C53_case : forall sv chol, wf idf P0 /\ wf_data one P0 V0 /\
  exists s, reached true idf 100 one sv (opt chol 0) [] P0 [(V0, none)] s.
Proof. intros sv chol. split; [exact wf_P0|]. split; [exact wf_V0|]. apply reached_P0. Qed.
Example C53_point : in_range one P0 V0 SLSSOL 100 10 (fun j => if Nat.eqb j 0 then 2 else 1) /\
  user_feasible one P0 V0 (fun j => if Nat.eqb j 0 then 2 else 1) /\
  user_error idf one P0 V0 (fun j => if Nat.eqb j 0 then 2 else 1) == 64.
Proof.
  split; [exact range0|]. split; [|vm_compute; reflexivity]. split.
  - intros c U [E|[]]. injection E as <- <-. intros [|i] L; [vm_compute; discriminate|simpl in L; lia].
  - intros y b U k [E|[]] K. injection E as <- <- <-. destruct k; [vm_compute; split; discriminate|unfold one in K; lia].
Qed.
(* the cost that QLD gets for P0: 32 z0^2 - 192 z0 *)
Example C53_handed :
  match (do s <- build true idf 100 one SQLD (opt false 0) P0 fresh; solve one SQLD (opt false 0) (p_vars P0) V0 zeroM zeroM zeroM s) with
  | Ok (HQLD false n _ _ H c _ _ _ _, _) => (n, map Qred [H 0%nat 0%nat; H 0%nat 1%nat; H 1%nat 1%nat; c 0%nat; c 1%nat]) = (2%nat, [64; 0; 0; -(192); 0])
  | _ => False end.
Proof. vm_compute. reflexivity. Qed.

(* At each resolution, after any history, the constraints and bounds handed are those of the user. *)
Theorem C53_feasible : forall debug sqrtf abig v_size sv o hist P l V R Ri J s h s' z,
  wf sqrtf P -> Forall (fun a => wf_data v_size P (fst a)) l -> wf_data v_size P V -> clean_start sv hist ->
  reached debug sqrtf abig v_size sv o hist P l s -> solve v_size sv o (p_vars P) V R Ri J s = Ok (h, s') ->
  in_range v_size P V sv abig (o_big o) z ->
  (feasible h z <-> user_feasible v_size P V z).
Proof. exact main_feasible. Qed.
Print Assumptions C53_feasible.

(* The cost handed is, up to a constant, half the sum of the squares of the weighted errors, plus the
   regularization term of the options. The results R and Ri of the QR decomposition and of the
   triangular inverse are assumed to be right. *)
Theorem C53_cost : forall debug sqrtf abig v_size sv o hist P l V R Ri J s h s',
  wf sqrtf P -> Forall (fun a => wf_data v_size P (fst a)) l -> wf_data v_size P V -> clean_start sv hist ->
  reached debug sqrtf abig v_size sv o hist P l s -> solve v_size sv o (p_vars P) V R Ri J s = Ok (h, s') ->
  p_minNorm P = false ->
  let n := total v_size (p_vars P) in let nObj := countObj (p_objs P) in
  (o_chol o = true -> factor_of (rowsD sv o n nObj) n (mA (s_D (assigned v_size sv o (p_vars P) V s))) R /\
                      (sv = SQuadprog -> inverse_of n R Ri)) ->
  exists k, forall z v, cost h z v <->
    v == (1 # 2) * (user_error sqrtf v_size P V z + regularization sv o n nObj * sumsq n z) - k.
Proof. exact main_cost. Qed.
Print Assumptions C53_cost.

(* When the minimum norm is asked the cost is half the square of the norm. *)
Theorem C53_min_norm : forall debug sqrtf abig v_size sv o hist P l V R Ri J s h s',
  wf sqrtf P -> Forall (fun a => wf_data v_size P (fst a)) l -> wf_data v_size P V -> clean_start sv hist ->
  reached debug sqrtf abig v_size sv o hist P l s -> solve v_size sv o (p_vars P) V R Ri J s = Ok (h, s') ->
  p_minNorm P = true ->
  forall z v, cost h z v <-> v == (1 # 2) * sumsq (total v_size (p_vars P)) z.
Proof. exact main_min. Qed.
Print Assumptions C53_min_norm.

(* The solutions of the problem handed are those of the user's problem with the regularization. *)
Theorem C53_solution : forall debug sqrtf abig v_size sv o hist P l V R Ri J s h s',
  wf sqrtf P -> Forall (fun a => wf_data v_size P (fst a)) l -> wf_data v_size P V -> clean_start sv hist ->
  reached debug sqrtf abig v_size sv o hist P l s -> solve v_size sv o (p_vars P) V R Ri J s = Ok (h, s') ->
  p_minNorm P = false ->
  let n := total v_size (p_vars P) in let nObj := countObj (p_objs P) in
  (o_chol o = true -> factor_of (rowsD sv o n nObj) n (mA (s_D (assigned v_size sv o (p_vars P) V s))) R /\
                      (sv = SQuadprog -> inverse_of n R Ri)) ->
  forall z, minimizer (fun z => feasible h z /\ in_range v_size P V sv abig (o_big o) z) (cost h) z <->
            minimizer (fun z => user_feasible v_size P V z /\ in_range v_size P V sv abig (o_big o) z)
                      (fun z v => v == user_error sqrtf v_size P V z + regularization sv o n nObj * sumsq n z) z.
Proof. exact main_solution. Qed.
Print Assumptions C53_solution.

(* A resolution gives valid data to the numerical solver except in one case: minimum norm with the
   option cholesky, for QLD and Quadprog. *)
Theorem C53_solvable : forall debug sqrtf abig v_size sv o hist P l V R Ri J s,
  wf sqrtf P -> Forall (fun a => wf_data v_size P (fst a)) l -> wf_data v_size P V -> clean_start sv hist ->
  reached debug sqrtf abig v_size sv o hist P l s ->
  ((exists h s', solve v_size sv o (p_vars P) V R Ri J s = Ok (h, s')) <->
   ~ ((sv = SQLD \/ sv = SQuadprog) /\ o_chol o = true /\ p_minNorm P = true)).
Proof. exact main_solvable. Qed.
Print Assumptions C53_solvable.

(* The asserts of finalizeBuild hold for a problem with objectives, and fail for the minimum norm. *)
Theorem C53_asserts : forall sqrtf abig v_size sv o P s0,
  (p_minNorm P = false -> build true sqrtf abig v_size sv o P s0 = build false sqrtf abig v_size sv o P s0) /\
  (p_minNorm P = true -> p_objs P = [] -> (0 < total v_size (p_vars P))%nat ->
   forall s, build true sqrtf abig v_size sv o P s0 <> Ok s).
Proof. intros. split; [apply asserts_ok|apply asserts_min]. Qed.
Print Assumptions C53_asserts.

(* ---- what is false ---- *)
(* Minimum norm with the option cholesky: Q_ is handed without having been sized. *)
Theorem C53_min_norm_cholesky_refuted : exists sqrtf abig v_size sv o P V s,
  wf sqrtf P /\ wf_data v_size P V /\ reached false sqrtf abig v_size sv o [] P [] s /\
  forall R Ri J h s', solve v_size sv o (p_vars P) V R Ri J s <> Ok (h, s').
Proof. exact min_norm_cholesky. Qed.
Print Assumptions C53_min_norm_cholesky_refuted.

(* Minimum norm in a debug build: an assert fails, while the build without asserts succeeds. *)
Theorem C53_min_norm_assert_refuted : exists sqrtf abig v_size sv o P, wf sqrtf P /\
  (exists s, build false sqrtf abig v_size sv o P fresh = Ok s) /\ forall s, build true sqrtf abig v_size sv o P fresh <> Ok s.
Proof. exact min_norm_assert. Qed.
Print Assumptions C53_min_norm_assert_refuted.

(* LexLS: a problem built after one for the minimum norm, with the same object, is not solved. *)
Theorem C53_lexls_rebuild_refuted : exists sqrtf abig v_size o hist P V s h s' z,
  wf sqrtf P /\ wf_data v_size P V /\ reached false sqrtf abig v_size SLexLS o hist P [] s /\
  solve v_size SLexLS o (p_vars P) V zeroM zeroM zeroM s = Ok (h, s') /\
  minimizer (fun z => feasible h z /\ in_range v_size P V SLexLS abig (o_big o) z) (cost h) z /\
  ~ minimizer (fun z => user_feasible v_size P V z /\ in_range v_size P V SLexLS abig (o_big o) z)
              (fun z v => v == user_error sqrtf v_size P V z) z.
Proof. exact lexls_rebuild. Qed.
Print Assumptions C53_lexls_rebuild_refuted.

(* With the regularization of Quadprog, a solution of the user's problem is not one of the problem handed. *)
Theorem C53_regularized_refuted : exists sqrtf abig v_size o P V s h s' z,
  wf sqrtf P /\ wf_data v_size P V /\ reached true sqrtf abig v_size SQuadprog o [] P [] s /\
  solve v_size SQuadprog o (p_vars P) V zeroM zeroM zeroM s = Ok (h, s') /\
  minimizer (fun z => user_feasible v_size P V z /\ in_range v_size P V SQuadprog abig (o_big o) z)
            (fun z v => v == user_error sqrtf v_size P V z) z /\
  ~ minimizer (fun z => feasible h z /\ in_range v_size P V SQuadprog abig (o_big o) z) (cost h) z.
Proof. exact regularized. Qed.
Print Assumptions C53_regularized_refuted.
