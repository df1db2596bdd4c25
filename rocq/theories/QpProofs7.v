(* The statements of QpProps.v. *)
Require Import QArith Qminmax Qabs List Arith Bool Lia Lqa.
Require Import Verif.Base Verif.QSum Verif.AssignModel Verif.AssignSpec Verif.BoundModel Verif.BoundSpec
  Verif.QpModel Verif.QpSpec Verif.QpProofs Verif.QpProofs2 Verif.QpProofs3 Verif.QpProofs4 Verif.QpProofs5 Verif.QpProofs6 Verif.QpExamples.
Import ListNotations.
Local Open Scope Q_scope.

Lemma solve_hand v_size sv o vars V R Ri J s h s' : solve v_size sv o vars V R Ri J s = Ok (h, s') ->
  hand sv o R (post sv o Ri (assigned v_size sv o vars V s)) = Ok h.
Proof. unfold solve. destruct (hand sv o R _); cbn [bind]; intros E; congruence. Qed.

Lemma main_feasible : forall debug sqrtf abig v_size sv o hist P l V R Ri J s h s' z,
  wf sqrtf P -> Forall (fun a => wf_data v_size P (fst a)) l -> wf_data v_size P V -> clean_start sv hist ->
  reached debug sqrtf abig v_size sv o hist P l s -> solve v_size sv o (p_vars P) V R Ri J s = Ok (h, s') ->
  in_range v_size P V sv abig (o_big o) z ->
  (feasible h z <-> user_feasible v_size P V z).
Proof.
  intros debug sqrtf abig v_size sv o hist P l V R Ri J s h s' z W WL WD CS RC H RG.
  destruct (reached_inv debug sqrtf abig v_size sv o P W hist l s WL CS RC) as (cs & js & I).
  apply solve_hand in H. exact (handed_feasible sqrtf abig v_size sv o P W V WD cs js R Ri s h z I RG H).
Qed.
Lemma main_cost : forall debug sqrtf abig v_size sv o hist P l V R Ri J s h s',
  wf sqrtf P -> Forall (fun a => wf_data v_size P (fst a)) l -> wf_data v_size P V -> clean_start sv hist ->
  reached debug sqrtf abig v_size sv o hist P l s -> solve v_size sv o (p_vars P) V R Ri J s = Ok (h, s') ->
  p_minNorm P = false ->
  let n := total v_size (p_vars P) in let nObj := countObj (p_objs P) in
  (o_chol o = true -> factor_of (rowsD sv o n nObj) n (mA (s_D (assigned v_size sv o (p_vars P) V s))) R /\
                      (sv = SQuadprog -> inverse_of n R Ri)) ->
  exists k, forall z v, cost h z v <->
    v == (1 # 2) * (user_error sqrtf v_size P V z + regularization sv o n nObj * sumsq n z) - k.
Proof.
  intros debug sqrtf abig v_size sv o hist P l V R Ri J s h s' W WL WD CS RC H NM n0 nO FA.
  destruct (reached_inv debug sqrtf abig v_size sv o P W hist l s WL CS RC) as (cs & js & I).
  apply solve_hand in H. assert (EN : nObj v_size P = nO) by (unfold nObj, nO; rewrite NM; reflexivity).
  exists (kappa v_size sv o P V s). rewrite <- EN.
  refine (handed_cost sqrtf abig v_size sv o P W V WD cs js R Ri s h I NM _ H).
  intros C _. rewrite EN. apply FA, C.
Qed.
Lemma main_min : forall debug sqrtf abig v_size sv o hist P l V R Ri J s h s',
  wf sqrtf P -> Forall (fun a => wf_data v_size P (fst a)) l -> wf_data v_size P V -> clean_start sv hist ->
  reached debug sqrtf abig v_size sv o hist P l s -> solve v_size sv o (p_vars P) V R Ri J s = Ok (h, s') ->
  p_minNorm P = true ->
  forall z v, cost h z v <-> v == (1 # 2) * sumsq (total v_size (p_vars P)) z.
Proof.
  intros debug sqrtf abig v_size sv o hist P l V R Ri J s h s' W WL WD CS RC H NM.
  destruct (reached_inv debug sqrtf abig v_size sv o P W hist l s WL CS RC) as (cs & js & I).
  apply solve_hand in H. exact (handed_min sqrtf abig v_size sv o P W V WD cs js R Ri s h I NM H).
Qed.
Lemma main_solution : forall debug sqrtf abig v_size sv o hist P l V R Ri J s h s',
  wf sqrtf P -> Forall (fun a => wf_data v_size P (fst a)) l -> wf_data v_size P V -> clean_start sv hist ->
  reached debug sqrtf abig v_size sv o hist P l s -> solve v_size sv o (p_vars P) V R Ri J s = Ok (h, s') ->
  p_minNorm P = false ->
  let n := total v_size (p_vars P) in let nObj := countObj (p_objs P) in
  (o_chol o = true -> factor_of (rowsD sv o n nObj) n (mA (s_D (assigned v_size sv o (p_vars P) V s))) R /\
                      (sv = SQuadprog -> inverse_of n R Ri)) ->
  forall z, minimizer (fun z => feasible h z /\ in_range v_size P V sv abig (o_big o) z) (cost h) z <->
            minimizer (fun z => user_feasible v_size P V z /\ in_range v_size P V sv abig (o_big o) z)
                      (fun z v => v == user_error sqrtf v_size P V z + regularization sv o n nObj * sumsq n z) z.
Proof.
  intros debug sqrtf abig v_size sv o hist P l V R Ri J s h s' W WL WD CS RC H NM n0 nO FA z.
  assert (F : forall z, feasible h z /\ in_range v_size P V sv abig (o_big o) z <-> user_feasible v_size P V z /\ in_range v_size P V sv abig (o_big o) z).
  { intros z'. split; intros [A B]; (split; [|exact B]);
      apply (main_feasible debug sqrtf abig v_size sv o hist P l V R Ri J s h s' z'); auto. }
  destruct (main_cost debug sqrtf abig v_size sv o hist P l V R Ri J s h s' W WL WD CS RC H NM FA) as [k C]. fold n0 nO in C.
  unfold minimizer. rewrite F. split; intros [A B]; (split; [exact A|]); intros z' v v' S E E'.
  - apply F in S. pose proof (proj2 (C z ((1 # 2) * v - k)) ltac:(rewrite E; reflexivity)) as C1.
    pose proof (proj2 (C z' ((1 # 2) * v' - k)) ltac:(rewrite E'; reflexivity)) as C2. specialize (B z' _ _ S C1 C2). lra.
  - apply F in S. apply C in E. apply C in E'. specialize (B z' _ _ S (Qeq_refl _) (Qeq_refl _)). lra.
Qed.
Lemma main_solvable : forall debug sqrtf abig v_size sv o hist P l V R Ri J s,
  wf sqrtf P -> Forall (fun a => wf_data v_size P (fst a)) l -> wf_data v_size P V -> clean_start sv hist ->
  reached debug sqrtf abig v_size sv o hist P l s ->
  ((exists h s', solve v_size sv o (p_vars P) V R Ri J s = Ok (h, s')) <->
   ~ ((sv = SQLD \/ sv = SQuadprog) /\ o_chol o = true /\ p_minNorm P = true)).
Proof.
  intros debug sqrtf abig v_size sv o hist P l V R Ri J s W WL WD CS RC.
  destruct (reached_inv debug sqrtf abig v_size sv o P W hist l s WL CS RC) as (cs & js & I).
  rewrite (solve_ok sqrtf abig v_size sv o P W V WD cs js R Ri J s I).
  assert (E : isQP sv = true <-> sv = SQLD \/ sv = SQuadprog) by (destruct sv; simpl; split; intros K; auto; try discriminate; destruct K; discriminate).
  rewrite E. reflexivity.
Qed.

Lemma min_norm_cholesky : exists sqrtf abig v_size sv o P V s,
  wf sqrtf P /\ wf_data v_size P V /\ reached false sqrtf abig v_size sv o [] P [] s /\
  forall R Ri J h s', solve v_size sv o (p_vars P) V R Ri J s <> Ok (h, s').
Proof.
  destruct (reached_Pmin SQLD true) as [s RC]. exists idf, 100, one, SQLD, (opt true 0), Pmin, noVal, s.
  split; [exact wf_Pmin|]. split; [exact wf_Vmin|]. split; [exact RC|]. intros R Ri J h s' H.
  refine (proj1 (main_solvable false idf 100 one SQLD (opt true 0) [] Pmin [] noVal R Ri J s wf_Pmin (Forall_nil _) wf_Vmin _ RC) _ _); eauto.
  intros E. discriminate.
Qed.
Lemma min_norm_assert : exists sqrtf abig v_size sv o P, wf sqrtf P /\
  (exists s, build false sqrtf abig v_size sv o P fresh = Ok s) /\ forall s, build true sqrtf abig v_size sv o P fresh <> Ok s.
Proof.
  exists idf, 100, one, SLSSOL, (opt false 0), Pmin. split; [exact wf_Pmin|]. split.
  - destruct (reached_Pmin SLSSOL false) as (s & s0 & s1 & L & B & _). injection L as <-. eauto.
  - apply asserts_min; [reflexivity|reflexivity|]. vm_compute. lia.
Qed.
Lemma regularized : exists sqrtf abig v_size o P V s h s' z,
  wf sqrtf P /\ wf_data v_size P V /\ reached true sqrtf abig v_size SQuadprog o [] P [] s /\
  solve v_size SQuadprog o (p_vars P) V zeroM zeroM zeroM s = Ok (h, s') /\
  minimizer (fun z => user_feasible v_size P V z /\ in_range v_size P V SQuadprog abig (o_big o) z)
            (fun z v => v == user_error sqrtf v_size P V z) z /\
  ~ minimizer (fun z => feasible h z /\ in_range v_size P V SQuadprog abig (o_big o) z) (cost h) z.
Proof.
  destruct (reached_P1 SQuadprog false 1) as [s RC].
  assert (CS : clean_start SQuadprog []) by discriminate.
  destruct (proj2 (main_solvable true idf 100 one SQuadprog (opt false 1) [] P1 [] V1 zeroM zeroM zeroM s wf_P1 (Forall_nil _) wf_V1 CS RC)) as (h & s' & H).
  { intros (_ & C & _). discriminate. }
  exists idf, 100, one, (opt false 1), P1, V1, s, h, s', (fun j => if Nat.eqb j 1 then 2 else 0).
  split; [exact wf_P1|]. split; [exact wf_V1|]. split; [exact RC|]. split; [exact H|].
  assert (IR : forall x, Qabs x <= 10 -> in_range one P1 V1 SQuadprog 100 10 (fun j => if Nat.eqb j 1 then x else 0)).
  { intros x X. apply range1; [reflexivity|]. intros j _. destruct (Nat.eqb j 1); [exact X|vm_compute; discriminate]. }
  split.
  - split; [split; [apply feasible1|apply IR; vm_compute; discriminate]|]. intros z' v v' _ E E'. rewrite error1 in E, E'. cbn in E. rewrite E, E'.
    setoid_replace ((2 - 2) * (2 - 2)) with 0 by ring. generalize (z' 1%nat - 2). intros x.
    destruct (Qlt_le_dec x 0) as [X|X]; [|apply Qmult_le_0_compat; exact X].
    setoid_replace (x * x) with ((- x) * (- x)) by ring. apply Qmult_le_0_compat; lra.
  - intros M. apply (proj1 (main_solution true idf 100 one SQuadprog (opt false 1) [] P1 [] V1 zeroM zeroM zeroM s h s' wf_P1 (Forall_nil _) wf_V1 CS RC H eq_refl
       ltac:(discriminate) _)) in M. destruct M as [_ M].
    specialize (M (fun j => if Nat.eqb j 1 then 1 else 0) _ _ (conj (feasible1 _) (IR 1 ltac:(vm_compute; discriminate))) (Qeq_refl _) (Qeq_refl _)).
    vm_compute in M. apply M. reflexivity.
Qed.
Lemma lexls_rebuild : exists sqrtf abig v_size o hist P V s h s' z,
  wf sqrtf P /\ wf_data v_size P V /\ reached false sqrtf abig v_size SLexLS o hist P [] s /\
  solve v_size SLexLS o (p_vars P) V zeroM zeroM zeroM s = Ok (h, s') /\
  minimizer (fun z => feasible h z /\ in_range v_size P V SLexLS abig (o_big o) z) (cost h) z /\
  ~ minimizer (fun z => user_feasible v_size P V z /\ in_range v_size P V SLexLS abig (o_big o) z)
              (fun z v => v == user_error sqrtf v_size P V z) z.
Proof.
  destruct rebuilt_parts as (A2 & l2 & u2 & A1 & l1 & u1 & xl & xu & s' & RB & PT).
  unfold rebuilt in RB.
  destruct (lives false idf 100 one SLexLS (opt false 0) [(Pmin, [])] fresh) as [s0| |] eqn:L; cbn [bind] in RB; try discriminate.
  destruct (build false idf 100 one SLexLS (opt false 0) P1 s0) as [s1| |] eqn:B; cbn [bind] in RB; try discriminate.
  exists idf, 100, one, (opt false 0), [(Pmin, [])], P1, V1, s1, (HLexLS 2 1 0 A2 l2 u2 A1 l1 u1 xl xu), s', (fun _ => 1).
  split; [exact wf_P1|]. split; [exact wf_V1|]. split; [exists s0, s1; auto|]. split; [exact RB|].
  injection PT as P1' P2' P3' P4' P5' P6' P7' P8'.
  assert (IR : forall z, (forall j, Qabs (z j) <= 10) -> in_range one P1 V1 SLexLS 100 10 z) by (intros z Z; apply range1; [reflexivity|auto]).
  split.
  - split; [split|].
    + cbn [feasible]. split; [intros r Lr; lia|]. intros [|[|j]] Lj; try lia; rewrite ?P5', ?P6', ?P7', ?P8'; split; lra.
    + apply IR. intros j. vm_compute. discriminate.
    + intros z' v v' _ E E'. cbn [cost] in E, E'. rewrite E, E'.
      assert (Z : sumsq 1 (fun r => gap (l2 r) (u2 r) (rowv 2 A2 (fun _ => 1) r)) == 0).
      { unfold sumsq, qsumn. cbn [seq qsum]. unfold rowv, dot, qsumn. cbn [seq qsum]. rewrite P1', P2', P3', P4'. vm_compute. reflexivity. }
      rewrite Z. pose proof (sumsq_pos 1 (fun r => gap (l2 r) (u2 r) (rowv 2 A2 z' r))). lra.
  - intros [_ M]. specialize (M (fun j => if Nat.eqb j 1 then 2 else 0) _ _ (conj (feasible1 _) (IR (fun j => if Nat.eqb j 1 then 2 else 0) ltac:(intros j; cbv beta; destruct (Nat.eqb j 1); vm_compute; discriminate))) (Qeq_refl _) (Qeq_refl _)).
    vm_compute in M. apply M. reflexivity.
Qed.
