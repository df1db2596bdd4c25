(* Minimum norm, histories, and the statements. *)
Require Import QArith Qminmax Qabs List Arith Bool Lia Lqa.
Require Import Verif.Base Verif.QSum Verif.AssignModel Verif.AssignSpec
  Verif.BoundModel Verif.BoundSpec Verif.QpModel Verif.QpSpec Verif.QpProofs Verif.QpProofs2 Verif.QpProofs3 Verif.QpProofs4 Verif.QpProofs5.
Import ListNotations.
Local Open Scope Q_scope.
Local Arguments QpModel.countEq : simpl never.
Local Arguments QpModel.countIneq : simpl never.

Definition isQP (sv : solver) : bool := match sv with SQLD | SQuadprog => true | _ => false end.

Section Life.
Variable debug : bool.
Variable sqrtf : Q -> Q.
Variable abig : Q.
Variable v_size : nat -> nat.
Variable sv : solver.
Variable o : options.

(* build and solve, without hypothesis on the problem *)
Lemma build_flags P s0 s : build debug sqrtf abig v_size sv o P s0 = Ok s ->
  s_minNorm s = p_minNorm P /\ (o_chol o = true -> s_Q s0 = None -> s_Q s = None) /\
  s_objSize s = countObj (p_objs P) /\ s_nObj s = nObj v_size P /\
  s_eqSize s = s_nEq s /\ s_ineqSize s = s_nIneq s.
Proof.
  intros H. unfold build in H. fold (nObj v_size P) in H. fold (useb P) in H.
  set (s1 := startBuild _ _ _ _ _ _ _ _) in H.
  destruct (each (addConstraint sqrtf abig v_size sv (p_vars P) (p_sub P)) (p_cstrs P) s1) as [s2| |] eqn:E1; cbn [bind] in H; try discriminate.
  destruct (each (addObjective sqrtf abig v_size sv (p_vars P) (p_sub P)) (p_objs P) s2) as [s3| |] eqn:E2; cbn [bind] in H; try discriminate.
  destruct (each (addBound abig v_size (p_vars P)) (p_bnds P) (if p_minNorm P then setMinimumNorm sv s3 else s3)) as [s4| |] eqn:E3; cbn [bind] in H; try discriminate.
  assert (s4 = s) by (unfold finalizeBuild in H; destruct (debug && _); congruence). subst s4.
  apply each_cstrs in E1 as (cs & _ & _ & _ & ->). apply each_objs in E2 as (js & _ & _ & _ & ->). apply each_bnds in E3 as (_ & ->).
  assert (SQ1 : o_chol o = true -> s_Q s1 = s_Q s0) by (intros C; unfold s1, startBuild; cbn [s_Q]; rewrite C; destruct sv; reflexivity).
  assert (N1 : s_nObj s1 = nObj v_size P) by reflexivity.
  assert (N2 : s_nEq s1 = countEq sv (p_cstrs P)) by reflexivity. assert (N3 : s_nIneq s1 = countIneq sv (p_cstrs P)) by reflexivity.
  assert (N4 : s_eqSize s1 = 0%nat) by reflexivity. assert (N5 : s_ineqSize s1 = 0%nat) by reflexivity. assert (N6 : s_objSize s1 = 0%nat) by reflexivity.
  assert (N7 : s_minNorm s1 = false) by reflexivity.
  clearbody s1. destruct s1 as [a1 a2 a3 a4 a5 a6 a7 a8 a9 a10 a11 a12 a13 a14 a15 a16 a17 a18].
  cbn [s_nObj s_nEq s_nIneq s_eqSize s_ineqSize s_objSize s_Q s_minNorm] in *. subst.
  unfold withBs, withOs, withCs. cbn [s_nObj s_nEq s_nIneq s_eqSize s_ineqSize s_objSize s_Q s_minNorm s_n s_useb s_D s_c s_C s_xl s_xu s_cs s_os s_bs].
  destruct (p_minNorm P); unfold setMinimumNorm; cbn [s_nObj s_nEq s_nIneq s_eqSize s_ineqSize s_objSize s_Q s_minNorm s_n s_useb s_D s_c s_C s_xl s_xu s_cs s_os s_bs];
   repeat match goal with |- _ /\ _ => split end; try reflexivity; intros C QN; rewrite (SQ1 C), QN; try reflexivity; destruct sv; reflexivity.
Qed.
Lemma solve_flags vars V R Ri J s h s' : solve v_size sv o vars V R Ri J s = Ok (h, s') ->
  s_minNorm s' = s_minNorm s /\ (o_chol o = true -> s_Q s' = s_Q s).
Proof.
  unfold solve. destruct (hand sv o R _) as [h'| |]; cbn [bind]; intros E; try discriminate. injection E as <- <-.
  assert (A : s_minNorm (assigned v_size sv o vars V s) = s_minNorm s /\ s_Q (assigned v_size sv o vars V s) = s_Q s).
  { unfold assigned. cbv zeta. cbn [s_minNorm s_Q setBox setD setC]. unfold pre, resetBounds. destruct sv; cbn [s_minNorm s_Q setBox setD setC]; auto.
    - destruct (negb _ && _); auto.
    - destruct (negb _); auto. }
  destruct A as [A1 A2]. set (s1 := assigned v_size sv o vars V s) in *. clearbody s1. unfold overwritten, post.
  split; [|intros C; rewrite C]; destruct sv; try (destruct (s_minNorm s1) eqn:M); try (destruct (o_chol o)); cbn; congruence.
Qed.
Lemma solves_flags vars l : forall s s', solves v_size sv o vars l s = Ok s' ->
  s_minNorm s' = s_minNorm s /\ (o_chol o = true -> s_Q s' = s_Q s).
Proof.
  induction l as [|[V [[R Ri] J]] l IH]; intros s s' H; cbn [solves] in H; [injection H as <-; auto|].
  destruct (solve v_size sv o vars V R Ri J s) as [[h s1]| |] eqn:E; cbn [bind snd] in H; try discriminate.
  apply solve_flags in E as [E1 E2]. apply IH in H as [H1 H2]. split; [congruence|]. intros C. rewrite H2, E2 by auto. reflexivity.
Qed.
Lemma lives_flags hist : forall s s', lives debug sqrtf abig v_size sv o hist s = Ok s' ->
  s_minNorm s' = (match rev hist with [] => s_minNorm s | (P, _) :: _ => p_minNorm P end) /\ (o_chol o = true -> s_Q s = None -> s_Q s' = None).
Proof.
  induction hist as [|[P l] hist IH]; intros s s' H; cbn [lives] in H; [injection H as <-; auto|].
  destruct (build debug sqrtf abig v_size sv o P s) as [s1| |] eqn:E1; cbn [bind] in H; try discriminate.
  destruct (solves v_size sv o (p_vars P) l s1) as [s2| |] eqn:E2; cbn [bind] in H; try discriminate.
  apply build_flags in E1 as (B1 & B2 & _). apply solves_flags in E2 as (S1 & S2). apply IH in H as (H1 & H2).
  split; [|intros C N; apply H2; auto; rewrite S2 by auto; auto].
  rewrite H1. cbn [rev]. destruct (rev hist) as [|[P' l'] r]; cbn [app]; congruence.
Qed.

(* the asserts of finalizeBuild *)
Lemma asserts_ok P s0 : p_minNorm P = false -> build true sqrtf abig v_size sv o P s0 = build false sqrtf abig v_size sv o P s0.
Proof.
  intros NM.
  assert (K : forall s, build false sqrtf abig v_size sv o P s0 = Ok s -> finalizeBuild true s = Ok s).
  { intros s H. pose proof H as H'. unfold finalizeBuild.
    assert (F : s_objSize s = countObj (p_objs P) /\ s_nObj s = nObj v_size P /\ s_eqSize s = s_nEq s /\ s_ineqSize s = s_nIneq s).
    { revert H. clear -NM. intros H. unfold build in H. fold (nObj v_size P) in H. fold (useb P) in H.
      set (s1 := startBuild _ _ _ _ _ _ _ _) in H.
      destruct (each (addConstraint sqrtf abig v_size sv (p_vars P) (p_sub P)) (p_cstrs P) s1) as [s2| |] eqn:E1; cbn [bind] in H; try discriminate.
      destruct (each (addObjective sqrtf abig v_size sv (p_vars P) (p_sub P)) (p_objs P) s2) as [s3| |] eqn:E2; cbn [bind] in H; try discriminate.
      destruct (each (addBound abig v_size (p_vars P)) (p_bnds P) (if p_minNorm P then setMinimumNorm sv s3 else s3)) as [s4| |] eqn:E3; cbn [bind] in H; try discriminate.
      assert (s4 = s) by (unfold finalizeBuild in H; cbn [andb] in H; congruence). subst s4.
      apply each_cstrs in E1 as (cs & _ & _ & _ & ->). apply each_objs in E2 as (js & _ & _ & _ & ->). apply each_bnds in E3 as (_ & ->).
      rewrite NM. repeat match goal with |- _ /\ _ => split end; reflexivity. }
    destruct F as (F1 & F2 & F3 & F4). unfold nObj in F2. rewrite NM in F2. rewrite F1, F2, F3, F4, !Nat.eqb_refl. reflexivity. }
  assert (FF : forall s, finalizeBuild false s = Ok s) by reflexivity.
  unfold build in *. cbv zeta in *.
  destruct (each (addConstraint _ _ _ _ _ _) _ _) as [s2| |]; cbn [bind] in *; try reflexivity.
  destruct (each (addObjective _ _ _ _ _ _) _ _) as [s3| |]; cbn [bind] in *; try reflexivity.
  destruct (each (addBound _ _ _) _ _) as [s4| |]; cbn [bind] in *; try reflexivity.
  rewrite (K s4 (FF s4)), FF. reflexivity.
Qed.
Lemma asserts_min P s0 : p_minNorm P = true -> p_objs P = [] -> (0 < total v_size (p_vars P))%nat ->
  forall s, build true sqrtf abig v_size sv o P s0 <> Ok s.
Proof.
  intros M O N s H. pose proof H as H'. unfold build in H. fold (nObj v_size P) in H. fold (useb P) in H.
  set (s1 := startBuild _ _ _ _ _ _ _ _) in H.
  destruct (each (addConstraint sqrtf abig v_size sv (p_vars P) (p_sub P)) (p_cstrs P) s1) as [s2| |] eqn:E1; cbn [bind] in H; try discriminate.
  destruct (each (addObjective sqrtf abig v_size sv (p_vars P) (p_sub P)) (p_objs P) s2) as [s3| |] eqn:E2; cbn [bind] in H; try discriminate.
  destruct (each (addBound abig v_size (p_vars P)) (p_bnds P) (if p_minNorm P then setMinimumNorm sv s3 else s3)) as [s4| |] eqn:E3; cbn [bind] in H; try discriminate.
  apply each_cstrs in E1 as (cs & _ & _ & _ & ->). apply each_objs in E2 as (js & _ & _ & _ & ->). apply each_bnds in E3 as (_ & ->).
  rewrite M, O in H. unfold finalizeBuild in H. 
  match type of H with (if true && negb (Nat.eqb ?a ?b && _ && _) then _ else _) = _ =>
    assert (A : a = total v_size (p_vars P)) by (change a with (nObj v_size P); unfold nObj; rewrite M; reflexivity);
    assert (B : b = 0%nat) by reflexivity; rewrite A, B in H end.
  destruct (Nat.eqb_spec (total v_size (p_vars P)) 0) as [Z|Z]; [lia|]. cbn in H. discriminate.
Qed.
End Life.

Section Main.
Variable debug : bool.
Variable sqrtf : Q -> Q.
Variable abig : Q.
Variable v_size : nat -> nat.
Variable sv : solver.
Variable o : options.
Variable P : problem.
Hypothesis W : wf sqrtf P.
Notation vars := (p_vars P).
Notation n := (total v_size vars).
Notation nObj := (nObj v_size P).
Notation inv := (inv sqrtf abig v_size sv o P).

Lemma solves_inv cs js l : Forall (fun a => wf_data v_size P (fst a)) l -> forall s s', inv cs js s ->
  solves v_size sv o vars l s = Ok s' -> inv cs js s'.
Proof.
  induction 1 as [|[V [[R Ri] J]] l WD _ IH]; intros s s' I H; cbn [solves] in H; [injection H as <-; exact I|].
  destruct (solve v_size sv o vars V R Ri J s) as [[h s1]| |] eqn:E; cbn [bind snd] in H; try discriminate.
  apply (IH s1 s'); [|exact H]. eapply solve_inv; eauto.
Qed.
Lemma reached_inv hist l s : Forall (fun a => wf_data v_size P (fst a)) l -> clean_start sv hist ->
  reached debug sqrtf abig v_size sv o hist P l s -> exists cs js, inv cs js s.
Proof.
  intros WL CS (s0 & s1 & L & B & S). destruct (lives_flags debug sqrtf abig v_size sv o hist fresh s0 L) as [M Qn].
  destruct (build_inv debug sqrtf abig v_size sv o P s0 s1) as (cs & js & I); [ | |exact B|].
  - intros E. rewrite M. specialize (CS E). destruct (rev hist) as [|[P' l'] r]; [reflexivity|exact CS].
  - intros C. apply Qn; auto.
  - exists cs, js. eapply solves_inv; eauto.
Qed.
Variable V : data.
Hypothesis WD : wf_data v_size P V.
Lemma handed_min cs js R Ri s h : inv cs js s -> p_minNorm P = true ->
  hand sv o R (post sv o Ri (assigned v_size sv o vars V s)) = Ok h ->
  forall z v, cost h z v <-> v == (1 # 2) * sumsq n z.
Proof.
  intros I NM H z v. destruct (assigned_inv sqrtf abig v_size sv o P W V WD cs js s I) as [A _].
  pose proof (i_n _ _ _ _ _ _ _ _ _ A) as X1. pose proof (i_nObj _ _ _ _ _ _ _ _ _ A) as X2. pose proof (i_min _ _ _ _ _ _ _ _ _ A) as X3. rewrite NM in X3.
  pose proof (i_M _ _ _ _ _ _ _ _ _ A NM) as MD. unfold minNormData in MD. unfold QpProofs3.nObj in X2. rewrite NM in X2.
  set (s1 := assigned v_size sv o vars V s) in *. clearbody s1. clear A I.
  assert (QF : forall m, (forall i j, m i j = idM i j) -> dot n z (rowv n m z) == sumsq n z).
  { intros m E. unfold dot, sumsq. apply qsumn_ext. intros j J. unfold rowv.
    rewrite (dot_ext n (m j) (idM j) z z) by (intros; rewrite ?E; reflexivity).
    change (dot n (idM j) z) with (rowv n idM z j). rewrite idM_row by exact J. reflexivity. }
  assert (ZD : forall c, (forall j, c j = 0) -> dot n c z == 0) by (intros c E; apply qsumn_zero; intros j _; rewrite E; ring).
  unfold hand, post in H. rewrite ?X3 in H. destruct sv; cbn [s_minNorm setBox setD s_n s_nObj s_D s_Q s_c] in H; rewrite ?X3, ?X1, ?X2 in H; rewrite ?andb_false_r in H; cbn [negb] in H; rewrite ?andb_false_r in H.
  - destruct MD as [MQ MC]. rewrite MQ in H. destruct (o_chol o); [discriminate|]. injection H as <-. cbn [cost].
    rewrite QF, ZD by auto. split; intros ->; ring.
  - destruct MD as [MQ MC]. rewrite MQ in H. destruct (o_chol o); [discriminate|]. injection H as <-. cbn [cost].
    rewrite QF, ZD by auto. split; intros ->; ring.
  - destruct (Nat.ltb_spec 0 n) as [L|L]; injection H as <-; cbn [cost].
    + assert (E : sumsq n (fun r => mb (s_D s1) r - rowv n idM z r) == sumsq n z).
      { apply qsumn_ext. intros r Lr. rewrite MD, idM_row by exact Lr. ring. }
      cbn [mA mb]. rewrite E. reflexivity.
    + assert (Z : n = 0%nat) by lia. rewrite Z. unfold sumsq, qsumn. simpl. split; intros ->; reflexivity.
  - injection H as <-. cbn [cost]. destruct MD as (MA & ML & MU).
    assert (E : sumsq n (fun r => gap (ml (s_D s1) r) (mu (s_D s1) r) (rowv n (mA (s_D s1)) z r)) == sumsq n z).
    { apply qsumn_ext. intros r Lr. rewrite ML, MU, MA. rewrite gap_eq by reflexivity. rewrite idM_row by exact Lr. ring. }
    rewrite E. reflexivity.
Qed.
Lemma solve_ok cs js R Ri J s : inv cs js s ->
  ((exists h s', solve v_size sv o vars V R Ri J s = Ok (h, s')) <-> ~ (isQP sv = true /\ o_chol o = true /\ p_minNorm P = true)).
Proof.
  intros I. destruct (assigned_inv sqrtf abig v_size sv o P W V WD cs js s I) as [A _].
  pose proof (i_min _ _ _ _ _ _ _ _ _ A) as X3. pose proof (i_M _ _ _ _ _ _ _ _ _ A) as MD. unfold minNormData in MD.
  unfold solve. set (s1 := assigned v_size sv o vars V s) in *. clearbody s1.
  assert (K : (exists h, hand sv o R (post sv o Ri s1) = Ok h) <-> ~ (isQP sv = true /\ o_chol o = true /\ p_minNorm P = true)).
  { unfold hand, post. destruct sv; cbn [isQP].
    - destruct (p_minNorm P); rewrite X3.
      + destruct (MD eq_refl) as [MQ _]. rewrite X3, andb_false_r, MQ. destruct (o_chol o); split; intros H; try (eexists; reflexivity).
        * destruct H as [h H]. discriminate.
        * exfalso. apply H. auto.
        * intros (_ & C & _). discriminate.
      + split; [intros _ (_ & _ & C); discriminate|intros _]. destruct (o_chol o); cbn; rewrite ?X3; eexists; reflexivity.
    - destruct (p_minNorm P); rewrite X3.
      + destruct (MD eq_refl) as [MQ _]. cbn [s_minNorm setBox s_Q]. rewrite X3, andb_false_r, MQ. destruct (o_chol o); split; intros H; try (eexists; reflexivity).
        * destruct H as [h H]. discriminate.
        * exfalso. apply H. auto.
        * intros (_ & C & _). discriminate.
      + split; [intros _ (_ & _ & C); discriminate|intros _]. destruct (o_chol o); cbn; rewrite ?X3; eexists; reflexivity.
    - split; [intros _ (C & _); discriminate|intros _]. destruct (Nat.ltb 0 _); eexists; reflexivity.
    - split; [intros _ (C & _); discriminate|intros _]. eexists; reflexivity. }
  rewrite <- K. split.
  - intros (h & s' & H). destruct (hand sv o R (post sv o Ri s1)) as [h'| |]; cbn [bind] in H; try discriminate. eauto.
  - intros (h & ->). cbn [bind]. eauto.
Qed.
End Main.
