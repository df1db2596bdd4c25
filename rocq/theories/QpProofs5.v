(* The cost handed. *)
Require Import QArith Qminmax Qabs List Arith Bool Lia Lqa.
Require Import Verif.Base Verif.QSum Verif.AssignModel Verif.AssignSpec Verif.AssignProofs4 Verif.AssignProofs5 Verif.AssignProofs6
  Verif.BoundModel Verif.BoundSpec Verif.BoundProofs Verif.QpModel Verif.QpSpec Verif.QpProofs Verif.QpProofs2 Verif.QpProofs3 Verif.QpProofs4.
Import ListNotations.
Local Open Scope Q_scope.
Local Arguments QpModel.countEq : simpl never.
Local Arguments QpModel.countIneq : simpl never.

(* ---- sums ---- *)
Lemma sumsq_ext m f g : (forall r, (r < m)%nat -> f r == g r) -> sumsq m f == sumsq m g.
Proof. intros E. apply qsumn_ext. intros r L. rewrite E by exact L. reflexivity. Qed.
Lemma dot_ext m c c' z z' : (forall r, (r < m)%nat -> c r == c' r) -> (forall r, (r < m)%nat -> z r == z' r) -> dot m c z == dot m c' z'.
Proof. intros E F. apply qsumn_ext. intros r L. rewrite E, F by exact L. reflexivity. Qed.
Lemma dot_comm m c z : dot m c z == dot m z c.
Proof. apply qsumn_ext. intros r L. ring. Qed.
Lemma square_expand m n D z : sumsq m (rowv n D z) == qsumn (fun i => qsumn (fun j => z i * z j * gram m D i j) n) n.
Proof.
  unfold sumsq.
  rewrite (qsumn_ext _ (fun r => qsumn (fun i => qsumn (fun j => (D r i * z i) * (D r j * z j)) n) n) m).
  2: { intros r _. unfold rowv, dot. rewrite <- qsumn_scale. apply qsumn_ext. intros i _.
       rewrite Qmult_comm. rewrite <- qsumn_scale. apply qsumn_ext. intros j _. ring. }
  rewrite qsumn_swap. apply qsumn_ext. intros i _. rewrite qsumn_swap. apply qsumn_ext. intros j _.
  unfold gram. rewrite <- qsumn_scale. apply qsumn_ext. intros r _. ring.
Qed.
Lemma quad_expand n H z : dot n z (rowv n H z) == qsumn (fun i => qsumn (fun j => z i * z j * H i j) n) n.
Proof.
  unfold dot at 1. apply qsumn_ext. intros i _. unfold rowv, dot. rewrite <- qsumn_scale. apply qsumn_ext. intros j _. ring.
Qed.
Lemma lin_expand m n D e z : dot n (fun j => qsumn (fun r => D r j * e r) m) z == qsumn (fun r => rowv n D z r * e r) m.
Proof.
  unfold dot. rewrite (qsumn_ext _ (fun j => qsumn (fun r => D r j * e r * z j) m) n).
  - rewrite qsumn_swap. apply qsumn_ext. intros r _. unfold rowv, dot. rewrite (Qmult_comm _ (e r)), <- qsumn_scale. apply qsumn_ext. intros j _. ring.
  - intros j _. rewrite (Qmult_comm _ (z j)), <- qsumn_scale. apply qsumn_ext. intros r _. ring.
Qed.
Lemma complete_square m f e : sumsq m (fun r => f r + e r) == sumsq m f + 2 * qsumn (fun r => f r * e r) m + sumsq m e.
Proof.
  unfold sumsq. rewrite <- (qsumn_scale 2), <- !qsumn_add. apply qsumn_ext. intros r _. ring.
Qed.
Lemma sumsq_split a b f : sumsq (a + b) f == sumsq a f + sumsq b (fun k => f (a + k)%nat).
Proof. apply (qsumn_split (fun r => f r * f r) a b). Qed.
Lemma row_delta n c j z : (j < n)%nat -> qsumn (fun k => (if Nat.eqb j k then c else 0) * z k) n == c * z j.
Proof.
  intros J. rewrite (qsumn_single _ n j J); [rewrite Nat.eqb_refl; reflexivity|].
  intros k _ NE. destruct (Nat.eqb_spec j k); [congruence|]. ring.
Qed.
Lemma idM_row n z j : (j < n)%nat -> rowv n idM z j == z j.
Proof. intros J. unfold rowv, dot, idM. rewrite row_delta by exact J. ring. Qed.
Lemma gap_eq l u y : l == u -> gap l u y * gap l u y == (y - l) * (y - l).
Proof.
  intros E. unfold gap. rewrite <- E. destruct (Qlt_le_dec y l) as [L|L].
  - rewrite (Q.max_r 0 (l - y)), (Q.max_l 0 (y - l)) by lra. ring.
  - rewrite (Q.max_l 0 (l - y)), (Q.max_r 0 (y - l)) by lra. ring.
Qed.
Lemma inverse_apply n R Ri z w : inverse_of n R Ri ->
  (forall i, (i < n)%nat -> z i == rowv n Ri w i) -> forall i, (i < n)%nat -> w i == rowv n R z i.
Proof.
  intros V E i I. unfold rowv, dot. rewrite (qsumn_ext _ (fun k => qsumn (fun j => R i k * Ri k j * w j) n) n).
  2: { intros k K. rewrite (E k K). unfold rowv, dot. rewrite <- qsumn_scale. apply qsumn_ext. intros j _. ring. }
  rewrite qsumn_swap. rewrite (qsumn_ext _ (fun j => (if Nat.eqb i j then 1 else 0) * w j) n).
  - rewrite row_delta by exact I. ring.
  - intros j J. destruct (V i j I J) as [A _]. rewrite <- A.
    rewrite (qsumn_ext _ (fun k => w j * (R i k * Ri k j)) n) by (intros; ring). rewrite qsumn_scale. ring.
Qed.
Lemma inverse_back n R Ri z : inverse_of n R Ri -> forall i, (i < n)%nat -> z i == rowv n Ri (rowv n R z) i.
Proof.
  intros V i I. unfold rowv at 1, dot. rewrite (qsumn_ext _ (fun k => qsumn (fun j => Ri i k * R k j * z j) n) n).
  2: { intros k K. unfold rowv, dot. rewrite <- qsumn_scale. apply qsumn_ext. intros j _. ring. }
  rewrite qsumn_swap. rewrite (qsumn_ext _ (fun j => (if Nat.eqb i j then 1 else 0) * z j) n).
  - rewrite row_delta by exact I. ring.
  - intros j J. destruct (V i j I J) as [_ A]. rewrite <- A.
    rewrite (qsumn_ext _ (fun k => z j * (Ri i k * R k j)) n) by (intros; ring). rewrite qsumn_scale. ring.
Qed.

(* sums over consecutive targets *)
Lemma sum_targets sv (f : vec) (ee : objective -> cvalues -> nat -> Q) : forall (js : list jitem) ws k, length ws = length js ->
  map (fun a => fst (snd a)) js = otargets sv k (map fst js) ->
  (forall a U, In (a, U) (combine js ws) -> forall i, (i < c_size (j_src (fst a)))%nat -> f (t_start (fst (snd a)) + i)%nat == ee (fst a) U i) ->
  qsumn (fun r => f (k + r)%nat) (countObj (map fst js)) ==
  qsum (fun p => qsumn (ee (fst p) (snd p)) (c_size (j_src (fst p)))) (combine (map fst js) ws).
Proof.
  induction js as [|a js IH]; intros [|U ws] k L T H; simpl in L; try discriminate.
  - reflexivity.
  - cbn [map otargets] in T. injection T as T1 T2. cbn [map combine qsum fst snd].
    change (countObj (fst a :: map fst js)) with (c_size (j_src (fst a)) + countObj (map fst js))%nat. rewrite qsumn_split.
    rewrite <- (IH ws (k + c_size (j_src (fst a)))%nat); [| |exact T2|].
    + assert (E1 : qsumn (fun r => f (k + r)%nat) (c_size (j_src (fst a))) == qsumn (ee (fst a) U) (c_size (j_src (fst a)))).
      { apply qsumn_ext. intros i I. rewrite <- (H a U (or_introl eq_refl) i I), T1. destruct (obj_start sv k (j_src (fst a))) as [-> _]. reflexivity. }
      rewrite E1. apply Qplus_inj_l. apply qsumn_ext. intros i _. rewrite Nat.add_assoc. reflexivity.
    + congruence.
    + intros b U' I. apply H. right. exact I.
Qed.

Lemma otargets_cover sv : forall (js : list jitem) (ws : list cvalues) k, length ws = length js ->
  map (fun a => fst (snd a)) js = otargets sv k (map fst js) -> forall r, (k <= r < k + countObj (map fst js))%nat ->
  exists a U i, In (a, U) (combine js ws) /\ (i < c_size (j_src (fst a)))%nat /\ r = (t_start (fst (snd a)) + i)%nat.
Proof.
  induction js as [|a js IH]; intros [|U ws] k L T r R; simpl in L; try discriminate.
  - unfold countObj in R. simpl in R. lia.
  - cbn [map otargets] in T. injection T as T1 T2. change (countObj (map fst (a :: js))) with (c_size (j_src (fst a)) + countObj (map fst js))%nat in R.
    destruct (le_lt_dec (k + c_size (j_src (fst a))) r) as [G|G].
    + destruct (IH ws (k + c_size (j_src (fst a)))%nat) with (r := r) as (b & U' & i & I1 & I2 & I3); [congruence|exact T2|lia|].
      exists b, U', i. split; [right; exact I1|]. auto.
    + exists a, U, (r - k)%nat. split; [left; reflexivity|]. rewrite T1. destruct (obj_start sv k (j_src (fst a))) as [-> _]. lia.
Qed.

Section Cost.
Variable debug : bool.
Variable sqrtf : Q -> Q.
Variable abig : Q.
Variable v_size : nat -> nat.
Variable sv : solver.
Variable o : options.
Variable P : problem.
Hypothesis W : wf sqrtf P.
Notation vars := (p_vars P).
Notation sub := (p_sub P).
Notation n := (total v_size vars).
Notation nObj := (nObj v_size P).
Notation inv := (inv sqrtf abig v_size sv o P).
Notation Dclean := (Dclean v_size sv o P).
Variable V : data.
Hypothesis WD : wf_data v_size P V.
Notation user_error := (user_error sqrtf v_size P V).

(* the residual of a row of the objectives *)
Definition resid (m : mem) (z : vec) (r : nat) : Q :=
  match sv with
  | SQLD | SQuadprog => rowv n (mA m) z r + mb m r
  | SLSSOL => rowv n (mA m) z r - mb m r
  | SLexLS => rowv n (mA m) z r - ml m r
  end.
Lemma obj_rows cs js s a U : inv cs js s -> p_minNorm P = false -> In (a, U) (combine js (d_objs V)) ->
  let m := s_D (assigned v_size sv o vars V s) in
  forall i, (i < c_size (j_src (fst a)))%nat -> let r := (t_start (fst (snd a)) + i)%nat in
  (forall z, resid m z r == row_weight sqrtf (Some (j_req (fst a))) (j_scal (fst a)) i *
     (value v_size (j_src (fst a)) U (full_point v_size P V z) i - rsign (c_rhs (j_src (fst a))) * cv_e U i)) /\
  (sv = SLexLS -> ml m r == mu m r).
Proof.
  intros I NM IU m i LI r. destruct (pre_inv sqrtf abig v_size sv o P cs js s I) as (J & DC & _ & _). specialize (DC NM).
  destruct (D_facts sqrtf abig v_size sv o P W V WD cs js _ _ J NM DC) as [_ F].
  destruct (F a (valuesOf V U) (combine_lift2 _ _ _ _ _ IU)) as (m0 & CL & SR). clear F.
  change (runAll _ _ _ _) with m in SR.
  assert (IA : In a js) by (eapply in_combine_l; eauto).
  assert (B : jbuilt sqrtf abig v_size vars sub a) by (pose proof (i_jb _ _ _ _ _ _ _ _ _ I) as F; rewrite Forall_forall in F; apply F, IA).
  assert (IP : In (fst a, U) (combine (p_objs P) (d_objs V))) by (rewrite <- (i_js _ _ _ _ _ _ _ _ _ I); apply combine_lift, IU).
  destruct W as (N & _ & WJ & _). destruct (WJ (fst a)) as (WR & WT & WO); [apply in_combine_l in IP; exact IP|].
  destruct WD as (_ & _ & _ & _ & AG).
  pose proof (weighted_construct sqrtf abig v_size vars (startIn v_size vars) (j_src (fst a)) (fst (snd a)) sub (Some (j_req (fst a))) (j_scal (fst a))
    (snd (snd a)) [] (valuesOf V U) m0 (layout_startIn v_size vars N) WR (AG _ _ IP) WO B CL) as WC. cbn [runs fold_left] in WC.
  assert (FT : exists k, fst (snd a) = objTarget sv k (j_src (fst a))).
  { assert (G : forall (l : list jitem) k, map (fun a => fst (snd a)) l = otargets sv k (map fst l) -> In a l -> exists k', fst (snd a) = objTarget sv k' (j_src (fst a))).
    { induction l as [|b l IH]; intros k E X; [destruct X|]. cbn [map otargets] in E. injection E as E1 E2. destruct X as [->|X]; eauto. }
    apply (G js 0%nat); [|exact IA]. rewrite (i_js _ _ _ _ _ _ _ _ _ I). apply (i_jt _ _ _ _ _ _ _ _ _ I). }
  destruct FT as (k & FT).
  assert (RO : rows_of (fst (snd a)) r) by (unfold rows_of, r; rewrite FT; destruct (obj_start sv k (j_src (fst a))) as [-> ->]; lia).
  destruct (SR r RO) as (S1 & S2 & S3 & S4).
  set (m1 := run v_size (valuesOf V U) (fst (snd a)) (snd (snd a)) m0) in *.
  assert (RV : forall z, rowval v_size (startIn v_size vars) vars (mA m1) (point_of v_size P z) r == rowv n (mA m) z r).
  { intros z. unfold point_of. rewrite rowval_rowv by exact N. apply dot_ext; [|reflexivity]. intros c _. rewrite S1. reflexivity. }
  assert (TY : t_type (fst (snd a)) = (match sv with SLexLS => DOUBLE_SIDED | _ => EQUAL end)) by (rewrite FT; destruct sv; reflexivity).
  assert (TR : t_rhs (fst (snd a)) = (match sv with SQLD | SQuadprog => OPPOSITE | _ => AS_GIVEN end)) by (rewrite FT; destruct sv; reflexivity).
  assert (K : forall z, match sv with
      | SLexLS => resid m z r == row_weight sqrtf (Some (j_req (fst a))) (j_scal (fst a)) i *
     (value v_size (j_src (fst a)) U (full_point v_size P V z) i - rsign (c_rhs (j_src (fst a))) * cv_e U i) /\ rowv n (mA m) z r - mu m r == row_weight sqrtf (Some (j_req (fst a))) (j_scal (fst a)) i *
     (value v_size (j_src (fst a)) U (full_point v_size P V z) i - rsign (c_rhs (j_src (fst a))) * cv_e U i)
      | _ => resid m z r == row_weight sqrtf (Some (j_req (fst a))) (j_scal (fst a)) i *
     (value v_size (j_src (fst a)) U (full_point v_size P V z) i - rsign (c_rhs (j_src (fst a))) * cv_e U i) end).
  { intros z. specialize (WC i (point_of v_size P z) LI). cbv zeta in WC. rewrite WT, TY, TR in WC. fold r in WC. fold m1 in WC.
    rewrite <- S2, <- S3, <- S4 in WC. specialize (RV z).
    change (lhs v_size (valuesOf V U) (c_vars (j_src (fst a))) (completed v_size sub (valuesOf V U) (point_of v_size P z)) i)
      with (value v_size (j_src (fst a)) U (full_point v_size P V z) i) in WC.
    change (v_e (valuesOf V U) i) with (cv_e U i) in WC. unfold resid.
    set (X := value _ _ _ _ _) in *. set (w := row_weight _ _ _ _) in *. clearbody X w.
    destruct sv; cbn [rsign] in WC; rewrite RV in WC.
    1, 2, 3: rewrite (Qmult_1_l w) in WC; rewrite <- WC; ring.
    destruct WC as [W1 W2]. rewrite !(Qmult_1_l w) in W1, W2. split; [rewrite <- W1|rewrite <- W2]; ring. }
  split.
  - intros z. specialize (K z). destruct sv; try exact K. exact (proj1 K).
  - intros E. specialize (K (fun _ => 0)). unfold resid in K. rewrite E in K. destruct K as [K1 K2]. rewrite <- K2 in K1. lra.
Qed.
Lemma obj_error cs js s z : inv cs js s -> p_minNorm P = false ->
  sumsq (countObj (p_objs P)) (resid (s_D (assigned v_size sv o vars V s)) z) == user_error z.
Proof.
  intros I NM. set (m := s_D (assigned v_size sv o vars V s)).
  pose proof (i_js _ _ _ _ _ _ _ _ _ I) as EJ. pose proof (i_jt _ _ _ _ _ _ _ _ _ I) as ET. rewrite <- EJ in ET.
  pose proof (sum_targets sv (fun r => resid m z r * resid m z r)
    (fun j U i => (row_weight sqrtf (Some (j_req j)) (j_scal j) i * (value v_size (j_src j) U (full_point v_size P V z) i - rsign (c_rhs (j_src j)) * cv_e U i)) *
                  (row_weight sqrtf (Some (j_req j)) (j_scal j) i * (value v_size (j_src j) U (full_point v_size P V z) i - rsign (c_rhs (j_src j)) * cv_e U i)))
    js (d_objs V) 0%nat) as S.
  rewrite EJ in S. unfold sumsq, QpSpec.user_error, error2. rewrite <- S.
  - reflexivity.
  - destruct WD as (_ & L & _). rewrite L, <- EJ, map_length. reflexivity.
  - rewrite <- EJ. exact ET.
  - intros a U IU i LI. destruct (obj_rows cs js s a U I NM IU i LI) as [R _]. fold m in R. cbv zeta in R. rewrite (R z). reflexivity.
Qed.

(* ---- the costs ---- *)
Definition factored (s : state) (R Ri : mat) : Prop :=
  o_chol o = true -> p_minNorm P = false ->
  factor_of (rowsD sv o n nObj) n (mA (s_D (assigned v_size sv o vars V s))) R /\ (sv = SQuadprog -> inverse_of n R Ri).

Lemma damped_rows cs js s z : inv cs js s -> p_minNorm P = false ->
  sumsq (rowsD sv o n nObj) (rowv n (mA (s_D (assigned v_size sv o vars V s))) z) ==
  sumsq nObj (rowv n (mA (s_D (assigned v_size sv o vars V s))) z) +
  (if dampRows sv o n nObj then o_cdamp o * o_cdamp o else 0) * sumsq n z.
Proof.
  intros I NM. destruct (assigned_inv sqrtf abig v_size sv o P W V WD cs js s I) as [_ [_ DR]]; [exact NM|].
  unfold rowsD. unfold dampedM in DR. destruct (dampRows sv o n nObj); [|ring].
  rewrite sumsq_split. apply Qplus_inj_l. unfold sumsq. rewrite <- qsumn_scale. apply qsumn_ext. intros j J.
  assert (E : rowv n (mA (s_D (assigned v_size sv o vars V s))) z (nObj + j) == o_cdamp o * z j).
  { unfold rowv, dot. rewrite <- (row_delta n (o_cdamp o) j z J). apply qsumn_ext. intros k K. rewrite DR by lia.
    destruct (Nat.eqb_spec (nObj + j) (nObj + k)), (Nat.eqb_spec j k); try lia; reflexivity. }
  rewrite E. ring.
Qed.
Definition sqe (s : state) : Q := sumsq nObj (mb (s_D (assigned v_size sv o vars V s))).
Definition kappa (s : state) : Q := match sv with SQLD | SQuadprog => (1 # 2) * sqe s | _ => 0 end.

Lemma qp_cost cs js s z : inv cs js s -> p_minNorm P = false -> (sv = SQLD \/ sv = SQuadprog) ->
  let D := mA (s_D (assigned v_size sv o vars V s)) in
  (1 # 2) * sumsq (rowsD sv o n nObj) (rowv n D z) +
    dot n (fun j => qsumn (fun r => D r j * mb (s_D (assigned v_size sv o vars V s)) r) nObj) z ==
  (1 # 2) * (user_error z + (if dampRows sv o n nObj then o_cdamp o * o_cdamp o else 0) * sumsq n z) - (1 # 2) * sqe s.
Proof.
  intros I NM SV D. unfold D. rewrite (damped_rows cs js s z I NM), lin_expand.
  rewrite <- (obj_error cs js s z I NM). set (m := s_D (assigned v_size sv o vars V s)).
  assert (E : sumsq (countObj (p_objs P)) (resid m z) == sumsq nObj (fun r => rowv n (mA m) z r + mb m r)).
  { unfold QpProofs3.nObj. rewrite NM. apply sumsq_ext. intros r _. unfold resid. destruct SV as [->| ->]; reflexivity. }
  rewrite E, complete_square. unfold sqe. fold m. ring.
Qed.
Lemma qp_H n' D H d z : (forall i j, (i < n')%nat -> (j < n')%nat -> H i j == gram d D i j) ->
  dot n' z (rowv n' H z) == sumsq d (rowv n' D z).
Proof.
  intros E. rewrite quad_expand, square_expand. apply qsumn_ext. intros i I. apply qsumn_ext. intros j J. rewrite E by auto. reflexivity.
Qed.
Lemma reg_rows : sv = SQLD \/ sv = SQuadprog -> o_chol o = true ->
  regularization sv o n nObj = if dampRows sv o n nObj then o_cdamp o * o_cdamp o else 0.
Proof. intros [-> | ->] C; unfold regularization, dampRows, under; rewrite C; reflexivity. Qed.
Lemma no_rows : o_chol o = false -> dampRows sv o n nObj = false.
Proof. intros C. unfold dampRows. rewrite C. destruct sv; reflexivity. Qed.

Definition cvec (s : state) : vec := fun j => qsumn (fun r => mA (s_D s) r j * mb (s_D s) r) (s_nObj s).
Lemma hand_forms R Ri s h : s_minNorm s = false -> hand sv o R (post sv o Ri s) = Ok h ->
  match sv with
  | SQLD => exists nEq m A b xl xu, h = HQLD (o_chol o) (s_n s) nEq m (if o_chol o then R else gram (rowsD sv o (s_n s) (s_nObj s)) (mA (s_D s))) (cvec s) A b xl xu
  | SQuadprog => exists nEq m A b, h = HQuadprog (o_chol o) (s_n s) nEq m
      (if o_chol o then fun r k => if Nat.ltb r (s_n s) then Ri r k else mA (s_D s) r k
       else fun i j => gram (rowsD sv o (s_n s) (s_nObj s)) (mA (s_D s)) i j + (if Nat.eqb i j then o_damp o else 0)) (cvec s) A b
  | SLSSOL => exists m C cl cu xl xu, h = if Nat.ltb 0 (s_nObj s) then HLSSOL (s_n s) (s_nObj s) m (mA (s_D s)) (mb (s_D s)) C cl cu xl xu
                                   else HLSSOL_FP (s_n s) m C cl cu xl xu
  | SLexLS => exists m A1 l1 u1 xl xu, h = HLexLS (s_n s) (s_nObj s) m (mA (s_D s)) (ml (s_D s)) (mu (s_D s)) A1 l1 u1 xl xu
  end.
Proof.
  intros M H. unfold hand, post in H. rewrite ?M in H.
  destruct sv; try (destruct (o_chol o)); cbn [s_minNorm setCost setBox setD s_n s_nObj s_Q s_c s_D s_nEq s_nIneq s_useb s_C s_xl s_xu negb andb] in H;
    rewrite ?M in H; cbn [negb andb] in H.
  1, 2, 3, 4: injection H as <-; repeat eexists.
  - destruct (Nat.ltb 0 (s_nObj s)); injection H as <-; repeat eexists.
  - destruct (Nat.ltb 0 (s_nObj s)); injection H as <-; repeat eexists.
  - injection H as <-; repeat eexists.
  - injection H as <-; repeat eexists.
Qed.

Lemma handed_cost cs js R Ri s h : inv cs js s -> p_minNorm P = false -> factored s R Ri ->
  hand sv o R (post sv o Ri (assigned v_size sv o vars V s)) = Ok h ->
  forall z v, cost h z v <-> v == (1 # 2) * (user_error z + regularization sv o n nObj * sumsq n z) - kappa s.
Proof.
  intros I NM FA H z v. destruct (assigned_inv sqrtf abig v_size sv o P W V WD cs js s I) as [A _].
  pose proof (i_n _ _ _ _ _ _ _ _ _ A) as X1. pose proof (i_nObj _ _ _ _ _ _ _ _ _ A) as X2. pose proof (i_min _ _ _ _ _ _ _ _ _ A) as X3. rewrite NM in X3.
  pose proof (qp_cost cs js s z I NM) as QC. cbv zeta in QC. pose proof (obj_error cs js s z I NM) as OE.
  apply (hand_forms R Ri _ h X3) in H. unfold cvec in H. rewrite X1, X2 in H. specialize (FA : factored s R Ri). unfold factored in FA.
  assert (NO : nObj = countObj (p_objs P)) by (unfold QpProofs3.nObj; rewrite NM; reflexivity). rewrite <- NO in OE.
  pose proof no_rows as NR. pose proof reg_rows as RR.
  assert (LEX : sv = SLexLS -> forall r, (r < nObj)%nat -> ml (s_D (assigned v_size sv o vars V s)) r == mu (s_D (assigned v_size sv o vars V s)) r).
  { intros SV r L. destruct (otargets_cover sv js (d_objs V) 0%nat) with (r := r) as (a & U & i & IU & LI & ->).
    - destruct WD as (_ & LD & _). rewrite LD, <- (i_js _ _ _ _ _ _ _ _ _ I), map_length. reflexivity.
    - rewrite (i_js _ _ _ _ _ _ _ _ _ I). apply (i_jt _ _ _ _ _ _ _ _ _ I).
    - rewrite (i_js _ _ _ _ _ _ _ _ _ I). lia.
    - apply (obj_rows cs js s a U I NM IU i LI). exact SV. }
  unfold kappa, resid in *. set (m := s_D (assigned v_size sv o vars V s)) in *. set (q := sqe s) in *. set (k := nObj) in *.
  clearbody m q k. clear X1 X2 X3 A I.
  destruct sv.
  - destruct H as (ne & mm & A & b & xl & xu & ->). specialize (QC (or_introl eq_refl)). destruct (o_chol o) eqn:CH; cbn [cost].
    + rewrite (RR (or_introl eq_refl) eq_refl), <- QC. destruct (FA eq_refl NM) as [FR _].
      assert (E : sumsq n (rowv n R z) == sumsq (rowsD SQLD o n k) (rowv n (mA m) z)).
      { rewrite !square_expand. apply qsumn_ext. intros i Hi. apply qsumn_ext. intros j Hj. unfold gram. rewrite (FR i j Hi Hj). reflexivity. }
      rewrite E. reflexivity.
    + rewrite (NR eq_refl) in QC. unfold regularization. rewrite CH, <- QC. rewrite (qp_H n (mA m) _ (rowsD SQLD o n k) z) by reflexivity. reflexivity.
  - destruct H as (ne & mm & A & b & ->). specialize (QC (or_intror eq_refl)). destruct (o_chol o) eqn:CH; cbn [cost].
    + rewrite (RR (or_intror eq_refl) eq_refl), <- QC. destruct (FA eq_refl NM) as [FR FI]. specialize (FI eq_refl).
      assert (E : sumsq n (rowv n R z) == sumsq (rowsD SQuadprog o n k) (rowv n (mA m) z)).
      { rewrite !square_expand. apply qsumn_ext. intros i Hi. apply qsumn_ext. intros j Hj. unfold gram. rewrite (FR i j Hi Hj). reflexivity. }
      rewrite <- E.
      assert (T : forall w i, (i < n)%nat -> rowv n (fun r c => if Nat.ltb r n then Ri r c else mA m r c) w i == rowv n Ri w i).
      { intros w i Hi. unfold rowv. destruct (Nat.ltb_spec i n); [reflexivity|lia]. }
      split.
      * intros (w & Hz & ->). apply Qplus_comp; [|reflexivity]. apply Qmult_comp; [reflexivity|]. apply sumsq_ext.
        apply (inverse_apply n R Ri z w FI). intros i Hi. rewrite (Hz i Hi), T by exact Hi. reflexivity.
      * intros HH. exists (rowv n R z). split; [|exact HH]. intros i Hi. rewrite T by exact Hi. apply (inverse_back n R Ri z FI i Hi).
    + rewrite (NR eq_refl) in QC. unfold regularization. rewrite CH.
      assert (E : dot n z (rowv n (fun i j => gram (rowsD SQuadprog o n k) (mA m) i j + (if Nat.eqb i j then o_damp o else 0)) z) ==
                  sumsq (rowsD SQuadprog o n k) (rowv n (mA m) z) + o_damp o * sumsq n z).
      { rewrite square_expand, quad_expand. unfold sumsq. rewrite <- qsumn_scale, <- qsumn_add. apply qsumn_ext. intros i Hi.
        rewrite (qsumn_ext _ (fun j => z i * z j * gram (rowsD SQuadprog o n k) (mA m) i j + z i * ((if Nat.eqb i j then o_damp o else 0) * z j)) n) by (intros; ring).
        rewrite qsumn_add, qsumn_scale, row_delta by exact Hi. ring. }
      rewrite E. split; intros HH; rewrite HH; [|symmetry]; setoid_replace ((1 # 2) * (sumsq (rowsD SQuadprog o n k) (rowv n (mA m) z) + o_damp o * sumsq n z) + dot n (fun j => qsumn (fun r => mA m r j * mb m r) k) z) with
         ((1 # 2) * sumsq (rowsD SQuadprog o n k) (rowv n (mA m) z) + dot n (fun j => qsumn (fun r => mA m r j * mb m r) k) z + (1 # 2) * o_damp o * sumsq n z) by ring; rewrite QC; ring.
  - destruct H as (mm & C & cl & cu & xl & xu & ->). unfold regularization. destruct (Nat.ltb_spec 0 k) as [L|L]; cbn [cost].
    + assert (E : sumsq k (fun r => mb m r - rowv n (mA m) z r) == user_error z).
      { rewrite <- OE. unfold sumsq. apply qsumn_ext. intros r _. ring. }
      rewrite E. split; intros ->; ring.
    + assert (k = 0%nat) as K0 by lia. rewrite K0 in OE. unfold sumsq, qsumn in OE. simpl in OE. rewrite <- OE. split; intros ->; ring.
  - destruct H as (mm & A1 & l1 & u1 & xl & xu & ->). unfold regularization. cbn [cost].
    assert (E : sumsq k (fun r => gap (ml m r) (mu m r) (rowv n (mA m) z r)) == user_error z).
    { rewrite <- OE. unfold sumsq. apply qsumn_ext. intros r L. apply gap_eq. apply LEX; auto. }
    rewrite E. split; intros ->; ring.
Qed.
End Cost.
