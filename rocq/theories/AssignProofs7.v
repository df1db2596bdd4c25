(* Single-sided constraints in double-sided targets: exactly what the rows say. *)
Require Import QArith Qminmax List Arith Bool Lia Lqa.
Require Import Verif.Base Verif.QSum Verif.AssignModel Verif.AssignSpec Verif.AssignProofs Verif.AssignProofs2 Verif.AssignProofs3 Verif.AssignProofs4 Verif.AssignProofs5 Verif.AssignProofs6.
Import ListNotations.
Local Open Scope Q_scope.

Section Far.
Variables (big : Q) (v_size : nat -> nat) (vars : list nat) (mapping : nat -> option nat).
Variables (src : source) (tgt : target) (sub : substs) (V : values) (g : assignment).
Hypothesis L : layout v_size vars mapping.
Hypothesis R : resolved src sub.
Hypothesis G : agrees v_size src sub V.
Hypothesis S : sound big v_size mapping src tgt sub g.
Notation RUN := (run v_size V tgt g).
Lemma feasible_far m x : clean v_size mapping vars src sub tgt (mA m) -> (forall i, (i < c_size src)%nat -> 0 < wt g i) ->
  single_to_double src tgt ->
  (rows_hold v_size mapping vars tgt (RUN m) x <-> satisfied v_size src V (completed v_size sub V x) /\ far_side v_size big src tgt sub V x).
Proof.
  intros C P D. pose proof (fun i => facts big v_size vars mapping src tgt sub V g L R G S i m x C) as FT.
  pose proof (sizes src tgt sub (proj1 S)) as SZ. unfold rows_hold, satisfied, far_side.
  assert (FA : forall Pi Qi Ri : nat -> Prop, (forall i, (i < c_size src)%nat -> (Pi i <-> Qi i /\ Ri i)) ->
    ((forall i, (i < c_size src)%nat -> Pi i) <-> (forall i, (i < c_size src)%nat -> Qi i) /\ (forall i, (i < c_size src)%nat -> Ri i))).
  { intros Pi Qi Ri H. split; [intros K; split; intros i I; apply (H i I), K, I|intros [K1 K2] i I; apply H; auto]. }
  unfold rowfacts, slotfact in FT. destruct D as [[CTY|CTY] TTY]; rewrite CTY, TTY in *; cbn [ct_eqb andb negb] in SZ; rewrite SZ; unfold holds.
  - apply FA. intros i I. destruct (FT i I) as [[A Bb] Cc].
    pose proof (proj1 (conj (cmp_le _ _ _ _ _ _ _ (P i I) Bb A) Logic.I)) as E. cbn [vget] in E.
    pose proof (B_origin v_size src sub V i) as BO. cbv zeta.
    assert (U : rowval v_size mapping vars (mA (RUN m)) x (t_start tgt + i) <= rsign (t_rhs tgt) * mu (RUN m) (t_start tgt + i)%nat
      <-> X v_size src sub V x i - B v_size src sub V i <= rsign (t_rhs tgt) * big).
    { rewrite <- (le_scale (wt g i) (X v_size src sub V x i - B v_size src sub V i) (rsign (t_rhs tgt) * big) (P i I)). rewrite A, Cc. unfold sg. fold (wt g i). generalize (X v_size src sub V x i - B v_size src sub V i). intros d.
      destruct (t_rhs tgt); unfold rsign; rewrite ?Qmult_1_l; split; intros H; lra. }
    cbv beta iota. rewrite E, U. unfold X at 2. rewrite BO. unfold X, F. simpl. tauto.
  - apply FA. intros i I. destruct (FT i I) as [[A Bb] Cc].
    pose proof (cmp_le _ _ _ _ _ _ _ (P i I) A Bb) as E. cbn [vget] in E.
    pose proof (B_origin v_size src sub V i) as BO. cbv zeta.
    assert (U : rsign (t_rhs tgt) * ml (RUN m) (t_start tgt + i)%nat <= rowval v_size mapping vars (mA (RUN m)) x (t_start tgt + i)
      <-> rsign (t_rhs tgt) * - big <= X v_size src sub V x i - B v_size src sub V i).
    { rewrite <- (le_scale (wt g i) (rsign (t_rhs tgt) * - big) (X v_size src sub V x i - B v_size src sub V i) (P i I)). rewrite A, Cc. unfold sg. fold (wt g i). generalize (X v_size src sub V x i - B v_size src sub V i). intros d.
      destruct (t_rhs tgt); unfold rsign; rewrite ?Qmult_1_l; split; intros H; lra. }
    cbv beta iota. rewrite E, U. unfold X at 1. rewrite BO. unfold X, F. simpl. tauto.
Qed.
End Far.
Lemma far_construct sqrtf big v_size vars mapping src tgt sub r scal g Vs V m x :
  layout v_size vars mapping -> resolved src sub -> agrees v_size src sub V -> default_one sqrtf r ->
  construct sqrtf big v_size mapping src tgt sub r scal = Ok g ->
  clean v_size mapping vars src sub tgt (mA m) ->
  (forall i, (i < c_size src)%nat -> 0 < row_weight sqrtf r scal i) -> single_to_double src tgt ->
  (rows_hold v_size mapping vars tgt (run v_size V tgt g (runs v_size tgt g Vs m)) x <->
   satisfied v_size src V (completed v_size sub V x) /\ far_side v_size big src tgt sub V x).
Proof.
  intros L R G D K C P H. pose proof (construct_sound _ _ _ _ _ _ _ _ _ _ K) as S.
  eapply feasible_far; eauto.
  - eapply clean_runs; eauto.
  - intros i I. rewrite (construct_wt _ _ _ _ _ _ _ _ _ _ i D K). auto.
Qed.

Lemma opposite_none sqrtf big v_size vars mapping src tgt sub r scal g Vs V m x :
  layout v_size vars mapping -> resolved src sub -> agrees v_size src sub V -> default_one sqrtf r ->
  construct sqrtf big v_size mapping src tgt sub r scal = Ok g ->
  clean v_size mapping vars src sub tgt (mA m) ->
  (forall i, (i < c_size src)%nat -> 0 < row_weight sqrtf r scal i) -> single_to_double src tgt -> t_rhs tgt = OPPOSITE ->
  (exists i, (i < c_size src)%nat /\
     - big < lhs v_size V (c_vars src) (completed v_size sub V x) i - lhs v_size V (c_vars src) (completed v_size sub V origin) i < big) ->
  ~ rows_hold v_size mapping vars tgt (run v_size V tgt g (runs v_size tgt g Vs m)) x.
Proof.
  intros L R G D K C P H O (i & I & N) RH. apply (far_construct sqrtf big v_size vars mapping src tgt sub r scal g Vs V m x) in RH; auto.
  destruct RH as [_ FS]. specialize (FS i I). cbv zeta in FS. rewrite O in FS. unfold rsign in FS.
  destruct H as [[E|E] _]; rewrite E in FS; lra.
Qed.
