(* The theorems on assignments. *)
Require Import QArith Qminmax List Arith Bool Lia Lqa.
Require Import Verif.Base Verif.QSum Verif.AssignModel Verif.AssignSpec Verif.AssignProofs Verif.AssignProofs2 Verif.AssignProofs3 Verif.AssignProofs4 Verif.AssignProofs5.
Import ListNotations.
Local Open Scope Q_scope.

Lemma weighted big v_size vars mapping src tgt sub V g m :
  layout v_size vars mapping -> resolved src sub -> agrees v_size src sub V -> sound big v_size mapping src tgt sub g ->
  clean v_size mapping vars src sub tgt (mA m) ->
  weighted_rows v_size mapping vars src tgt sub (wt g) V (run v_size V tgt g m).
Proof.
  intros L R G S C i x I. pose proof (facts big v_size vars mapping src tgt sub V g L R G S i m x C I) as FT.
  assert (K : forall v f flip r0, slotfact v_size vars mapping src tgt sub V g v f flip r0 i m x ->
    rowval v_size mapping vars (mA (run v_size V tgt g m)) x (r0 + i)%nat - rsign (t_rhs tgt) * vget v (run v_size V tgt g m) (r0 + i)%nat
    == sg flip * wt g i * (lhs v_size V (c_vars src) (completed v_size sub V x) i - rsign (c_rhs src) * rhsVal V f i)).
  { intros v f flip r0 [A B]. rewrite A, B. unfold X, F, wt. ring. }
  unfold rowfacts in FT. cbv zeta in *.
  destruct (c_type src), (t_type tgt); try exact FT; try (exact (K _ _ _ _ FT)); try (exact (K _ _ _ _ (proj1 FT)));
   split; first [exact (K _ _ _ _ (proj1 FT)) | exact (K _ _ _ _ (proj2 FT))].
Qed.
Lemma weighted_ext v_size mapping vars src tgt sub w w' V m : (forall i, w i == w' i) ->
  weighted_rows v_size mapping vars src tgt sub w V m -> weighted_rows v_size mapping vars src tgt sub w' V m.
Proof.
  intros E H i x I. specialize (H i x I). cbv zeta in *. destruct (c_type src), (t_type tgt); rewrite <- ?(E i); exact H.
Qed.
Lemma weighted_construct sqrtf big v_size vars mapping src tgt sub r scal g Vs V m :
  layout v_size vars mapping -> resolved src sub -> agrees v_size src sub V -> default_one sqrtf r ->
  construct sqrtf big v_size mapping src tgt sub r scal = Ok g ->
  clean v_size mapping vars src sub tgt (mA m) ->
  weighted_rows v_size mapping vars src tgt sub (row_weight sqrtf r scal) V (run v_size V tgt g (runs v_size tgt g Vs m)).
Proof.
  intros L R G D K C. pose proof (construct_sound _ _ _ _ _ _ _ _ _ _ K) as S.
  eapply weighted_ext; [intros i; eapply construct_wt; eauto|]. eapply weighted; eauto. eapply clean_runs; eauto.
Qed.
Lemma life_inv sqrtf big v_size vars mapping src tgt sub scal : layout v_size vars mapping ->
  forall h q g m g' m', winv sqrtf big v_size mapping src tgt sub scal q g -> clean v_size mapping vars src sub tgt (mA m) ->
  proper_hist sqrtf q (map fst h) -> life sqrtf big v_size mapping src tgt sub scal h g m = Ok (g', m') ->
  winv sqrtf big v_size mapping src tgt sub scal (last_req q (map fst h)) g' /\ clean v_size mapping vars src sub tgt (mA m').
Proof.
  intros L. induction h as [|[[[q' sc] ve] Vs] h IH]; simpl; intros q g m g' m' W C P H.
  - injection H as <- <-. auto.
  - destruct P as (P1 & P2 & P3).
    destruct (updateWeights sqrtf big v_size mapping src tgt sub q' scal sc ve g) as [g1| |] eqn:E; simpl in H; try discriminate.
    assert (W1 : winv sqrtf big v_size mapping src tgt sub scal q' g1) by (eapply winv_step; eauto).
    eapply IH; [exact W1| |exact P3|exact H]. eapply clean_runs; eauto. apply W1.
Qed.
Lemma weighted_life sqrtf big v_size vars mapping src tgt sub q scal g0 h g Vs V m0 m :
  layout v_size vars mapping -> resolved src sub -> agrees v_size src sub V -> default_one sqrtf (Some q) ->
  construct sqrtf big v_size mapping src tgt sub (Some q) scal = Ok g0 ->
  clean v_size mapping vars src sub tgt (mA m0) -> proper_hist sqrtf q (map fst h) ->
  life sqrtf big v_size mapping src tgt sub scal h g0 (runs v_size tgt g0 Vs m0) = Ok (g, m) ->
  weighted_rows v_size mapping vars src tgt sub (row_weight sqrtf (Some (last_req q (map fst h))) scal) V (run v_size V tgt g m).
Proof.
  intros L R G D K C P H. pose proof (construct_sound _ _ _ _ _ _ _ _ _ _ K) as S.
  assert (W : winv sqrtf big v_size mapping src tgt sub scal q g0) by (eapply winv_construct; eauto).
  destruct (life_inv sqrtf big v_size vars mapping src tgt sub scal L h q g0 _ g m W (clean_runs _ _ _ _ _ _ _ _ Vs m0 L S C) P H) as [W1 C1].
  eapply weighted_ext; [intros i; eapply winv_wt; exact W1|]. eapply weighted; eauto. apply W1.
Qed.

Lemma feasible_construct sqrtf big v_size vars mapping src tgt sub r scal g Vs V m x :
  layout v_size vars mapping -> resolved src sub -> agrees v_size src sub V -> default_one sqrtf r ->
  construct sqrtf big v_size mapping src tgt sub r scal = Ok g ->
  clean v_size mapping vars src sub tgt (mA m) ->
  (forall i, (i < c_size src)%nat -> 0 < row_weight sqrtf r scal i) ->
  (single_to_double src tgt -> t_rhs tgt = AS_GIVEN /\ forall i, (i < c_size src)%nat ->
     - big <= lhs v_size V (c_vars src) (completed v_size sub V x) i - lhs v_size V (c_vars src) (completed v_size sub V origin) i <= big) ->
  (rows_hold v_size mapping vars tgt (run v_size V tgt g (runs v_size tgt g Vs m)) x <-> satisfied v_size src V (completed v_size sub V x)).
Proof.
  intros L R G D K C P H. pose proof (construct_sound _ _ _ _ _ _ _ _ _ _ K) as S.
  eapply feasible; eauto.
  - eapply clean_runs; eauto.
  - intros i I. rewrite (construct_wt _ _ _ _ _ _ _ _ _ _ i D K). auto.
Qed.

Lemma lhs_origin v_size V vars i : lhs v_size V vars origin i == 0.
Proof. unfold lhs. apply qsum_zero. intros y _. apply qsumn_zero. intros k _. unfold origin. ring. Qed.
Lemma feasible_plain sqrtf big v_size vars mapping src tgt r scal g Vs V m x :
  layout v_size vars mapping -> NoDup (c_vars src) -> agrees v_size src [] V -> default_one sqrtf r ->
  construct sqrtf big v_size mapping src tgt [] r scal = Ok g ->
  clean v_size mapping vars src [] tgt (mA m) ->
  (forall i, (i < c_size src)%nat -> 0 < row_weight sqrtf r scal i) ->
  (single_to_double src tgt -> t_rhs tgt = AS_GIVEN /\ forall i, (i < c_size src)%nat -> - big <= lhs v_size V (c_vars src) x i <= big) ->
  (rows_hold v_size mapping vars tgt (run v_size V tgt g (runs v_size tgt g Vs m)) x <-> satisfied v_size src V x).
Proof.
  intros L ND G D K C P H.
  apply (feasible_construct sqrtf big v_size vars mapping src tgt [] r scal g Vs V m x); auto.
  - split; [auto|]. intros y u F. discriminate F.
  - intros SD. destruct (H SD) as [A B]. split; [exact A|]. intros i I. specialize (B i I).
    change (completed v_size [] V origin) with origin. change (completed v_size [] V x) with x.
    pose proof (lhs_origin v_size V (c_vars src) i). lra.
Qed.

(* which constructions are accepted *)
Lemma checkTarget_spec src tgt sub :
  checkTarget src tgt sub = Ok tt <-> compatible src tgt (existsb (fun s => s_bnz (snd s)) sub).
Proof.
  unfold checkTarget, compatible. destruct (existsb (fun s => s_bnz (snd s)) sub) eqn:B.
  - destruct (c_type src), (t_type tgt), (c_rhs src), (t_rhs tgt); cbn [ct_eqb rhs_eqb andb orb negb];
    try destruct (Nat.eqb_spec (t_dim tgt) (2 * c_size src)); try destruct (Nat.eqb_spec (t_dim tgt) (c_size src));
    split; intros H; try discriminate; try reflexivity;
    try (split; [split; intros; intuition congruence|split; [intros; discriminate|assumption]]);
    exfalso; destruct H as ((H1 & H1') & H2 & H3); intuition congruence.
  - destruct (c_type src), (t_type tgt), (c_rhs src), (t_rhs tgt); cbn [ct_eqb rhs_eqb andb orb negb];
    try destruct (Nat.eqb_spec (t_dim tgt) (2 * c_size src)); try destruct (Nat.eqb_spec (t_dim tgt) (c_size src));
    split; intros H; try discriminate; try reflexivity;
    try (split; [split; intros; intuition congruence|split; [intros [K|K]; congruence || discriminate|assumption]]);
    exfalso; destruct H as ((H1 & H1') & H2 & H3); intuition congruence.
Qed.

Definition isOk {A} (r : res A) : Prop := exists a, r = Ok a.
Lemma zeros_ok v_size mapping src M : forall l x,
  isOk (zeros v_size mapping src M l x) <-> forall y, In y l -> ~ In y (c_vars src) -> mapping y <> None.
Proof.
  induction l as [|y l IH]; intros x; simpl.
  - split; [intros _ y []|intros _; eexists; reflexivity].
  - destruct (existsb (Nat.eqb y) (c_vars src)) eqn:E.
    + rewrite IH. apply existsb_exists in E as (y' & I & E'). apply Nat.eqb_eq in E'; subst y'.
      split; intros H z; [intros [<-|Z] N; [contradiction|apply H; auto]|intros; apply H; auto].
    + assert (N : ~ In y (c_vars src)).
      { intros I. assert (K : existsb (Nat.eqb y) (c_vars src) = true) by (apply existsb_exists; exists y; split; [auto|apply Nat.eqb_refl]). congruence. }
      unfold addZero, cols. destruct (mapping y) eqn:My; simpl.
      * rewrite IH. split; intros H z; [intros [<-|Z] NZ; [congruence|apply H; auto]|intros; apply H; auto].
      * split; [intros [a A]; discriminate A|]. intros H. exfalso. apply (H y); auto.
Qed.
Lemma addMatrixSubs_ok v_size mapping src defS defA y M flip : forall ys x,
  isOk (addMatrixSubs v_size mapping src defS defA y M ys flip x) <-> forall z, In z ys -> mapping z <> None.
Proof.
  induction ys as [|z ys IH]; intros x; simpl.
  - split; [intros _ z []|intros _; eexists; reflexivity].
  - unfold cols. destruct (mapping z) eqn:Mz; simpl.
    + rewrite IH. split; intros H w; [intros [<-|W]; [congruence|apply H; auto]|intros; apply H; auto].
    + split; [intros [a A]; discriminate A|]. intros H. exfalso. apply (H z); auto.
Qed.
Lemma perVar_ok v_size mapping src tgt sub defS defA M v1 v2 flip : forall xs x,
  isOk (perVar v_size mapping src tgt sub defS defA M v1 v2 flip xs x) <->
  forall y, In y xs -> v_size y <> 0%nat ->
    match findSub y sub with None => mapping y <> None | Some u => forall z, In z (s_vars u) -> mapping z <> None end.
Proof.
  induction xs as [|y xs IH]; intros x; simpl.
  - split; [intros _ y []|intros _; eexists; reflexivity].
  - destruct (Nat.eqb_spec (v_size y) 0) as [Z|Z].
    + rewrite IH. split; intros H z; [intros [<-|W] N; [contradiction|apply H; auto]|intros; apply H; auto].
    + destruct (findSub y sub) as [u|] eqn:F.
      * pose proof (addMatrixSubs_ok v_size mapping src defS defA y M flip (s_vars u) x) as AS.
        destruct (addMatrixSubs v_size mapping src defS defA y M (s_vars u) flip x) as [x1| |] eqn:E; simpl.
        -- rewrite IH. assert (AS' : forall z, In z (s_vars u) -> mapping z <> None) by (apply AS; eexists; reflexivity).
           split; intros H z; [intros [<-|W] N; [rewrite F; exact AS'|apply H; auto]|intros; apply H; auto].
        -- split; [intros [a A]; discriminate A|]. intros H. specialize (H y (or_introl eq_refl) Z). rewrite F in H.
           apply AS in H. destruct H as [a A]. discriminate A.
        -- split; [intros [a A]; discriminate A|]. intros H. specialize (H y (or_introl eq_refl) Z). rewrite F in H.
           apply AS in H. destruct H as [a A]. discriminate A.
      * unfold addMatrix, cols. destruct (mapping y) eqn:My; simpl.
        -- rewrite IH. split; intros H z; [intros [<-|W] N; [rewrite F; congruence|apply H; auto]|intros; apply H; auto].
        -- split; [intros [a A]; discriminate A|]. intros H. exfalso. specialize (H y (or_introl eq_refl) Z). rewrite F in H. auto.
Qed.
Lemma fold_into_in w : forall l y, In y l \/ In y w -> In y (fold_left (fun l y => if existsb (Nat.eqb y) l then l else l ++ [y]) w l).
Proof.
  induction w as [|a w IH]; simpl; intros l y H; [destruct H as [H|[]]; auto|]. apply IH.
  destruct (existsb (Nat.eqb a) l) eqn:E.
  - apply existsb_exists in E as (b & I & E'). apply Nat.eqb_eq in E'; subst b. destruct H as [H|[<-|H]]; auto.
  - rewrite in_app_iff. simpl. tauto.
Qed.
Lemma substInto_in sub : forall xs l y, In y (substInto sub xs l) <->
  In y l \/ exists z u, In z xs /\ findSub z sub = Some u /\ In y (s_vars u).
Proof.
  induction xs as [|x xs IH]; intros l y; simpl.
  - split; [auto|intros [H|(z & u & [] & _)]; auto].
  - rewrite IH. destruct (findSub x sub) as [u|] eqn:F.
    + split.
      * intros [H|(z & w & Z & W)]; [|right; exists z, w; tauto].
        apply fold_into in H as [H|H]; [auto|right; exists x, u; auto].
      * intros [H|(z & w & [<-|Z] & W & I)]; [left; apply fold_into_in; auto| |right; exists z, w; auto].
        left. apply fold_into_in. right. congruence.
    + split; [intros [H|(z & w & Z & W)]; [auto|right; exists z, w; tauto]|].
      intros [H|(z & w & [<-|Z] & W & I)]; [auto|congruence|right; exists z, w; auto].
Qed.
Lemma addAssignments_ok v_size mapping src tgt sub defS defA M f1 v1 fv2 flip x :
  isOk (addAssignments v_size mapping src tgt sub defS defA M f1 v1 fv2 flip x) <-> has_columns v_size mapping src sub.
Proof.
  unfold addAssignments. set (x2 := match fv2 with Some (f2, v2) => _ | None => _ end).
  pose proof (zeros_ok v_size mapping src M (substInto sub (c_vars src) []) x2) as Z.
  assert (Z' : (forall y, In y (substInto sub (c_vars src) []) -> ~ In y (c_vars src) -> mapping y <> None) <->
               forall z u y, In z (c_vars src) -> findSub z sub = Some u -> In y (s_vars u) -> ~ In y (c_vars src) -> mapping y <> None).
  { split; intros H.
    - intros z u y I F S N. apply H; [|exact N]. apply substInto_in. right. exists z, u. auto.
    - intros y I N. apply substInto_in in I as [[]|(z & u & I & F & S)]. eapply H; eauto. }
  rewrite Z' in Z. clear Z'. unfold has_columns.
  destruct (zeros v_size mapping src M (substInto sub (c_vars src) []) x2) as [x3| |] eqn:E; simpl.
  - rewrite perVar_ok. assert (Z1 := proj1 Z (ex_intro _ _ eq_refl)). split.
    + intros H. split; [|split]; [|exact Z1|].
      * intros y I F N. specialize (H y I N). rewrite F in H. exact H.
      * intros z u y I F S N. specialize (H z I N). rewrite F in H. auto.
    + intros (H1 & _ & H3) y I N. destruct (findSub y sub) eqn:F; [intros z S; eapply H3; eauto|auto].
  - split; [intros [a A]; discriminate A|]. intros (_ & H & _). apply Z in H as [a A]. discriminate A.
  - split; [intros [a A]; discriminate A|]. intros (_ & H & _). apply Z in H as [a A]. discriminate A.
Qed.
Lemma build_ok big v_size mapping src tgt sub defS defA : checkTarget src tgt sub = Ok tt ->
  (isOk (buildLists big v_size mapping src tgt sub defS defA) <-> has_columns v_size mapping src sub).
Proof.
  intros C. unfold buildLists.
  assert (Bd : forall (r : res acc) (k : acc -> res acc) P, (isOk r <-> P) -> (forall a, P -> isOk (k a)) -> (isOk (do a <- r; k a) <-> P)).
  { intros r k P H K. destruct r as [a| |]; simpl.
    - assert (HP : P) by (apply H; eexists; reflexivity). split; auto.
    - split; [intros [a A]; discriminate A|]. intros HP. apply H in HP as [a A]. discriminate A.
    - split; [intros [a A]; discriminate A|]. intros HP. apply H in HP as [a A]. discriminate A. }
  destruct (c_type src) eqn:CT, (t_type tgt) eqn:TT; simpl ct_eqb; cbv iota; try apply addAssignments_ok;
  try (exfalso; unfold checkTarget in C; rewrite CT, TT in C; discriminate C);
  apply Bd; try apply addAssignments_ok; intros a P; try (apply addAssignments_ok; exact P); eexists; reflexivity.
Qed.
Lemma construct_ok sqrtf big v_size mapping src tgt sub r scal :
  isOk (construct sqrtf big v_size mapping src tgt sub r scal) <->
  compatible src tgt (existsb (fun s => s_bnz (snd s)) sub) /\ has_columns v_size mapping src sub.
Proof.
  rewrite <- checkTarget_spec. unfold construct. destruct (checkTarget src tgt sub) as [[]| |] eqn:C; simpl.
  2, 3: split; [intros [a A]; discriminate A|intros [A _]; discriminate A].
  destruct (processReq sqrtf r scal) as [[dS dA] w].
  rewrite <- (build_ok big v_size mapping src tgt sub dS dA C).
  destruct (buildLists big v_size mapping src tgt sub dS dA) as [[[[m ms] v] vs]| |] eqn:B; simpl.
  - split; [intros _; split; [auto|eexists; reflexivity]|intros _; eexists; reflexivity].
  - split; [intros [a A]; discriminate A|intros [_ [a A]]; discriminate A].
  - split; [intros [a A]; discriminate A|intros [_ [a A]]; discriminate A].
Qed.
