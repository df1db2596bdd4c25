(* C27: the invariant of histories where same_product does not happen. *)
From Coq Require Import List Bool Arith Permutation Lia.
Import ListNotations.
From Verif Require Import Base SolverModel SolverSpec SolverProofs SolverProofs2 SolverProofs3.

Definition ShapeP (k : kind) (P : prob) (s : store) : Prop :=
  Shape k (totalSize (q_vars P)) (sumSizes c_size (q_objs P)) (sumSizes (constraintSize k) (q_eqs P))
        (sumSizes (constraintSize k) (q_ineqs P)) (negb (isNil (q_bnds P))) s.

Lemma arows_ar k P : arows k P =
  ar k (sumSizes (constraintSize k) (q_eqs P)) (sumSizes (constraintSize k) (q_ineqs P))
     (negb (isNil (q_bnds P))) (totalSize (q_vars P)).
Proof.
  unfold arows, ar, extra_rows. rewrite (filter_part_sum _ c_eq (q_cstrs P)).
  fold (q_eqs P) (q_ineqs P). destruct k; simpl; try lia. destruct (isNil (q_bnds P)); simpl; lia.
Qed.

Lemma in_totalSize v vs : In v vs -> v_size v <= totalSize vs.
Proof.
  unfold totalSize. induction vs; simpl; [tauto|]. intros [->|I]; [lia|]. specialize (IHvs I). lia.
Qed.

Lemma without_isNil l r : isNil l = true -> isNil (without l r) = true.
Proof. destruct l; [auto|discriminate]. Qed.

Lemma process_Sync k vs ev P st st' :
  Rest k P st -> st_nObj st = st_objSize st -> wf_prob P -> wf_events P vs ev ->
  wf_prob (after P vs ev) -> process k vs ev st = Ok st' ->
  ShapeP k P (st_store st) ->
  ShapeP k (after P vs ev) (st_store st') /\
  (~ same_product k P vs ev -> Sync k st -> Sync k st').
Proof.
  intros R NO W WE W' H Sh.
  destruct (process_split _ _ _ _ _ _ R NO W WE H) as (st5 & st6 & impR & Bf & (st4' & RT & E5) & PA).
  destruct Bf as (st4 & s & RS & E5' & M & C1 & C2 & C3 & MN & BD & J1 & J2 & J3 & J4).
  assert (EI : mid_imp k ev st4' = mid_imp k ev st4).
  { subst st5. simpl in E5. unfold mid_imp, impactAdd.
    assert (st_nEq st4' = st_nEq st4 /\ st_eqSize st4' = st_eqSize st4 /\ st_nIneq st4' = st_nIneq st4
            /\ st_ineqSize st4' = st_ineqSize st4) as (-> & -> & -> & ->).
    { unfold setStore in E5. injection E5. intros. repeat split; auto. }
    reflexivity. }
  rewrite EI in RT. clear E5 EI st4'.
  destruct (retarget_Lay _ _ _ _ _ _ _ _ _ _ M RT) as (L6 & _ & V & S & _ & _).
  destruct (filter_app_both P vs ev) as [FE FI].
  pose proof (wf_eids _ W') as NE. pose proof (wf_iids _ W') as NI. rewrite FE in NE. rewrite FI in NI.
  pose proof W' as WW. destruct WW as [_ W2 W3 W4 _ _ _ W8 _]. simpl in W2, W3, W4, W8.
  assert (F8 : Forall (fun c => c_eq c = true -> c_double c = false) (ev_addC ev)).
  { rewrite Forall_app in W8. tauto. }
  destruct (processAdded_Lay _ _ _ _ _ _ _ _ L6 PA F8 NE NI W3 W4) as (_ & _ & V7 & S7 & _ & _).
  pose proof M as M'. destruct M' as [meq mineq mbnd mobj mes mis mos _ _ _ _ _].
  subst st5. simpl in meq, mineq, mbnd, mobj, mes, mis, mos, V, S.
  set (n := totalSize vs) in *.
  set (e := st_nEq st4) in *. set (i := st_nIneq st4) in *. set (o := st_nObj st4) in *.
  set (u := negb (isNil (st_bnd st4)) || negb (isNil (ev_addB ev))) in *.
  assert (He' : e = sumSizes (constraintSize k) (q_eqs (after P vs ev))).
  { rewrite FE, sumSizes_app. lia. }
  assert (Hi' : i = sumSizes (constraintSize k) (q_ineqs (after P vs ev))).
  { rewrite FI, sumSizes_app. lia. }
  assert (Ho' : o = sumSizes c_size (q_objs (after P vs ev))).
  { simpl. rewrite sumSizes_app. lia. }
  assert (Hu' : u = negb (isNil (q_bnds (after P vs ev)))).
  { simpl. unfold u. rewrite isNil_app, (good_isNil _ _ _ mbnd). now rewrite negb_andb. }
  assert (SH' : ShapeP k (after P vs ev) s).
  { unfold ShapeP. rewrite <- He', <- Hi', <- Ho', <- Hu'. simpl q_vars. fold n.
    replace s with (fst (resize_ k n o e i u (st_store st))) by now rewrite RS.
    apply resize_Shape. }
  split; [now rewrite S7, S|].
  intros NS [Y1 Y2 Y3 Y4].
  set (n0 := totalSize (q_vars P)). set (o0 := sumSizes c_size (q_objs P)).
  set (e0 := sumSizes (constraintSize k) (q_eqs P)). set (i0 := sumSizes (constraintSize k) (q_ineqs P)).
  set (u0 := negb (isNil (q_bnds P))).
  unfold ShapeP in Sh. fold n0 o0 e0 i0 u0 in Sh.
  pose proof (r_lay _ _ _ R) as LA. pose proof (r_vars _ _ _ R) as RV.
  set (imp := mid_imp k ev st4) in *.
  assert (He : i_eq imp = false -> e = e0).
  { intros F. apply imp_eq_false in F. destruct F as [F1 F2]. fold e in F2. rewrite F2, mes.
    rewrite F1, without_nil. auto. }
  assert (Hi : i_ineq imp = false -> e = e0 /\ i = i0).
  { intros F. apply imp_ineq_false in F. destruct F as (F1 & F2 & F3). fold e in F2. fold i in F3.
    rewrite F1, without_nil in mes, mis. unfold e0, i0. split; congruence. }
  assert (Ho : i_obj imp = false -> o = o0).
  { intros F. apply imp_obj_false in F. destruct F as [F1 F2]. rewrite F1, without_nil in mos.
    rewrite F2 in C3. unfold o0. unfold sumSizes at 1 in C3. simpl in C3. lia. }
  assert (NSe : separate k = true -> i_eq imp = false -> q_eqs P <> [] ->
                ar k e i u n * n = ar k e0 i0 u0 n0 * n0 -> ar k e i u n = ar k e0 i0 u0 n0 /\ n = n0).
  { intros Sp F NN Pr. pose proof (imp_eq_false _ _ _ F) as [F1 F2].
    assert (D : {ar k e i u n = ar k e0 i0 u0 n0 /\ n = n0} + {~ (ar k e i u n = ar k e0 i0 u0 n0 /\ n = n0)}).
    { destruct (Nat.eq_dec (ar k e i u n) (ar k e0 i0 u0 n0)), (Nat.eq_dec n n0); tauto. }
    destruct D as [D|D]; auto. exfalso. apply NS. unfold same_product. cbv zeta.
    rewrite !arows_ar. rewrite <- He', <- Hi', <- Hu'. simpl q_vars. fold n n0 e0 i0 u0.
    split; [destruct k; auto; discriminate|]. split; auto. split; [fold e in F2; lia|].
    split; auto. split; auto. intros Q. injection Q. auto. }
  assert (NSi : separate k = true -> i_ineq imp = false -> q_ineqs P <> [] ->
                ar k e i u n * n = ar k e0 i0 u0 n0 * n0 -> ar k e i u n = ar k e0 i0 u0 n0 /\ n = n0).
  { intros Sp F NN Pr. pose proof (imp_ineq_false _ _ _ F) as (F1 & F2 & F3).
    assert (D : {ar k e i u n = ar k e0 i0 u0 n0 /\ n = n0} + {~ (ar k e i u n = ar k e0 i0 u0 n0 /\ n = n0)}).
    { destruct (Nat.eq_dec (ar k e i u n) (ar k e0 i0 u0 n0)), (Nat.eq_dec n n0); tauto. }
    destruct D as [D|D]; auto. exfalso. apply NS. unfold same_product. cbv zeta.
    rewrite !arows_ar. rewrite <- He', <- Hi', <- Hu'. simpl q_vars. fold n n0 e0 i0 u0.
    split; [destruct k; auto; discriminate|]. split; auto. split; [fold e in F2; lia|].
    split; [right; split; auto; fold i in F3; lia|]. split; auto. intros Q. injection Q. auto. }
  apply (Sync_processAdded k ev st6); auto.
  eapply (retarget_Sync k imp impR (ev_var ev) (q_vars P) (st_store st) (setStore vs s st4)); [exact mbnd| | | | | | |exact RT].
  - simpl. rewrite <- RV. eapply incl_Forall; [exact J1|exact Y1].
  - simpl. rewrite <- RV. eapply incl_Forall; [exact J2|exact Y2].
  - simpl. rewrite <- RV. eapply incl_Forall; [exact J3|exact Y3].
  - simpl. rewrite <- RV. eapply incl_Forall; [exact J4|exact Y4].
  - simpl. apply WE.
  - constructor; simpl.
    + intros F a Ia Da. apply J1 in Ia.
      pose proof (good_dim_le _ _ _ _ (l_eq _ _ _ _ _ _ LA) Ia).
      eapply (data_eq k n0 o0 e0 i0 n o e i u0 u); eauto. unfold e0; lia.
      intros. apply NSe; auto. eapply good_in_nonnil; [apply (l_eq _ _ _ _ _ _ LA)|eauto].
    + intros F a Ia Da. apply J2 in Ia.
      pose proof (good_dim_le _ _ _ _ (l_ineq _ _ _ _ _ _ LA) Ia).
      eapply (data_ineq k n0 o0 e0 i0 n o e i u0 u); eauto. unfold i0; lia.
      intros. apply NSi; auto. eapply good_in_nonnil; [apply (l_ineq _ _ _ _ _ _ LA)|eauto].
    + intros F a Ia Da. pose proof (good_in_nonnil _ _ _ _ mbnd Ia) as N1. apply J3 in Ia.
      pose proof (good_in_nonnil _ _ _ _ (l_bnd _ _ _ _ _ _ LA) Ia) as N2.
      eapply (data_bnd k n0 o0 e0 i0 n o e i u0 u); eauto.
      * pose proof (good_dims _ _ _ (l_bnd _ _ _ _ _ _ LA)) as Fd. rewrite Forall_forall in Fd. rewrite (Fd _ Ia) in Da.
        assert (Ib : In (a_c a) (q_bnds P)).
        { eapply Permutation_in; [apply (good_asgs _ _ _ (l_bnd _ _ _ _ _ _ LA))|]. now apply in_map. }
        pose proof (wf_bon _ W) as Fb. rewrite Forall_forall in Fb. destruct (Fb _ Ib) as (v & Ev & Iv).
        unfold bdim in Da. rewrite Ev in Da. apply in_totalSize in Iv. unfold n0. lia.
      * assert (u0 = true) by (unfold u0; destruct (q_bnds P); [congruence|auto]).
        assert (u = true). { unfold u. rewrite (good_isNil _ _ _ mbnd). destruct (without (q_bnds P) (ev_remB ev)); [congruence|auto]. }
        destruct k; auto.
    + intros F a Ia Da. apply J4 in Ia.
      pose proof (good_dim_le _ _ _ _ (l_obj _ _ _ _ _ _ LA) Ia).
      eapply (data_obj k n0 o0 e0 i0 n o e i u0 u); eauto. unfold o0; lia.
Qed.

Lemma safe_history k P st : history_safe k P st -> history k P st.
Proof. induction 1; [eapply h_build; eauto|eapply h_process; eauto]. Qed.

Lemma history_Shape k P st : history k P st -> ShapeP k P (st_store st).
Proof.
  induction 1.
  - destruct (build_Rest _ _ _ _ H H0) as (_ & _ & _ & ->). apply resize_Shape.
  - destruct (history_Rest _ _ _ H) as (A & B & C).
    eapply process_Sync; eauto. eapply history_wf; eauto.
Qed.
Lemma history_Sync k P st : history_safe k P st -> Sync k st.
Proof.
  induction 1; [eapply Sync_build; eauto|].
  pose proof (safe_history _ _ _ H) as H'.
  destruct (history_Rest _ _ _ H') as (A & B & C).
  eapply process_Sync; eauto. eapply history_wf; eauto. apply history_Shape in H'. auto.
Qed.

(* ---- C26 ---- *)
Lemma history_fill k P st : history k P st -> constraints_fill k st /\ objectives_fill st.
Proof.
  intros H. destruct (history_Rest _ _ _ H) as (R & B & _).
  destruct R as [[_ _ _ _ _ _ _ tc to] _ r1 r2 _]. unfold constraints_fill, objectives_fill.
  rewrite r1, r2, B. split; [|now apply tiling_fill].
  destruct k; simpl in tc; try (destruct tc; split); now apply tiling_fill.
Qed.

Lemma history_rows k P st : history k P st ->
  o_rows (mCstr (st_store st)) = st_nEq st + st_nIneq st + extra_rows k P /\
  st_nEq st = sumSizes (constraintSize k) (q_eqs P) /\
  st_nIneq st = sumSizes (constraintSize k) (q_ineqs P) /\
  st_nObj st = sumSizes c_size (q_objs P).
Proof.
  intros H. destruct (history_Rest _ _ _ H) as (R & B & _).
  destruct R as [[_ _ _ _ s1 s2 s3 _ _] _ r1 r2 _]. pose proof (history_Shape _ _ _ H) as S.
  rewrite r1, r2, B, s1, s2, s3. split; auto. unfold ShapeP, Shape in S. unfold extra_rows.
  destruct k; destruct S as [_ S].
  - destruct S as (_ & _ & [S _] & _). lia.
  - destruct S as (_ & _ & [S _] & _). rewrite S. destruct (isNil (q_bnds P)); simpl; lia.
  - destruct S as (_ & _ & [S _] & _). lia.
  - destruct S as (_ & [S _] & _). lia.
Qed.
