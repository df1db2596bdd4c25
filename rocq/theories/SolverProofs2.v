(* C26: process re-establishes the layout. *)
From Coq Require Import List Bool Arith Permutation Lia.
Import ListNotations.
From Verif Require Import Base SolverModel SolverSpec SolverProofs.

Lemma ranges_mmap f m : (forall a, a_start (f a) = a_start a /\ a_dim (f a) = a_dim a) ->
  ranges (mmap f m) = ranges m.
Proof.
  intros Hf. unfold ranges, asgs, mmap. induction m as [|[c l] m IH]; simpl; auto.
  rewrite !map_app. f_equal; auto. rewrite map_map. apply map_ext. intros a. destruct (Hf a); congruence.
Qed.
Lemma ranges_mmapR f m m' : mmapR f m = Ok m' ->
  (forall a b, f a = Ok b -> a_start b = a_start a /\ a_dim b = a_dim a) -> ranges m' = ranges m.
Proof.
  intros H Hf. apply traverse_ok in H. unfold ranges, asgs.
  induction H as [|p q m m' E H IH]; simpl; auto. rewrite !map_app, IH. f_equal.
  inv_bind E. inversion E; subst; simpl. apply traverse_ok in E0. clear -E0 Hf.
  induction E0; simpl; auto. destruct (Hf _ _ H). f_equal; auto; congruence.
Qed.

Lemma onUpdatedMapping_keep vs a b : onUpdatedMapping vs a = Ok b ->
  a_c b = a_c a /\ a_dim b = a_dim a /\ a_start b = a_start a.
Proof.
  unfold onUpdatedMapping. destruct (d_mat (a_data a)); intros H.
  - inv_bind H. inversion H; subst; auto.
  - inversion H; subst; auto.
Qed.
Lemma onUpdatedTarget_keep a b : onUpdatedTarget a = Ok b ->
  a_c b = a_c a /\ a_dim b = a_dim a /\ a_start b = a_start a.
Proof.
  unfold onUpdatedTarget. destruct (d_mat (a_data a)), (c_diag (a_c a)); intros H; inversion H; subst; auto.
Qed.

Lemma reRange_spec next size off : (forall a c, next a c = off + a) -> forall m cum m' cum' cs,
  good size m cs -> reRange next size m cum = (m', cum') ->
  cum' = cum + sumSizes size (map fst m) /\ good size m' cs /\
  chain (off + cum) (ranges m') (off + cum').
Proof.
  intros Hn m cum m' cum' cs [P F] H.
  assert (cum' = cum + sumSizes size (map fst m) /\ map fst m' = map fst m /\ Forall (okEntry size) m' /\
          chain (off + cum) (ranges m') (off + cum')) as (A1 & A2 & A3 & A4).
  { clear P cs. revert cum m' cum' H. induction F as [|[c l] m Q F IH]; simpl; intros cum m' cum' H.
    - inversion H; subst. simpl. unfold sumSizes; simpl. auto.
    - destruct (reRange next size m (cum + size c)) as [m1 c1] eqn:R. inversion H; subst; clear H.
      destruct (IH _ _ _ R) as (E1 & E2 & E3 & E4). destruct Q as (a & Q1 & Q2 & Q3). simpl in *. subst l.
      rewrite sumSizes_cons. split; [lia|]. split; [congruence|]. split.
      + constructor; auto. exists (setStart (next cum c) a). simpl. auto.
      + simpl. unfold ranges in E4. split; [rewrite Hn; auto|]. simpl. rewrite Q3.
        replace (off + cum + size c) with (off + (cum + size c)) by lia. exact E4. }
  split; auto. split; auto. split; auto. now rewrite A2.
Qed.

Lemma reRangeB_good vs m m' cs : good bdim m cs -> reRangeB vs m = Ok m' -> good bdim m' cs.
Proof.
  intros [P F] H. unfold reRangeB in H. apply traverse_ok in H.
  assert (map fst m' = map fst m /\ Forall (okEntry bdim) m') as [A1 A2].
  { clear P. revert F. induction H as [|p q m m' E H IH]; intros F; auto. inversion F; subst.
    destruct (IH H3). destruct (c_vars (fst p)) eqn:V; [discriminate|]. inv_bind E. inversion E; subst; simpl.
    split; [congruence|]. constructor; auto. destruct H2 as (a & Q1 & Q2 & Q3).
    exists (setStart x a). simpl. rewrite Q1. auto. }
  split; auto. now rewrite A1.
Qed.

Record Mid (k : kind) (E I B O : list cstr) (imp : impact) (st : state) : Prop := {
  m_eq : good (constraintSize k) (st_eq st) E;
  m_ineq : good (constraintSize k) (st_ineq st) I;
  m_bnd : good bdim (st_bnd st) B;
  m_obj : good c_size (st_obj st) O;
  m_eqSize : st_eqSize st = sumSizes (constraintSize k) E;
  m_ineqSize : st_ineqSize st = sumSizes (constraintSize k) I;
  m_objSize : st_objSize st = sumSizes c_size O;
  m_imp : separate k = false -> i_eq imp = i_ineq imp;
  m_te : separate k = true -> i_eq imp = false -> tiling (ranges (st_eq st)) (st_eqSize st);
  m_ti : separate k = true -> i_ineq imp = false -> tiling (ranges (st_ineq st)) (st_ineqSize st);
  m_tc : separate k = false -> i_eq imp = false ->
         tiling (ranges (st_eq st) ++ ranges (st_ineq st)) (st_eqSize st + st_ineqSize st);
  m_to : i_obj imp = false -> tiling (ranges (st_obj st)) (st_objSize st) }.

Lemma whenR_good dim b f m m' cs : good dim m cs -> whenR b f m = Ok m' ->
  (f m = Ok m' -> good dim m' cs) -> good dim m' cs.
Proof. unfold whenR. destruct b; intros; auto. inversion H0; subst; auto. Qed.
Lemma whenR_ranges b f m m' : whenR b f m = Ok m' ->
  (f m = Ok m' -> ranges m' = ranges m) -> ranges m' = ranges m.
Proof. unfold whenR. destruct b; intros; auto. inversion H; subst; auto. Qed.

Lemma good_oum dim b vs m m' cs : good dim m cs -> whenR b (mmapR (onUpdatedMapping vs)) m = Ok m' ->
  good dim m' cs /\ ranges m' = ranges m.
Proof.
  intros G H. split.
  - eapply whenR_good; eauto. intros H1. eapply good_mapR; eauto. intros a c K.
    apply onUpdatedMapping_keep in K. tauto.
  - eapply whenR_ranges; eauto. intros H1. eapply ranges_mmapR; eauto. intros a c K.
    apply onUpdatedMapping_keep in K. tauto.
Qed.
Lemma good_out dim b m m' cs : good dim m cs -> whenR b (mmapR onUpdatedTarget) m = Ok m' ->
  good dim m' cs /\ ranges m' = ranges m.
Proof.
  intros G H. split.
  - eapply whenR_good; eauto. intros H1. eapply good_mapR; eauto. intros a c K.
    apply onUpdatedTarget_keep in K. tauto.
  - eapply whenR_ranges; eauto. intros H1. eapply ranges_mmapR; eauto. intros a c K.
    apply onUpdatedTarget_keep in K. tauto.
Qed.
Lemma good_setData dim (b : bool) d m cs : good dim m cs ->
  good dim (if b then mmap (setData d) m else m) cs /\
  ranges (if b then mmap (setData d) m else m) = ranges m.
Proof.
  intros G. destruct b; auto. split; [apply good_map; auto|apply ranges_mmap; auto].
Qed.

Lemma chain_tiling l n : chain 0 l n -> tiling l n.
Proof. exists l; auto. Qed.

Lemma retarget_Lay k E I B O imp impR nv st st' :
  Mid k E I B O imp st -> retarget k imp impR nv st = Ok st' ->
  Lay k E I B O st' /\
  (st_nEq st' = st_nEq st /\ st_nIneq st' = st_nIneq st /\ st_nObj st' = st_nObj st) /\
  (st_vars st' = st_vars st /\ st_store st' = st_store st /\ st_build st' = st_build st /\
   st_minNorm st' = st_minNorm st).
Proof.
  intros M H. unfold retarget in H. inv_bind H. inv_bind H. inv_bind H. inv_bind H.
  rename x into e0, x0 into i0, x1 into b0, x2 into o0. destruct M.
  destruct (good_oum _ _ _ _ _ _ m_eq0 E0) as [Ge0 Re0]. destruct (good_oum _ _ _ _ _ _ m_ineq0 E1) as [Gi0 Ri0].
  destruct (good_oum _ _ _ _ _ _ m_bnd0 E2) as [Gb0 Rb0]. destruct (good_oum _ _ _ _ _ _ m_obj0 E3) as [Go0 Ro0].
  clear E0 E1 E2 E3.
  match type of H with context [let '(a, b) := ?X in _] => destruct X as [e1 es1] eqn:R1 end.
  match type of H with context [let '(a, b) := ?X in _] => destruct X as [i1 is1] eqn:R2 end.
  inv_bind H. rename x into b1.
  match type of H with context [let '(a, b) := ?X in _] => destruct X as [o1 os1] eqn:R3 end.
  cbv zeta in H.
  inv_bind H. inv_bind H. inv_bind H. inv_bind H. inversion H; subst st'; clear H; simpl.
  split; [|repeat split; reflexivity].
  set (imp2 := applyImpactLogic k (impOr imp impR)) in *. clearbody imp2.
  (* equalities *)
  assert (T1 : es1 = sumSizes (constraintSize k) E /\ good (constraintSize k) e1 E /\
               (separate k = true \/ i_ineq imp = true -> i_eq imp = true -> chain 0 (ranges e1) es1) /\
               (i_eq imp = false -> e1 = e0)).
  { destruct (i_eq imp) eqn:IE.
    - apply (reRange_spec _ _ (if separate k then 0 else if i_ineq imp then 0 else st_ineqSize st)) with (cs := E) in R1; auto.
      + destruct R1 as (A & B1 & C). destruct Ge0 as [Pe _].
        split; [rewrite A; simpl; now apply sumSizes_perm|]. split; auto. split; [|discriminate].
        intros Hs _. destruct (separate k); [exact C|]. destruct Hs as [|Hs]; [discriminate|]. rewrite Hs in C. exact C.
      + intros a c. destruct k; simpl; try lia; destruct (i_ineq imp); lia.
    - inversion R1; subst. split; auto. split; auto. split; auto. discriminate. }
  destruct T1 as (Ees & Ge1 & Te & Se).
  assert (T2 : is1 = sumSizes (constraintSize k) I /\ good (constraintSize k) i1 I /\
               (i_ineq imp = true -> chain (if separate k then 0 else es1) (ranges i1) ((if separate k then 0 else es1) + is1)) /\
               (i_ineq imp = false -> i1 = i0)).
  { destruct (i_ineq imp) eqn:IE.
    - apply (reRange_spec _ _ (if separate k then 0 else es1)) with (cs := I) in R2; auto.
      + destruct R2 as (A & B1 & C). destruct Gi0 as [Pe _].
        split; [rewrite A; simpl; now apply sumSizes_perm|]. split; auto. split; [|discriminate].
        intros _. rewrite Nat.add_0_r in C. exact C.
      + intros a c. destruct k; simpl; lia.
    - inversion R2; subst. split; auto. split; auto. split; auto. discriminate. }
  destruct T2 as (Eis & Gi1 & Ti & Si).
  assert (T3 : os1 = sumSizes c_size O /\ good c_size o1 O /\
               (i_obj imp = true -> chain 0 (ranges o1) os1) /\ (i_obj imp = false -> o1 = o0)).
  { destruct (i_obj imp) eqn:IE.
    - apply (reRange_spec _ _ 0) with (cs := O) in R3; auto.
      destruct R3 as (A & B1 & C). destruct Go0 as [Pe _].
      split; [rewrite A; simpl; now apply sumSizes_perm|]. split; auto. split; [|discriminate]. auto.
    - inversion R3; subst. split; auto. split; auto. split; auto. discriminate. }
  destruct T3 as (Eos & Go1 & To & So).
  assert (Gb1 : good bdim b1 B).
  { eapply whenR_good; eauto. intros. eapply reRangeB_good; eauto. }
  destruct (good_setData _ (i_eq imp2) (eqData k (st_store st)) _ _ Ge1) as [Ge2 Re2].
  destruct (good_setData _ (i_ineq imp2) (ineqData k (st_store st)) _ _ Gi1) as [Gi2 Ri2].
  destruct (good_setData _ (i_bnd imp2) (bndData k (st_store st)) _ _ Gb1) as [Gb2 Rb2].
  destruct (good_setData _ (i_obj imp2) (objData k (st_store st)) _ _ Go1) as [Go2 Ro2].
  destruct (good_out _ _ _ _ _ Ge2 E1) as [Ge3 Re3]. destruct (good_out _ _ _ _ _ Gi2 E2) as [Gi3 Ri3].
  destruct (good_out _ _ _ _ _ Gb2 E3) as [Gb3 Rb3]. destruct (good_out _ _ _ _ _ Go2 E4) as [Go3 Ro3].
  constructor; simpl; auto.
  - rewrite Re3, Re2, Ri3, Ri2. destruct (separate k) eqn:SK.
    + split.
      * destruct (i_eq imp) eqn:IE.
        { apply chain_tiling, Te; auto. }
        { rewrite Se by auto. rewrite Re0, Ees, <- m_eqSize0. auto. }
      * destruct (i_ineq imp) eqn:IE.
        { apply chain_tiling. apply Ti; auto. }
        { rewrite Si by auto. rewrite Ri0, Eis, <- m_ineqSize0. auto. }
    + specialize (m_imp0 eq_refl). destruct (i_eq imp) eqn:IE.
      * apply chain_tiling. rewrite <- m_imp0 in *. eapply chain_app; [apply Te; auto|]. apply Ti; auto.
      * rewrite <- m_imp0 in *. rewrite Se, Si by auto. rewrite Re0, Ri0, Ees, Eis, <- m_eqSize0, <- m_ineqSize0. auto.
  - rewrite Ro3, Ro2. destruct (i_obj imp) eqn:IE.
    + apply chain_tiling; auto.
    + rewrite So by auto. rewrite Ro0, Eos, <- m_objSize0. auto.
Qed.

Lemma filter_app_both (P : prob) vs ev :
  q_eqs (after P vs ev) = without (q_eqs P) (ev_remC ev) ++ filter c_eq (ev_addC ev) /\
  q_ineqs (after P vs ev) = without (q_ineqs P) (ev_remC ev) ++ filter (fun c => negb (c_eq c)) (ev_addC ev).
Proof.
  unfold q_eqs, q_ineqs, after; simpl. rewrite !filter_app, !filter_without. auto.
Qed.

(* The steps of process up to retarget, in one lemma *)
Definition mid_imp (k : kind) (ev : events) (st4 : state) := impOr (impactRemove k ev) (impactAdd k ev st4).

Lemma imp_shared k ev st4 : separate k = false ->
  i_eq (mid_imp k ev st4) = i_ineq (mid_imp k ev st4).
Proof.
  intros S. unfold mid_imp, impOr, impactRemove, impactAdd. destruct k; simpl in *; try discriminate;
    destruct (isNil (ev_remC ev)), (st_nEq st4 =? st_eqSize st4), (st_nIneq st4 =? st_ineqSize st4); reflexivity.
Qed.
Lemma imp_eq_false k ev st4 : i_eq (mid_imp k ev st4) = false ->
  ev_remC ev = [] /\ st_nEq st4 = st_eqSize st4.
Proof.
  unfold mid_imp, impOr, impactRemove, impactAdd. destruct k; simpl;
    destruct (ev_remC ev); simpl; try discriminate;
    destruct (Nat.eqb_spec (st_nEq st4) (st_eqSize st4)); simpl; try discriminate; auto;
    rewrite ?orb_true_r; try discriminate.
Qed.
Lemma imp_ineq_false k ev st4 : i_ineq (mid_imp k ev st4) = false ->
  ev_remC ev = [] /\ st_nEq st4 = st_eqSize st4 /\ st_nIneq st4 = st_ineqSize st4.
Proof.
  unfold mid_imp, impOr, impactRemove, impactAdd. destruct k; simpl;
    destruct (ev_remC ev); simpl; try discriminate;
    destruct (Nat.eqb_spec (st_nEq st4) (st_eqSize st4)), (Nat.eqb_spec (st_nIneq st4) (st_ineqSize st4));
    simpl; rewrite ?orb_true_r; try discriminate; auto.
Qed.
Lemma imp_obj_false k ev st4 : i_obj (mid_imp k ev st4) = false -> ev_remO ev = [] /\ ev_addO ev = [].
Proof.
  unfold mid_imp, impOr, impactRemove, impactAdd. destruct k; simpl;
    destruct (ev_remO ev), (ev_addO ev); simpl; try discriminate; auto.
Qed.

(* State of process just before retarget. *)
Definition before (k : kind) (vs : list var) (ev : events) (P : prob) (st st5 : state) (impR : impact) : Prop :=
  exists st4 s,
    resize_ k (totalSize vs) (st_nObj st4) (st_nEq st4) (st_nIneq st4)
            (negb (isNil (st_bnd st4)) || negb (isNil (ev_addB ev))) (st_store st) = (s, impR) /\
    st5 = setStore vs s st4 /\
    Mid k (without (q_eqs P) (ev_remC ev)) (without (q_ineqs P) (ev_remC ev))
          (without (q_bnds P) (ev_remB ev)) (without (q_objs P) (ev_remO ev)) (mid_imp k ev st4) st5 /\
    st_nEq st4 = st_eqSize st4 + sumSizes (constraintSize k) (filter c_eq (ev_addC ev)) /\
    st_nIneq st4 = st_ineqSize st4 + sumSizes (constraintSize k) (filter (fun c => negb (c_eq c)) (ev_addC ev)) /\
    st_nObj st4 = st_objSize st4 + sumSizes c_size (ev_addO ev) /\
    st_minNorm st4 = st_minNorm st /\ st_build st4 = st_build st /\
    incl (asgs (st_eq st4)) (asgs (st_eq st)) /\ incl (asgs (st_ineq st4)) (asgs (st_ineq st)) /\
    incl (asgs (st_bnd st4)) (asgs (st_bnd st)) /\ incl (asgs (st_obj st4)) (asgs (st_obj st)).

Lemma asgs_fold_incl l : forall m, incl (asgs (fold_left (fun m b => merase b m) l m)) (asgs m).
Proof.
  induction l; simpl; intros m; [intros x; auto|]. eapply incl_tran; [apply IHl|]. apply asgs_merase_incl.
Qed.

Lemma wf_eids P : wf_prob P -> NoDup (ids (q_eqs P)).
Proof. intros []. now apply nodup_filter_ids. Qed.
Lemma wf_iids P : wf_prob P -> NoDup (ids (q_ineqs P)).
Proof. intros []. now apply nodup_filter_ids. Qed.

Lemma process_split k vs ev P st st' :
  Rest k P st -> st_nObj st = st_objSize st -> wf_prob P -> wf_events P vs ev ->
  process k vs ev st = Ok st' ->
  exists st5 st6 impR,
    before k vs ev P st st5 impR /\
    (exists st4, retarget k (mid_imp k ev st4) impR (ev_var ev) st5 = Ok st6 /\
                 st5 = setStore vs (st_store st5) st4) /\
    processAdded k ev st6 = Ok st'.
Proof.
  intros R NO W WE H. destruct WE as [we_remC we_remCd we_remB we_remO we_remOd we_var]. unfold process in H. inv_bind H. rename x into st1. inv_bind H. rename x into st2.
  cbv zeta in H.
  set (st3 := remBs (ev_remB ev) st2) in *. set (st4 := preview k ev st3) in *.
  destruct (resize_ k (totalSize vs) (st_nObj st4) (st_nEq st4) (st_nIneq st4)
              (negb (isNil (st_bnd st4)) || negb (isNil (ev_addB ev))) (st_store st4)) as [s impR] eqn:RS.
  inv_bind H. rename x into st6.
  destruct R as [r_lay0 r_vars0 r_nEq0 r_nIneq0 r_build0]. destruct r_lay0 as [l_eq0 l_ineq0 l_bnd0 l_obj0 l_eqSize0 l_ineqSize0 l_objSize0 l_tc0 l_to0].
  assert (P0 : Pre k (filter c_eq (q_cstrs P)) (filter (fun c => negb (c_eq c)) (q_cstrs P)) (q_bnds P) (q_objs P) st).
  { constructor; auto; [rewrite r_nEq0; auto|rewrite r_nIneq0; auto]. }
  destruct (remCs_Pre _ _ _ _ _ _ _ P0 (wf_cids _ W) we_remC we_remCd E) as (P1 & S1 & I1 & I2 & N1).
  destruct (remOs_Pre _ _ _ _ _ _ _ _ P1 (wf_oids _ W) we_remO we_remOd E0) as (P2 & S2 & C2 & C3 & I3 & N2).
  destruct S1 as (S11 & S12 & S13 & S14 & S15 & S16 & S17 & S18).
  destruct S2 as (S21 & S22 & S23 & S24 & S25 & S26 & S27 & S28 & S29).
  destruct P2 as [p_eqg0 p_ineqg0 p_bndg0 p_objg0 p_nEq0 p_nIneq0].
  exists (setStore vs s st4), st6, impR. split; [|split; [exists st4; split; [exact E1|reflexivity]|exact H]].
  exists st4, s.
  assert (ST : st_store st4 = st_store st) by (unfold st4, st3; simpl; congruence).
  rewrite ST in RS.
  split; [exact RS|]. split; [reflexivity|].
  unfold q_eqs, q_ineqs in *. rewrite filter_without in p_eqg0, p_nEq0. rewrite filter_without in p_ineqg0, p_nIneq0.
  split; [constructor; simpl; auto|].
  - apply good_erase_list; [|apply W]. exact p_bndg0.
  - rewrite S12, NO, l_objSize0 in C2. lia.
  - apply imp_shared.
  - intros Hs Hi. apply imp_eq_false in Hi. destruct Hi as [Hr _]. rewrite Hr in *.
    rewrite N1 in * by auto. rewrite S24, S21, r_nEq0. destruct (separate k); [|discriminate]. apply l_tc0.
  - intros Hs Hi. apply imp_ineq_false in Hi. destruct Hi as [Hr _]. rewrite Hr in *.
    rewrite N1 in * by auto. rewrite S25, S22, r_nIneq0. destruct (separate k); [|discriminate]. apply l_tc0.
  - intros Hs Hi. apply imp_eq_false in Hi. destruct Hi as [Hr _]. rewrite Hr in *.
    rewrite N1 in * by auto. rewrite S24, S25, S21, S22, r_nEq0, r_nIneq0. rewrite Hs in l_tc0. exact l_tc0.
  - intros Hi. apply imp_obj_false in Hi. destruct Hi as [Hr _]. rewrite Hr in *. rewrite N2 in * by auto.
    rewrite S14, S12, NO. exact l_to0.
  - simpl. repeat (split; [first [congruence|reflexivity]|]). 
    split; [rewrite S24; auto|]. split; [rewrite S25; auto|]. split.
    + eapply incl_tran; [apply asgs_fold_incl|]. rewrite S26, S13. intros y; auto.
    + eapply incl_tran; [exact I3|]. rewrite S14. intros y; auto.
Qed.

Lemma processAdded_Lay k ev E I B O st st' :
  Lay k E I B O st -> processAdded k ev st = Ok st' ->
  Forall (fun c => c_eq c = true -> c_double c = false) (ev_addC ev) ->
  NoDup (ids (E ++ filter c_eq (ev_addC ev))) ->
  NoDup (ids (I ++ filter (fun c => negb (c_eq c)) (ev_addC ev))) ->
  NoDup (ids (B ++ ev_addB ev)) -> NoDup (ids (O ++ ev_addO ev)) ->
  Lay k (E ++ filter c_eq (ev_addC ev)) (I ++ filter (fun c => negb (c_eq c)) (ev_addC ev))
      (B ++ ev_addB ev) (O ++ ev_addO ev) st' /\
  (st_nEq st' = st_nEq st /\ st_nIneq st' = st_nIneq st /\ st_nObj st' = st_nObj st) /\
  st_vars st' = st_vars st /\ st_store st' = st_store st /\ st_build st' = false /\
  st_minNorm st' = st_minNorm st.
Proof.
  intros L H F N1 N2 N3 N4. unfold processAdded in H. inv_bind H. inv_bind H. inv_bind H. inversion H; subst; clear H.
  destruct (Lay_addConstraints _ _ _ _ _ _ _ _ (Lay_setBuild _ _ _ _ _ _ true L) E0 F N1 N2) as [L1 K1].
  destruct (Lay_addBounds _ _ _ _ _ _ _ _ L1 E1 N3) as [L2 K2].
  destruct (Lay_addObjectives _ _ _ _ _ _ _ _ L2 E2 N4) as [L3 K3].
  pose proof (kept_trans _ _ _ (kept_trans _ _ _ K1 K2) K3) as ((M1 & M2 & M3) & V & S & Bd & M).
  simpl in *. split; [now apply Lay_setBuild|]. simpl. auto 10.
Qed.

(* What process does to the layout *)
Lemma process_Rest k vs ev P st st' :
  Rest k P st -> st_nObj st = st_objSize st -> wf_prob P -> wf_events P vs ev ->
  wf_prob (after P vs ev) -> process k vs ev st = Ok st' ->
  Rest k (after P vs ev) st' /\ st_nObj st' = st_objSize st' /\ st_minNorm st' = st_minNorm st.
Proof.
  intros R NO W WE W' H.
  destruct (process_split _ _ _ _ _ _ R NO W WE H) as (st5 & st6 & impR & Bf & (st4' & RT & E5) & PA).
  destruct Bf as (st4 & s & RS & E5' & M & C1 & C2 & C3 & MN & BD & _).
  assert (EI : mid_imp k ev st4' = mid_imp k ev st4).
  { subst st5. simpl in E5. unfold mid_imp, impactAdd.
    assert (st_nEq st4' = st_nEq st4 /\ st_eqSize st4' = st_eqSize st4 /\ st_nIneq st4' = st_nIneq st4
            /\ st_ineqSize st4' = st_ineqSize st4) as (-> & -> & -> & ->).
    { unfold setStore in E5. injection E5. intros. repeat split; auto. }
    reflexivity. }
  rewrite EI in RT.
  destruct (retarget_Lay _ _ _ _ _ _ _ _ _ _ M RT) as (L6 & (K1 & K2 & K3) & V & S & BD6 & MN6).
  destruct (filter_app_both P vs ev) as [FE FI].
  pose proof (wf_eids _ W') as NE. pose proof (wf_iids _ W') as NI. rewrite FE in NE. rewrite FI in NI.
  destruct W' as [_ W2 W3 W4 _ _ _ W8 _]. simpl in W2, W3, W4, W8.
  destruct (processAdded_Lay _ _ _ _ _ _ _ _ L6 PA) as (L7 & (M1 & M2 & M3) & V7 & S7 & B7 & MN7); auto.
  { rewrite Forall_app in W8. tauto. }
  rewrite <- FE, <- FI in L7.
  pose proof L7 as L8. destruct L8 as [_ _ _ _ les lis los _ _]. destruct M as [_ _ _ _ mes mis mos _ _ _ _ _]. subst st5. simpl in *.
  split; [constructor; auto|].
  - rewrite V7, V. reflexivity.
  - rewrite M1, K1, C1, les, FE, sumSizes_app. f_equal. auto.
  - rewrite M2, K2, C2, lis, FI, sumSizes_app. f_equal. auto.
  - split; [|congruence]. rewrite M3, K3, C3, los, sumSizes_app. f_equal. auto.
Qed.

Lemma history_wf k P st : history k P st -> wf_prob P.
Proof. destruct 1; auto. Qed.
Lemma history_Rest k P st : history k P st ->
  Rest k P st /\ st_nObj st = st_objSize st /\ st_minNorm st = false.
Proof.
  induction 1.
  - destruct (build_Rest _ _ _ _ H H0) as (A & B & C & _). auto.
  - destruct IHhistory as (A & B & C).
    destruct (process_Rest _ _ _ _ _ _ A B (history_wf _ _ _ H) H0 H1 H2) as (A' & B' & C').
    split; auto. split; auto. congruence.
Qed.
