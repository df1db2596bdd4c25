(* C27: building and processing do not fail; comparison with a rebuild. *)
From Coq Require Import List Bool Arith Permutation Lia.
Import ListNotations.
From Verif Require Import Base SolverModel SolverSpec SolverProofs SolverProofs2 SolverProofs3 SolverProofs4 SolverProofs5 SolverProofs6.

Lemma mappings_total vs l : NoDup (map v_id vs) -> incl l vs -> exists cols, mappings l vs = Ok cols.
Proof.
  intros N. induction l as [|v l IH]; simpl; intros I; [eauto|].
  destruct (mappingIn_in vs N v) as (o & -> & _); [apply I; simpl; auto|].
  destruct IH as (cols & ->); [intros x Hx; apply I; simpl; auto|]. simpl. eauto.
Qed.

Definition building (vs : list var) (st : state) := st_build st = true /\ st_vars st = vs.
Lemma foldR_total vs (f : cstr -> state -> res state) l :
  (forall c st, In c l -> building vs st -> exists st', f c st = Ok st' /\ building vs st') ->
  forall st, building vs st -> exists st', foldR f l st = Ok st' /\ building vs st'.
Proof.
  intros H. induction l as [|c l IH]; simpl; intros st B; [eauto|].
  destruct (H c st) as (st1 & -> & B1); simpl; auto. apply IH; auto. intros; apply H; simpl; auto.
Qed.
Lemma addConstraint_total k vs c st : NoDup (map v_id vs) -> on_vars vs c -> building vs st ->
  exists st', addConstraint k c st = Ok st' /\ building vs st'.
Proof.
  intros N [_ O] [B V]. unfold addConstraint, mkAssign. rewrite B, V. simpl.
  destruct (mappings_total vs _ N O) as (cols & ->). simpl.
  destruct (c_eq c); [destruct (nextEq _ _ _ _)|destruct (nextIneq _ _ _ _)]; eexists; (split; [reflexivity|split; auto]).
Qed.
Lemma addBound_total k vs c st : NoDup (map v_id vs) -> (exists v, c_vars c = [v] /\ In v vs) -> building vs st ->
  exists st', addBound k c st = Ok st' /\ building vs st'.
Proof.
  intros N (v & E & Iv) [B V]. unfold addBound. rewrite B, V, E. simpl.
  destruct (mappingIn_in vs N v Iv) as (o & -> & _). simpl. eexists; (split; [reflexivity|split; auto]).
Qed.
Lemma addObjective_total k vs c st : NoDup (map v_id vs) -> on_vars vs c -> c_l2 c = true -> building vs st ->
  exists st', addObjective k c st = Ok st' /\ building vs st'.
Proof.
  intros N [_ O] L [B V]. unfold addObjective, mkAssign. rewrite B, V, L. simpl.
  destruct (mappings_total vs _ N O) as (cols & ->). simpl. eexists; (split; [reflexivity|split; auto]).
Qed.

Section Adds.
Variables (k : kind) (vs : list var) (cs bs os : list cstr) (st : state).
Hypothesis N : NoDup (map v_id vs).
Hypothesis Fc : Forall (on_vars vs) cs.
Hypothesis Fb : Forall (fun b => exists v, c_vars b = [v] /\ In v vs) bs.
Hypothesis Fo : Forall (on_vars vs) os.
Hypothesis Fl : Forall (fun o => c_l2 o = true) os.
Lemma adds_total : building vs st -> exists s1 s2 s3, foldR (addConstraint k) cs st = Ok s1 /\
  foldR (addBound k) bs s1 = Ok s2 /\ foldR (addObjective k) os s2 = Ok s3.
Proof.
  intros B. rewrite Forall_forall in Fc, Fb, Fo, Fl.
  destruct (foldR_total vs (addConstraint k) cs (fun c st I B => addConstraint_total k vs c st N (Fc c I) B) st B) as (s1 & E1 & B1).
  destruct (foldR_total vs (addBound k) bs (fun c st I B => addBound_total k vs c st N (Fb c I) B) s1 B1) as (s2 & E2 & B2).
  destruct (foldR_total vs (addObjective k) os (fun c st I B => addObjective_total k vs c st N (Fo c I) (Fl c I) B) s2 B2) as (s3 & E3 & B3).
  eauto 10.
Qed.
End Adds.

Lemma build_total k P st0 : wf_prob P -> exists st, build k P st0 = Ok st.
Proof.
  intros W. unfold build.
  destruct (adds_total k (q_vars P) (q_cstrs P) (q_bnds P) (q_objs P)
     (startBuild k (q_vars P) (sumSizes c_size (q_objs P))
                         (sumSizes (constraintSize k) (q_eqs P))
                         (sumSizes (constraintSize k) (q_ineqs P))
                         (negb (isNil (q_bnds P))) st0)) as (s1 & s2 & s3 & E1 & E2 & E3); try apply W.
  - split; auto.
  - rewrite E1; simpl. rewrite E2; simpl. rewrite E3; simpl. eauto.
Qed.

(* ---- removals ---- *)
Lemma sum_incl f : forall l l', NoDup l -> incl l l' -> sumSizes f l <= sumSizes f l'.
Proof.
  induction l as [|c l IH]; intros l' N I; [unfold sumSizes; simpl; lia|]. inversion N; subst.
  destruct (in_split c l') as (x & y & ->); [apply I; simpl; auto|].
  rewrite sumSizes_cons, sumSizes_app, sumSizes_cons. specialize (IH (x ++ y) H2). rewrite sumSizes_app in IH.
  enough (sumSizes f l <= sumSizes f x + sumSizes f y) by lia. apply IH.
  intros d Hd. assert (d <> c) by (intros ->; auto). specialize (I d (or_intror Hd)).
  apply in_app_or in I. apply in_or_app. destruct I as [I|[I|I]]; auto. congruence.
Qed.
Lemma NoDup_ids_NoDup (l : list cstr) : NoDup (map c_id l) -> NoDup l.
Proof. apply NoDup_map_inv. Qed.

Lemma dec_ok n m : m <= n -> dec n m = Ok (n - m).
Proof. intros. unfold dec. destruct (Nat.ltb_spec n m); auto; lia. Qed.

Lemma remCs_total k : forall l st, sumSizes (constraintSize k) (filter c_eq l) <= st_nEq st ->
  sumSizes (constraintSize k) (filter (fun c => negb (c_eq c)) l) <= st_nIneq st ->
  exists st', remCs k l st = Ok st'.
Proof.
  induction l as [|c l IH]; simpl; intros st H1 H2; [eauto|].
  destruct (c_eq c); simpl in *; rewrite sumSizes_cons in *.
  - rewrite dec_ok by lia. simpl. apply IH; simpl; lia.
  - rewrite dec_ok by lia. simpl. apply IH; simpl; lia.
Qed.
Lemma remOs_total : forall l st, sumSizes c_size l <= st_nObj st -> exists st', remOs l st = Ok st'.
Proof.
  induction l as [|c l IH]; simpl; intros st H; [eauto|]. rewrite sumSizes_cons in H.
  rewrite dec_ok by lia. simpl. apply IH; simpl; lia.
Qed.

(* ---- retarget ---- *)
Lemma traverse_total {A B} (f : A -> res B) l : (forall a, In a l -> exists b, f a = Ok b) -> exists r, traverse f l = Ok r.
Proof.
  induction l as [|a l IH]; simpl; intros H; [eauto|]. destruct (H a) as (b & ->); auto.
  destruct IH as (r & ->); auto. simpl. eauto.
Qed.
Lemma mmapR_total f m : (forall a, In a (asgs m) -> exists b, f a = Ok b) -> exists m', mmapR f m = Ok m'.
Proof.
  intros H. unfold mmapR. apply traverse_total. intros p Ip.
  destruct (traverse_total f (snd p)) as (l & ->); [|simpl; eauto].
  intros a Ia. apply H. unfold asgs. apply in_flat_map. eauto.
Qed.
Lemma whenR_total b f m : (b = true -> exists m', f m = Ok m') -> exists m', whenR b f m = Ok m'.
Proof. unfold whenR. destruct b; eauto. Qed.

(* what is preserved by every step: the constraint, and whether it has a matrix *)
Definition alike (m m' : cmap) : Prop :=
  forall x, In x (asgs m') -> exists a, In a (asgs m) /\ a_c x = a_c a /\ (d_mat (a_data x) = None <-> d_mat (a_data a) = None).
Lemma alike_refl m : alike m m. Proof. intros x I. exists x. tauto. Qed.
Lemma alike_trans m m' m'' : alike m m' -> alike m' m'' -> alike m m''.
Proof.
  intros H H' x I. destruct (H' x I) as (a & A1 & A2 & A3). destruct (H a A1) as (b & B1 & B2 & B3).
  exists b. split; auto. split; [congruence|tauto].
Qed.
Lemma alike_oum b vs m m' : whenR b (mmapR (onUpdatedMapping vs)) m = Ok m' -> alike m m'.
Proof.
  intros H x I. destruct (in_whenR _ _ _ _ _ H I) as (a & A1 & A2). exists a. split; auto.
  destruct b; [|subst; tauto]. unfold onUpdatedMapping in A2. destruct (d_mat (a_data a)) eqn:D.
  - inv_bind A2. inversion A2; subst; simpl. rewrite D. tauto.
  - inversion A2; subst. rewrite D. tauto.
Qed.
Lemma alike_reRange (b : bool) next size m x y m' s : (if b then reRange next size m x else (m, y)) = (m', s) -> alike m m'.
Proof.
  destruct b; intros H z I.
  - destruct (in_reRange _ _ _ _ _ _ _ H I) as (a & q & A1 & ->). exists a. simpl. tauto.
  - inversion H; subst. exists z. tauto.
Qed.
Lemma alike_setData (b : bool) d m : (forall a, In a (asgs m) -> (d_mat d = None <-> d_mat (a_data a) = None)) ->
  alike m (if b then mmap (setData d) m else m).
Proof.
  intros H x I. destruct (if_map_in _ _ _ _ I) as (a & A1 & ->). exists a. split; auto. destruct b; simpl; auto. tauto.
Qed.

Lemma general_total (nv b2 b : bool) vs d next size x y m : NoDup (map v_id vs) ->
  (forall a, In a (asgs m) -> on_vars vs (a_c a) /\ d_mat (a_data a) <> None) -> d_mat d <> None ->
  exists m1, whenR nv (mmapR (onUpdatedMapping vs)) m = Ok m1 /\
  forall m2 s, (if b then reRange next size m1 x else (m1, y)) = (m2, s) ->
  exists m4, whenR (nv || b2) (mmapR onUpdatedTarget) (if b2 then mmap (setData d) m2 else m2) = Ok m4.
Proof.
  intros N H D.
  destruct (whenR_total nv (mmapR (onUpdatedMapping vs)) m) as (m1 & E1).
  { intros _. apply mmapR_total. intros a Ia. unfold onUpdatedMapping. destruct (H a Ia) as [[_ O] _].
    destruct (d_mat (a_data a)); [|eauto]. destruct (mappings_total vs _ N O) as (cols & ->). simpl. eauto. }
  exists m1. split; auto. intros m2 s E2. apply whenR_total. intros _. apply mmapR_total. intros a Ia.
  assert (d_mat (a_data a) <> None).
  { destruct (if_map_in _ _ _ _ Ia) as (a2 & I2 & ->). destruct b2; simpl; auto.
    destruct (alike_reRange _ _ _ _ _ _ _ _ E2 _ I2) as (a1 & I1 & _ & Q1).
    destruct (alike_oum _ _ _ _ E1 _ I1) as (a0 & I0 & _ & Q0). destruct (H _ I0) as [_ Q]. tauto. }
  unfold onUpdatedTarget. destruct (d_mat (a_data a)); [eauto|congruence].
Qed.

Lemma bounds_total (nv b2 b : bool) vs d m cs : NoDup (map v_id vs) -> good bdim m cs ->
  (forall c, In c cs -> (exists v, c_vars c = [v] /\ In v vs) /\ c_diag c = false) ->
  (forall a, In a (asgs m) -> d_mat (a_data a) = None) -> d_mat d = None ->
  exists m1, whenR nv (mmapR (onUpdatedMapping vs)) m = Ok m1 /\
  exists m2, whenR (b || nv) (reRangeB vs) m1 = Ok m2 /\
  exists m4, whenR (nv || b2) (mmapR onUpdatedTarget) (if b2 then mmap (setData d) m2 else m2) = Ok m4.
Proof.
  intros N G H Hm D.
  destruct (whenR_total nv (mmapR (onUpdatedMapping vs)) m) as (m1 & E1).
  { intros _. apply mmapR_total. intros a Ia. unfold onUpdatedMapping. rewrite (Hm _ Ia). eauto. }
  exists m1. split; auto. destruct (good_oum _ _ _ _ _ _ G E1) as [G1 _].
  destruct (whenR_total (b || nv) (reRangeB vs) m1) as (m2 & E2).
  { intros _. apply traverse_total. intros p Ip. destruct G1 as [P1 _].
    assert (Ic : In (fst p) cs). { eapply Permutation_in; [exact P1|]. now apply in_map. }
    destruct (H _ Ic) as [(v & -> & Iv) _]. destruct (mappingIn_in vs N v Iv) as (o & -> & _). simpl. eauto. }
  exists m2. split; auto. apply whenR_total. intros _. apply mmapR_total. intros a Ia.
  destruct (if_map_in _ _ _ _ Ia) as (a2 & I2 & ->).
  assert (G2 : good bdim m2 cs).
  { unfold whenR in E2. destruct (b || nv); [eapply reRangeB_good; eauto|inversion E2; subst; auto]. }
  assert (Ic : In (a_c a2) cs).
  { eapply Permutation_in; [apply (good_asgs _ _ _ G2)|]. now apply in_map. }
  destruct (H _ Ic) as [_ Dg]. unfold onUpdatedTarget.
  destruct b2; simpl; rewrite Dg.
  - destruct (d_mat d); eauto.
  - destruct (d_mat (a_data a2)); eauto.
Qed.

Lemma retarget_total k imp impR nv st B : NoDup (map v_id (st_vars st)) -> good bdim (st_bnd st) B ->
  (forall c, In c B -> (exists v, c_vars c = [v] /\ In v (st_vars st)) /\ c_diag c = false) ->
  (forall a, In a (asgs (st_bnd st)) -> d_mat (a_data a) = None) ->
  (forall a, In a (asgs (st_eq st)) -> on_vars (st_vars st) (a_c a) /\ d_mat (a_data a) <> None) ->
  (forall a, In a (asgs (st_ineq st)) -> on_vars (st_vars st) (a_c a) /\ d_mat (a_data a) <> None) ->
  (forall a, In a (asgs (st_obj st)) -> on_vars (st_vars st) (a_c a) /\ d_mat (a_data a) <> None) ->
  exists st', retarget k imp impR nv st = Ok st'.
Proof.
  intros N G HB HBm HE HI HO. unfold retarget. cbv zeta.
  set (imp2 := applyImpactLogic k (impOr imp impR)).
  set (vs := st_vars st) in *.
  set (es := if i_eq imp then 0 else st_eqSize st). set (is := if i_ineq imp then 0 else st_ineqSize st).
  set (os := if i_obj imp then 0 else st_objSize st).
  destruct (general_total nv (i_eq imp2) (i_eq imp) vs (eqData k (st_store st)) (fun a c => fst (nextEq k a is c))
             (constraintSize k) es es (st_eq st) N HE (eqData_mat _ _)) as (e0 & -> & Ke).
  destruct (bounds_total nv (i_bnd imp2) (i_bnd imp) vs (bndData k (st_store st)) (st_bnd st) B N G HB HBm (bndData_mat _ _))
    as (b0 & Eb0 & b1 & Eb1 & b3 & Eb3).
  destruct (general_total nv (i_obj imp2) (i_obj imp) vs (objData k (st_store st)) (fun a _ => a)
             c_size os os (st_obj st) N HO (objData_mat _ _)) as (o0 & Eo0 & Ko).
  cbn [bind].
  destruct (if i_eq imp then reRange (fun a c => fst (nextEq k a is c)) (constraintSize k) e0 es else (e0, es)) as [e1 es1] eqn:R1.
  destruct (general_total nv (i_ineq imp2) (i_ineq imp) vs (ineqData k (st_store st)) (fun a c => fst (nextIneq k es1 a c))
             (constraintSize k) is is (st_ineq st) N HI (ineqData_mat _ _)) as (i0 & -> & Ki).
  cbn [bind]. rewrite Eb0. cbn [bind]. rewrite Eo0. cbn [bind].
  destruct (if i_ineq imp then reRange (fun a c => fst (nextIneq k es1 a c)) (constraintSize k) i0 is else (i0, is)) as [i1 is1] eqn:R2.
  rewrite Eb1. cbn [bind].
  destruct (if i_obj imp then reRange (fun a _ => a) c_size o0 os else (o0, os)) as [o1 os1] eqn:R3.
  destruct (Ke _ _ eq_refl) as (e3 & ->). cbn [bind].
  destruct (Ki _ _ eq_refl) as (i3 & ->). cbn [bind].
  rewrite Eb3. cbn [bind].
  destruct (Ko _ _ eq_refl) as (o3 & ->). cbn [bind]. eauto.
Qed.

Lemma retarget_vars k imp impR nv st st' : retarget k imp impR nv st = Ok st' -> st_vars st' = st_vars st.
Proof.
  intros H. unfold retarget in H. inv_bind H. inv_bind H. inv_bind H. inv_bind H.
  match type of H with context [let '(a, b) := ?X in _] => destruct X as [e1 es1] eqn:R1 end.
  match type of H with context [let '(a, b) := ?X in _] => destruct X as [i1 is1] eqn:R2 end.
  inv_bind H.
  match type of H with context [let '(a, b) := ?X in _] => destruct X as [o1 os1] eqn:R3 end.
  cbv zeta in H. inv_bind H. inv_bind H. inv_bind H. inv_bind H. inversion H; auto.
Qed.

Lemma processAdded_total k ev vs st : NoDup (map v_id vs) -> st_vars st = vs ->
  Forall (on_vars vs) (ev_addC ev) -> Forall (fun b => exists v, c_vars b = [v] /\ In v vs) (ev_addB ev) ->
  Forall (on_vars vs) (ev_addO ev) -> Forall (fun o => c_l2 o = true) (ev_addO ev) ->
  exists st', processAdded k ev st = Ok st'.
Proof.
  intros N V F1 F2 F3 F4. unfold processAdded.
  destruct (adds_total k vs (ev_addC ev) (ev_addB ev) (ev_addO ev) (setBuild true st) N F1 F2 F3 F4) as (s1 & s2 & s3 & E1 & E2 & E3).
  { split; auto. }
  rewrite E1; simpl. rewrite E2; simpl. rewrite E3; simpl. eauto.
Qed.

Lemma without_incl l r : incl (without l r) l.
Proof. unfold without. intros x I. apply filter_In in I. tauto. Qed.

Lemma process_total k vs ev P st :
  Rest k P st -> st_nObj st = st_objSize st -> wf_prob P -> wf_events P vs ev ->
  wf_prob (after P vs ev) -> Sync k st ->
  Forall (fun b => c_diag b = false) (without (q_bnds P) (ev_remB ev)) ->
  exists st', process k vs ev st = Ok st'.
Proof.
  intros R NO W WE W' Sy FD. pose proof WE as [we_remC we_remCd we_remB we_remO we_remOd we_var].
  pose proof R as R'. destruct R' as [r_lay0 r_vars0 r_nEq0 r_nIneq0 r_build0].
  destruct r_lay0 as [l_eq0 l_ineq0 l_bnd0 l_obj0 l_eqSize0 l_ineqSize0 l_objSize0 l_tc0 l_to0].
  assert (NR : NoDup (ev_remC ev)) by now apply NoDup_ids_NoDup.
  destruct (remCs_total k (ev_remC ev) st) as (st1 & E1).
  { rewrite r_nEq0, l_eqSize0. apply sum_incl; [now apply NoDup_filter|]. intros x I. apply filter_In in I.
    unfold q_eqs. apply filter_In. split; [apply we_remC|]; tauto. }
  { rewrite r_nIneq0, l_ineqSize0. apply sum_incl; [now apply NoDup_filter|]. intros x I. apply filter_In in I.
    unfold q_ineqs. apply filter_In. split; [apply we_remC|]; tauto. }
  assert (P0 : Pre k (filter c_eq (q_cstrs P)) (filter (fun c => negb (c_eq c)) (q_cstrs P)) (q_bnds P) (q_objs P) st).
  { constructor; auto; [rewrite r_nEq0; auto|rewrite r_nIneq0; auto]. }
  destruct (remCs_Pre _ _ _ _ _ _ _ P0 (wf_cids _ W) we_remC we_remCd E1) as (P1 & S1 & I1 & I2 & N1).
  destruct S1 as (S11 & S12 & S13 & S14 & S15 & S16 & S17 & S18).
  destruct (remOs_total (ev_remO ev) st1) as (st2 & E2).
  { replace (st_nObj st1) with (sumSizes c_size (q_objs P)) by congruence.
    apply sum_incl; auto. now apply NoDup_ids_NoDup. }
  destruct (remOs_Pre _ _ _ _ _ _ _ _ P1 (wf_oids _ W) we_remO we_remOd E2) as (P2 & S2 & C2 & C3 & I3 & N2).
  destruct S2 as (S21 & S22 & S23 & S24 & S25 & S26 & S27 & S28 & S29).
  destruct P2 as [p_eqg0 p_ineqg0 p_bndg0 p_objg0 p_nEq0 p_nIneq0].
  unfold process. rewrite E1. cbn [bind]. rewrite E2. cbn [bind]. cbv zeta.
  set (st3 := remBs (ev_remB ev) st2) in *. set (st4 := preview k ev st3) in *.
  destruct (resize_ k (totalSize vs) (st_nObj st4) (st_nEq st4) (st_nIneq st4)
              (negb (isNil (st_bnd st4)) || negb (isNil (ev_addB ev))) (st_store st4)) as [s impR] eqn:RS.
  destruct W' as [V1 _ _ _ V5 V6 V7 _ V9]. simpl in V1, V5, V6, V7, V9.
  rewrite Forall_app in V5, V6, V7, V9. destruct V5 as [V5 V5']. destruct V6 as [V6 V6'].
  destruct V7 as [V7 V7']. destruct V9 as [_ V9]. rewrite Forall_forall in V5, V6, V7, FD.
  destruct Sy as [Y1 Y2 Y3 Y4]. rewrite Forall_forall in Y1, Y2, Y3, Y4.
  assert (GB : good bdim (st_bnd st4) (without (q_bnds P) (ev_remB ev))).
  { simpl. apply good_erase_list; [|apply W]. exact p_bndg0. }
  destruct (retarget_total k (impOr (impactRemove k ev) (impactAdd k ev st4)) impR (ev_var ev) (setStore vs s st4)
             (without (q_bnds P) (ev_remB ev))) as (st6 & E6); auto.
  - simpl. intros a Ia. apply asgs_fold_incl in Ia. rewrite S26, S13 in Ia. destruct (Y3 _ Ia) as (_ & Q & _). auto.
  - simpl. intros a Ia. split.
    + apply V5. pose proof (good_asgs _ _ _ p_eqg0) as Pm.
      assert (In (a_c a) (without (filter c_eq (q_cstrs P)) (ev_remC ev))) as J.
      { rewrite <- filter_without. eapply Permutation_in; [exact Pm|]. now apply in_map. }
      rewrite <- filter_without in J. apply filter_In in J. tauto.
    + rewrite S24 in Ia. apply I1 in Ia. destruct (Y1 _ Ia) as (_ & Q & _). auto.
  - simpl. intros a Ia. split.
    + apply V5. pose proof (good_asgs _ _ _ p_ineqg0) as Pm.
      assert (In (a_c a) (without (filter (fun c => negb (c_eq c)) (q_cstrs P)) (ev_remC ev))) as J.
      { rewrite <- filter_without. eapply Permutation_in; [exact Pm|]. now apply in_map. }
      rewrite <- filter_without in J. apply filter_In in J. tauto.
    + rewrite S25 in Ia. apply I2 in Ia. destruct (Y2 _ Ia) as (_ & Q & _). auto.
  - simpl. intros a Ia. split.
    + apply V6. pose proof (good_asgs _ _ _ p_objg0) as Pm.
      eapply Permutation_in; [exact Pm|]. now apply in_map.
    + apply I3 in Ia. rewrite S14 in Ia. destruct (Y4 _ Ia) as (_ & Q & _). auto.
  - rewrite E6. cbn [bind]. apply processAdded_total with (vs := vs); auto.
    apply retarget_vars in E6. exact E6.
Qed.

(* ---- comparison with a rebuild ---- *)
Lemma is_problem_same k P p q : is_problem k P p -> is_problem k P q -> same_problem p q.
Proof.
  intros [A1 A2 (o & A3 & A4) A5] [B1 B2 (o' & B3 & B4) B5]. split; [|split; [|split]].
  - eapply perm_trans; [exact A1|now apply Permutation_sym].
  - eapply perm_trans; [exact A2|now apply Permutation_sym].
  - exists o, o'. split; auto. split; auto. eapply perm_trans; [exact A4|now apply Permutation_sym].
  - clear -A5 B5. revert B5. generalize (p_bnd q). induction A5 as [|vj lu l r H A IH]; intros y B; inversion B; subst; constructor; auto.
    destruct (uses_bounds k P).
    + destruct H as (l1 & u1 & -> & G1 & G2).
      match goal with X : exists _ _, _ |- _ => destruct X as (l2 & u2 & -> & X1 & X2) end.
      constructor; [|constructor; [|constructor]].
      * eapply perm_trans; [exact G1|now apply Permutation_sym].
      * eapply perm_trans; [exact G2|now apply Permutation_sym].
    + subst. constructor.
Qed.

Lemma safe_handed k P st : history_safe k P st -> exists p, handed k st = Ok p /\ is_problem k P p.
Proof.
  intros H. pose proof (safe_history _ _ _ H) as H'. destruct (history_Rest _ _ _ H') as (R & NO & MN).
  apply handed_problem; auto.
  - eapply history_wf; eauto.
  - now apply history_Shape.
  - eapply history_Sync; eauto.
Qed.

Lemma safe_rebuild k P st st0 st1 : history_safe k P st -> build k P st0 = Ok st1 ->
  exists p q, handed k st = Ok p /\ handed k st1 = Ok q /\ same_problem p q.
Proof.
  intros H B. destruct (safe_handed _ _ _ H) as (p & A1 & A2).
  assert (H1 : history_safe k P st1).
  { eapply hs_build; eauto. eapply history_wf, safe_history; eauto. }
  destruct (safe_handed _ _ _ H1) as (q & B1 & B2). exists p, q. split; auto. split; auto.
  eapply is_problem_same; eauto.
Qed.

Lemma safe_progress k P st vs ev : history_safe k P st -> wf_events P vs ev -> wf_prob (after P vs ev) ->
  Forall (fun b => c_diag b = false) (q_bnds P) -> exists st', process k vs ev st = Ok st'.
Proof.
  intros H WE W' F. pose proof (safe_history _ _ _ H) as H'. destruct (history_Rest _ _ _ H') as (R & NO & MN).
  eapply process_total; eauto.
  - eapply history_wf; eauto.
  - eapply history_Sync; eauto.
  - eapply incl_Forall; [apply without_incl|exact F].
Qed.
