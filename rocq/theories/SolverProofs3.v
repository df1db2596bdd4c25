(* C27: after process, every assignment writes to the current matrices, at its current range
   and columns. *)
From Coq Require Import List Bool Arith Permutation Lia.
Import ListNotations.
From Verif Require Import Base SolverModel SolverSpec SolverProofs SolverProofs2.

(* ---- shapes ---- *)
Definition dims (o : obj) (r c : nat) : Prop := o_rows o = r /\ o_cols o = c.
Lemma resize_dims o r c : dims (resize o r c) r c.
Proof.
  unfold resize, dims. destruct (Nat.eqb_spec (o_rows o) r), (Nat.eqb_spec (o_cols o) c); simpl; auto.
Qed.
Lemma resize_same o r c : dims o r c -> resize o r c = o.
Proof. unfold resize, dims. intros [-> ->]. now rewrite !Nat.eqb_refl. Qed.

Definition drows (k : kind) (nObj n : nat) : nat :=
  match k with QLD ch | Quadprog ch => if ch && (nObj <? n) then nObj + n else nObj | _ => nObj end.

Definition Shape (k : kind) (n nObj nEq nIneq : nat) (ub : bool) (s : store) : Prop :=
  (s_n s = n /\ s_nEq s = nEq /\ s_nIneq s = nIneq /\ s_ub s = ub) /\
  match k with
  | QLD _ => dims (mObj s) (drows k nObj n) n /\ dims (vObj s) nObj 1 /\ dims (mCstr s) (nEq + nIneq) n /\
             dims (v1 s) (nEq + nIneq) 1 /\ dims (v2 s) n 1 /\ dims (v3 s) n 1
  | Quadprog _ => dims (mObj s) (drows k nObj n) n /\ dims (vObj s) nObj 1 /\
             dims (mCstr s) (if ub then nEq + nIneq + 2 * n else nEq + nIneq) n /\
             dims (v1 s) (if ub then nEq + nIneq + 2 * n else nEq + nIneq) 1
  | LSSOL => dims (mObj s) nObj n /\ dims (vObj s) nObj 1 /\ dims (mCstr s) (nEq + nIneq) n /\
             dims (v1 s) (nEq + nIneq + n) 1 /\ dims (v2 s) (nEq + nIneq + n) 1
  | LexLS => dims (mObj s) nObj (n + 2) /\ dims (mCstr s) (nEq + nIneq) (n + 2) /\ dims (v1 s) n 2
  end.

Lemma resize_Shape k n nObj nEq nIneq ub s :
  Shape k n nObj nEq nIneq ub (fst (resize_ k n nObj nEq nIneq ub s)).
Proof.
  destruct k; simpl; (split; [repeat split|]); repeat split; simpl; apply resize_dims.
Qed.

(* ---- synchronisation ---- *)
Definition synced (d : tdata) (vs : list var) (a : asg) : Prop :=
  (0 < a_dim a -> a_data a = d) /\ d_mat (a_data a) <> None /\
  mappings (c_vars (a_c a)) vs = Ok (a_cols a) /\
  g_start a = a_start a /\ g_data a = a_data a /\ g_cols a = a_cols a.
Definition syncedB (d : tdata) (vs : list var) (a : asg) : Prop :=
  (0 < a_dim a -> a_data a = d) /\ d_mat (a_data a) = None /\
  (exists v, c_vars (a_c a) = [v] /\ mappingIn v vs = Ok (a_start a)) /\
  g_start a = a_start a /\ g_data a = a_data a.

Record Sync (k : kind) (st : state) : Prop := {
  y_eq : Forall (synced (eqData k (st_store st)) (st_vars st)) (asgs (st_eq st));
  y_ineq : Forall (synced (ineqData k (st_store st)) (st_vars st)) (asgs (st_ineq st));
  y_bnd : Forall (syncedB (bndData k (st_store st)) (st_vars st)) (asgs (st_bnd st));
  y_obj : Forall (synced (objData k (st_store st)) (st_vars st)) (asgs (st_obj st)) }.

(* ---- where the assignments of a transformed map come from ---- *)
Lemma in_mmapR f m m' b : mmapR f m = Ok m' -> In b (asgs m') -> exists a, In a (asgs m) /\ f a = Ok b.
Proof.
  intros H. apply traverse_ok in H. unfold asgs. induction H as [|p q m m' E H IH]; simpl; [tauto|].
  intros I. apply in_app_or in I. destruct I as [I|I].
  - inv_bind E. inversion E; subst; simpl in *. apply traverse_ok in E0. clear -E0 I.
    assert (exists a, In a (snd p) /\ f a = Ok b) as (a & A1 & A2).
    { induction E0; simpl in *; [tauto|]. destruct I as [->|I]; eauto. destruct (IHE0 I) as (a & A1 & A2); eauto. }
    exists a. split; auto. apply in_or_app; auto.
  - destruct (IH I) as (a & A1 & A2). exists a. split; auto. apply in_or_app; auto.
Qed.
Lemma in_whenR b f m m' x : whenR b (mmapR f) m = Ok m' -> In x (asgs m') ->
  exists a, In a (asgs m) /\ (if b then f a = Ok x else x = a).
Proof.
  unfold whenR. destruct b; intros H I.
  - eapply in_mmapR; eauto.
  - inversion H; subst. eauto.
Qed.
Lemma in_mmap f m b : In b (asgs (mmap f m)) -> exists a, In a (asgs m) /\ b = f a.
Proof.
  unfold asgs, mmap. induction m as [|[c l] m IH]; simpl; [tauto|]. intros I. apply in_app_or in I.
  destruct I as [I|I].
  - apply in_map_iff in I. destruct I as (a & A1 & A2). exists a. split; auto. apply in_or_app; auto.
  - destruct (IH I) as (a & A1 & A2). exists a. split; auto. apply in_or_app; auto.
Qed.
Lemma in_reRange next size : forall m cum m' cum' b, reRange next size m cum = (m', cum') ->
  In b (asgs m') -> exists a s, In a (asgs m) /\ b = setStart s a.
Proof.
  unfold asgs. induction m as [|[c l] m IH]; simpl; intros cum m' cum' b H I.
  - inversion H; subst. destruct I.
  - destruct (reRange next size m (cum + size c)) as [m1 c1] eqn:R. inversion H; subst; clear H. simpl in I.
    apply in_app_or in I. destruct I as [I|I].
    + apply in_map_iff in I. destruct I as (a & A1 & A2). exists a, (next cum c). split; auto. apply in_or_app; auto.
    + destruct (IH _ _ _ _ R I) as (a & s & A1 & A2). exists a, s. split; auto. apply in_or_app; auto.
Qed.
Lemma in_reRangeB vs m m' cs b : good bdim m cs -> reRangeB vs m = Ok m' ->
  In b (asgs m') -> exists a v l s, In a (asgs m) /\ c_vars (a_c a) = v :: l /\ mappingIn v vs = Ok s /\ b = setStart s a.
Proof.
  intros [_ F] H. apply traverse_ok in H. unfold asgs.
  induction H as [|p q m m' E H IH]; simpl; [tauto|]. inversion F; subst.
  intros I. apply in_app_or in I. destruct I as [I|I].
  - destruct (c_vars (fst p)) as [|v l] eqn:V; [discriminate|]. inv_bind E. inversion E; subst; clear E. simpl in I.
    apply in_map_iff in I. destruct I as (a & A1 & A2). exists a, v, l, x.
    destruct H2 as (a' & Q1 & Q2 & _). rewrite Q1 in A2. destruct A2 as [<-|[]].
    split; [apply in_or_app; rewrite Q1; simpl; auto|]. split; auto. congruence.
  - destruct (IH H3 I) as (a & v & l & s & A1 & A2). exists a, v, l, s. split; [apply in_or_app; auto|]. auto.
Qed.

Lemma if_map_in (b : bool) d m x : In x (asgs (if b then mmap (setData d) m else m)) ->
  exists a, In a (asgs m) /\ x = if b then setData d a else a.
Proof. destruct b; intros I; eauto. now apply in_mmap. Qed.

(* one category of general constraints or objectives *)
Lemma category_sync (nv b b2 : bool) vs0 vs d0 d m0 m1 m2 m4 :
  Forall (synced d0 vs0) (asgs m0) -> (nv = false -> vs = vs0) ->
  whenR nv (mmapR (onUpdatedMapping vs)) m0 = Ok m1 ->
  (forall x, In x (asgs m2) -> exists a, In a (asgs m1) /\ (if b then exists s, x = setStart s a else x = a)) ->
  (b = true -> b2 = true) ->
  (b2 = false -> forall a, In a (asgs m0) -> 0 < a_dim a -> d0 = d) ->
  d_mat d <> None ->
  whenR (nv || b2) (mmapR onUpdatedTarget) (if b2 then mmap (setData d) m2 else m2) = Ok m4 ->
  Forall (synced d vs) (asgs m4).
Proof.
  intros F NV H1 H2 Hb Hd Dn H4. apply Forall_forall. intros x Ix.
  destruct (in_whenR _ _ _ _ _ H4 Ix) as (a3 & I3 & X3).
  destruct (if_map_in _ _ _ _ I3) as (a2 & I2 & X2).
  destruct (H2 _ I2) as (a1 & I1 & X1).
  destruct (in_whenR _ _ _ _ _ H1 I1) as (a0 & I0 & X0).
  rewrite Forall_forall in F. destruct (F _ I0) as (S1 & S2 & S3 & S4 & S5 & S6).
  assert (Y1 : a_c a1 = a_c a0 /\ a_dim a1 = a_dim a0 /\ a_data a1 = a_data a0 /\ a_start a1 = a_start a0 /\
               mappings (c_vars (a_c a1)) vs = Ok (a_cols a1) /\
               (nv = false -> a1 = a0)).
  { destruct nv.
    - unfold onUpdatedMapping in X0. destruct (d_mat (a_data a0)) eqn:DM; [|congruence].
      inv_bind X0. inversion X0; subst; simpl. repeat split; auto; discriminate.
    - subst a1. rewrite NV by auto. auto 10. }
  destruct Y1 as (C1 & D1 & T1 & A1 & M1 & N1).
  assert (Y2 : a_c a2 = a_c a1 /\ a_dim a2 = a_dim a1 /\ a_data a2 = a_data a1 /\ a_cols a2 = a_cols a1 /\
               (b = false -> a2 = a1)).
  { destruct b; [destruct X1 as [s ->]; simpl; repeat split; auto; discriminate|subst; auto]. }
  destruct Y2 as (C2 & D2 & T2 & M2 & N2).
  assert (Y3 : a_c a3 = a_c a2 /\ a_dim a3 = a_dim a2 /\ a_cols a3 = a_cols a2 /\
               (0 < a_dim a3 -> a_data a3 = d) /\ d_mat (a_data a3) <> None /\ (b2 = false -> a3 = a2)).
  { destruct b2; subst a3; simpl.
    - repeat split; auto. discriminate.
    - repeat split; auto; try congruence. intros. rewrite T2, T1. rewrite S1 by congruence.
      apply (Hd eq_refl a0); auto. congruence. }
  destruct Y3 as (C3 & D3 & M3 & T3 & S3' & N3).
  destruct (nv || b2) eqn:NB.
  - unfold onUpdatedTarget in X3. destruct (d_mat (a_data a3)) eqn:DM; [|congruence].
    inversion X3; subst x; clear X3. unfold synced; simpl. rewrite DM.
    repeat split; auto; congruence.
  - subst x. apply orb_false_iff in NB. destruct NB as [-> ->].
    assert (b = false) by (destruct b; auto; specialize (Hb eq_refl); congruence).
    specialize (N1 eq_refl). specialize (N2 H). specialize (N3 eq_refl). subst a3 a2 a1.
    rewrite (NV eq_refl). unfold synced. repeat split; auto.
Qed.

Lemma bounds_sync (nv b b2 : bool) vs0 vs d0 d m0 m1 m2 m4 cs :
  good bdim m0 cs ->
  Forall (syncedB d0 vs0) (asgs m0) -> (nv = false -> vs = vs0) ->
  whenR nv (mmapR (onUpdatedMapping vs)) m0 = Ok m1 ->
  whenR (b || nv) (reRangeB vs) m1 = Ok m2 ->
  (b = true -> b2 = true) ->
  (b2 = false -> forall a, In a (asgs m0) -> 0 < a_dim a -> d0 = d) ->
  d_mat d = None ->
  whenR (nv || b2) (mmapR onUpdatedTarget) (if b2 then mmap (setData d) m2 else m2) = Ok m4 ->
  Forall (syncedB d vs) (asgs m4).
Proof.
  intros G F NV H1 H2 Hb Hd Dn H4. apply Forall_forall. intros x Ix.
  destruct (good_oum _ _ _ _ _ _ G H1) as [G1 _].
  destruct (in_whenR _ _ _ _ _ H4 Ix) as (a3 & I3 & X3).
  destruct (if_map_in _ _ _ _ I3) as (a2 & I2 & X2).
  assert (Q2 : exists a1, In a1 (asgs m1) /\
             (if b || nv then exists v l s, c_vars (a_c a1) = v :: l /\ mappingIn v vs = Ok s /\ a2 = setStart s a1
              else a2 = a1)).
  { unfold whenR in H2. destruct (b || nv).
    - destruct (in_reRangeB _ _ _ _ _ G1 H2 I2) as (a & v & l & s & J1 & J2 & J3 & J4). exists a; eauto 10.
    - inversion H2; subst; eauto. }
  destruct Q2 as (a1 & I1 & X1).
  destruct (in_whenR _ _ _ _ _ H1 I1) as (a0 & I0 & X0).
  rewrite Forall_forall in F. destruct (F _ I0) as (S1 & S2 & (v0 & V0 & S3) & S4 & S5).
  assert (a1 = a0).
  { destruct nv; auto. unfold onUpdatedMapping in X0. rewrite S2 in X0. inversion X0; auto. }
  subst a1.
  assert (Y2 : a_c a2 = a_c a0 /\ a_dim a2 = a_dim a0 /\ a_data a2 = a_data a0 /\
               mappingIn v0 vs = Ok (a_start a2) /\ (b || nv = false -> a2 = a0)).
  { destruct (b || nv) eqn:BN.
    - destruct X1 as (v & l & s & J1 & J2 & ->). simpl. rewrite V0 in J1. inversion J1; subst. repeat split; auto; discriminate.
    - subst a2. apply orb_false_iff in BN. destruct BN as [_ ->]. rewrite NV by auto. repeat split; auto. }
  destruct Y2 as (C2 & D2 & T2 & M2 & N2).
  assert (Y3 : a_c a3 = a_c a2 /\ a_dim a3 = a_dim a2 /\ a_start a3 = a_start a2 /\
               (0 < a_dim a3 -> a_data a3 = d) /\ d_mat (a_data a3) = None /\ (b2 = false -> a3 = a2)).
  { destruct b2; subst a3; simpl.
    - repeat split; auto. discriminate.
    - repeat split; auto; try congruence. intros. rewrite T2. rewrite S1 by congruence.
      apply (Hd eq_refl a0); auto. congruence. }
  destruct Y3 as (C3 & D3 & M3 & T3 & S3' & N3).
  assert (V3 : exists v, c_vars (a_c a3) = [v] /\ mappingIn v vs = Ok (a_start a3)).
  { exists v0. split; congruence. }
  destruct (nv || b2) eqn:NB.
  - unfold onUpdatedTarget in X3. rewrite S3' in X3. destruct (c_diag (a_c a3)); [discriminate|].
    inversion X3; subst x; clear X3. unfold syncedB; simpl. auto 10.
  - subst x. apply orb_false_iff in NB. destruct NB as [-> ->].
    assert (b = false) by (destruct b; auto; specialize (Hb eq_refl); congruence). subst b.
    specialize (N2 eq_refl). specialize (N3 eq_refl). subst a3 a2.
    unfold syncedB. auto 10.
Qed.

Lemma eqData_mat k s : d_mat (eqData k s) <> None. Proof. destruct k; discriminate. Qed.
Lemma ineqData_mat k s : d_mat (ineqData k s) <> None. Proof. destruct k; discriminate. Qed.
Lemma objData_mat k s : d_mat (objData k s) <> None. Proof. destruct k; discriminate. Qed.
Lemma bndData_mat k s : d_mat (bndData k s) = None. Proof. destruct k; simpl; auto. destruct (s_ub s); auto. Qed.

Lemma apply_incl k i : (i_eq i = true -> i_eq (applyImpactLogic k i) = true) /\
  (i_ineq i = true -> i_ineq (applyImpactLogic k i) = true) /\
  (i_bnd i = true -> i_bnd (applyImpactLogic k i) = true) /\
  (i_obj i = true -> i_obj (applyImpactLogic k i) = true).
Proof. destruct k; simpl; repeat split; intros ->; simpl; auto. Qed.

(* The data of a category is the same before and after resize_ when the category is not
   impacted. *)
Record Same (k : kind) (s0 s : store) (imp2 : impact) (st : state) : Prop := {
  d_eq : i_eq imp2 = false -> forall a, In a (asgs (st_eq st)) -> 0 < a_dim a -> eqData k s0 = eqData k s;
  d_ineq : i_ineq imp2 = false -> forall a, In a (asgs (st_ineq st)) -> 0 < a_dim a -> ineqData k s0 = ineqData k s;
  d_bnd : i_bnd imp2 = false -> forall a, In a (asgs (st_bnd st)) -> 0 < a_dim a -> bndData k s0 = bndData k s;
  d_obj : i_obj imp2 = false -> forall a, In a (asgs (st_obj st)) -> 0 < a_dim a -> objData k s0 = objData k s }.

Lemma retarget_Sync k imp impR nv vs0 s0 st st' B :
  good bdim (st_bnd st) B ->
  Forall (synced (eqData k s0) vs0) (asgs (st_eq st)) ->
  Forall (synced (ineqData k s0) vs0) (asgs (st_ineq st)) ->
  Forall (syncedB (bndData k s0) vs0) (asgs (st_bnd st)) ->
  Forall (synced (objData k s0) vs0) (asgs (st_obj st)) ->
  (nv = false -> st_vars st = vs0) ->
  Same k s0 (st_store st) (applyImpactLogic k (impOr imp impR)) st ->
  retarget k imp impR nv st = Ok st' -> Sync k st'.
Proof.
  intros G F1 F2 F3 F4 NV [D1 D2 D3 D4] H. unfold retarget in H. inv_bind H. inv_bind H. inv_bind H. inv_bind H.
  match type of H with context [let '(a, b) := ?X in _] => destruct X as [e1 es1] eqn:R1 end.
  match type of H with context [let '(a, b) := ?X in _] => destruct X as [i1 is1] eqn:R2 end.
  inv_bind H.
  match type of H with context [let '(a, b) := ?X in _] => destruct X as [o1 os1] eqn:R3 end.
  cbv zeta in H.
  inv_bind H. inv_bind H. inv_bind H. inv_bind H. inversion H; subst st'; clear H; simpl.
  pose proof (apply_incl k (impOr imp impR)) as (J1 & J2 & J3 & J4).
  set (imp2 := applyImpactLogic k (impOr imp impR)) in *. clearbody imp2. simpl in J1, J2, J3, J4.
  constructor; simpl.
  - eapply (category_sync nv (i_eq imp) (i_eq imp2)); [exact F1|exact NV|exact E| | |exact D1|apply eqData_mat|exact E4].
    + intros y Iy. destruct (i_eq imp).
      * destruct (in_reRange _ _ _ _ _ _ _ R1 Iy) as (a & s & A1 & A2). eauto.
      * inversion R1; subst. eauto.
    + intros Hq. apply J1. now rewrite Hq.
  - eapply (category_sync nv (i_ineq imp) (i_ineq imp2)); [exact F2|exact NV|exact E0| | |exact D2|apply ineqData_mat|exact E5].
    + intros y Iy. destruct (i_ineq imp).
      * destruct (in_reRange _ _ _ _ _ _ _ R2 Iy) as (a & s & A1 & A2). eauto.
      * inversion R2; subst. eauto.
    + intros Hq. apply J2. now rewrite Hq.
  - eapply (bounds_sync nv (i_bnd imp) (i_bnd imp2)); [exact G|exact F3|exact NV|exact E1|exact E3| |exact D3|apply bndData_mat|exact E6].
    intros Hq. apply J3. now rewrite Hq.
  - eapply (category_sync nv (i_obj imp) (i_obj imp2)); [exact F4|exact NV|exact E2| | |exact D4|apply objData_mat|exact E7].
    + intros y Iy. destruct (i_obj imp).
      * destruct (in_reRange _ _ _ _ _ _ _ R3 Iy) as (a & s & A1 & A2). eauto.
      * inversion R3; subst. eauto.
    + intros Hq. apply J4. now rewrite Hq.
Qed.

(* ---- additions ---- *)
Lemma in_minsert c a m x : In x (asgs (minsert c a m)) -> x = a \/ In x (asgs m).
Proof.
  unfold asgs. induction m as [|[d l] m IH]; simpl.
  - intros [->|[]]; auto.
  - destruct (c_id c =? c_id d); [|destruct (c_id c <? c_id d)]; simpl; intros I.
    + apply in_app_or in I. destruct I as [I|I]; [|right; apply in_or_app; auto].
      apply in_app_or in I. destruct I as [I|[->|[]]]; auto. right; apply in_or_app; auto.
    + destruct I as [->|I]; auto.
    + apply in_app_or in I. destruct I as [I|I]; [right; apply in_or_app; auto|].
      destruct (IH I); auto. right; apply in_or_app; auto.
Qed.
Lemma forall_minsert (Q : asg -> Prop) c a m : Forall Q (asgs m) -> Q a -> Forall Q (asgs (minsert c a m)).
Proof.
  intros F Ha. apply Forall_forall. intros x I. apply in_minsert in I. destruct I as [->|I]; auto.
  rewrite Forall_forall in F; auto.
Qed.

Lemma mkAssign_synced c s d D vs a : d_mat D <> None -> mkAssign c s d D vs = Ok a -> synced D vs a.
Proof.
  intros Dn H. destruct (mkAssign_ok _ _ _ _ _ _ H) as (A1 & A2 & A3 & A4 & A5 & A6 & A7 & A8).
  unfold synced. rewrite A4, A1. repeat split; auto; congruence.
Qed.

Lemma Sync_addConstraint k c st st' : Sync k st -> addConstraint k c st = Ok st' -> Sync k st'.
Proof.
  intros [] H. unfold addConstraint in H. destruct (st_build st); simpl in H; [|discriminate].
  destruct (c_eq c).
  - destruct (nextEq k (st_eqSize st) (st_ineqSize st) c) as [s d]. inv_bind H. inversion H; subst; clear H.
    constructor; simpl; auto. apply forall_minsert; auto. eapply mkAssign_synced; [apply eqData_mat|eauto].
  - destruct (nextIneq k (st_eqSize st) (st_ineqSize st) c) as [s d]. inv_bind H. inversion H; subst; clear H.
    constructor; simpl; auto. apply forall_minsert; auto. eapply mkAssign_synced; [apply ineqData_mat|eauto].
Qed.
Lemma Sync_addBound k c st st' : Sync k st -> addBound k c st = Ok st' -> Sync k st'.
Proof.
  intros [] H. unfold addBound in H. destruct (st_build st); simpl in H; [|discriminate].
  destruct (c_vars c) as [|v [|w l]] eqn:V; try discriminate. inv_bind H. inversion H; subst; clear H.
  constructor; simpl; auto. apply forall_minsert; auto. unfold syncedB; simpl. repeat split; auto.
  - apply bndData_mat.
  - eauto.
Qed.
Lemma Sync_addObjective k c st st' : Sync k st -> addObjective k c st = Ok st' -> Sync k st'.
Proof.
  intros [] H. unfold addObjective in H. destruct (st_build st); simpl in H; [|discriminate].
  destruct (c_l2 c); simpl in H; [|discriminate]. inv_bind H. inversion H; subst; clear H.
  constructor; simpl; auto. apply forall_minsert; auto. eapply mkAssign_synced; [apply objData_mat|eauto].
Qed.
Lemma Sync_foldR k (f : cstr -> state -> res state) :
  (forall c st st', Sync k st -> f c st = Ok st' -> Sync k st') ->
  forall l st st', Sync k st -> foldR f l st = Ok st' -> Sync k st'.
Proof.
  intros Hf. induction l; simpl; intros st st' S H; [inversion H; subst; auto|].
  inv_bind H. eauto.
Qed.
Lemma Sync_setBuild k b st : Sync k st -> Sync k (setBuild b st).
Proof. intros []; constructor; auto. Qed.
Lemma Sync_processAdded k ev st st' : Sync k st -> processAdded k ev st = Ok st' -> Sync k st'.
Proof.
  intros S H. unfold processAdded in H. inv_bind H. inv_bind H. inv_bind H. inversion H; subst; clear H.
  apply Sync_setBuild.
  eapply Sync_foldR; [apply Sync_addObjective| |exact E1].
  eapply Sync_foldR; [apply Sync_addBound| |exact E0].
  eapply Sync_foldR; [apply Sync_addConstraint| |exact E]. now apply Sync_setBuild.
Qed.
Lemma Sync_build k P st0 st : build k P st0 = Ok st -> Sync k st.
Proof.
  intros H. unfold build in H. inv_bind H. inv_bind H. inv_bind H. inversion H; subst; clear H.
  assert (S : Sync k x1).
  { eapply Sync_foldR; [apply Sync_addObjective| |exact E1].
    eapply Sync_foldR; [apply Sync_addBound| |exact E0].
    eapply Sync_foldR; [apply Sync_addConstraint| |exact E]. constructor; simpl; constructor. }
  destruct S; constructor; auto.
Qed.

(* ---- the data is unchanged when not impacted ---- *)
Lemma filter_part_sum f (p : cstr -> bool) l :
  sumSizes f l = sumSizes f (filter p l) + sumSizes f (filter (fun c => negb (p c)) l).
Proof.
  induction l as [|c l IH]; simpl; auto. rewrite sumSizes_cons, IH.
  destruct (p c); simpl; rewrite sumSizes_cons; lia.
Qed.

Lemma good_dim_le dim m cs a : good dim m cs -> In a (asgs m) -> a_dim a <= sumSizes dim cs.
Proof.
  intros G I. pose proof (good_dims _ _ _ G) as F. rewrite Forall_forall in F. rewrite (F _ I).
  pose proof (good_asgs _ _ _ G) as P.
  assert (In (a_c a) cs) as Ic. { eapply Permutation_in; [exact P|]. now apply in_map. }
  clear -Ic. induction cs; simpl in *; [tauto|]. rewrite sumSizes_cons. destruct Ic as [->|I]; [lia|].
  specialize (IHcs I). lia.
Qed.
Lemma good_in_nonnil dim m cs a : good dim m cs -> In a (asgs m) -> cs <> [].
Proof.
  intros G I ->. pose proof (good_asgs _ _ _ G) as P. apply Permutation_sym, Permutation_nil in P.
  destruct (asgs m); [destruct I|discriminate].
Qed.
Lemma good_isNil dim m cs : good dim m cs -> isNil m = isNil cs.
Proof.
  intros [P _]. destruct m, cs; simpl in *; auto.
  - now apply Permutation_nil in P.
  - apply Permutation_sym, Permutation_nil in P. discriminate.
Qed.
Lemma isNil_app {A} (l r : list A) : isNil (l ++ r) = isNil l && isNil r.
Proof. destruct l; auto. Qed.

Lemma mul_mono_inj (f : nat -> nat) n n' :
  (forall a b, a < b -> f a < f b) -> f n = f n' -> n = n'.
Proof. intros M E. destruct (lt_eq_lt_dec n n') as [[L| ]|L]; auto; apply M in L; lia. Qed.
Lemma drows_inj k o n n' : separate k = true -> 0 < o -> drows k o n * n = drows k o n' * n' -> n = n'.
Proof.
  intros S Ho E. apply (mul_mono_inj (fun n => drows k o n * n)); auto.
  intros a b L. destruct k as [[]|[]| |]; try discriminate; simpl;
    destruct (Nat.ltb_spec o a), (Nat.ltb_spec o b); nia.
Qed.

Lemma remC_nil_without P ev : ev_remC ev = [] -> without (q_eqs P) (ev_remC ev) = q_eqs P.
Proof. intros ->. apply without_nil. Qed.

Lemma filter_false_nil {A} (p : A -> bool) l : filter p l <> [] -> l <> [].
Proof. intros H ->. auto. Qed.


Definition ar (k : kind) (e i : nat) (u : bool) (n : nat) : nat :=
  match k with Quadprog _ => if u then e + i + 2 * n else e + i | _ => e + i end.

Lemma wr_false o r c r0 c0 : dims o r0 c0 -> willReallocate o r c = false -> r0 * c0 = r * c.
Proof. intros [<- <-]. unfold willReallocate. rewrite negb_false_iff, Nat.eqb_eq. auto. Qed.

Lemma whole_eq s s0 sl : get s sl = get s0 sl -> whole s0 sl = whole s sl.
Proof. unfold whole, block. intros ->. auto. Qed.
Lemma block_eq s s0 sl r c h w : get s sl = get s0 sl -> block s0 sl r c h w = block s sl r c h w.
Proof. unfold block. intros ->. auto. Qed.

Lemma mkD1 a a' b b' : a = a' -> b = b' -> mkD (Some a) [b] = mkD (Some a') [b'].
Proof. congruence. Qed.
Lemma mkD2 a a' b b' : a = a' -> b = b' -> mkD None [a; b] = mkD None [a'; b'].
Proof. congruence. Qed.
Lemma mkD3 a a' b b' c c' : a = a' -> b = b' -> c = c' -> mkD (Some a) [b; c] = mkD (Some a') [b'; c'].
Proof. congruence. Qed.

(* The four categories, in terms of sizes only. *)
Section Data.
Local Arguments Nat.mul : simpl never.
Variables (k : kind) (n0 o0 e0 i0 n o e i : nat) (u0 u : bool) (s0 s : store) (imp impR : impact).
Hypothesis Sh : Shape k n0 o0 e0 i0 u0 s0.
Hypothesis R : resize_ k n o e i u s0 = (s, impR).
Let imp2 := applyImpactLogic k (impOr imp impR).
Hypothesis He : i_eq imp = false -> e = e0.
Hypothesis Hi : i_ineq imp = false -> e = e0 /\ i = i0.
Hypothesis Ho : i_obj imp = false -> o = o0.

Lemma data_obj : i_obj imp2 = false -> 0 < o0 -> objData k s0 = objData k s.
Proof.
  intros F P. assert (F' : i_obj imp = false /\ i_obj impR = false).
  { unfold imp2 in F. destruct k; simpl in F; now apply orb_false_iff. }
  destruct F' as [F1 F2]. specialize (Ho F1). subst o. clear F He Hi.
  destruct k eqn:K; simpl in R; inversion R; subst s impR; clear R; simpl in F2; destruct Sh as [Q1 Sh'].
  - destruct Sh' as (A & B & _). apply wr_false with (1 := A) in F2.
    assert (n0 = n) by (eapply (drows_inj (QLD chol)); [reflexivity|exact P|exact F2]). subst n.
    simpl. apply mkD1; apply whole_eq; simpl; first [reflexivity|apply resize_same; auto].
  - destruct Sh' as (A & B & _). apply wr_false with (1 := A) in F2.
    assert (n0 = n) by (eapply (drows_inj (Quadprog chol)); [reflexivity|exact P|exact F2]). subst n.
    simpl. apply mkD1; apply whole_eq; simpl; first [reflexivity|apply resize_same; auto].
  - destruct Sh' as (A & B & _). apply wr_false with (1 := A) in F2.
    assert (n0 = n) by nia. subst n.
    simpl. apply mkD1; apply whole_eq; simpl; first [reflexivity|apply resize_same; auto].
  - destruct Sh' as (A & B & _). apply wr_false with (1 := A) in F2.
    assert (n0 = n) by nia. subst n.
    simpl. rewrite (resize_same _ _ _ A). destruct Q1 as [-> _].
    unfold block; simpl. rewrite ?(resize_same _ _ _ A). auto.
Qed.

Lemma data_bnd : i_bnd imp2 = false -> 0 < n0 ->
  (match k with Quadprog _ => u0 = true /\ u = true | _ => True end) ->
  bndData k s0 = bndData k s.
Proof.
  intros F P U. destruct k eqn:K; simpl in R; inversion R; subst s impR; clear R; simpl in F; destruct Sh as [(Q1 & Q2 & Q3 & Q4) Sh'];
    simpl in Q1, Q2, Q3, Q4.
  - apply orb_false_iff in F. destruct F as [_ F]. destruct Sh' as (_ & _ & _ & _ & A & B).
    apply wr_false with (1 := A) in F. assert (n0 = n) by lia. subst n.
    simpl. apply mkD2; apply whole_eq; simpl; first [reflexivity|apply resize_same; auto].
  - rewrite !orb_false_iff in F. destruct F as ((_ & F0) & (F3 & F1) & _ & _). destruct U as [-> ->].
    destruct (Hi F3) as [-> ->]. clear Hi He. destruct Sh' as (_ & _ & A & B).
    apply wr_false with (1 := A) in F1. assert (n0 = n) by nia. subst n.
    simpl. rewrite Q1, Q2, Q3, Q4. apply mkD2; apply block_eq; simpl; first [reflexivity|apply resize_same; auto].
  - rewrite !orb_false_iff in F. destruct F as (_ & F1 & F2). destruct Sh' as (_ & _ & A & B & C).
    apply wr_false with (1 := B) in F1. rewrite !Nat.mul_1_r in F1.
    simpl. apply mkD2; apply whole_eq; simpl; apply resize_same; auto; rewrite <- F1; auto.
  - apply orb_false_iff in F. destruct F as [_ F]. destruct Sh' as (_ & _ & A).
    apply wr_false with (1 := A) in F. assert (n0 = n) by lia. subst n.
    simpl. rewrite (resize_same _ _ _ A).
    apply mkD2; apply block_eq; simpl; first [reflexivity|apply resize_same; auto].
Qed.

Lemma data_eq : i_eq imp2 = false -> 0 < e0 ->
  (separate k = true -> i_eq imp = false -> ar k e i u n * n = ar k e0 i0 u0 n0 * n0 ->
   ar k e i u n = ar k e0 i0 u0 n0 /\ n = n0) ->
  eqData k s0 = eqData k s.
Proof.
  intros F P NS. destruct k eqn:K; simpl in R; inversion R; subst s impR; clear R; simpl in F; destruct Sh as [(Q1 & Q2 & Q3 & Q4) Sh'];
    simpl in Q1, Q2, Q3, Q4, NS.
  - apply orb_false_iff in F. destruct F as [F0 F]. destruct Sh' as (_ & _ & A & B & _).
    apply wr_false with (1 := A) in F. destruct NS as [N1 ->]; auto.
    simpl. apply mkD1; apply whole_eq; simpl; apply resize_same; rewrite N1; auto.
  - apply orb_false_iff in F. destruct F as [F0 F]. destruct Sh' as (_ & _ & A & B).
    apply wr_false with (1 := A) in F. destruct NS as [N1 N2]; auto.
    simpl. apply mkD1; apply whole_eq; simpl; apply resize_same; rewrite N1; auto. now rewrite N2.
  - rewrite !orb_false_iff in F. destruct F as ((F1 & F2) & (F3 & _) & _ & _). destruct Sh' as (_ & _ & A & B & C).
    destruct (Hi F3) as [-> ->]. apply wr_false with (1 := A) in F2. assert (n0 = n) by nia. subst n.
    simpl. rewrite Q2, Q3, (resize_same _ _ _ B), (resize_same _ _ _ C).
    apply mkD3; [apply whole_eq|apply block_eq|apply block_eq]; simpl; first [reflexivity|apply resize_same; auto].
  - rewrite !orb_false_iff in F. destruct F as ((F1 & F2) & (F3 & _) & _ & _). destruct Sh' as (_ & A & B).
    destruct (Hi F3) as [-> ->]. apply wr_false with (1 := A) in F2. assert (n0 = n) by nia. subst n.
    simpl. rewrite Q1, (resize_same _ _ _ A). unfold block; simpl. rewrite ?(resize_same _ _ _ A). auto.
Qed.

Lemma data_ineq : i_ineq imp2 = false -> 0 < i0 ->
  (separate k = true -> i_ineq imp = false -> ar k e i u n * n = ar k e0 i0 u0 n0 * n0 ->
   ar k e i u n = ar k e0 i0 u0 n0 /\ n = n0) ->
  ineqData k s0 = ineqData k s.
Proof.
  intros F P NS. destruct k eqn:K; simpl in R; inversion R; subst s impR; clear R; simpl in F; destruct Sh as [(Q1 & Q2 & Q3 & Q4) Sh'];
    simpl in Q1, Q2, Q3, Q4, NS.
  - rewrite !orb_false_iff in F. destruct F as ((F0 & F) & _). destruct Sh' as (_ & _ & A & B & _).
    destruct (Hi F0) as [-> ->].
    apply wr_false with (1 := A) in F. destruct NS as [N1 ->]; auto.
    simpl. rewrite Q3, (resize_same _ _ _ A), (resize_same _ _ _ B).
    apply mkD1; apply block_eq; simpl; first [reflexivity|apply resize_same; auto].
  - rewrite !orb_false_iff in F. destruct F as ((F0 & F) & _). destruct Sh' as (_ & _ & A & B).
    destruct (Hi F0) as [-> ->].
    apply wr_false with (1 := A) in F. destruct NS as [N1 N2]; auto. subst n.
    simpl. rewrite Q2, Q3. rewrite N1 in *. rewrite (resize_same _ _ _ A).
    apply mkD1; apply block_eq; simpl; first [reflexivity|apply resize_same; auto].
  - rewrite !orb_false_iff in F. destruct F as ((F3 & F2) & _ & _). destruct Sh' as (_ & _ & A & B & C).
    destruct (Hi F3) as [-> ->]. apply wr_false with (1 := A) in F2. assert (n0 = n) by nia. subst n.
    simpl. rewrite Q2, Q3, (resize_same _ _ _ B), (resize_same _ _ _ C).
    apply mkD3; [apply whole_eq|apply block_eq|apply block_eq]; simpl; first [reflexivity|apply resize_same; auto].
  - rewrite !orb_false_iff in F. destruct F as ((F3 & F2) & _ & _). destruct Sh' as (_ & A & B).
    destruct (Hi F3) as [-> ->]. apply wr_false with (1 := A) in F2. assert (n0 = n) by nia. subst n.
    simpl. rewrite Q1, (resize_same _ _ _ A). unfold block; simpl. rewrite ?(resize_same _ _ _ A). auto.
Qed.
End Data.
