(* C27: the problem handed to the numerical solver is the current problem. *)
From Coq Require Import List Bool Arith Permutation Lia.
Import ListNotations.
From Verif Require Import Base SolverModel SolverSpec SolverProofs SolverProofs2 SolverProofs3 SolverProofs4 SolverProofs5.

Lemma kind_cases k : (exists c, k = QLD c) \/ (exists c, k = Quadprog c) \/ k = LSSOL \/ k = LexLS.
Proof. destruct k; eauto. Qed.

Lemma map_seq_shift {B} (f : nat -> B) a d : map f (seq a d) = map (fun r => f (a + r)) (seq 0 d).
Proof.
  replace (seq a d) with (seq (a + 0) d) by now rewrite Nat.add_0_r. generalize 0.
  induction d; intros m; simpl; auto. f_equal. rewrite <- Nat.add_succ_r. apply IHd.
Qed.

Definition cellD (a : asg) (d : tdata) (sl : slot) (r c : nat) : list content :=
  match d_mat d with
  | Some w => if slot_eqb sl (w_slot w) && ((w_c0 w <=? c) && inside r (w_r0 w + a_start a, a_dim a))
              then coefs a (r - (w_r0 w + a_start a)) (c - w_c0 w) else []
  | None => []
  end ++
  flat_map (fun w => if slot_eqb sl (w_slot w) && (inside r (w_r0 w + a_start a, a_dim a) && (c =? w_c0 w))
                     then [Rhs (c_id (a_c a)) (r - (w_r0 w + a_start a))] else []) (d_vec d).

Lemma inside_0 r s : inside r (s, 0) = false.
Proof. unfold inside; simpl. destruct (Nat.leb_spec s r), (Nat.ltb_spec r (s + 0)); simpl; auto; lia. Qed.

Lemma cell_wl a d sl r c : g_start a = a_start a -> g_data a = a_data a -> (0 < a_dim a -> a_data a = d) ->
  cell (wl a) (sl, r, c) = cellD a d sl r c.
Proof.
  intros G1 G2 G3. destruct (Nat.eq_dec (a_dim a) 0) as [Z|Z].
  - unfold wl, cellsMat, cellsVec, cellD. rewrite Z. simpl.
    assert (forall l : list view, flat_map (fun _ => @nil (cellkey * content)) l = []) as -> by (induction l; auto).
    rewrite (flat_map_nil _ (d_vec d)); [|intros; now rewrite inside_0, andb_false_r].
    destruct (d_mat (g_data a)), (d_mat d); simpl; auto; rewrite inside_0, !andb_false_r; auto.
  - rewrite <- G3 by lia. unfold wl, cellD. rewrite cell_app, G2. f_equal.
    + destruct (d_mat (a_data a)) as [w|]; auto. destruct (slot_eqb_spec sl (w_slot w)) as [->|N].
      * destruct (Nat.leb_spec (w_c0 w) c); [rewrite cell_mat by auto; rewrite G1; reflexivity|].
        now rewrite cell_mat_left.
      * now rewrite cell_put_other.
    + rewrite cell_flat_map. apply flat_map_ext_in. intros w _. destruct (slot_eqb_spec sl (w_slot w)) as [->|N].
      * rewrite cell_vec, G1. reflexivity.
      * now rewrite cell_put_other.
Qed.

(* ---- rows ---- *)
Definition zipApp (l l' : list (list content)) := map (fun p => fst p ++ snd p) (combine l l').
Definition rowApp (x y : row) : row := (zipApp (fst x) (fst y), zipApp (snd x) (snd y)).
Definition emptyRow (n m : nat) : row := (repeat [] n, repeat [] m).
Definition sized (n m : nat) (x : row) : Prop := length (fst x) = n /\ length (snd x) = m.

Lemma zipApp_map {A} (f g : A -> list content) l : zipApp (map f l) (map g l) = map (fun x => f x ++ g x) l.
Proof. unfold zipApp. induction l; simpl; auto. now rewrite IHl. Qed.
Lemma readRow_app l l' n m v r : readRow (l ++ l') n m v r = rowApp (readRow l n m v r) (readRow l' n m v r).
Proof.
  unfold readRow, rowApp; simpl. rewrite !zipApp_map. f_equal; apply map_ext; intros.
  - apply cell_app.
  - destruct a as [[s a] b]. apply cell_app.
Qed.
Lemma map_const_repeat {A B} (b : B) (l : list A) : map (fun _ => b) l = repeat b (length l).
Proof. induction l; simpl; congruence. Qed.
Lemma readRow_nil n m v r : readRow [] n m v r = emptyRow n (length v).
Proof.
  unfold readRow, emptyRow. f_equal.
  - change (fun c => cell [] (m, r, c)) with (fun _ : nat => @nil content).
    now rewrite map_const_repeat, seq_length.
  - rewrite (map_ext _ (fun _ => [])); [apply map_const_repeat|]. now intros [[? ?] ?].
Qed.
Lemma zipApp_nil_r l : zipApp l (repeat [] (length l)) = l.
Proof. unfold zipApp. induction l; simpl; auto. now rewrite IHl, app_nil_r. Qed.
Lemma zipApp_nil_l l : zipApp (repeat [] (length l)) l = l.
Proof. unfold zipApp. induction l; simpl; auto. now rewrite IHl. Qed.
Lemma rowApp_empty_r n m x : sized n m x -> rowApp x (emptyRow n m) = x.
Proof. destruct x as [a b]. intros [A B]. simpl in *. subst. unfold rowApp; simpl. now rewrite !zipApp_nil_r. Qed.
Lemma rowApp_empty_l n m x : sized n m x -> rowApp (emptyRow n m) x = x.
Proof. destruct x as [a b]. intros [A B]. simpl in *. subst. unfold rowApp; simpl. now rewrite !zipApp_nil_l. Qed.
Lemma readRow_sized l n m v r : sized n (length v) (readRow l n m v r).
Proof. split; simpl; rewrite map_length; auto. apply seq_length. Qed.

Definition rdL (n : nat) (m : slot) (v : list cellkey) (L : list asg) (r : nat) : row :=
  readRow (flat_map wl L) n m v r.
Lemma rdL_app n m v L L' r : rdL n m v (L ++ L') r = rowApp (rdL n m v L r) (rdL n m v L' r).
Proof. unfold rdL. rewrite flat_map_app. apply readRow_app. Qed.
Lemma rdL_empty n m v L r : (forall a, In a L -> readRow (wl a) n m v r = emptyRow n (length v)) ->
  rdL n m v L r = emptyRow n (length v).
Proof.
  induction L as [|a L IH]; intros H; [apply readRow_nil|].
  change (a :: L) with ([a] ++ L). rewrite rdL_app, IH by (intros; apply H; simpl; auto).
  rewrite rowApp_empty_r by apply readRow_sized. unfold rdL; simpl. rewrite app_nil_r. apply H; simpl; auto.
Qed.

Section One.
Variables (n : nat) (m : slot) (v : list cellkey) (vs : list var) (nv off : nat).
Definition rowOf (a : asg) (r : nat) : row :=
  if inside r (off + a_start a, a_dim a) then idealRow nv vs (a_c a) (r - (off + a_start a))
  else emptyRow n (length v).
Lemma rdL_one L r a : (forall a, In a L -> readRow (wl a) n m v r = rowOf a r) ->
  filter (fun a => inside r (off + a_start a, a_dim a)) L = [a] -> rdL n m v L r = rowOf a r.
Proof.
  induction L as [|b L IH]; intros H F; [discriminate|]. simpl in F.
  change (b :: L) with ([b] ++ L). rewrite rdL_app.
  assert (X : rdL n m v [b] r = rowOf b r).
  { unfold rdL; simpl. rewrite app_nil_r. apply H; simpl; auto. }
  destruct (inside r (off + a_start b, a_dim b)) eqn:E.
  - inversion F. subst b. rewrite H2 in *. clear IH. rewrite (rdL_empty n m v L).
    + rewrite rowApp_empty_r by apply readRow_sized. try rewrite H2. exact X.
    + intros c Ic. rewrite H by (simpl; auto). unfold rowOf.
      destruct (inside r (off + a_start c, a_dim c)) eqn:Ec; auto.
      assert (In c (filter (fun a => inside r (off + a_start a, a_dim a)) L)) by (apply filter_In; auto).
      rewrite H2 in H0. destruct H0.
  - rewrite X. unfold rowOf at 1. rewrite E. rewrite rowApp_empty_l by apply readRow_sized.
    apply IH; auto. intros; apply H; simpl; auto.
Qed.
End One.

(* ---- the categories of a synchronised state ---- *)
Section Handed.
Variables (k : kind) (P : prob) (st : state).
Hypothesis W : wf_prob P.
Hypothesis R : Rest k P st.
Hypothesis NO : st_nObj st = st_objSize st.
Hypothesis MN : st_minNorm st = false.
Hypothesis Sh : ShapeP k P (st_store st).
Hypothesis Sy : Sync k st.
Let vs := q_vars P.
Let n := totalSize vs.
Let s := st_store st.
Let nE := st_nEq st.
Let nI := st_nIneq st.

Lemma f_vars : st_vars st = vs. Proof. apply R. Qed.
Lemma f_nE : nE = sumSizes (constraintSize k) (q_eqs P).
Proof. unfold nE. rewrite (r_nEq _ _ _ R). apply (r_lay _ _ _ R). Qed.
Lemma f_nI : nI = sumSizes (constraintSize k) (q_ineqs P).
Proof. unfold nI. rewrite (r_nIneq _ _ _ R). apply (r_lay _ _ _ R). Qed.
Lemma f_nO : st_nObj st = sumSizes c_size (q_objs P).
Proof. rewrite NO. apply (r_lay _ _ _ R). Qed.
Lemma f_Sh : Shape k n (st_nObj st) nE nI (negb (isNil (q_bnds P))) s.
Proof. unfold ShapeP in Sh. rewrite f_nE, f_nI, f_nO. exact Sh. Qed.

Definition lim (a : asg) (m : nat) : Prop := a_start a + a_dim a <= m.
Lemma lim_eq a : In a (asgs (st_eq st)) -> lim a (if separate k then nE else nE + nI).
Proof.
  intros I. destruct R as [[_ _ _ _ _ _ _ tc _] _ r1 r2 _]. unfold lim, nE, nI. rewrite r1, r2.
  destruct (separate k).
  - destruct tc as [tc _]. apply (tiling_le _ _ (a_start a, a_dim a)) in tc; auto.
    unfold ranges. now apply in_map with (f := fun a => (a_start a, a_dim a)).
  - apply (tiling_le _ _ (a_start a, a_dim a)) in tc; auto.
    apply in_or_app; left. unfold ranges. now apply in_map with (f := fun a => (a_start a, a_dim a)).
Qed.
Lemma lim_ineq a : In a (asgs (st_ineq st)) -> lim a (if separate k then nI else nE + nI).
Proof.
  intros I. destruct R as [[_ _ _ _ _ _ _ tc _] _ r1 r2 _]. unfold lim, nE, nI. rewrite r1, r2.
  destruct (separate k).
  - destruct tc as [_ tc]. apply (tiling_le _ _ (a_start a, a_dim a)) in tc; auto.
    unfold ranges. now apply in_map with (f := fun a => (a_start a, a_dim a)).
  - apply (tiling_le _ _ (a_start a, a_dim a)) in tc; auto.
    apply in_or_app; right. unfold ranges. now apply in_map with (f := fun a => (a_start a, a_dim a)).
Qed.
Lemma lim_obj a : In a (asgs (st_obj st)) -> lim a (st_nObj st).
Proof.
  intros I. destruct R as [[_ _ _ _ _ _ _ _ to] _ _ _ _]. unfold lim. rewrite NO.
  apply (tiling_le _ _ (a_start a, a_dim a)) in to; auto.
  unfold ranges. now apply in_map with (f := fun a => (a_start a, a_dim a)).
Qed.
Lemma bnd_facts a : In a (asgs (st_bnd st)) -> In (a_c a) (q_bnds P) /\ exists v, c_vars (a_c a) = [v] /\ In v vs /\
  a_dim a = v_size v /\ mappingIn v vs = Ok (a_start a).
Proof.
  intros I. pose proof (l_bnd _ _ _ _ _ _ (r_lay _ _ _ R)) as G.
  pose proof (good_dims _ _ _ G) as D. rewrite Forall_forall in D. specialize (D _ I).
  assert (Ib : In (a_c a) (q_bnds P)).
  { eapply Permutation_in; [apply (good_asgs _ _ _ G)|]. now apply in_map. }
  split; auto. pose proof (wf_bon _ W) as Fb. rewrite Forall_forall in Fb. destruct (Fb _ Ib) as (v & Ev & Iv).
  exists v. split; auto. split; auto. split; [rewrite D; unfold bdim; now rewrite Ev|].
  pose proof (y_bnd _ _ Sy) as Y. rewrite Forall_forall in Y. destruct (Y _ I) as (_ & _ & (v' & E' & M') & _).
  rewrite Ev in E'. inversion E'; subst v'. now rewrite f_vars in M'.
Qed.
Lemma lim_bnd a : In a (asgs (st_bnd st)) -> lim a n.
Proof.
  intros I. unfold lim. destruct (bnd_facts _ I) as (_ & v & _ & Iv & -> & M).
  destruct (mappingIn_in vs (wf_vars _ W) v Iv) as (o & M' & L). rewrite M in M'. inversion M'; subst. unfold n. congruence.
Qed.

Lemma on_eq a : In a (asgs (st_eq st)) -> on_vars vs (a_c a).
Proof.
  intros I. pose proof (l_eq _ _ _ _ _ _ (r_lay _ _ _ R)) as G.
  assert (Ib : In (a_c a) (q_eqs P)).
  { eapply Permutation_in; [apply (good_asgs _ _ _ G)|]. now apply in_map. }
  apply filter_In in Ib. pose proof (wf_con _ W) as F. rewrite Forall_forall in F. apply F. tauto.
Qed.
Lemma on_ineq a : In a (asgs (st_ineq st)) -> on_vars vs (a_c a).
Proof.
  intros I. pose proof (l_ineq _ _ _ _ _ _ (r_lay _ _ _ R)) as G.
  assert (Ib : In (a_c a) (q_ineqs P)).
  { eapply Permutation_in; [apply (good_asgs _ _ _ G)|]. now apply in_map. }
  apply filter_In in Ib. pose proof (wf_con _ W) as F. rewrite Forall_forall in F. apply F. tauto.
Qed.
Lemma on_obj a : In a (asgs (st_obj st)) -> on_vars vs (a_c a).
Proof.
  intros I. pose proof (l_obj _ _ _ _ _ _ (r_lay _ _ _ R)) as G.
  assert (Ib : In (a_c a) (q_objs P)).
  { eapply Permutation_in; [apply (good_asgs _ _ _ G)|]. now apply in_map. }
  pose proof (wf_oon _ W) as F. rewrite Forall_forall in F. now apply F.
Qed.

(* columns beyond the variables *)
Lemma cols_lim a p : on_vars vs (a_c a) -> mappings (c_vars (a_c a)) vs = Ok (a_cols a) ->
  In p (combine (c_vars (a_c a)) (a_cols a)) -> snd p + v_size (fst p) <= n.
Proof.
  intros [O1 O2] M I. destruct (mappings_combine _ _ _ M _ I) as [A B].
  destruct (mappingIn_in vs (wf_vars _ W) _ (O2 _ A)) as (o & E & L). rewrite B in E. inversion E; subst. exact L.
Qed.
Lemma coefs_out a i c : on_vars vs (a_c a) -> mappings (c_vars (a_c a)) vs = Ok (a_cols a) -> g_cols a = a_cols a ->
  n <= c -> coefs a i c = [].
Proof.
  intros O M G L. unfold coefs. rewrite G. apply flat_map_nil. intros p I. pose proof (cols_lim _ _ O M I).
  unfold inside; simpl. destruct (Nat.leb_spec (snd p) c), (Nat.ltb_spec c (snd p + v_size (fst p))); simpl; auto; lia.
Qed.

Definition good_asg (d : tdata) (a : asg) : Prop := synced d vs a /\ on_vars vs (a_c a).
Lemma g_eq a : In a (asgs (st_eq st)) -> good_asg (eqData k s) a.
Proof. intros I. split; [|now apply on_eq]. pose proof (y_eq _ _ Sy) as Y. rewrite Forall_forall in Y. rewrite <- f_vars. now apply Y. Qed.
Lemma g_ineq a : In a (asgs (st_ineq st)) -> good_asg (ineqData k s) a.
Proof. intros I. split; [|now apply on_ineq]. pose proof (y_ineq _ _ Sy) as Y. rewrite Forall_forall in Y. rewrite <- f_vars. now apply Y. Qed.
Lemma g_obj a : In a (asgs (st_obj st)) -> good_asg (objData k s) a.
Proof. intros I. split; [|now apply on_obj]. pose proof (y_obj _ _ Sy) as Y. rewrite Forall_forall in Y. rewrite <- f_vars. now apply Y. Qed.

(* Everything is written inside the matrices. *)
Lemma gen_writes d a : good_asg d a ->
  (0 < a_dim a -> forall w, d_mat d = Some w -> fits s a w /\ n <= w_cols w) ->
  (0 < a_dim a -> forall w, In w (d_vec d) -> fits s a w /\ 1 <= w_cols w) ->
  writes s a = Ok (wl a).
Proof.
  intros [(S1 & S2 & S3 & S4 & S5 & S6) O] H1 H2. apply writes_wl; auto. intros D. unfold writable.
  rewrite (S1 D). split; [|auto]. destruct (d_mat d) as [w|] eqn:Q; auto. destruct (H1 D w eq_refl). split; auto.
  intros p I. pose proof (cols_lim _ _ O S3 I). lia.
Qed.

Ltac shape := pose proof f_Sh as SH; unfold Shape in SH.

Lemma writes_eq a : In a (asgs (st_eq st)) -> writes s a = Ok (wl a).
Proof.
  intros I. pose proof (lim_eq _ I) as Lm. unfold lim in Lm. apply (gen_writes _ _ (g_eq _ I)); intros D w Hw.
  - shape. destruct k; simpl in Hw, Lm; inversion Hw; subst w; clear Hw; unfold fits; simpl.
    + destruct SH as [_ (_ & _ & [-> ->] & _)]. repeat split; lia.
    + destruct SH as [_ (_ & _ & [-> ->] & _)]. destruct (isNil (q_bnds P)); simpl; repeat split; lia.
    + destruct SH as [_ (_ & _ & [-> ->] & _)]. repeat split; lia.
    + destruct SH as [(-> & _) (_ & [-> _] & _)]. repeat split; lia.
  - shape. destruct k; simpl in Hw, Lm; unfold fits.
    + destruct Hw as [<-|[]]; simpl. destruct SH as [_ (_ & _ & _ & [-> ->] & _)]. repeat split; lia.
    + destruct Hw as [<-|[]]; simpl. destruct SH as [_ (_ & _ & _ & [-> ->])]. destruct (isNil (q_bnds P)); simpl; repeat split; lia.
    + destruct SH as [(_ & Q1 & Q2 & _) _]. rewrite Q1, Q2 in Hw. destruct Hw as [<-|[<-|[]]]; simpl; repeat split; lia.
    + destruct SH as [_ (_ & [SH _] & _)]. rewrite SH in Hw. destruct Hw as [<-|[<-|[]]]; simpl; repeat split; lia.
Qed.
Lemma writes_ineq a : In a (asgs (st_ineq st)) -> writes s a = Ok (wl a).
Proof.
  intros I. pose proof (lim_ineq _ I) as Lm. unfold lim in Lm. apply (gen_writes _ _ (g_ineq _ I)); intros D w Hw.
  - shape. destruct k; simpl in Hw, Lm; inversion Hw; subst w; clear Hw; unfold fits; simpl.
    + destruct SH as [(_ & _ & -> & _) (_ & _ & [_ ->] & _)]. repeat split; lia.
    + destruct SH as [(_ & _ & -> & _) (_ & _ & [_ ->] & _)]. repeat split; lia.
    + destruct SH as [_ (_ & _ & [-> ->] & _)]. repeat split; lia.
    + destruct SH as [(-> & _) (_ & [-> _] & _)]. repeat split; lia.
  - shape. destruct k; simpl in Hw, Lm; unfold fits.
    + destruct Hw as [<-|[]]; simpl. destruct SH as [(_ & _ & -> & _) _]. repeat split; lia.
    + destruct Hw as [<-|[]]; simpl. destruct SH as [(_ & _ & -> & _) _]. repeat split; lia.
    + destruct SH as [(_ & Q1 & Q2 & _) _]. rewrite Q1, Q2 in Hw. destruct Hw as [<-|[<-|[]]]; simpl; repeat split; lia.
    + destruct SH as [_ (_ & [SH _] & _)]. rewrite SH in Hw. destruct Hw as [<-|[<-|[]]]; simpl; repeat split; lia.
Qed.
Lemma drows_ge o m : o <= drows k o m.
Proof. unfold drows. destruct k as [c|c| |]; try lia; destruct (c && (o <? m)); lia. Qed.
Lemma writes_obj a : In a (asgs (st_obj st)) -> writes s a = Ok (wl a).
Proof.
  intros I. pose proof (lim_obj _ I) as Lm. unfold lim in Lm. pose proof (drows_ge (st_nObj st) n) as DG.
  apply (gen_writes _ _ (g_obj _ I)); intros D w Hw.
  - shape. destruct k; simpl in Hw; inversion Hw; subst w; clear Hw; unfold fits; simpl.
    + destruct SH as [_ ([-> ->] & _)]. repeat split; lia.
    + destruct SH as [_ ([-> ->] & _)]. repeat split; lia.
    + destruct SH as [_ ([-> ->] & _)]. repeat split; lia.
    + destruct SH as [(-> & _) ([-> _] & _)]. repeat split; lia.
  - shape. destruct k; simpl in Hw; unfold fits.
    + destruct Hw as [<-|[]]; simpl. destruct SH as [_ (_ & [-> ->] & _)]. repeat split; lia.
    + destruct Hw as [<-|[]]; simpl. destruct SH as [_ (_ & [-> ->] & _)]. repeat split; lia.
    + destruct Hw as [<-|[]]; simpl. destruct SH as [_ (_ & [-> ->] & _)]. repeat split; lia.
    + destruct SH as [_ ([SH _] & _)]. rewrite SH in Hw. destruct Hw as [<-|[<-|[]]]; simpl; repeat split; lia.
Qed.
Lemma writes_bnd a : In a (asgs (st_bnd st)) -> writes s a = Ok (wl a).
Proof.
  intros I. pose proof (lim_bnd _ I) as Lm. unfold lim in Lm.
  pose proof (y_bnd _ _ Sy) as Y. rewrite Forall_forall in Y. destruct (Y _ I) as (Y1 & Y2 & _ & Y3 & Y4).
  apply writes_wl; auto; [congruence|]. intros D. unfold writable. rewrite Y2. split; auto. rewrite (Y1 D).
  assert (U : negb (isNil (q_bnds P)) = true). { destruct (bnd_facts _ I) as [Ib _]. destruct (q_bnds P); [destruct Ib|auto]. }
  intros w Hw. shape. rewrite U in SH. fold s in Hw. destruct k; simpl in Hw; unfold fits.
  - destruct SH as [_ (_ & _ & _ & _ & [Q1 Q2] & [Q3 Q4])]. destruct Hw as [<-|[<-|[]]]; simpl; repeat split; lia.
  - destruct SH as [(Q1 & _ & _ & Q) _]. rewrite Q, Q1 in Hw. destruct Hw as [<-|[<-|[]]]; simpl; repeat split; lia.
  - destruct SH as [_ (_ & _ & _ & [Q1 Q2] & [Q3 Q4])]. destruct Hw as [<-|[<-|[]]]; simpl; repeat split; lia.
  - destruct SH as [_ (_ & _ & [Q1 Q2])]. destruct Hw as [<-|[<-|[]]]; simpl; repeat split; lia.
Qed.

Lemma run_ok : runAssignments st = Ok (flat_map wl (allAsgs st)).
Proof.
  unfold runAssignments. rewrite (r_build _ _ _ R). rewrite (traverse_map _ wl).
  - simpl. now rewrite flat_map_concat_map.
  - intros a I. unfold allAsgs in I. apply in_app_or in I. destruct I as [I|I]; [now apply writes_eq|].
    apply in_app_or in I. destruct I as [I|I]; [now apply writes_ineq|].
    apply in_app_or in I. destruct I as [I|I]; [now apply writes_bnd|now apply writes_obj].
Qed.

(* ---- rows read ---- *)
Lemma in_nth_columns c : c < n -> exists vj, nth_error (columns vs) c = Some vj.
Proof.
  intros L. destruct (nth_error (columns vs) c) eqn:E; eauto. apply nth_error_None in E.
  rewrite columns_length in E. unfold n in L. lia.
Qed.
Lemma map_seq_columns {B} (f : nat -> B) (g : nat * nat -> B) :
  (forall c vj, nth_error (columns vs) c = Some vj -> f c = g vj) -> map f (seq 0 n) = map g (columns vs).
Proof.
  intros H. unfold n. rewrite <- columns_length. revert f H. induction (columns vs) as [|vj l IH]; intros f H; auto.
  simpl. f_equal; [now apply (H 0)|]. rewrite <- seq_shift, map_map. apply IH. intros c x E. now apply (H (S c)).
Qed.

(* the row read for a constraint or an objective *)
Lemma row_ideal a d m keys off r : good_asg d a ->
  (forall c, c < n -> cellD a d m r c = if inside r (off + a_start a, a_dim a)
                                        then coefs a (r - (off + a_start a)) c else []) ->
  Forall (fun key => let '(sl, r0, c0) := key in
            cellD a d sl (r0 + r) c0 = if inside r (off + a_start a, a_dim a)
                                       then [Rhs (c_id (a_c a)) (r - (off + a_start a))] else []) keys ->
  readRow (wl a) n m keys r = rowOf n keys vs (length keys) off a r.
Proof.
  intros [(S1 & S2 & S3 & S4 & S5 & S6) O] H1 H2. unfold readRow, rowOf.
  assert (C : forall sl r c, cell (wl a) (sl, r, c) = cellD a d sl r c) by (intros; now apply cell_wl).
  assert (K : map (fun v => let '(s0, r0, c0) := v in cell (wl a) (s0, r0 + r, c0)) keys =
              repeat (if inside r (off + a_start a, a_dim a)
                                       then [Rhs (c_id (a_c a)) (r - (off + a_start a))] else []) (length keys)).
  { clear H1. induction H2 as [|[[sl r0] c0] keys E H2 IH]; simpl; auto. rewrite C, E. f_equal. exact IH. }
  rewrite K. clear K. destruct (inside r (off + a_start a, a_dim a)).
  - unfold idealRow. f_equal. apply map_seq_columns. intros c vj E. rewrite C, H1.
    + apply (coefs_ideal vs); auto; [apply W|congruence].
    + pose proof (columns_length vs) as CL. assert (nth_error (columns vs) c <> None) by congruence.
      apply nth_error_Some in H. unfold n. lia.
  - unfold emptyRow. f_equal. rewrite <- (seq_length n 0) at 2. rewrite <- map_const_repeat.
    apply map_ext_in. intros c Ic. apply in_seq in Ic. rewrite C. apply H1. lia.
Qed.

Lemma row_empty a d m keys r : good_asg d a ->
  (forall c, c < n -> cellD a d m r c = []) ->
  Forall (fun key => let '(sl, r0, c0) := key in cellD a d sl (r0 + r) c0 = []) keys ->
  readRow (wl a) n m keys r = emptyRow n (length keys).
Proof.
  intros [(S1 & S2 & S3 & S4 & S5 & S6) O] H1 H2. unfold readRow, emptyRow.
  assert (C : forall sl r c, cell (wl a) (sl, r, c) = cellD a d sl r c) by (intros; now apply cell_wl).
  f_equal.
  - rewrite <- (seq_length n 0) at 2. rewrite <- map_const_repeat.
    apply map_ext_in. intros c Ic. apply in_seq in Ic. rewrite C. apply H1. lia.
  - clear H1. induction H2 as [|[[sl r0] c0] keys E H2 IH]; simpl; auto. rewrite C, E. f_equal. exact IH.
Qed.

Lemma inside_lt r x d : r < x -> inside r (x, d) = false.
Proof. intros. unfold inside; simpl. destruct (Nat.leb_spec x r); simpl; auto; lia. Qed.
Lemma inside_ge r x d : x + d <= r -> inside r (x, d) = false.
Proof. intros. unfold inside; simpl. destruct (Nat.ltb_spec r (x + d)); simpl; [lia|apply andb_false_r]. Qed.

Definition offI := if separate k then nE else 0.

Lemma coefs_n a d i c : good_asg d a -> n <= c -> coefs a i c = [].
Proof. intros [(S1 & S2 & S3 & S4 & S5 & S6) O] L. now apply coefs_out. Qed.

(* LexLS: the right-hand sides are columns n and n+1 of the matrix *)
Lemma lex_row a d sl r j c0 rows1 g : good_asg d a ->
  d = mkD (Some (mkView sl g 0 0 rows1 n)) [mkView sl g 0 n rows1 1; mkView sl g 0 (S n) rows1 1] ->
  (c0 < n -> cellD a d sl r c0 = if inside r (a_start a, a_dim a) then coefs a (r - a_start a) c0 else []) /\
  (j < 2 -> cellD a d sl r (j + n) = if inside r (a_start a, a_dim a) then [Rhs (c_id (a_c a)) (r - a_start a)] else []).
Proof.
  intros G ->. unfold cellD; simpl. destruct (slot_eqb_spec sl sl); [|congruence]. simpl. rewrite Nat.sub_0_r. split; intros L.
  - destruct (Nat.eqb_spec c0 n); [lia|]. destruct (Nat.eqb_spec c0 (S n)); [lia|]. rewrite !andb_false_r, app_nil_r.
    rewrite ?Nat.sub_0_r. reflexivity.
  - destruct (inside r (a_start a, a_dim a)) eqn:E; simpl; auto.
    rewrite ?Nat.sub_0_r, (coefs_n a _ _ _ G) by lia. destruct j as [|[|]]; try lia; cbn [Nat.add app].
    + rewrite Nat.eqb_refl. destruct (Nat.eqb_spec n (S n)); auto; lia.
    + rewrite Nat.eqb_refl. destruct (Nat.eqb_spec (S n) n); auto; lia.
Qed.

Lemma lex_eqData : k = LexLS -> exists g rows1, eqData k s =
  mkD (Some (mkView MCstr g 0 0 rows1 n)) [mkView MCstr g 0 n rows1 1; mkView MCstr g 0 (S n) rows1 1].
Proof.
  intros K. pose proof f_Sh as SH. destruct SH as [(Q & _) _]. rewrite K. simpl. rewrite Q. unfold block; simpl. eauto.
Qed.
Lemma lex_objData : k = LexLS -> exists g rows1, objData k s =
  mkD (Some (mkView MObj g 0 0 rows1 n)) [mkView MObj g 0 n rows1 1; mkView MObj g 0 (S n) rows1 1].
Proof.
  intros K. pose proof f_Sh as SH. destruct SH as [(Q & _) _]. rewrite K. simpl. rewrite Q. unfold block; simpl. eauto.
Qed.

Ltac kcases K := destruct (kind_cases k) as [[ch K]|[[ch K]|[K|K]]]; rewrite ?K.
Ltac cellsimp := unfold cellD; simpl; rewrite ?andb_false_r, ?andb_true_r, ?app_nil_r, ?Nat.sub_0_r, ?Nat.add_0_l; auto.

Lemma row_eq a r : In a (asgs (st_eq st)) ->
  readRow (wl a) n MCstr (rhsKeys k n) r = rowOf n (rhsKeys k n) vs (nrhs k) 0 a r.
Proof.
  intros I. pose proof (g_eq _ I) as G. replace (nrhs k) with (length (rhsKeys k n)) by (kcases K; auto).
  apply (row_ideal _ _ _ _ _ _ G).
  - intros c Hc. kcases K.
    + cellsimp.
    + cellsimp.
    + cellsimp.
    + destruct (lex_eqData K) as (g & rw & E). rewrite K in E, G. apply (lex_row a _ MCstr r 0 c rw g G E). auto.
  - kcases K; simpl.
    + constructor; [|constructor]. cellsimp.
    + constructor; [|constructor]. cellsimp.
    + pose proof f_Sh as SH. rewrite K in SH. destruct SH as [(_ & Q2 & Q3 & _) (_ & _ & _ & [Q4 _] & [Q5 _])].
      unfold cellD; simpl. rewrite Q2, Q3, Q4, Q5. replace (nE + nI + n - (nE + nI)) with n by lia.
      constructor; [|constructor; [|constructor]]; cellsimp; rewrite inside_shift by lia;
        replace (n + r - n) with r by lia; replace (n + r - (n + a_start a)) with (r - a_start a) by lia; auto.
    + destruct (lex_eqData K) as (g & rw & E). rewrite K in E, G.
      constructor; [|constructor; [|constructor]].
      * apply (lex_row a _ MCstr r 0 0 rw g G E). lia.
      * apply (lex_row a _ MCstr r 1 0 rw g G E). lia.
Qed.

Lemma row_ineq a r : In a (asgs (st_ineq st)) ->
  readRow (wl a) n MCstr (rhsKeys k n) r = rowOf n (rhsKeys k n) vs (nrhs k) offI a r.
Proof.
  intros I. pose proof (g_ineq _ I) as G. replace (nrhs k) with (length (rhsKeys k n)) by (kcases K; auto).
  apply (row_ideal _ _ _ _ _ _ G).
  - intros c Hc. unfold offI. kcases K.
    + pose proof f_Sh as SH. rewrite K in SH. destruct SH as [(_ & Q2 & Q3 & _) (_ & _ & [Q4 _] & _)].
      unfold cellD; simpl. rewrite Q3, Q4. replace (nE + nI - nI) with nE by lia. cellsimp.
    + pose proof f_Sh as SH. rewrite K in SH. destruct SH as [(_ & Q2 & Q3 & _) _].
      unfold cellD; simpl. rewrite Q2. cellsimp.
    + cellsimp.
    + destruct (lex_eqData K) as (g & rw & E).
      rewrite K in E, G. change (ineqData LexLS s) with (eqData LexLS s) in *.
      apply (lex_row a _ MCstr r 0 c rw g G E). auto.
  - unfold offI. kcases K; simpl.
    + pose proof f_Sh as SH. rewrite K in SH. destruct SH as [(_ & Q2 & Q3 & _) (_ & _ & _ & [Q4 _] & _)].
      unfold cellD; simpl. rewrite Q3, Q4. replace (nE + nI - nI) with nE by lia.
      constructor; [|constructor]. cellsimp.
    + pose proof f_Sh as SH. rewrite K in SH. destruct SH as [(_ & Q2 & Q3 & _) _].
      unfold cellD; simpl. rewrite Q2. constructor; [|constructor]. cellsimp.
    + pose proof f_Sh as SH. rewrite K in SH. destruct SH as [(_ & Q2 & Q3 & _) (_ & _ & _ & [Q4 _] & [Q5 _])].
      unfold cellD; simpl. rewrite Q2, Q3, Q4, Q5. replace (nE + nI + n - (nE + nI)) with n by lia.
      constructor; [|constructor; [|constructor]]; cellsimp; rewrite inside_shift by lia;
        replace (n + r - n) with r by lia; replace (n + r - (n + a_start a)) with (r - a_start a) by lia; auto.
    + destruct (lex_eqData K) as (g & rw & E). rewrite K in E, G. change (ineqData LexLS s) with (eqData LexLS s) in *.
      constructor; [|constructor; [|constructor]].
      * apply (lex_row a _ MCstr r 0 0 rw g G E). lia.
      * apply (lex_row a _ MCstr r 1 0 rw g G E). lia.
Qed.

Lemma row_obj a r : In a (asgs (st_obj st)) ->
  readRow (wl a) n MObj (objKeys k n) r = rowOf n (objKeys k n) vs (nrhsO k) 0 a r.
Proof.
  intros I. pose proof (g_obj _ I) as G. replace (nrhsO k) with (length (objKeys k n)) by (kcases K; auto).
  apply (row_ideal _ _ _ _ _ _ G).
  - intros c Hc. kcases K.
    + cellsimp.
    + cellsimp.
    + cellsimp.
    + destruct (lex_objData K) as (g & rw & E). rewrite K in E, G. apply (lex_row a _ MObj r 0 c rw g G E). auto.
  - kcases K; simpl.
    + constructor; [|constructor]. cellsimp.
    + constructor; [|constructor]. cellsimp.
    + constructor; [|constructor]. cellsimp.
    + destruct (lex_objData K) as (g & rw & E). rewrite K in E, G.
      constructor; [|constructor; [|constructor]].
      * apply (lex_row a _ MObj r 0 0 rw g G E). lia.
      * apply (lex_row a _ MObj r 1 0 rw g G E). lia.
Qed.

(* nothing else is written in these rows *)
Lemma obj_not_cstr a r : In a (asgs (st_obj st)) ->
  readRow (wl a) n MCstr (rhsKeys k n) r = emptyRow n (length (rhsKeys k n)).
Proof.
  intros I. pose proof (g_obj _ I) as G. apply (row_empty _ _ _ _ _ G).
  - intros c Hc. kcases K; cellsimp.
  - kcases K; simpl; repeat constructor; cellsimp.
Qed.
Lemma eq_not_obj a r : In a (asgs (st_eq st)) ->
  readRow (wl a) n MObj (objKeys k n) r = emptyRow n (length (objKeys k n)).
Proof.
  intros I. pose proof (g_eq _ I) as G. apply (row_empty _ _ _ _ _ G).
  - intros c Hc. kcases K; cellsimp.
  - kcases K; simpl; repeat constructor; cellsimp.
Qed.
Lemma ineq_not_obj a r : In a (asgs (st_ineq st)) ->
  readRow (wl a) n MObj (objKeys k n) r = emptyRow n (length (objKeys k n)).
Proof.
  intros I. pose proof (g_ineq _ I) as G. apply (row_empty _ _ _ _ _ G).
  - intros c Hc. kcases K; cellsimp.
  - kcases K; simpl; repeat constructor; cellsimp.
Qed.

Lemma cell_bnd a sl r c : In a (asgs (st_bnd st)) -> cell (wl a) (sl, r, c) = cellD a (bndData k s) sl r c.
Proof.
  intros I. pose proof (y_bnd _ _ Sy) as Y. rewrite Forall_forall in Y. destruct (Y _ I) as (Y1 & Y2 & _ & Y3 & Y4).
  apply cell_wl; auto.
Qed.
Lemma rowEmpty_cells l m keys r :
  (forall c, c < n -> cell l (m, r, c) = []) ->
  Forall (fun key => let '(sl, r0, c0) := key in cell l (sl, r0 + r, c0) = []) keys ->
  readRow l n m keys r = emptyRow n (length keys).
Proof.
  intros H1 H2. unfold readRow, emptyRow. f_equal.
  - rewrite <- (seq_length n 0) at 2. rewrite <- map_const_repeat.
    apply map_ext_in. intros c Ic. apply in_seq in Ic. apply H1. lia.
  - clear H1. induction H2 as [|[[sl r0] c0] keys E H2 IH]; simpl; auto. rewrite E. f_equal. exact IH.
Qed.
Lemma bnd_used a : In a (asgs (st_bnd st)) -> negb (isNil (q_bnds P)) = true.
Proof. intros I. destruct (bnd_facts _ I) as [Ib _]. destruct (q_bnds P); [destruct Ib|auto]. Qed.

Lemma bnd_not_obj a r : In a (asgs (st_bnd st)) ->
  readRow (wl a) n MObj (objKeys k n) r = emptyRow n (length (objKeys k n)).
Proof.
  intros I. apply rowEmpty_cells.
  - intros c Hc. rewrite cell_bnd by auto. kcases K; cellsimp. destruct (s_ub s); auto.
  - kcases K; simpl; repeat constructor; rewrite cell_bnd by auto; rewrite K; cellsimp. destruct (s_ub s); auto.
Qed.
Lemma bnd_not_cstr a r : In a (asgs (st_bnd st)) -> r < nE + nI ->
  readRow (wl a) n MCstr (rhsKeys k n) r = emptyRow n (length (rhsKeys k n)).
Proof.
  intros I L. pose proof (lim_bnd _ I) as Lm. unfold lim in Lm. pose proof (bnd_used _ I) as U.
  pose proof f_Sh as SH. apply rowEmpty_cells.
  - intros c Hc. rewrite cell_bnd by auto. kcases K; cellsimp. destruct (s_ub s); auto.
  - kcases K; simpl; repeat constructor; rewrite cell_bnd by auto; rewrite K; unfold cellD; simpl; auto.
    + rewrite K in SH. destruct SH as [(Q1 & Q2 & Q3 & Q4) _]. rewrite Q1, Q2, Q3, Q4, U. simpl.
      rewrite !inside_lt by lia. auto.
    + rewrite inside_ge by lia. auto.
    + rewrite inside_ge by lia. auto.
Qed.

(* ---- the rows of the problem handed ---- *)
Let l := flat_map wl (allAsgs st).
Let rd := readRow l n MCstr (rhsKeys k n).
Let E := asgs (st_eq st).
Let I := asgs (st_ineq st).

Lemma rd_EI r : r < nE + nI -> rd r = rdL n MCstr (rhsKeys k n) (E ++ I) r.
Proof.
  intros L. unfold rd, l. fold (rdL n MCstr (rhsKeys k n) (allAsgs st) r). unfold allAsgs.
  rewrite app_assoc, rdL_app, (rdL_app _ _ _ (asgs (st_bnd st))).
  rewrite (rdL_empty n _ _ (asgs (st_bnd st))) by (intros; now apply bnd_not_cstr).
  rewrite (rdL_empty n _ _ (asgs (st_obj st))) by (intros; now apply obj_not_cstr).
  rewrite rowApp_empty_r; [|split; simpl; apply repeat_length].
  now rewrite rowApp_empty_r by apply readRow_sized.
Qed.

Lemma ideal_perm (m : cmap) nv size cs : good size m cs ->
  Permutation (flat_map (fun a => map (idealRow nv vs (a_c a)) (seq 0 (a_dim a))) (asgs m)) (idealRows nv vs size cs).
Proof.
  intros G. pose proof (good_dims _ _ _ G) as D. rewrite Forall_forall in D.
  rewrite (flat_map_ext_in _ (fun a => map (idealRow nv vs (a_c a)) (seq 0 (size (a_c a))))).
  - unfold idealRows. rewrite <- (flat_map_map (fun c => map (idealRow nv vs c) (seq 0 (size c))) a_c).
    apply Permutation_flat_map. apply (good_asgs _ _ _ G).
  - intros a Ia. now rewrite D.
Qed.

Lemma rows_sep_eq : separate k = true ->
  Permutation (map rd (seq 0 nE)) (idealRows (nrhs k) vs (constraintSize k) (q_eqs P)).
Proof.
  intros Sp. eapply perm_trans; [|apply ideal_perm; apply (r_lay _ _ _ R)].
  apply tiling_rows with (A := a_start).
  - destruct R as [[_ _ _ _ _ _ _ tc _] _ r1 r2 _]. rewrite Sp in tc. unfold nE. rewrite r1. apply tc.
  - intros r a i F Ia -> Hi L. rewrite rd_EI by lia. rewrite rdL_app.
    rewrite (rdL_empty n _ _ I).
    + rewrite rowApp_empty_r by apply readRow_sized.
      rewrite (rdL_one n _ _ vs (nrhs k) 0 E _ a); [|intros; now apply row_eq|exact F].
      unfold rowOf. simpl. unfold inside; simpl. destruct (Nat.leb_spec (a_start a) (a_start a + i)); [|lia].
      destruct (Nat.ltb_spec (a_start a + i) (a_start a + a_dim a)); [|lia]. simpl. f_equal. lia.
    + intros b Ib. rewrite row_ineq by auto. unfold rowOf, offI. rewrite Sp. rewrite inside_lt by lia. auto.
Qed.
Lemma rows_sep_ineq : separate k = true ->
  Permutation (map rd (seq nE nI)) (idealRows (nrhs k) vs (constraintSize k) (q_ineqs P)).
Proof.
  intros Sp. eapply perm_trans; [|apply ideal_perm; apply (r_lay _ _ _ R)].
  rewrite map_seq_shift.
  apply tiling_rows with (A := a_start).
  - destruct R as [[_ _ _ _ _ _ _ tc _] _ r1 r2 _]. rewrite Sp in tc. unfold nI. rewrite r2. apply tc.
  - intros r a i F Ia -> Hi L. rewrite rd_EI by lia. rewrite rdL_app.
    rewrite (rdL_empty n _ _ E).
    + rewrite rowApp_empty_l by apply readRow_sized.
      assert (O : offI = nE) by (unfold offI; now rewrite Sp).
      rewrite (rdL_one n _ _ vs (nrhs k) nE I _ a).
      * unfold rowOf. rewrite inside_shift by lia. unfold inside; simpl.
        replace (nE + (a_start a + i) - nE) with (a_start a + i) by lia.
        destruct (Nat.leb_spec (a_start a) (a_start a + i)); [|lia].
        destruct (Nat.ltb_spec (a_start a + i) (a_start a + a_dim a)); [|lia]. simpl. f_equal. lia.
      * intros b Ib. rewrite <- O. now apply row_ineq.
      * rewrite <- F. apply filter_ext. intros b. rewrite inside_shift by lia. f_equal. lia.
    + intros b Ib. rewrite row_eq by auto. unfold rowOf. pose proof (lim_eq _ Ib) as Lm. rewrite Sp in Lm. unfold lim in Lm.
      simpl. rewrite inside_ge by lia. auto.
Qed.
Lemma rows_shared : separate k = false ->
  Permutation (map rd (seq 0 (nE + nI))) (idealRows (nrhs k) vs (constraintSize k) (q_eqs P ++ q_ineqs P)).
Proof.
  intros Sp. unfold idealRows. rewrite flat_map_app.
  eapply perm_trans; [|apply Permutation_app; apply ideal_perm; apply (r_lay _ _ _ R)].
  rewrite <- flat_map_app. apply tiling_rows with (A := a_start).
  - destruct R as [[_ _ _ _ _ _ _ tc _] _ r1 r2 _]. rewrite Sp in tc. unfold nE, nI. rewrite r1, r2.
    rewrite map_app. apply tc.
  - intros r a i F Ia -> Hi L. rewrite rd_EI by lia. fold E I in F.
    rewrite (rdL_one n _ _ vs (nrhs k) 0 (E ++ I) _ a); [| |exact F].
    + unfold rowOf. simpl. unfold inside; simpl. destruct (Nat.leb_spec (a_start a) (a_start a + i)); [|lia].
      destruct (Nat.ltb_spec (a_start a + i) (a_start a + a_dim a)); [|lia]. simpl. f_equal. lia.
    + intros b Ib. apply in_app_or in Ib. destruct Ib; [now apply row_eq|].
      rewrite row_ineq by auto. unfold rowOf, offI. now rewrite Sp.
Qed.
Lemma rows_obj :
  Permutation (map (readRow l n MObj (objKeys k n)) (seq 0 (st_nObj st))) (idealRows (nrhsO k) vs c_size (q_objs P)).
Proof.
  eapply perm_trans; [|apply ideal_perm; apply (r_lay _ _ _ R)].
  apply tiling_rows with (A := a_start).
  - rewrite NO. apply (r_lay _ _ _ R).
  - intros r a i F Ia -> Hi L. unfold l. fold (rdL n MObj (objKeys k n) (allAsgs st) (a_start a + i)). unfold allAsgs.
    rewrite !rdL_app.
    rewrite (rdL_empty n _ _ (asgs (st_bnd st))) by (intros; now apply bnd_not_obj).
    rewrite (rdL_empty n _ _ (asgs (st_eq st))) by (intros; now apply eq_not_obj).
    rewrite (rdL_empty n _ _ (asgs (st_ineq st))) by (intros; now apply ineq_not_obj).
    rewrite (rowApp_empty_l _ _ (rdL _ _ _ _ _)) by apply readRow_sized.
    rewrite (rowApp_empty_l _ _ (rdL _ _ _ _ _)) by apply readRow_sized.
    rewrite (rowApp_empty_l _ _ (rdL _ _ _ _ _)) by apply readRow_sized.
    rewrite (rdL_one n _ _ vs (nrhsO k) 0 (asgs (st_obj st)) _ a); [|intros; now apply row_obj|exact F].
    unfold rowOf. simpl. unfold inside; simpl. destruct (Nat.leb_spec (a_start a) (a_start a + i)); [|lia].
    destruct (Nat.ltb_spec (a_start a + i) (a_start a + a_dim a)); [|lia]. simpl. f_equal. lia.
Qed.

(* ---- bounds ---- *)
Lemma bnd_cell key j vj :
  nth_error (columns vs) j = Some vj ->
  (forall a, In a (E ++ I) -> cell (wl a) key = []) ->
  (forall a, In a (asgs (st_obj st)) -> cell (wl a) key = []) ->
  (forall a, In a (asgs (st_bnd st)) -> cell (wl a) key =
     if inside j (a_start a, a_dim a) then [Rhs (c_id (a_c a)) (j - a_start a)] else []) ->
  Permutation (cell l key) (idealBnd (q_bnds P) vj).
Proof.
  intros Hj H1 H2 H3. unfold l, allAsgs. rewrite app_assoc. fold E I. rewrite cell_flat_map, flat_map_app, (flat_map_app _ (asgs (st_bnd st))).
  rewrite (flat_map_nil _ (E ++ I)) by auto. rewrite (flat_map_nil _ (asgs (st_obj st))) by auto.
  rewrite app_nil_l, app_nil_r.
  rewrite (flat_map_ext_in _ (fun a => if involves (a_c a) (fst vj) then [Rhs (c_id (a_c a)) (snd vj)] else [])).
  - unfold idealBnd.
    pose proof (good_asgs _ _ _ (l_bnd _ _ _ _ _ _ (r_lay _ _ _ R))) as Pm.
    eapply perm_trans; [|apply Permutation_map, filter_perm, Pm].
    clear. induction (asgs (st_bnd st)) as [|a q IH]; simpl; auto. destruct (involves (a_c a) (fst vj)); simpl; auto.
  - intros a Ia. rewrite H3 by auto. destruct (bnd_facts _ Ia) as (_ & v & Ev & Iv & Ed & M).
    destruct (columns_nth vs (wf_vars _ W) v (a_start a) j vj Iv M Hj) as [A B].
    rewrite Ed, A. unfold involves. rewrite Ev. simpl. rewrite orb_false_r.
    destruct (Nat.eqb_spec (v_id v) (fst vj)) as [Q|Q]; auto. rewrite (B Q). do 2 f_equal. lia.
Qed.

Lemma cell_good a d sl r c : good_asg d a -> cell (wl a) (sl, r, c) = cellD a d sl r c.
Proof. intros [(S1 & S2 & S3 & S4 & S5 & S6) O]. now apply cell_wl. Qed.

Lemma bnd_cells j vj : nth_error (columns vs) j = Some vj -> uses_bounds k P = true ->
  exists k1 k2, bndKeys k st j = [k1; k2] /\ Permutation (cell l k1) (idealBnd (q_bnds P) vj)
                                          /\ Permutation (cell l k2) (idealBnd (q_bnds P) vj).
Proof.
  intros Hj U.
  assert (Ln : j < n). { unfold n. rewrite <- columns_length. apply nth_error_Some. congruence. }
  pose proof f_Sh as SH. unfold bndKeys. rewrite f_vars. fold n s nE nI.
  assert (X : forall sl r c, (forall a, In a E -> cellD a (eqData k s) sl r c = []) ->
                             (forall a, In a I -> cellD a (ineqData k s) sl r c = []) ->
                             forall a, In a (E ++ I) -> cell (wl a) (sl, r, c) = []).
  { intros sl r c A B a Ia. apply in_app_or in Ia. destruct Ia.
    - rewrite (cell_good _ _ _ _ _ (g_eq _ H)). auto.
    - rewrite (cell_good _ _ _ _ _ (g_ineq _ H)). auto. }
  assert (Y : forall sl r c, (forall a, In a (asgs (st_obj st)) -> cellD a (objData k s) sl r c = []) ->
                             forall a, In a (asgs (st_obj st)) -> cell (wl a) (sl, r, c) = []).
  { intros sl r c A a Ia. rewrite (cell_good _ _ _ _ _ (g_obj _ Ia)). auto. }
  pose proof lim_eq as LE. pose proof lim_ineq as LI. unfold lim in LE, LI. fold E in LE. fold I in LI.
  kcases K; rewrite K in LE, LI, SH, U; simpl in LE, LI.
  - exists (V2, j, 0), (V3, j, 0). split; auto. split; apply bnd_cell with (j := j); auto;
      try (apply X; rewrite K; intros; cellsimp); try (apply Y; rewrite K; intros; cellsimp);
      intros a Ia; rewrite cell_bnd by auto; rewrite K; cellsimp.
  - destruct SH as [(Q1 & Q2 & Q3 & Q4) (_ & _ & [Q5 _] & [Q6 _])]. simpl in U. rewrite U in Q4. rewrite Q4.
    eexists; eexists. split; [reflexivity|]. split; apply bnd_cell with (j := j); auto;
      try (apply Y; rewrite K; intros; cellsimp);
      try (apply X; rewrite K; intros a Ia; [specialize (LE _ Ia)|specialize (LI _ Ia)]; unfold cellD; simpl;
           rewrite ?Q2, inside_ge by lia; auto);
      intros a Ia; rewrite cell_bnd by auto; rewrite K; unfold cellD; simpl; rewrite Q4, Q1, Q2, Q3; simpl;
      pose proof (lim_bnd _ Ia) as LB; unfold lim in LB.
    + rewrite (inside_shift (nE + nI + j)) by lia. replace (nE + nI + j - (nE + nI)) with j by lia.
      rewrite (inside_lt (nE + nI + j) (nE + nI + n + a_start a)) by lia. rewrite andb_true_r, app_nil_r.
      destruct (inside j (a_start a, a_dim a)); auto. do 2 f_equal; lia.
    + rewrite (inside_shift (nE + nI + n + j)) by lia.
      rewrite (inside_ge (nE + nI + n + j - (nE + nI))) by lia. simpl.
      rewrite (inside_shift (nE + nI + n + j)) by lia. replace (nE + nI + n + j - (nE + nI + n)) with j by lia.
      rewrite andb_true_r, app_nil_r. destruct (inside j (a_start a, a_dim a)); auto. do 2 f_equal; lia.
  - destruct SH as [(Q1 & Q2 & Q3 & Q4) (_ & _ & _ & [Q5 _] & [Q6 _])].
    exists (V1, j, 0), (V2, j, 0). split; auto. split; apply bnd_cell with (j := j); auto;
      try (apply Y; rewrite K; intros; cellsimp);
      try (apply X; rewrite K; intros a Ia; unfold cellD; simpl; rewrite Q2, Q3, ?Q5, ?Q6; rewrite inside_lt by lia; auto);
      intros a Ia; rewrite cell_bnd by auto; rewrite K; cellsimp.
  - exists (V1, j, 0), (V1, j, 1). split; auto. split; apply bnd_cell with (j := j); auto;
      try (apply X; rewrite K; intros; cellsimp); try (apply Y; rewrite K; intros; cellsimp);
      intros a Ia; rewrite cell_bnd by auto; rewrite K; cellsimp.
Qed.

Lemma Forall2_seq {A B} (Q : A -> B -> Prop) (f : nat -> B) la :
  (forall j x, nth_error la j = Some x -> Q x (f j)) -> Forall2 Q la (map f (seq 0 (length la))).
Proof.
  revert f. induction la as [|x la IH]; intros f H; simpl; constructor.
  - now apply (H 0).
  - rewrite <- seq_shift, map_map. apply IH. intros j y E'. now apply (H (S j)).
Qed.

Theorem handed_problem : exists p, handed k st = Ok p /\ is_problem k P p.
Proof.
  unfold handed. rewrite run_ok. simpl. eexists. split; [reflexivity|]. rewrite f_vars. fold vs n l rd nE nI.
  constructor; simpl.
  - destruct (separate k) eqn:Sp; [pose proof (rows_sep_eq Sp) as Q|pose proof (rows_shared Sp) as Q];
      revert Q; kcases K; auto; rewrite K in Sp; discriminate.
  - destruct (separate k) eqn:Sp.
    + pose proof (rows_sep_ineq Sp) as Q. revert Q; kcases K; auto; rewrite K in Sp; discriminate.
    + kcases K; auto; rewrite K in Sp; discriminate.
  - rewrite MN. eexists. split; [reflexivity|]. apply rows_obj.
  - unfold n. rewrite <- columns_length. apply Forall2_seq. intros j vj Hj.
    destruct (uses_bounds k P) eqn:U.
    + destruct (bnd_cells j vj Hj U) as (k1 & k2 & -> & A & B). simpl. eauto.
    + revert U. kcases K; simpl; try discriminate. intros U. pose proof f_Sh as SH. rewrite K in SH.
      destruct SH as [(_ & _ & _ & Q4) _]. fold s. rewrite Q4, U. auto.
Qed.
End Handed.
