From Coq Require Import List Bool Arith ZArith Lia Permutation.
Import ListNotations.
From Verif Require Import QueueModel SolverEventsModel WlsModel WlsSpec.
From Verif Require Base SolverEventsSpec SolverEventsProofs QueueSpec QueueProofs.

Notation sok := SolverEventsSpec.ok.
Notation sapply := SolverEventsSpec.apply.
Notation pb := SolverEventsSpec.problem.
Notation mem_in := SolverEventsProofs.mem_in.
Notation mem_nin := SolverEventsProofs.mem_nin.

(* ---- maps ---- *)
Local Arguments set : simpl never.
Definition keys (m : list (nat * nat)) : list nat := map fst m.
Lemma find_in t c m : find t m = Some c -> In (t, c) m.
Proof. induction m as [|[u d] m IH]; simpl; [discriminate|]. destruct (Nat.eqb_spec t u) as [->|D]; [|auto]. intros [= ->]. auto. Qed.
Lemma find_none t m : find t m = None <-> ~ In t (keys m).
Proof.
  induction m as [|[u d] m IH]; simpl; [tauto|]. destruct (Nat.eqb_spec t u) as [->|D]; [intuition discriminate|].
  rewrite IH. intuition.
Qed.
Lemma find_some t m : In t (keys m) -> exists c, find t m = Some c.
Proof. intros I. destruct (find t m) eqn:F; [eauto|]. apply find_none in F. contradiction. Qed.
Lemma key_in t c m : In (t, c) m -> In t (keys m).
Proof. intros I. unfold keys. apply in_map_iff. now exists (t, c). Qed.
Lemma in_key t m : In t (keys m) -> exists c, In (t, c) m.
Proof. intros I. apply in_map_iff in I as ([u c] & E & I). simpl in E. subst u. eauto. Qed.
Lemma nodup_fun m t c d : NoDup (keys m) -> In (t, c) m -> In (t, d) m -> c = d.
Proof.
  induction m as [|[u e] m IH]; simpl; [tauto|]. intros N I J. inversion N; subst.
  destruct I as [[= -> ->]|I], J as [[= E]|J]; auto; subst; exfalso.
  - apply H1. eapply key_in; eauto.
  - apply H1. eapply key_in; eauto.
Qed.
Lemma erase_in t u c m : In (u, c) (erase t m) <-> In (u, c) m /\ u <> t.
Proof. unfold erase. rewrite filter_In. simpl. rewrite negb_true_iff, Nat.eqb_neq. tauto. Qed.
Lemma erase_keys t u m : In u (keys (erase t m)) <-> In u (keys m) /\ u <> t.
Proof.
  split.
  - intros I. apply in_key in I as (c & I). apply erase_in in I as [I D]. split; [eapply key_in; eauto|auto].
  - intros [I D]. apply in_key in I as (c & I). apply (key_in _ c). now apply erase_in.
Qed.
Lemma erase_nodup t m : NoDup (keys m) -> NoDup (keys (erase t m)).
Proof.
  induction m as [|[u c] m IH]; simpl; [auto|]. intros N. inversion N; subst.
  destruct (negb (u =? t)); simpl; [|auto]. constructor; [|auto]. intros I. apply erase_keys in I. tauto.
Qed.
Lemma set_in t c u d m : In (u, d) (set t c m) <-> (u = t /\ d = c) \/ (u <> t /\ In (u, d) m).
Proof. unfold set. simpl. rewrite erase_in. intuition (try congruence). Qed.
Lemma set_keys t c u m : In u (keys (set t c m)) <-> u = t \/ In u (keys m).
Proof.
  unfold set. simpl. rewrite erase_keys. destruct (Nat.eq_dec u t); intuition.
Qed.
Lemma set_nodup t c m : NoDup (keys m) -> NoDup (keys (set t c m)).
Proof. intros N. unfold set. simpl. constructor; [|now apply erase_nodup]. fold (keys (erase t m)). rewrite erase_keys. tauto. Qed.

Definition flat (f : nat -> list nat) (m : list (nat * nat)) : list nat := flat_map (fun x => f (fst x)) m.
Lemma erase_absent t m : ~ In t (keys m) -> erase t m = m.
Proof.
  unfold erase. induction m as [|[v e] m IH]; simpl; intros H; [auto|].
  destruct (Nat.eqb_spec v t) as [->|D]; simpl; [tauto|]. f_equal. tauto.
Qed.
Lemma flat_erase f t m c : NoDup (keys m) -> In (t, c) m -> Permutation (flat f m) (f t ++ flat f (erase t m)).
Proof.
  induction m as [|[u d] m IH]; simpl; [tauto|]. intros N I. inversion N; subst.
  destruct I as [[= -> ->]|I].
  - rewrite Nat.eqb_refl. simpl. fold (erase t m). now rewrite erase_absent.
  - destruct (Nat.eqb_spec u t) as [->|D]; simpl; [exfalso; apply H1; eapply key_in; eauto|].
    rewrite (IH H2 I). rewrite !app_assoc. apply Permutation_app_tail, Permutation_app_comm.
Qed.
Lemma flat_in f m v : In v (flat f m) <-> exists t c, In (t, c) m /\ In v (f t).
Proof.
  unfold flat. rewrite in_flat_map. split.
  - intros ([t c] & I & J). eauto.
  - intros (t & c & I & J). exists (t, c). auto.
Qed.

(* ---- events of the solver ---- *)
Lemma run_snoc l c : SolverEventsModel.run (l ++ [c]) = run1 (SolverEventsModel.run l) c.
Proof. unfold SolverEventsModel.run. now rewrite fold_left_app. Qed.
Lemma ok_app a : forall P b, sok P (a ++ b) <-> sok P a /\ sok (sapply P a) b.
Proof. induction a as [|c a IH]; intros P b; simpl; [tauto|]. rewrite IH. unfold SolverEventsSpec.apply. simpl. tauto. Qed.
Lemma apply_app a P b : sapply P (a ++ b) = sapply (sapply P a) b.
Proof. unfold SolverEventsSpec.apply. apply fold_left_app. Qed.
Lemma apply_snoc P a c : sapply P (a ++ [c]) = SolverEventsSpec.apply1 (sapply P a) c.
Proof. now rewrite apply_app. Qed.

Definition onlyV (l : list call) : Prop := forall c, In c l -> SolverEventsSpec.isVar c = true.
Lemma onlyV_same l : onlyV l -> forall P, SolverEventsSpec.pC (sapply P l) = SolverEventsSpec.pC P /\
  SolverEventsSpec.pB (sapply P l) = SolverEventsSpec.pB P /\ SolverEventsSpec.pO (sapply P l) = SolverEventsSpec.pO P.
Proof.
  induction l as [|c l IH]; intros H P; [auto|].
  destruct (IH (fun c' I => H c' (or_intror I)) (SolverEventsSpec.apply1 P c)) as (A & B & C).
  unfold SolverEventsSpec.apply in *. simpl. rewrite A, B, C.
  specialize (H c (or_introl eq_refl)). destruct c; try discriminate; auto.
Qed.

Lemma addVars_spec vs : forall cnt l P, sok P l -> (forall v, In v (SolverEventsSpec.pV (sapply P l)) <-> In v cnt) ->
  exists l1, addVars vs (cnt, SolverEventsModel.run l) = (rev vs ++ cnt, SolverEventsModel.run (l ++ l1)) /\
    onlyV l1 /\ sok P (l ++ l1) /\ (forall v, In v (SolverEventsSpec.pV (sapply P (l ++ l1))) <-> In v (rev vs ++ cnt)).
Proof.
  induction vs as [|v vs IH]; intros cnt l P K V.
  - exists []. rewrite app_nil_r. simpl. split; [reflexivity|]. split; [intros c []|auto].
  - unfold addVars. simpl. fold (addVars vs).
    assert (R : rev vs ++ v :: cnt = (rev vs ++ [v]) ++ cnt) by (rewrite <- app_assoc; reflexivity).
    destruct (SolverEventsModel.mem v cnt) eqn:M.
    + apply mem_in in M. destruct (IH (v :: cnt) l P K) as (l1 & E & O & K1 & V1).
      { intros x. rewrite V. simpl. intuition congruence. }
      exists l1. unfold addVars in *. rewrite E, <- R. auto.
    + apply mem_nin in M. change (addVariable v (SolverEventsModel.run l)) with (run1 (SolverEventsModel.run l) (AddV v)).
      rewrite <- run_snoc.
      destruct (IH (v :: cnt) (l ++ [AddV v]) P) as (l1 & E & O & K1 & V1).
      { apply ok_app. split; [exact K|]. simpl. split; [|exact I]. rewrite V. exact M. }
      { intros x. rewrite apply_snoc. simpl. rewrite in_app_iff, V. simpl. tauto. }
      rewrite <- app_assoc in E, K1. setoid_rewrite <- app_assoc in V1. simpl in E, K1, V1. exists (AddV v :: l1). unfold addVars in *. rewrite E, <- R.
      split; [reflexivity|]. split; [|auto]. intros c [<-|J]; auto.
Qed.
Lemma eraseFirst_perm v l : In v l -> Permutation l (v :: eraseFirst v l).
Proof.
  induction l as [|d l IH]; simpl; [tauto|]. destruct (Nat.eqb_spec v d) as [->|D]; [reflexivity|].
  intros [E|I]; [congruence|]. rewrite (IH I) at 1. apply perm_swap.
Qed.
Lemma removeVars_spec vs : forall rest cnt l P, Permutation cnt (vs ++ rest) -> sok P l ->
  (forall v, In v (SolverEventsSpec.pV (sapply P l)) <-> In v cnt) ->
  exists cnt' l1, removeVars vs (cnt, SolverEventsModel.run l) = Done (cnt', SolverEventsModel.run (l ++ l1)) /\
    Permutation cnt' rest /\
    onlyV l1 /\ sok P (l ++ l1) /\ (forall v, In v (SolverEventsSpec.pV (sapply P (l ++ l1))) <-> In v cnt').
Proof.
  induction vs as [|v vs IH]; intros rest cnt l P Pm K V; simpl in *.
  - exists cnt, []. rewrite app_nil_r. split; [reflexivity|]. split; [auto|]. split; [intros c []|auto].
  - assert (Iv : In v cnt) by (eapply Permutation_in; [symmetry; exact Pm|now left]).
    replace (SolverEventsModel.mem v cnt) with true by (symmetry; now apply mem_in).
    assert (Pm' : Permutation (eraseFirst v cnt) (vs ++ rest)).
    { apply (Permutation_cons_inv (a := v)). rewrite <- Pm. symmetry. now apply eraseFirst_perm. }
    assert (EQ : forall x, In x cnt <-> x = v \/ In x (eraseFirst v cnt)).
    { intros x. split; intros I.
      - apply (Permutation_in x (eraseFirst_perm v cnt Iv)) in I. simpl in I. intuition.
      - apply (Permutation_in x (Permutation_sym (eraseFirst_perm v cnt Iv))). simpl. intuition. }
    destruct (SolverEventsModel.mem v (eraseFirst v cnt)) eqn:M.
    + apply mem_in in M. destruct (IH rest (eraseFirst v cnt) l P Pm' K) as (cnt' & l1 & E & Pc & O & K1 & V1).
      { intros x. rewrite V, EQ. intuition congruence. }
      exists cnt', l1. auto.
    + apply mem_nin in M. change (removeVariable v (SolverEventsModel.run l)) with (run1 (SolverEventsModel.run l) (RemV v)).
      rewrite <- run_snoc.
      destruct (IH rest (eraseFirst v cnt) (l ++ [RemV v]) P Pm') as (cnt' & l1 & E & Pc & O & K1 & V1).
      { apply ok_app. split; [exact K|]. simpl. split; [|exact I]. rewrite V. exact Iv. }
      { intros x. rewrite apply_snoc. simpl. rewrite SolverEventsProofs.without_in, V, EQ. intuition congruence. }
      rewrite <- app_assoc in E, K1. setoid_rewrite <- app_assoc in V1. simpl in E, K1, V1. exists cnt', (RemV v :: l1). split; [exact E|]. split; [auto|].
      split; [|auto]. intros c [<-|J]; auto.
Qed.

(* ---- the loop ---- *)
Section Loop.
Variable p : problem.
Variable own : nat -> nat.
Variable P0 : pb.
Variable m0 : memory.
Hypothesis p_nd : NoDup (keys (p_map p)).
Hypothesis p_own : forall t c, In (t, c) (p_map p) -> own c = t.

Definition cC (t : nat) := ev_used (p_env p) t = false /\ p_prio p t = 0 /\ ev_bnd (p_env p) t = false.
Definition cB (t : nat) := ev_used (p_env p) t = false /\ p_prio p t = 0 /\ ev_bnd (p_env p) t = true.
Definition cO (t : nat) := ev_used (p_env p) t = false /\ p_prio p t <> 0.
Definition uv (t : nat) : list nat := if ev_used (p_env p) t then [] else ev_vars (p_env p) t.

Record LI (m : memory) (l : list call) (pre : list event) : Prop := {
  li_ok : sok P0 l;
  li_C : forall c, In c (SolverEventsSpec.pC (sapply P0 l)) <-> exists t, In (t, c) (m_map m) /\ cC t;
  li_B : forall c, In c (SolverEventsSpec.pB (sapply P0 l)) <-> exists t, In (t, c) (m_map m) /\ cB t;
  li_O : forall o, In o (SolverEventsSpec.pO (sapply P0 l)) <-> In (o_data o, o_c o) (m_map m) /\ cO (o_data o);
  li_V : forall v, In v (SolverEventsSpec.pV (sapply P0 l)) <-> In v (m_cnt m);
  li_cnt : Permutation (m_cnt m) (flat uv (m_map m));
  li_nd : NoDup (keys (m_map m));
  li_own : forall t c, In (t, c) (m_map m) -> own c = t;
  li_src : forall t c, In (t, c) (m_map m) -> In (t, c) (p_map p) \/ (In (t, c) (m_map m0) /\ ~ In (mkE TaskRemoval t) pre);
  li_ws : forall t c, In (mkE WeightChange t) pre -> In (t, c) (p_map p) -> In (ScalarW c) l;
  li_wa : forall t c, In (mkE AnisotropicWeightChange t) pre -> In (t, c) (p_map p) -> In (VectorW c) l;
  li_data : forall o, In (AddO o) l -> own (o_c o) = o_data o;
  li_sol : m_sol m = m_sol m0 /\ m_maxp m = m_maxp m0 }.

Lemma LI_queue m l pre q : LI m l pre -> LI (withQueue q m) l pre.
Proof. intros []. constructor; auto. Qed.

Lemma data_app l l1 o : (forall o, In (AddO o) l -> own (o_c o) = o_data o) -> onlyV l1 ->
  In (AddO o) (l ++ l1) -> own (o_c o) = o_data o.
Proof. intros D O I. apply in_app_iff in I as [I|I]; [auto|]. apply O in I. discriminate. Qed.

(* one event; [used] tasks are never added *)
Lemma handle_LI S e q m l pre : LI m l pre -> (forall t, In t (keys (m_map m)) <-> In t S) ->
  QueueSpec.valid S (e :: q) -> QueueSpec.isSub e = false ->
  (match e_type e with TaskAddition => In (e_emitter e) (keys (p_map p)) /\ ev_used (p_env p) (e_emitter e) = false
   | WeightChange | AnisotropicWeightChange => In (e_emitter e) (keys (p_map p)) | _ => True end) ->
  match handle p e m (SolverEventsModel.run l) with
  | Done (m', s') => exists l', s' = SolverEventsModel.run l' /\ LI m' l' (pre ++ [e]) /\ m_q m' = m_q m /\
                     (forall t, In t (keys (m_map m')) <-> In t (QueueSpec.tasks1 S e))
  | Exc _ => cause p e
  | Undef => False
  end.
Proof.
  intros L DS [V1 V2] NS PR. destruct L. unfold handle. destruct e as [ty t]; simpl in *.
  destruct ty; try discriminate; clear NS.
  - (* weight *)
    destruct (find_some _ _ PR) as (c & F). rewrite F. destruct (Nat.eqb_spec (p_prio p t) 0) as [Z|Z]; [now constructor|].
    exists (l ++ [ScalarW c]). rewrite run_snoc. split; [reflexivity|]. split; [|split; [reflexivity|exact DS]].
    apply find_in in F.
    constructor; auto.
    + apply ok_app. split; [auto|]. simpl. auto.
    + intros x. rewrite apply_snoc. simpl. auto.
    + intros x. rewrite apply_snoc. simpl. auto.
    + intros x. rewrite apply_snoc. simpl. auto.
    + intros x. rewrite apply_snoc. simpl. auto.
    + intros u d I. destruct (li_src0 u d I) as [H|[H1 H2]]; [auto|]. right. split; [auto|].
      intros J. apply in_app_iff in J as [J|[J|[]]]; [auto|discriminate].
    + intros u d I J. apply in_app_iff in I as [I|[I|[]]]; apply in_app_iff; [left; eauto|].
      injection I as <-. right. left. f_equal. exact (nodup_fun _ _ _ _ p_nd F J).
    + intros u d I J. apply in_app_iff in I as [I|[I|[]]]; apply in_app_iff; [left; eauto|discriminate].
    + intros o I. apply in_app_iff in I as [I|[I|[]]]; [auto|discriminate].
  - (* anisotropic weight *)
    destruct (find_some _ _ PR) as (c & F). rewrite F. destruct (Nat.eqb_spec (p_prio p t) 0) as [Z|Z]; [now constructor|].
    exists (l ++ [VectorW c]). rewrite run_snoc. split; [reflexivity|]. split; [|split; [reflexivity|exact DS]].
    apply find_in in F.
    constructor; auto.
    + apply ok_app. split; [auto|]. simpl. auto.
    + intros x. rewrite apply_snoc. simpl. auto.
    + intros x. rewrite apply_snoc. simpl. auto.
    + intros x. rewrite apply_snoc. simpl. auto.
    + intros x. rewrite apply_snoc. simpl. auto.
    + intros u d I. destruct (li_src0 u d I) as [H|[H1 H2]]; [auto|]. right. split; [auto|].
      intros J. apply in_app_iff in J as [J|[J|[]]]; [auto|discriminate].
    + intros u d I J. apply in_app_iff in I as [I|[I|[]]]; apply in_app_iff; [left; eauto|discriminate].
    + intros u d I J. apply in_app_iff in I as [I|[I|[]]]; apply in_app_iff; [left; eauto|].
      injection I as <-. right. left. f_equal. exact (nodup_fun _ _ _ _ p_nd F J).
    + intros o I. apply in_app_iff in I as [I|[I|[]]]; [auto|discriminate].
  - (* addition *)
    destruct PR as [PR NU]. unfold addTask. destruct (find_some _ _ PR) as (c & F). rewrite F. apply find_in in F.
    assert (NK : ~ In t (keys (m_map m))) by (rewrite DS; exact V1).
    replace (find t (m_map m)) with (@None nat) by (symmetry; now apply find_none).
    destruct (ev_ok (p_env p) t (p_prio p t)) eqn:OK; simpl; [|now constructor].
    destruct (addVars_spec (ev_vars (p_env p) t) (m_cnt m) l P0 li_ok0 li_V0) as (l1 & E1 & O1 & K1 & W1).
    rewrite E1. destruct (onlyV_same l1 O1 (sapply P0 l)) as (sC & sB & sO). rewrite <- apply_app in sC, sB, sO.
    pose proof (erase_absent t (m_map m) NK) as EM.
    assert (CL : forall t' , In (t', c) (m_map m) -> False).
    { intros t' I. pose proof (li_own0 _ _ I) as E. rewrite (p_own _ _ F) in E. subst t'. apply NK. eapply key_in; eauto. }
    set (k := if (p_prio p t =? 0) && ev_bnd (p_env p) t then AddB c
              else if p_prio p t =? 0 then AddC c else AddO (mkO c t)).
    exists (l ++ l1 ++ [k]). split.
    { rewrite app_assoc, run_snoc. unfold k. destruct ((p_prio p t =? 0) && ev_bnd (p_env p) t); [reflexivity|].
      destruct (p_prio p t =? 0); reflexivity. }
    split; [|split; [reflexivity|]].
    2:{ intros u. cbn [m_map]. rewrite set_keys, DS. unfold QueueSpec.tasks1. simpl. intuition. }
    assert (src : forall u d, In (u, d) (set t c (m_map m)) ->
        In (u, d) (p_map p) \/ In (u, d) (m_map m0) /\ ~ In (mkE TaskRemoval u) (pre ++ [mkE TaskAddition t])).
    { intros u d I. apply set_in in I as [[-> ->]|[D I]]; [auto|]. destruct (li_src0 u d I) as [H|[H1 H2]]; [auto|]. right. split; [auto|].
      intros J. apply in_app_iff in J as [J|[J|[]]]; [auto|discriminate]. }
    assert (ok1 : sok P0 (l ++ l1 ++ [k])).
    { rewrite app_assoc. apply ok_app. split; [exact K1|]. simpl. split; [|exact I]. unfold k.
      destruct (Nat.eqb_spec (p_prio p t) 0) as [Z|Z]; simpl; [destruct (ev_bnd (p_env p) t) eqn:B; simpl|].
      - rewrite sB. intros I. apply li_B0 in I as (t' & I & _). eauto.
      - rewrite sC. intros I. apply li_C0 in I as (t' & I & _). eauto.
      - rewrite sO. intros I. apply in_map_iff in I as (o & E & I). apply li_O0 in I as [I _]. rewrite E in I. simpl in I. eauto. }
    assert (PC : forall x, In x (SolverEventsSpec.pC (sapply P0 (l ++ l1 ++ [k]))) <-> exists u, In (u, x) (set t c (m_map m)) /\ cC u).
    { intros x. rewrite app_assoc, apply_snoc.
      assert (X : In x (SolverEventsSpec.pC (SolverEventsSpec.apply1 (sapply P0 (l ++ l1)) k)) <->
                  In x (SolverEventsSpec.pC (sapply P0 l)) \/ (x = c /\ cC t)).
      { unfold k, cC. destruct (Nat.eqb_spec (p_prio p t) 0) as [Z|Z]; simpl; [destruct (ev_bnd (p_env p) t) eqn:B; simpl|].
        - rewrite sC. intuition discriminate.
        - rewrite sC, in_app_iff. simpl. intuition.
        - rewrite sC. intuition. }
      rewrite X, li_C0. split.
      - intros [(u & I & K)|[-> K]]; [exists u|exists t]; (split; [|exact K]); apply set_in.
        + right. split; [|exact I]. intros ->. apply NK. eapply key_in; eauto.
        + auto.
      - intros (u & I & K). apply set_in in I as [[-> ->]|[D I]]; [auto|]. left. eauto. }
    assert (PB : forall x, In x (SolverEventsSpec.pB (sapply P0 (l ++ l1 ++ [k]))) <-> exists u, In (u, x) (set t c (m_map m)) /\ cB u).
    { intros x. rewrite app_assoc, apply_snoc.
      assert (X : In x (SolverEventsSpec.pB (SolverEventsSpec.apply1 (sapply P0 (l ++ l1)) k)) <->
                  In x (SolverEventsSpec.pB (sapply P0 l)) \/ (x = c /\ cB t)).
      { unfold k, cB. destruct (Nat.eqb_spec (p_prio p t) 0) as [Z|Z]; simpl; [destruct (ev_bnd (p_env p) t) eqn:B; simpl|].
        - rewrite sB, in_app_iff. simpl. intuition.
        - rewrite sB. intuition discriminate.
        - rewrite sB. intuition. }
      rewrite X, li_B0. split.
      - intros [(u & I & K)|[-> K]]; [exists u|exists t]; (split; [|exact K]); apply set_in.
        + right. split; [|exact I]. intros ->. apply NK. eapply key_in; eauto.
        + auto.
      - intros (u & I & K). apply set_in in I as [[-> ->]|[D I]]; [auto|]. left. eauto. }
    assert (PO : forall x, In x (SolverEventsSpec.pO (sapply P0 (l ++ l1 ++ [k]))) <-> In (o_data x, o_c x) (set t c (m_map m)) /\ cO (o_data x)).
    { intros x. rewrite app_assoc, apply_snoc.
      assert (X : In x (SolverEventsSpec.pO (SolverEventsSpec.apply1 (sapply P0 (l ++ l1)) k)) <->
                  In x (SolverEventsSpec.pO (sapply P0 l)) \/ (x = mkO c t /\ cO t)).
      { unfold k, cO. destruct (Nat.eqb_spec (p_prio p t) 0) as [Z|Z]; simpl; [destruct (ev_bnd (p_env p) t) eqn:B; simpl|].
        - rewrite sO. intuition.
        - rewrite sO. intuition.
        - rewrite sO, in_app_iff. simpl. intuition. }
      rewrite X, li_O0. split.
      - intros [(I & K)|[-> K]]; simpl; (split; [|exact K]); apply set_in.
        + right. split; [|exact I]. intros E. apply NK. rewrite <- E. eapply key_in; eauto.
        + auto.
      - intros (I & K). apply set_in in I as [[E1' E2']|[D I]].
        + right. split; [|now rewrite <- E1']. destruct x; simpl in *; congruence.
        + left. auto. }
    constructor; simpl; auto.
    + intros v. rewrite app_assoc, apply_snoc. rewrite <- W1. unfold k.
      destruct ((p_prio p t =? 0) && ev_bnd (p_env p) t); simpl; [tauto|]. destruct (p_prio p t =? 0); simpl; tauto.
    + unfold set, flat. simpl. fold (flat uv (erase t (m_map m))). rewrite EM. unfold uv at 1. rewrite NU.
      apply Permutation_app; [symmetry; apply Permutation_rev|exact li_cnt0].
    + exact (set_nodup t c _ li_nd0).
    + intros u d I. apply set_in in I as [[-> ->]|[D I]]; auto.
    + intros u d I J. apply in_app_iff in I as [I|[I|[]]]; apply in_app_iff; [left; eauto|discriminate].
    + intros u d I J. apply in_app_iff in I as [I|[I|[]]]; apply in_app_iff; [left; eauto|discriminate].
    + intros o I. rewrite app_assoc in I. apply in_app_iff in I as [I|[I|[]]]; [now apply (data_app l l1)|].
      unfold k in I. destruct ((p_prio p t =? 0) && ev_bnd (p_env p) t); [discriminate|]. destruct (p_prio p t =? 0); [discriminate|].
      injection I as <-. simpl. auto.
  - (* removal *)
    unfold removeTask. apply DS in V1. destruct (find_some _ _ V1) as (c & F). rewrite F. apply find_in in F.
    destruct (ev_used (p_env p) t) eqn:U; [now constructor|].
    assert (Pm : Permutation (m_cnt m) (ev_vars (p_env p) t ++ flat uv (erase t (m_map m)))).
    { rewrite li_cnt0, (flat_erase uv t _ c li_nd0 F). unfold uv at 1. now rewrite U. }
    destruct (removeVars_spec _ _ _ l P0 Pm li_ok0 li_V0) as (cnt' & l1 & E1 & Pc & O1 & K1 & W1).
    rewrite E1. destruct (onlyV_same l1 O1 (sapply P0 l)) as (sC & sB & sO). rewrite <- apply_app in sC, sB, sO.
    assert (CL : forall t' , In (t', c) (m_map m) -> t' = t).
    { intros t' I. pose proof (li_own0 _ _ I) as E. now rewrite (li_own0 _ _ F) in E. }
    set (k := if (p_prio p t =? 0) && ev_bnd (p_env p) t then RemB c
              else if p_prio p t =? 0 then RemC c else RemO c).
    exists (l ++ l1 ++ [k]). split.
    { rewrite app_assoc, run_snoc. unfold k. destruct ((p_prio p t =? 0) && ev_bnd (p_env p) t); [reflexivity|].
      destruct (p_prio p t =? 0); reflexivity. }
    split; [|split; [reflexivity|]].
    2:{ intros u. cbn [m_map]. rewrite erase_keys, DS. unfold QueueSpec.tasks1. simpl. rewrite filter_In, negb_true_iff, Nat.eqb_neq. tauto. }
    assert (src : forall u d, In (u, d) (erase t (m_map m)) ->
        In (u, d) (p_map p) \/ In (u, d) (m_map m0) /\ ~ In (mkE TaskRemoval u) (pre ++ [mkE TaskRemoval t])).
    { intros u d I. apply erase_in in I as [I D]. destruct (li_src0 u d I) as [H|[H1 H2]]; [auto|]. right. split; [auto|].
      intros J. apply in_app_iff in J as [J|[J|[]]]; [auto|]. injection J as ->. auto. }
    assert (ok1 : sok P0 (l ++ l1 ++ [k])).
    { rewrite app_assoc. apply ok_app. split; [exact K1|]. simpl. split; [|exact I]. unfold k.
      destruct (Nat.eqb_spec (p_prio p t) 0) as [Z|Z]; simpl; [destruct (ev_bnd (p_env p) t) eqn:B; simpl|].
      - rewrite sB. apply li_B0. exists t. unfold cB. auto.
      - rewrite sC. apply li_C0. exists t. unfold cC. auto.
      - rewrite sO. apply in_map_iff. exists (mkO c t). split; [auto|]. apply li_O0. simpl. unfold cO. auto. }
    assert (PC : forall x, In x (SolverEventsSpec.pC (sapply P0 (l ++ l1 ++ [k]))) <-> exists u, In (u, x) (erase t (m_map m)) /\ cC u).
    { intros x. rewrite app_assoc, apply_snoc.
      assert (X : In x (SolverEventsSpec.pC (SolverEventsSpec.apply1 (sapply P0 (l ++ l1)) k)) <->
                  In x (SolverEventsSpec.pC (sapply P0 l)) /\ ~ (x = c /\ cC t)).
      { unfold k, cC. destruct (Nat.eqb_spec (p_prio p t) 0) as [Z|Z]; simpl; [destruct (ev_bnd (p_env p) t) eqn:B; simpl|].
        - rewrite sC. intuition discriminate.
        - rewrite SolverEventsProofs.without_in, sC. intuition.
        - rewrite sC. intuition. }
      rewrite X, li_C0. split.
      - intros [(u & I & K) N]. exists u. split; [|exact K]. apply erase_in. split; [exact I|]. intros ->. apply N. split; [|exact K].
        exact (nodup_fun _ _ _ _ li_nd0 I F).
      - intros (u & I & K). apply erase_in in I as [I D]. split; [eauto|]. intros [-> _]. apply D. auto. }
    assert (PB : forall x, In x (SolverEventsSpec.pB (sapply P0 (l ++ l1 ++ [k]))) <-> exists u, In (u, x) (erase t (m_map m)) /\ cB u).
    { intros x. rewrite app_assoc, apply_snoc.
      assert (X : In x (SolverEventsSpec.pB (SolverEventsSpec.apply1 (sapply P0 (l ++ l1)) k)) <->
                  In x (SolverEventsSpec.pB (sapply P0 l)) /\ ~ (x = c /\ cB t)).
      { unfold k, cB. destruct (Nat.eqb_spec (p_prio p t) 0) as [Z|Z]; simpl; [destruct (ev_bnd (p_env p) t) eqn:B; simpl|].
        - rewrite SolverEventsProofs.without_in, sB. intuition.
        - rewrite sB. intuition discriminate.
        - rewrite sB. intuition. }
      rewrite X, li_B0. split.
      - intros [(u & I & K) N]. exists u. split; [|exact K]. apply erase_in. split; [exact I|]. intros ->. apply N. split; [|exact K].
        exact (nodup_fun _ _ _ _ li_nd0 I F).
      - intros (u & I & K). apply erase_in in I as [I D]. split; [eauto|]. intros [-> _]. apply D. auto. }
    assert (PO : forall x, In x (SolverEventsSpec.pO (sapply P0 (l ++ l1 ++ [k]))) <-> In (o_data x, o_c x) (erase t (m_map m)) /\ cO (o_data x)).
    { intros x. rewrite app_assoc, apply_snoc.
      assert (X : In x (SolverEventsSpec.pO (SolverEventsSpec.apply1 (sapply P0 (l ++ l1)) k)) <->
                  In x (SolverEventsSpec.pO (sapply P0 l)) /\ ~ (o_c x = c /\ cO t)).
      { unfold k, cO. destruct (Nat.eqb_spec (p_prio p t) 0) as [Z|Z]; simpl; [destruct (ev_bnd (p_env p) t) eqn:B; simpl|].
        - rewrite sO. intuition.
        - rewrite sO. intuition.
        - rewrite SolverEventsProofs.withoutO_in, sO. intuition. }
      rewrite X, li_O0. split.
      - intros [(I & K) N]. split; [|exact K]. apply erase_in. split; [exact I|]. intros E. apply N. rewrite E in I, K. split; [|exact K].
        exact (nodup_fun _ _ _ _ li_nd0 I F).
      - intros (I & K). apply erase_in in I as [I D]. split; [eauto|]. intros [E _]. rewrite E in I. apply D. auto. }
    constructor; simpl; auto.
    + intros v. rewrite app_assoc, apply_snoc. rewrite <- W1. unfold k.
      destruct ((p_prio p t =? 0) && ev_bnd (p_env p) t); simpl; [tauto|]. destruct (p_prio p t =? 0); simpl; tauto.
    + now apply erase_nodup.
    + intros u d I. apply erase_in in I as [I D]; auto.
    + intros u d I J. apply in_app_iff in I as [I|[I|[]]]; apply in_app_iff; [left; eauto|discriminate].
    + intros u d I J. apply in_app_iff in I as [I|[I|[]]]; apply in_app_iff; [left; eauto|discriminate].
    + intros o I. rewrite app_assoc in I. apply in_app_iff in I as [I|[I|[]]]; [now apply (data_app l l1)|].
      unfold k in I. destruct ((p_prio p t =? 0) && ev_bnd (p_env p) t); [discriminate|]. destruct (p_prio p t =? 0); discriminate.
Qed.
End Loop.
