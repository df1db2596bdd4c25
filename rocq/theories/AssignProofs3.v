(* The rows of the target against the rows of the constraint. *)
Require Import QArith Qminmax List Arith Bool Lia Lqa.
Require Import Verif.Base Verif.QSum Verif.AssignModel Verif.AssignSpec Verif.AssignProofs Verif.AssignProofs2.
Import ListNotations.
Local Open Scope Q_scope.

Lemma le_scale e a b : 0 < e -> (e * a <= e * b <-> a <= b).
Proof. intros P. apply Qmult_le_l. exact P. Qed.
Lemma eq_scale e a b : 0 < e -> (e * a == e * b <-> a == b).
Proof.
  intros P. split; [|intros ->; reflexivity]. intros H.
  apply Qle_antisym; apply (Qmult_le_l _ _ e P); rewrite H; apply Qle_refl.
Qed.


Section Final.
Variable big : Q.
Variable v_size : nat -> nat.
Variables (vars : list nat) (mapping : nat -> option nat).
Variables (src : source) (tgt : target) (sub : substs) (V : values).
Hypothesis L : layout v_size vars mapping.
Hypothesis R : resolved src sub.
Hypothesis G : agrees v_size src sub V.
Hypothesis CT : checkTarget src tgt sub = Ok tt.
Variable g : assignment.
Hypothesis BL : buildLists big v_size mapping src tgt sub (g_defS g) (g_defA g) = Ok (g_M g, g_MS g, g_V g, g_VS g).
Hypothesis WS : w_ms (g_data g) == - w_s (g_data g).
Hypothesis WA : g_defA g = false -> forall i, w_ma (g_data g) i == - w_a (g_data g) i.
Notation defS := (g_defS g).
Notation defA := (g_defA g).
Notation d := (g_data g).
Notation RV := (rowval v_size mapping vars).
Notation SS := (ss v_size src sub).
Notation QF := (qf v_size V d tgt).
Notation e := (eff defS defA d).
Definition X (x : point) (i : nat) : Q := lhs v_size V (c_vars src) (completed v_size sub V x) i.
Definition B (i : nat) : Q := qsum (bterm v_size V i) SS.
Definition F (f : rhsf) (i : nat) : Q := rsign (c_rhs src) * rhsVal V f i.

Lemma B_origin i : B i == X origin i.
Proof.
  unfold X. rewrite (lhs_completed v_size src sub V origin i). unfold B.
  rewrite (qsum_zero (fun y => qsumn (fun k => v_jac V y i k * origin y k) (v_size y))).
  2: { intros y _. apply qsumn_zero. intros k _. unfold origin. ring. }
  rewrite (qsum_zero (fun y => qsum (fun z => qsumn (fun k => prod v_size V i y z k * origin z k) (v_size z)) (svars sub y))).
  2: { intros y _. apply qsum_zero. intros z _. apply qsumn_zero. intros k _. unfold origin. ring. }
  ring.
Qed.
Lemma findSub_in y s l : findSub y l = Some s -> In (y, s) l.
Proof.
  induction l as [|[z u] l IH]; simpl; [discriminate|]. destruct (Nat.eqb z y) eqn:E; [|auto].
  apply Nat.eqb_eq in E. intros H. inversion H; subst. auto.
Qed.
Lemma target_rhs : t_rhs tgt = RZERO -> c_rhs src = RZERO /\ forall i, B i == 0.
Proof.
  intros T. unfold checkTarget in CT. rewrite T in CT. simpl rhs_eqb in CT. rewrite andb_true_r in CT.
  destruct (ct_eqb (c_type src) EQUAL && _); [discriminate|].
  destruct (negb (ct_eqb (c_type src) EQUAL) && _); [discriminate|].
  destruct (negb (rhs_eqb (c_rhs src) RZERO)) eqn:C; simpl in CT; [discriminate|].
  destruct (existsb (fun s => s_bnz (snd s)) sub) eqn:N; [discriminate|].
  split; [destruct (c_rhs src); simpl in C; congruence|]. intros i. unfold B. apply qsum_zero. intros y Y.
  apply qsumn_zero. intros j _. apply ss_in in Y. destruct Y as [_ [_ Y]]. destruct (findSub y sub) as [s|] eqn:FS; [|congruence].
  destruct (s_bnz s) eqn:Bz; [|rewrite (proj2 (proj2 G) y s FS Bz j); ring].
  exfalso. assert (existsb (fun s => s_bnz (snd s)) sub = true); [|congruence].
  apply existsb_exists. exists (y, s). split; [apply findSub_in; exact FS|exact Bz].
Qed.

Section Slot.
Hypothesis MP : mapped v_size mapping src sub.
Variables (M : mslot) (flip : bool) (r0 n i : nat).
Hypothesis E : mrows tgt M = (r0, n).
Hypothesis I : (i < n)%nat.
Hypothesis IS : (i < c_size src)%nat.
Notation r := (r0 + i)%nat.

Lemma row_part m x l1 l2 l3 l4 : (t_start tgt <= r0 + i < t_start tgt + t_dim tgt)%nat -> clean v_size mapping vars src sub tgt (mA m) ->
  g_M g = l1 ++ mlist v_size mapping src sub defS defA M flip ++ l2 ->
  g_MS g = l3 ++ mslist v_size mapping src sub defS defA M flip ++ l4 ->
  (forall a, In a l1 \/ In a l2 \/ In a l3 \/ In a l4 -> touchM tgt r a = false) ->
  RV (mA (run v_size V tgt g m)) x r == sg flip * e i * (X x i - B i).
Proof.
  intros T C EM EMS U. unfold run. rewrite !fold_V_A, EM, EMS, !fold_left_app.
  assert (Fr : forall l m, (forall a, In a l -> touchM tgt r a = false) ->
    RV (mA (fold_left (runM v_size V d tgt) l m)) x r == RV (mA m) x r).
  { intros l m' H. apply rowval_ext. intros c. rewrite fold_M_untouched by exact H. reflexivity. }
  rewrite Fr by (intros; apply U; auto).
  rewrite (phase2 v_size vars mapping src tgt sub defS defA V d L G MP WS WA M flip r0 n i E I IS).
  rewrite Fr by (intros; apply U; auto).
  rewrite Fr by (intros; apply U; auto).
  rewrite (phase1 v_size vars mapping src tgt sub defS defA V d L R MP WS WA M flip r0 n i E I IS).
  - unfold X. rewrite (lhs_completed v_size src sub V x i). unfold B. ring.
  - intros y k Y K N1 N2. rewrite fold_M_untouched by (intros; apply U; auto). apply C; auto.
Qed.
Definition sep (v : vslot) (v' : vslot) : Prop :=
  sameobj v v' && inRange r (fst (vrows tgt v')) (snd (vrows tgt v')) = false.
Lemma vecA_sep v v' f fl q : sep v v' -> QF v r (vecA src tgt defS defA f v' fl) q = q.
Proof.
  intros S. apply qf_untouched. intros a A. assert (va_slot a = v').
  { unfold vecA in A. destruct (negb (rhs_eqb (c_rhs src) RZERO)); [|destruct (negb (rhs_eqb (t_rhs tgt) RZERO))]; simpl in A; intuition; subst; reflexivity. }
  unfold touchV. rewrite H. exact S.
Qed.
Lemma vsubA_sep v v' y fl q : sep v v' -> QF v r (vsubA src tgt sub defS defA v' fl y) q = q.
Proof.
  intros S. apply qf_untouched. intros a A. assert (va_slot a = v').
  { unfold vsubA in A. destruct (sbnz sub y); simpl in A; [|tauto]. destruct A as [<-|[]]. destruct (c_prop src y); reflexivity. }
  unfold touchV. rewrite H. exact S.
Qed.
Lemma vslist_sep v v1 v2 fl q : sep v v1 -> match v2 with Some w => sep v w | None => True end ->
  QF v r (vslist v_size src tgt sub defS defA v1 v2 fl) q = q.
Proof.
  intros S1 S2. unfold vslist. revert q. induction SS as [|y l IH]; intros q; [reflexivity|].
  cbn [flat_map]. rewrite !qf_app, vsubA_sep by exact S1.
  destruct v2 as [w|]; [rewrite vsubA_sep by exact S2|]; apply IH.
Qed.
(* a vector of the target *)
Section Vec.
Variables (v : vslot) (n' : nat).
Hypothesis E' : vrows tgt v = (r0, n').
Hypothesis I' : (i < n')%nat.
Lemma vlist_val f1 v1 fv2 f q :
  (v = v1 /\ f = f1 /\ match fv2 with Some (_, w) => sep v w | None => True end) \/ (fv2 = Some (f, v) /\ sep v v1) ->
  rsign (t_rhs tgt) * QF v r (vlist src tgt defS defA f1 v1 fv2 flip) q == sg flip * e i * F f i.
Proof.
  assert (Z : rhs_eqb (c_rhs src) RZERO = false -> rhs_eqb (t_rhs tgt) RZERO = false).
  { intros H. destruct (t_rhs tgt) eqn:Et; try reflexivity. apply target_rhs in Et. destruct Et as [Et _]. rewrite Et in H. discriminate. }
  intros [[-> [-> S]]|[-> S]]; unfold vlist; rewrite qf_app.
  - destruct fv2 as [[f2 w]|]; [rewrite (vecA_sep _ w) by exact S|unfold qf at 1; cbn [fold_left]];
      apply (vecA_val v_size src tgt defS defA V d WS WA v1 r0 n' i E' I' IS f1 flip _ Z).
  - rewrite (vecA_sep _ v1) by exact S. apply (vecA_val v_size src tgt defS defA V d WS WA v r0 n' i E' I' IS f flip _ Z).
Qed.
Lemma vslist_val v1 v2 q :
  (v = v1 /\ match v2 with Some w => sep v w | None => True end) \/ (v2 = Some v /\ sep v v1) ->
  rsign (t_rhs tgt) * QF v r (vslist v_size src tgt sub defS defA v1 v2 flip) q ==
  rsign (t_rhs tgt) * q - sg flip * e i * B i.
Proof.
  intros H. destruct (rhs_eqb (t_rhs tgt) RZERO) eqn:Z.
  - assert (Et : t_rhs tgt = RZERO) by (destruct (t_rhs tgt); simpl in Z; congruence).
    rewrite (proj2 (target_rhs Et) i), Et. simpl rsign. ring.
  - assert (Et : t_rhs tgt <> RZERO) by (intros X; rewrite X in Z; discriminate).
    assert (Q : QF v r (vslist v_size src tgt sub defS defA v1 v2 flip) q == q + qsum (fun y => - (rsign (t_rhs tgt) * sg flip * e i * bterm v_size V i y)) SS).
    { apply qf_flat. intros y Y q'. rewrite qf_app. destruct H as [[-> S]|[-> S]].
      - destruct v2 as [w|]; [rewrite (vsubA_sep _ w) by exact S|unfold qf at 1; cbn [fold_left]];
          apply (vsubA_val v_size src tgt sub defS defA V d G WS WA v1 r0 n' i E' I' IS y flip _ Et Y).
      - rewrite (vsubA_sep _ v1) by exact S. apply (vsubA_val v_size src tgt sub defS defA V d G WS WA v r0 n' i E' I' IS y flip _ Et Y). }
    rewrite Q. rewrite (qsum_ext _ (fun y => (- (rsign (t_rhs tgt) * sg flip * e i)) * bterm v_size V i y)) by (intros; ring).
    rewrite qsum_scale. fold (B i). destruct (t_rhs tgt); [congruence| |]; simpl rsign; ring.
Qed.
End Vec.
End Slot.

Definition slotfact (v : vslot) (f : rhsf) (flip : bool) (r0 i : nat) (m : mem) (x : point) : Prop :=
  RV (mA (run v_size V tgt g m)) x (r0 + i)%nat == sg flip * e i * (X x i - B i) /\
  rsign (t_rhs tgt) * vget v (run v_size V tgt g m) (r0 + i)%nat == sg flip * e i * (F f i - B i).

Lemma run_vget v m r : vget v (run v_size V tgt g m) r = QF v r (g_VS g) (QF v r (g_V g) (vget v m r)).
Proof. unfold run. rewrite !fold_vget, !fold_M_vget. reflexivity. Qed.
Lemma sizes : t_dim tgt = if ct_eqb (c_type src) DOUBLE_SIDED && negb (ct_eqb (t_type tgt) DOUBLE_SIDED) then (2 * c_size src)%nat else c_size src.
Proof.
  unfold checkTarget in CT. destruct (_ && _); [discriminate|]. destruct (_ && _); [discriminate|]. destruct (_ && _); [discriminate|].
  destruct (ct_eqb (c_type src) DOUBLE_SIDED && negb (ct_eqb (t_type tgt) DOUBLE_SIDED)).
  - destruct (Nat.eqb (t_dim tgt) (2 * c_size src)) eqn:H; [apply Nat.eqb_eq; exact H|discriminate].
  - destruct (Nat.eqb (t_dim tgt) (c_size src)) eqn:H; [apply Nat.eqb_eq; exact H|discriminate].
Qed.
Lemma one_slot v f flip f1 v1 fv2 extra i m x : mapped v_size mapping src sub ->
  clean v_size mapping vars src sub tgt (mA m) -> t_dim tgt = c_size src -> (i < c_size src)%nat ->
  g_M g = mlist v_size mapping src sub defS defA SA flip -> g_MS g = mslist v_size mapping src sub defS defA SA flip ->
  g_V g = vlist src tgt defS defA f1 v1 fv2 flip ++ extra ->
  g_VS g = vslist v_size src tgt sub defS defA v1 (match fv2 with Some (_, w) => Some w | None => None end) flip ->
  vrows tgt v = (t_start tgt, t_dim tgt) -> (forall a, In a extra -> sameobj v (va_slot a) = false) ->
  (v = v1 /\ f = f1 /\ match fv2 with Some (_, w) => sameobj v w = false | None => True end) \/ (fv2 = Some (f, v) /\ sameobj v v1 = false) ->
  slotfact v f flip (t_start tgt) i m x.
Proof.
  intros MP C D I EM EMS EV EVS E Ex H.
  assert (I2 : (i < t_dim tgt)%nat) by lia. assert (T : (t_start tgt <= t_start tgt + i < t_start tgt + t_dim tgt)%nat) by lia.
  assert (SP : forall w, sameobj v w = false -> sep (t_start tgt) i v w) by (intros w Hw; unfold sep; rewrite Hw; reflexivity).
  split.
  - apply (row_part MP SA flip (t_start tgt) (t_dim tgt) i eq_refl I2 I m x [] [] [] [] T C).
    + rewrite app_nil_r. exact EM.
    + rewrite app_nil_r. exact EMS.
    + intros a. simpl. tauto.
  - rewrite run_vget, EVS. rewrite (vslist_val flip (t_start tgt) i I v (t_dim tgt) E I2).
    + rewrite EV, qf_app. rewrite (qf_untouched _ _ _ _ _ _ extra) by (intros a A; unfold touchV; rewrite (Ex a A); reflexivity).
      rewrite (vlist_val flip (t_start tgt) i I v (t_dim tgt) E I2 f1 v1 fv2 f); [ring|].
      destruct H as [[-> [-> S]]|[-> S]]; [left; repeat split; destruct fv2 as [[f2 w]|]; auto|right; auto].
    + destruct H as [[-> [_ S]]|[-> S]]; [left; split; [reflexivity|]; destruct fv2 as [[f2 w]|]; auto|right; auto].
Qed.
Lemma mlist_slot M flip a : In a (mlist v_size mapping src sub defS defA M flip) -> ma_slot a = M.
Proof. unfold mlist. rewrite in_app_iff, !in_map_iff. intros [[y [<- _]]|[y [<- _]]]; reflexivity. Qed.
Lemma mslist_slot M flip a : In a (mslist v_size mapping src sub defS defA M flip) -> ma_slot a = M.
Proof.
  unfold mslist. rewrite in_flat_map. intros [y [_ A]]. apply in_map_iff in A. destruct A as [z [<- _]].
  unfold subA. destruct (c_prop src y); reflexivity.
Qed.
Lemma two_slots fa fb i m x : mapped v_size mapping src sub ->
  clean v_size mapping vars src sub tgt (mA m) -> t_dim tgt = (2 * c_size src)%nat -> (i < c_size src)%nat ->
  g_M g = mlist v_size mapping src sub defS defA SAFirst false ++ mlist v_size mapping src sub defS defA SASecond true ->
  g_MS g = mslist v_size mapping src sub defS defA SAFirst false ++ mslist v_size mapping src sub defS defA SASecond true ->
  g_V g = vlist src tgt defS defA fa SbFirst None false ++ vlist src tgt defS defA fb SbSecond None true ->
  g_VS g = vslist v_size src tgt sub defS defA SbFirst None false ++ vslist v_size src tgt sub defS defA SbSecond None true ->
  slotfact SbFirst fa false (t_start tgt) i m x /\ slotfact SbSecond fb true (t_start tgt + c_size src) i m x.
Proof.
  intros MP C D I EM EMS EV EVS.
  assert (H2 : Nat.div (t_dim tgt) 2 = c_size src) by (rewrite D, Nat.mul_comm; apply Nat.div_mul; lia).
  assert (T1 : (t_start tgt <= t_start tgt + i < t_start tgt + t_dim tgt)%nat) by lia.
  assert (T2 : (t_start tgt <= t_start tgt + c_size src + i < t_start tgt + t_dim tgt)%nat) by lia.
  assert (E1 : mrows tgt SAFirst = (t_start tgt, c_size src)) by (unfold mrows, vrows; rewrite H2; reflexivity).
  assert (E2 : mrows tgt SASecond = ((t_start tgt + c_size src)%nat, c_size src)) by (unfold mrows; rewrite H2; reflexivity).
  assert (V1 : vrows tgt SbFirst = (t_start tgt, c_size src)) by (unfold mrows, vrows; rewrite H2; reflexivity).
  assert (V2 : vrows tgt SbSecond = ((t_start tgt + c_size src)%nat, c_size src)) by (unfold vrows; rewrite H2; reflexivity).
  assert (O1 : sep (t_start tgt) i SbFirst SbSecond).
  { unfold sep. rewrite V2. cbn [sameobj fst snd andb]. apply inRange_false. lia. }
  assert (O2 : sep (t_start tgt + c_size src) i SbSecond SbFirst).
  { unfold sep. rewrite V1. cbn [sameobj fst snd andb]. apply inRange_false. lia. }
  split; split.
  - eapply (row_part MP SAFirst false (t_start tgt) (c_size src) i E1 I I m x [] _ [] _ T1 C EM EMS).
    intros a A. unfold touchM. assert (S : ma_slot a = SASecond) by (simpl in A; destruct A as [[]|[A|[[]|A]]]; [eapply mlist_slot|eapply mslist_slot]; exact A).
    rewrite S, E2. apply inRange_false. simpl. lia.
  - rewrite run_vget, EVS, qf_app, (vslist_sep (t_start tgt) i SbFirst SbSecond None) by (auto; exact O1).
    rewrite (vslist_val false (t_start tgt) i I SbFirst (c_size src) V1 I) by auto.
    rewrite EV, qf_app. unfold vlist at 1. rewrite qf_app. change (QF SbFirst (t_start tgt + i)%nat [] ?q) with q.
    rewrite vecA_sep by exact O1.
    rewrite (vlist_val false (t_start tgt) i I SbFirst (c_size src) V1 I fa SbFirst None fa) by auto. ring.
  - eapply (row_part MP SASecond true (t_start tgt + c_size src) (c_size src) i E2 I I m x _ [] _ [] T2 C).
    + rewrite app_nil_r. exact EM.
    + rewrite app_nil_r. exact EMS.
    + intros a A. unfold touchM. assert (S : ma_slot a = SAFirst) by (simpl in A; destruct A as [A|[[]|[A|[]]]]; [eapply mlist_slot|eapply mslist_slot]; exact A).
      rewrite S, E1. apply inRange_false. simpl. lia.
  - rewrite run_vget, EVS, qf_app. 
    rewrite (vslist_val true (t_start tgt + c_size src) i I SbSecond (c_size src) V2 I) by auto.
    rewrite (vslist_sep (t_start tgt + c_size src) i SbSecond SbFirst None) by (auto; exact O2).
    rewrite EV, qf_app.
    rewrite (vlist_val true (t_start tgt + c_size src) i I SbSecond (c_size src) V2 I fb SbSecond None fb) by auto. ring.
Qed.

Definition rowfacts (i : nat) (m : mem) (x : point) : Prop :=
  let t0 := t_start tgt in
  match c_type src, t_type tgt with
  | EQUAL, EQUAL => slotfact Sb Fe false t0 i m x
  | EQUAL, DOUBLE_SIDED => slotfact Sl Fe false t0 i m x /\ slotfact Su Fe false t0 i m x
  | DOUBLE_SIDED, DOUBLE_SIDED => slotfact Sl Fl false t0 i m x /\ slotfact Su Fu false t0 i m x
  | DOUBLE_SIDED, GREATER_THAN => slotfact SbFirst Fl false t0 i m x /\ slotfact SbSecond Fu true (t0 + c_size src) i m x
  | DOUBLE_SIDED, LOWER_THAN => slotfact SbFirst Fu false t0 i m x /\ slotfact SbSecond Fl true (t0 + c_size src) i m x
  | GREATER_THAN, GREATER_THAN => slotfact Sb Fl false t0 i m x
  | GREATER_THAN, LOWER_THAN => slotfact Sb Fl true t0 i m x
  | LOWER_THAN, GREATER_THAN => slotfact Sb Fu true t0 i m x
  | LOWER_THAN, LOWER_THAN => slotfact Sb Fu false t0 i m x
  | GREATER_THAN, DOUBLE_SIDED => slotfact Sl Fl false t0 i m x /\ mu (run v_size V tgt g m) (t0 + i)%nat == e i * big
  | LOWER_THAN, DOUBLE_SIDED => slotfact Su Fu false t0 i m x /\ ml (run v_size V tgt g m) (t0 + i)%nat == e i * - big
  | _, _ => False
  end.
Lemma single_lists M f v fv2 flip x' : addAssignments v_size mapping src tgt sub defS defA M f v fv2 flip ([], [], [], []) = Ok x' ->
  x' = (mlist v_size mapping src sub defS defA M flip, mslist v_size mapping src sub defS defA M flip,
        vlist src tgt defS defA f v fv2 flip,
        vslist v_size src tgt sub defS defA v (match fv2 with Some (_, w) => Some w | None => None end) flip) /\
  mapped v_size mapping src sub.
Proof. intros H. apply addAssignments_cat in H. destruct H as [-> H]. split; [reflexivity|exact H]. Qed.
Lemma const_val q v w r0 n i m : vrows tgt w = (r0, n) -> (i < n)%nat -> (i < c_size src)%nat -> sameobj w v = false ->
  forall l, g_V g = l ++ [mkVA COPY (weightOf defS defA false) (VConst q) w] ->
  forall fl, g_VS g = vslist v_size src tgt sub defS defA v None fl ->
  vget w (run v_size V tgt g m) (r0 + i)%nat == e i * q.
Proof.
  intros E I IS S l EV fl EVS. rewrite run_vget, EVS, vslist_sep by (unfold sep; rewrite ?S; auto).
  rewrite EV, qf_app. unfold qf at 1. cbn [fold_left]. rewrite (stepV_in v_size src tgt V d w r0 n i E I IS). cbn [applyA vsrcVal].
  rewrite (applyW_eff defS defA d WS WA). unfold sg. ring.
Qed.
Lemma rowfacts_ok i m x : clean v_size mapping vars src sub tgt (mA m) -> (i < c_size src)%nat -> rowfacts i m x.
Proof.
  intros C I. pose proof sizes as SZ. pose proof BL as BL'. unfold buildLists in BL'. unfold rowfacts.
  destruct (c_type src) eqn:CTY, (t_type tgt) eqn:TTY; cbn [ct_eqb andb negb] in SZ, BL'; try discriminate BL';
    try (unfold checkTarget in CT; rewrite CTY, TTY in CT; discriminate CT).
  - apply single_lists in BL'. destruct BL' as [BL' MP]. injection BL' as E1 E2 E3 E4.
    apply (one_slot Sb Fe false Fe Sb None []); auto; rewrite ?app_nil_r; auto; simpl; tauto.
  - apply single_lists in BL'. destruct BL' as [BL' MP]. injection BL' as E1 E2 E3 E4.
    split; [apply (one_slot Sl Fe false Fe Sl (Some (Fe, Su)) [])|apply (one_slot Su Fe false Fe Sl (Some (Fe, Su)) [])]; auto; rewrite ?app_nil_r; auto; simpl; tauto.
  - apply single_lists in BL'. destruct BL' as [BL' MP]. injection BL' as E1 E2 E3 E4.
    apply (one_slot Sb Fl false Fl Sb None []); auto; rewrite ?app_nil_r; auto; simpl; tauto.
  - apply single_lists in BL'. destruct BL' as [BL' MP]. injection BL' as E1 E2 E3 E4.
    apply (one_slot Sb Fl true Fl Sb None []); auto; rewrite ?app_nil_r; auto; simpl; tauto.
  - destruct (addAssignments v_size mapping src tgt sub defS defA SA Fl Sl None false _) as [x1| |] eqn:A; simpl in BL'; try discriminate.
    apply single_lists in A. destruct A as [-> MP]. simpl in BL'. injection BL' as E1 E2 E3 E4. split.
    + apply (one_slot Sl Fl false Fl Sl None [mkVA COPY (weightOf defS defA false) (VConst big) Su]); auto.
      intros a [<-|[]]. reflexivity.
    + apply (const_val big Sl Su (t_start tgt) (t_dim tgt) i m eq_refl ltac:(rewrite SZ; exact I) I eq_refl _ (eq_sym E3) _ (eq_sym E4)).
  - apply single_lists in BL'. destruct BL' as [BL' MP]. injection BL' as E1 E2 E3 E4.
    apply (one_slot Sb Fu true Fu Sb None []); auto; rewrite ?app_nil_r; auto; simpl; tauto.
  - apply single_lists in BL'. destruct BL' as [BL' MP]. injection BL' as E1 E2 E3 E4.
    apply (one_slot Sb Fu false Fu Sb None []); auto; rewrite ?app_nil_r; auto; simpl; tauto.
  - destruct (addAssignments v_size mapping src tgt sub defS defA SA Fu Su None false _) as [x1| |] eqn:A; simpl in BL'; try discriminate.
    apply single_lists in A. destruct A as [-> MP]. simpl in BL'. injection BL' as E1 E2 E3 E4. split.
    + apply (one_slot Su Fu false Fu Su None [mkVA COPY (weightOf defS defA false) (VConst (- big)) Sl]); auto.
      intros a [<-|[]]. reflexivity.
    + apply (const_val (- big) Su Sl (t_start tgt) (t_dim tgt) i m eq_refl ltac:(rewrite SZ; exact I) I eq_refl _ (eq_sym E3) _ (eq_sym E4)).
  - destruct (addAssignments v_size mapping src tgt sub defS defA SAFirst Fl SbFirst None false _) as [x1| |] eqn:A; simpl in BL'; try discriminate.
    apply single_lists in A. destruct A as [-> MP]. apply addAssignments_cat in BL'. destruct BL' as [BL' _]. simpl in BL'. injection BL' as E1 E2 E3 E4.
    apply two_slots; auto.
  - destruct (addAssignments v_size mapping src tgt sub defS defA SAFirst Fu SbFirst None false _) as [x1| |] eqn:A; simpl in BL'; try discriminate.
    apply single_lists in A. destruct A as [-> MP]. apply addAssignments_cat in BL'. destruct BL' as [BL' _]. simpl in BL'. injection BL' as E1 E2 E3 E4.
    apply two_slots; auto.
  - apply single_lists in BL'. destruct BL' as [BL' MP]. injection BL' as E1 E2 E3 E4.
    split; [apply (one_slot Sl Fl false Fl Sl (Some (Fu, Su)) [])|apply (one_slot Su Fu false Fl Sl (Some (Fu, Su)) [])]; auto; rewrite ?app_nil_r; auto; simpl; tauto.
Qed.
End Final.
