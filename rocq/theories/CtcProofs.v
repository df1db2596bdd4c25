Require Import Reals List Bool ZArith Lia Lra.
Require Import Verif.ConeModel Verif.ConeProofs Verif.DfModel Verif.CtcModel Verif.CtcSpec.
Import ListNotations.
Local Open Scope R_scope.

Lemma place_tmul X x : place X x = vplus (p_tr X) (tmul (p_rot X) x).
Proof. apply v3_eq; cbn; ring. Qed.
Lemma coord_mapply M v : coordinates M v = mapply M v.
Proof. reflexivity. Qed.
Lemma orth_t M : orthonormal M -> forall v, tmul M (mapply M v) = v /\ mapply M (tmul M v) = v.
Proof.
  intros H v. destruct (H v) as [A B]. rewrite place_tmul, coord_mapply in A. rewrite place_tmul, coord_mapply in B. cbn [p_tr p_rot] in A, B.
  assert (Z : forall w, vplus (mkV3 0 0 0) w = w) by (intros w; apply v3_eq; cbn; ring). rewrite Z in A, B. split; assumption.
Qed.
Lemma tmul_trans M x : tmul (mtrans M) x = mapply M x.
Proof. apply v3_eq; cbn; unfold dot3; ring. Qed.
Lemma mapply_trans M x : mapply (mtrans M) x = tmul M x.
Proof. apply v3_eq; cbn; unfold dot3; cbn; ring. Qed.
Lemma tmul_mmul A B x : tmul (mmul A B) x = tmul B (tmul A x).
Proof. apply v3_eq; cbn; ring. Qed.
Lemma mapply_mmul A B x : mapply (mmul A B) x = mapply A (mapply B x).
Proof. unfold mapply, mmul, dot3, tmul, vplus, vscale. apply v3_eq; cbn; ring. Qed.
Lemma tmul_plus M x y : tmul M (vplus x y) = vplus (tmul M x) (tmul M y).
Proof. apply v3_eq; cbn; ring. Qed.
Lemma tmul_opp M x : tmul M (vopp x) = vopp (tmul M x).
Proof. apply v3_eq; cbn; ring. Qed.
Lemma mapply_plus M x y : mapply M (vplus x y) = vplus (mapply M x) (mapply M y).
Proof. apply v3_eq; cbn; unfold dot3; cbn; ring. Qed.
Lemma vplus_assoc a b c : vplus (vplus a b) c = vplus a (vplus b c).
Proof. apply v3_eq; cbn; ring. Qed.
Lemma vplus_comm a b : vplus a b = vplus b a.
Proof. apply v3_eq; cbn; ring. Qed.
Lemma vplus_opp a b : vplus a (vplus (vopp a) b) = b.
Proof. apply v3_eq; cbn; ring. Qed.
Lemma vplus_cancel a b c : vplus a b = vplus a c -> b = c.
Proof. intros H. rewrite <- (vplus_opp (vopp a) b), <- (vplus_opp (vopp a) c). assert (X : vopp (vopp a) = a) by (apply v3_eq; cbn; ring). rewrite X, H. reflexivity. Qed.

Lemma place_pmul X Y x : place (pmul X Y) x = place Y (place X x).
Proof. rewrite !place_tmul. cbn [p_tr p_rot pmul]. rewrite tmul_mmul, tmul_plus, vplus_assoc. reflexivity. Qed.
Lemma place_pinv X x : orthonormal (p_rot X) -> place X (place (pinv X) x) = x /\ place (pinv X) (place X x) = x.
Proof.
  intros H. rewrite !place_tmul. cbn [p_tr p_rot pinv]. rewrite tmul_trans, tmul_plus, tmul_opp. destruct (orth_t _ H (p_tr X)) as [A _]. destruct (orth_t _ H x) as [B C]. rewrite A, B.
  split; [apply vplus_opp|]. rewrite tmul_trans, mapply_plus, C. set (w := mapply _ (p_tr X)). rewrite <- vplus_assoc. apply v3_eq; cbn -[w]; ring.
Qed.

Section Geo.
Variable str : Type.
Implicit Types f : frame str.
Lemma x12_place f1 f2 ps amb x : orthonormal (p_rot (f_pos str f1)) -> place (f_pos str f1) (place (c_x12 str (newContact str f1 f2 ps amb)) x) = place (f_pos str f2) x.
Proof.
  intros H. unfold newContact. cbn [c_x12]. rewrite place_pmul. apply place_pinv. exact H.
Qed.
Lemma orth_mmul A B : orthonormal A -> orthonormal B -> orthonormal (mmul A B).
Proof.
  intros HA HB v. rewrite !place_tmul, !coord_mapply. cbn [p_tr p_rot]. rewrite !tmul_mmul.
  assert (E : forall x, mapply (mmul A B) x = mapply A (mapply B x)) by apply mapply_mmul. rewrite !E.
  assert (Z : forall w, vplus (mkV3 0 0 0) w = w) by (intros w; apply v3_eq; cbn; ring). rewrite !Z.
  destruct (orth_t _ HA (mapply B v)) as [a _]. destruct (orth_t _ HB v) as [b _]. destruct (orth_t _ HB (tmul A v)) as [_ c]. destruct (orth_t _ HA v) as [_ d].
  rewrite a, b, c, d. split; reflexivity.
Qed.
Lemma orth_trans A : orthonormal A -> orthonormal (mtrans A).
Proof.
  intros HA v. rewrite !place_tmul, !coord_mapply. cbn [p_tr p_rot]. rewrite !tmul_trans, !mapply_trans. destruct (orth_t _ HA v) as [a b].
  assert (Z : forall w, vplus (mkV3 0 0 0) w = w) by (intros w; apply v3_eq; cbn; ring). rewrite !Z. split; assumption.
Qed.
Lemma x12_orth f1 f2 ps amb : orthonormal (p_rot (f_pos str f1)) -> orthonormal (p_rot (f_pos str f2)) -> orthonormal (p_rot (c_x12 str (newContact str f1 f2 ps amb))).
Proof. intros A B. unfold newContact. cbn [c_x12 p_rot pmul pinv]. apply orth_mmul; [exact B|apply orth_trans; exact A]. Qed.
Lemma x21_inv f1 f2 ps amb x : orthonormal (p_rot (f_pos str f1)) -> orthonormal (p_rot (f_pos str f2)) ->
  place (c_x12 str (newContact str f1 f2 ps amb)) (place (c_x21 str (newContact str f1 f2 ps amb)) x) = x /\
  place (c_x21 str (newContact str f1 f2 ps amb)) (place (c_x12 str (newContact str f1 f2 ps amb)) x) = x.
Proof.
  intros A B. pose proof (x12_orth f1 f2 ps amb A B) as O. change (c_x21 str (newContact str f1 f2 ps amb)) with (pinv (c_x12 str (newContact str f1 f2 ps amb))). apply place_pinv. exact O.
Qed.
Lemma x21_place f1 f2 ps amb x : orthonormal (p_rot (f_pos str f1)) -> orthonormal (p_rot (f_pos str f2)) -> place (f_pos str f2) (place (c_x21 str (newContact str f1 f2 ps amb)) x) = place (f_pos str f1) x.
Proof.
  intros A B. rewrite <- (x12_place f1 f2 ps amb) by exact A. destruct (x21_inv f1 f2 ps amb x A B) as [E _]. rewrite E. reflexivity.
Qed.
Lemma place_inj X x y : orthonormal (p_rot X) -> place X x = place X y -> x = y.
Proof. intros H E. destruct (place_pinv X x H) as [_ A]. destruct (place_pinv X y H) as [_ B]. rewrite <- A, <- B, E. reflexivity. Qed.

(* the physical point of a contact point from the first frame, and the one from the second frame *)
Lemma points_iff f1 f2 ps amb k p : orthonormal (p_rot (f_pos str f1)) -> orthonormal (p_rot (f_pos str f2)) -> nth_error ps k = Some p ->
  let c := newContact str f1 f2 ps amb in
  exists p', nth_error (c_p2 str c) k = Some p' /\
    (place (f_pos str f2) (p_tr p') = place (f_pos str f1) (p_tr p) <-> place p (p_tr (c_x21 str c)) = place (c_x21 str c) (p_tr p)).
Proof.
  intros A B H c. exists (pmul (c_x21 str c) p). split; [unfold c, newContact; cbn [c_p2 c_x21]; rewrite nth_error_map, H; reflexivity|].
  rewrite <- (x21_place f1 f2 ps amb (p_tr p)) by auto. fold c.
  assert (E : p_tr (pmul (c_x21 str c) p) = place p (p_tr (c_x21 str c))) by (rewrite place_tmul; reflexivity). rewrite E.
  split; [apply place_inj; exact B|intros ->; reflexivity].
Qed.
(* all that is in the frame: the same as a transformation *)
Lemma points_all f1 f2 ps amb k p x : orthonormal (p_rot (f_pos str f1)) -> orthonormal (p_rot (f_pos str f2)) -> nth_error ps k = Some p ->
  p_rot p = p_rot (mkPT (mkM3 (mkV3 1 0 0) (mkV3 0 1 0) (mkV3 0 0 1)) (p_tr p)) -> p_rot (f_pos str f1) = p_rot (f_pos str f2) ->
  exists p', nth_error (c_p2 str (newContact str f1 f2 ps amb)) k = Some p' /\ place (f_pos str f2) (place p' x) = place (f_pos str f1) (place p x).
Proof.
  intros A B H I E. cbn [p_rot] in I. set (c := newContact str f1 f2 ps amb). exists (pmul (c_x21 str c) p). split; [unfold c, newContact; cbn [c_p2 c_x21]; rewrite nth_error_map, H; reflexivity|].
  rewrite <- (x21_place f1 f2 ps amb (place p x)) by auto. f_equal. fold c. rewrite place_pmul.
  assert (T : forall y, place (c_x21 str c) y = vplus (p_tr (c_x21 str c)) y).
  { intros y. rewrite place_tmul. f_equal. unfold c, newContact. cbn [c_x21 pinv p_rot pmul]. rewrite tmul_trans, <- E.
    rewrite mapply_mmul, mapply_trans. apply orth_t. exact A. }
  rewrite !T. rewrite !place_tmul, I. apply v3_eq; cbn; ring.
Qed.
End Geo.

Section Order.
Variable str : Type.
Variable slt seq : str -> str -> bool.
Hypothesis TO : total_order slt seq.
Notation lt := (id_lt str slt seq).
Notation ident := (ident str).

Lemma seqP a b : seq a b = true <-> a = b.
Proof. apply TO. Qed.
Lemma seq_refl a : seq a a = true.
Proof. apply seqP. reflexivity. Qed.
Lemma slt_irr a : slt a a = false.
Proof. apply TO. Qed.
Lemma slt_trans a b c : slt a b = true -> slt b c = true -> slt a c = true.
Proof. apply TO. Qed.
Lemma slt_tri a b : slt a b = true \/ a = b \/ slt b a = true.
Proof. apply TO. Qed.

(* the lexicographic order on the names *)
Definition names_lt (a b : ident) : Prop :=
  slt (j_r1 _ a) (j_r1 _ b) = true \/ (j_r1 _ a = j_r1 _ b /\ (slt (j_f1 _ a) (j_f1 _ b) = true \/ (j_f1 _ a = j_f1 _ b /\
  (slt (j_r2 _ a) (j_r2 _ b) = true \/ (j_r2 _ a = j_r2 _ b /\ slt (j_f2 _ a) (j_f2 _ b) = true))))).
Lemma lt_spec a b : lt a b = true <-> names_lt a b \/
  (j_r1 _ a = j_r1 _ b /\ j_f1 _ a = j_f1 _ b /\ j_r2 _ a = j_f2 _ b /\ j_f2 _ a = j_f2 _ b /\ (j_amb _ a < j_amb _ b)%Z).
Proof.
  unfold id_lt, names_lt. rewrite !orb_true_iff, !andb_true_iff, !seqP, Z.ltb_lt. tauto.
Qed.
Lemma names_trans a b c : names_lt a b -> names_lt b c -> names_lt a c.
Proof.
  unfold names_lt. destruct a as [a1 a2 a3 a4 a5], b as [b1 b2 b3 b4 b5], c as [c1 c2 c3 c4 c5]. cbn.
  intros [H|[-> [H|[-> [H|[-> H]]]]]] [K|[E [K|[E' [K|[E'' K]]]]]]; subst; eauto 12 using slt_trans.
Qed.
Lemma names_irr a : ~ names_lt a a.
Proof. unfold names_lt. rewrite !slt_irr. intros [H|[_ [H|[_ [H|[_ H]]]]]]; discriminate. Qed.
Definition same_names (a b : ident) : Prop := j_r1 _ a = j_r1 _ b /\ j_f1 _ a = j_f1 _ b /\ j_r2 _ a = j_r2 _ b /\ j_f2 _ a = j_f2 _ b.
Lemma names_tri a b : names_lt a b \/ same_names a b \/ names_lt b a.
Proof.
  unfold names_lt, same_names. destruct a as [a1 a2 a3 a4 a5], b as [b1 b2 b3 b4 b5]. cbn.
  destruct (slt_tri a1 b1) as [H|[->|H]]; [tauto| |tauto]. destruct (slt_tri a2 b2) as [H|[->|H]]; [tauto| |tauto].
  destruct (slt_tri a3 b3) as [H|[->|H]]; [tauto| |tauto]. destruct (slt_tri a4 b4) as [H|[->|H]]; [tauto| |tauto]. tauto.
Qed.
(* ids with the same ambiguity *)
Lemma same_amb a b : j_amb _ a = j_amb _ b -> (lt a b = true <-> names_lt a b).
Proof. intros E. rewrite lt_spec. split; [intros [H|(_ & _ & _ & _ & H)]; [exact H|lia]|auto]. Qed.
(* robot names that are not frame names *)
Lemma apart a b : j_r2 _ a <> j_f2 _ b -> (lt a b = true <-> names_lt a b).
Proof. intros E. rewrite lt_spec. split; [intros [H|(_ & _ & H & _ & _)]; [exact H|contradiction]|auto]. Qed.

(* id_eq *)
Lemma id_eq_spec a b : id_eq str seq a b = true <-> a = b.
Proof.
  unfold id_eq. rewrite !andb_true_iff, !seqP, Z.eqb_eq. destruct a, b; cbn. split; [intros ((((-> & ->) & ->) & ->) & ->); reflexivity|intros H; injection H as -> -> -> -> ->; auto].
Qed.

(* without ambiguity: a total order *)
Lemma order_partial (z : Z) : forall a b c, j_amb _ a = z -> j_amb _ b = z -> j_amb _ c = z ->
  lt a a = false /\ (lt a b = true -> lt b c = true -> lt a c = true) /\ (lt a b = true \/ a = b \/ lt b a = true).
Proof.
  intros a b c Ha Hb Hc. split; [|split].
  - destruct (lt a a) eqn:E; [|reflexivity]. apply same_amb in E; [|reflexivity]. destruct (names_irr _ E).
  - rewrite !same_amb by congruence. apply names_trans.
  - rewrite !same_amb by congruence. destruct (names_tri a b) as [H|[H|H]]; auto. right. left. destruct a, b. unfold same_names in H. cbn in *. destruct H as (-> & -> & -> & ->). congruence.
Qed.
(* robots and frames with different names: the ambiguity is not seen *)
Lemma ambiguity_ignored r1 f1 r2 f2 z z' : r2 <> f2 -> lt (mkIdent _ r1 f1 r2 f2 z) (mkIdent _ r1 f1 r2 f2 z') = false.
Proof.
  intros N. destruct (lt _ _) eqn:E; [|reflexivity]. apply apart in E; [|exact N]. unfold names_lt in E. cbn in E. rewrite !slt_irr in E. destruct E as [H|[_ [H|[_ [H|[_ H]]]]]]; discriminate.
Qed.
(* not an order *)
Lemma not_asym x y : slt x y = true -> lt (mkIdent _ x x y y 0) (mkIdent _ x x x y 1) = true /\ lt (mkIdent _ x x x y 1) (mkIdent _ x x y y 0) = true.
Proof.
  intros H. rewrite !lt_spec. unfold names_lt. cbn. split; [right; repeat split; try reflexivity; lia|left; right; split; [reflexivity|]; right; split; [reflexivity|]; left; exact H].
Qed.
(* when it is one: no name of a second robot is a name of a second frame *)
Lemma apart_weak (ok : ident -> Prop) : (forall a b, ok a -> ok b -> j_r2 _ a <> j_f2 _ b) -> forall a b c, ok a -> ok b -> ok c ->
  lt a a = false /\ (lt a b = true -> lt b c = true -> lt a c = true) /\ (lt a c = true -> lt a b = true \/ lt b c = true) /\
  (lt a b = false -> lt b a = false -> same_names a b).
Proof.
  intros H a b c Ha Hb Hc. rewrite <- !not_true_iff_false, !apart by auto. split; [apply names_irr|]. split; [apply names_trans|]. split.
  - intros K. destruct (names_tri a b) as [N|[N|N]]; [left; exact N| |right; eapply names_trans; eauto].
    right. unfold same_names in N. unfold names_lt in *. destruct N as (<- & <- & <- & <-). exact K.
  - intros N1 N2. destruct (names_tri a b) as [N|[N|N]]; [contradiction|exact N|contradiction].
Qed.
End Order.
