Require Import Reals List Lra Lia Psatz Ratan.
Require Import Verif.ConeModel Verif.ConeProofs Verif.DfModel Verif.CtcModel Verif.CtcSpec Verif.CtcProofs Verif.FrModel Verif.FrSpec Verif.FrProofs Verif.OriModel Verif.OriSpec Verif.OriProofs Verif.OriProofs2.
Import ListNotations.
Local Open Scope R_scope.

Definition cmp (k : nat) (a : v3) : R := match k with 0%nat => vx a | 1%nat => vy a | _ => vz a end.
Lemma derives_cmp f t d : derives f t d <-> forall k, derivable_pt_lim (fun s => cmp k (f s)) t (cmp k d).
Proof.
  split.
  - intros (A & B & C) [|[|k]]; assumption.
  - intros H. split; [exact (H 0%nat)|split; [exact (H 1%nat)|exact (H 2%nat)]].
Qed.
Lemma cmp_eq a b : (forall k, cmp k a = cmp k b) -> a = b.
Proof. intros H. apply v3_eq; [exact (H 0%nat)|exact (H 1%nat)|exact (H 2%nat)]. Qed.
Lemma cmp_scale k x a : cmp k (vscale x a) = x * cmp k a.
Proof. destruct k as [|[|k]]; reflexivity. Qed.

Section Curve.
Variable T : m3.
Hypothesis HT : orientation T.
Variable C : R -> m3.
Variable u : R -> v3.
Hypothesis HU : forall s, turns (u s) T (C s).
Variables (t : R) (w : v3).
Hypothesis HW : forall y, derives (fun s => tmul (C s) y) t (crossp w (tmul (C t) y)).

Lemma quo_derives y : derives (fun s => quo T (C s) y) t (crossp w (quo T (C t) y)).
Proof. apply HW. Qed.
Lemma cc_derives : derivable_pt_lim (fun s => cc T (C s)) t (- dotp w (vee T (C t))).
Proof.
  destruct (quo_derives ex) as (X1 & X2 & X3). destruct (quo_derives ey) as (Y1 & Y2 & Y3). destruct (quo_derives ez) as (Z1 & Z2 & Z3).
  pose proof (derivable_pt_lim_plus _ _ _ _ _ (derivable_pt_lim_plus _ _ _ _ _ X1 Y2) Z3) as D.
  pose proof (derivable_pt_lim_scal _ (1/2) _ _ (derivable_pt_lim_minus _ _ _ _ _ D (derivable_pt_lim_const 1 t))) as D2.
  eapply lim_local with (d := 1); [lra| |]; cycle 1.
  - match type of D2 with derivable_pt_lim _ _ ?a => replace (- dotp w (vee T (C t))) with a; [exact D2|] end.
    unfold dotp, vee, crossp. cbn. field.
  - intros h _. unfold cc, mult_real_fct, minus_fct, plus_fct, fct_cte. field.
Qed.
Lemma vee_derives : derives (fun s => vee T (C s)) t (mkV3 ((vz (crossp w (quo T (C t) ey)) - vy (crossp w (quo T (C t) ez))) / 2)
   ((vx (crossp w (quo T (C t) ez)) - vz (crossp w (quo T (C t) ex))) / 2) ((vy (crossp w (quo T (C t) ex)) - vx (crossp w (quo T (C t) ey))) / 2)).
Proof.
  destruct (quo_derives ex) as (X1 & X2 & X3). destruct (quo_derives ey) as (Y1 & Y2 & Y3). destruct (quo_derives ez) as (Z1 & Z2 & Z3).
  assert (G : forall f g a b, derivable_pt_lim f t a -> derivable_pt_lim g t b -> derivable_pt_lim (fun s => (f s - g s) / 2) t ((a - b) / 2)).
  { intros f g a b F G. pose proof (derivable_pt_lim_scal _ (1/2) _ _ (derivable_pt_lim_minus _ _ _ _ _ F G)) as D. replace ((a - b) / 2) with (1 / 2 * (a - b)) by field.
    eapply lim_local with (d := 1); [lra| |exact D]. intros h _. unfold mult_real_fct, minus_fct. field. }
  split; [|split]; cbn [vee vx vy vz]; apply G; assumption.
Qed.

(* at t, with the axis and the angle *)
Variables (a : v3) (th : R).
Hypothesis Ha : dotp a a = 1.
Hypothesis Hth : 0 <= th <= PI.
Hypothesis Hu : u t = vscale th a.
Hypothesis Hq : forall y, quo T (C t) y = turn a th y.
Definition veeRate : v3 := vscale (1/2) (vplus (vplus (vscale (1 + cos th) w) (vscale (- sin th) (crossp a w))) (vscale (- ((1 - cos th) * dotp a w)) a)).
Lemma vee_rate : derives (fun s => vee T (C s)) t veeRate.
Proof.
  pose proof vee_derives as D. match type of D with derives _ _ ?x => replace veeRate with x; [exact D|] end.
  rewrite !Hq. unfold veeRate. replace (1 + cos th) with (2 * cos th + (1 - cos th) * dotp a a) by (rewrite Ha; ring). unfold turn, crossp, dotp, vscale, vplus, ex, ey, ez. apply v3_eq; cbn; field.
Qed.
Lemma dot_scale x y k : dotp x (vscale k y) = k * dotp x y.
Proof. unfold dotp, vscale. cbn. ring. Qed.
Lemma cc_rate : derivable_pt_lim (fun s => cc T (C s)) t (- (sin th * dotp w a)).
Proof. pose proof cc_derives as D. rewrite (quo_vee T (C t) a th Hq), dot_scale in D. exact D. Qed.

(* at the target *)
Lemma rate_zero : th = 0 -> derives u t w.
Proof.
  intros Z. apply derives_cmp. intros k.
  assert (VR : derivable_pt_lim (fun s => cmp k (vee T (C s))) t (cmp k w)).
  { pose proof (proj1 (derives_cmp _ _ _) vee_rate k) as D. replace (cmp k w) with (cmp k veeRate); [exact D|]. f_equal. unfold veeRate. rewrite Z, cos_0, sin_0. unfold vplus, vscale. apply v3_eq; cbn; field. }
  pose proof cc_rate as CR. 
  assert (V0 : cmp k (vee T (C t)) = 0) by (rewrite (quo_vee T (C t) a th Hq), Z, sin_0, cmp_scale; ring).
  assert (C0 : cc T (C t) = 1) by (rewrite (quo_cc T (C t) a th Ha Hq), Z; apply cos_0).
  assert (U0 : cmp k (u t) = 0) by (rewrite Hu, Z, cmp_scale; ring).
  intros eps He. set (l := cmp k w) in *.
  set (e1 := Rmin 1 (eps / 2)). assert (He1 : 0 < e1) by (unfold e1; apply Rmin_pos; lra).
  destruct (VR e1 He1) as [d1 K1]. 
  set (e2 := eps / 2 / (Rabs l + 1)). assert (Hl : 0 < Rabs l + 1) by (pose proof (Rabs_pos l); lra). assert (He2 : 0 < e2) by (unfold e2; apply Rdiv_lt_0_compat; lra).
  (* the cosine is close to 1 *)
  set (e3 := e2 / (1 + e2)). assert (He3 : 0 < e3) by (unfold e3; apply Rdiv_lt_0_compat; lra).
  destruct (lim_near _ _ _ CR e3 He3) as (d2 & Hd2 & K2). rewrite C0 in K2.
  assert (P : 0 < Rmin d1 d2) by (apply Rmin_pos; [apply cond_pos|exact Hd2]). exists (mkposreal _ P). intros h h0 hd. cbn in hd.
  assert (hd1 : Rabs h < d1) by (eapply Rlt_le_trans; [exact hd|apply Rmin_l]). assert (hd2 : Rabs h < d2) by (eapply Rlt_le_trans; [exact hd|apply Rmin_r]).
  specialize (K1 h h0 hd1). specialize (K2 h hd2). rewrite V0 in K1. rewrite U0.
  destruct (HU (t + h)) as (b & ph & Hb & Hph & EU & X). pose proof (turns_quo T (C (t + h)) b ph HT X) as Q. rewrite (quo_cc _ _ b ph Hb Q) in K2. rewrite (quo_vee _ _ b ph Q), cmp_scale in K1.
  change (mkV3 (ph * vx b) (ph * vy b) (ph * vz b)) with (vscale ph b) in EU. rewrite EU, cmp_scale.
  assert (CP : / (1 + e2) < cos ph).
  { apply Rabs_def2 in K2. unfold e3 in K2. replace (/ (1 + e2)) with (1 - e2 / (1 + e2)) by (field; lra). lra. }
  assert (IP : 0 < / (1 + e2)) by (apply Rinv_0_lt_compat; lra).
  assert (PH : ph <= PI / 2).
  { destruct (Rle_dec ph (PI / 2)) as [L|L]; [exact L|]. exfalso. assert (cos ph <= 0); [|lra]. apply cos_le_0; lra. }
  assert (S1 : ph * cos ph <= sin ph) by (apply sinx_x; lra).
  assert (S2 : sin ph <= ph) by (destruct (Req_dec ph 0) as [->|N]; [rewrite sin_0; lra|apply Rlt_le, sin_lt_x; lra]).
  assert (S0 : 0 <= sin ph) by (apply sin_ge_0; lra).
  (* ph - sin ph <= e2 * sin ph *)
  assert (S3 : ph - sin ph <= e2 * sin ph).
  { assert (ph * / (1 + e2) <= sin ph) by nra. assert (ph <= sin ph * (1 + e2)); [|lra]. apply (Rmult_le_reg_r (/ (1 + e2))); [exact IP|]. rewrite Rmult_assoc, Rinv_r by lra. lra. }
  set (bk := cmp k b) in *.
  replace ((ph * bk - 0) / h - l) with (((sin ph * bk - 0) / h - l) + (ph - sin ph) * bk / h) by (field; exact h0).
  eapply Rle_lt_trans; [apply Rabs_triang|].
  assert (B1 : Rabs (sin ph * bk / h) <= Rabs l + 1).
  { replace (sin ph * bk / h) with (((sin ph * bk - 0) / h - l) + l) by (field; exact h0). eapply Rle_trans; [apply Rabs_triang|]. assert (e1 <= 1) by apply Rmin_l. lra. }
  assert (B2 : Rabs ((ph - sin ph) * bk / h) <= e2 * (Rabs l + 1)).
  { apply Rle_trans with (e2 * Rabs (sin ph * bk / h)); [|apply Rmult_le_compat_l; lra]. unfold Rdiv. rewrite !Rabs_mult, (Rabs_pos_eq (ph - sin ph)), (Rabs_pos_eq (sin ph)) by lra.
    assert (0 <= Rabs bk * Rabs (/ h)) by (apply Rmult_le_pos; apply Rabs_pos). rewrite !Rmult_assoc. nra. }
  assert (B3 : e2 * (Rabs l + 1) = eps / 2) by (unfold e2; field; lra). assert (e1 <= eps / 2) by apply Rmin_r. lra.
Qed.

(* less than half a turn from the target *)
Lemma rate_between : 0 < th < PI -> derives u t (rate (u t) w).
Proof.
  intros B. assert (S : 0 < sin th) by (apply sin_gt_0; lra).
  assert (C0 : cc T (C t) = cos th) by (apply (quo_cc _ _ a); assumption).
  assert (SC : sin th * sin th = 1 - cos th * cos th) by (pose proof (sin2_cos2 th) as E; unfold Rsqr in E; lra).
  assert (CB : -1 < cc T (C t) < 1) by (rewrite C0; nra).
  pose proof (lim_acos _ _ _ cc_rate CB) as AR. cbv beta in AR. rewrite C0, acos_cos in AR by lra.
  replace (- - (sin th * dotp w a) / sin th) with (dotp w a) in AR by (field; lra).
  set (phi := fun s => acos (cc T (C s))) in *. assert (P0 : phi t = th) by (unfold phi; rewrite C0; apply acos_cos; lra).
  assert (SR : derivable_pt_lim (fun s => sin (phi s)) t (cos th * dotp w a)).
  { pose proof (derivable_pt_lim_comp phi sin t _ (cos (phi t)) AR (derivable_pt_lim_sin (phi t))) as D. rewrite P0 in D. exact D. }
  (* the angle stays away from 0 and from half a turn *)
  destruct (lim_near _ _ _ SR (sin th) S) as (d & Hd & K). rewrite P0 in K.
  apply derives_cmp. intros k. pose proof (proj1 (derives_cmp _ _ _) vee_rate k) as VR.
  assert (NZ : sin (phi t) <> 0) by (rewrite P0; lra).
  pose proof (derivable_pt_lim_div _ _ _ _ _ (derivable_pt_lim_mult phi (fun s => cmp k (vee T (C s))) _ _ _ AR VR) SR NZ) as D. cbv beta in D. unfold mult_fct in D. rewrite P0 in D.
  rewrite (quo_vee T (C t) a th Hq), cmp_scale in D.
  eapply lim_local with (d := d); [exact Hd| |]; cycle 1.
  - match type of D with derivable_pt_lim _ _ ?x => replace (cmp k (rate (u t) w)) with x; [exact D|] end.
    rewrite Hu. unfold rate.
    assert (N : sqrt (dotp (vscale th a) (vscale th a)) = th).
    { replace (dotp (vscale th a) (vscale th a)) with (th * th * dotp a a) by (unfold dotp, vscale; cbn; ring). rewrite Ha, Rmult_1_r. apply sqrt_square. lra. }
    rewrite N. unfold veeRate.
    replace (crossp (vscale th a) (crossp (vscale th a) w)) with (vscale (th * th) (vplus (vscale (dotp a w) a) (vscale (- dotp a a) w))) by (unfold crossp, vscale, vplus, dotp; apply v3_eq; cbn; ring).
    replace (crossp (vscale th a) w) with (vscale th (crossp a w)) by (unfold crossp, vscale; apply v3_eq; cbn; ring).
    rewrite Ha. replace (dotp w a) with (dotp a w) by (unfold dotp; ring). set (aw := dotp a w). set (x := crossp a w).
    assert (G : forall ak wk xk, ((aw * (sin th * ak) + th * (1/2 * ((1 + cos th) * wk + - sin th * xk + - ((1 - cos th) * aw) * ak))) * sin th - cos th * aw * (th * (sin th * ak))) / (sin th)² =
       wk + - (1/2) * (th * xk) + (1 - th * (1 + cos th) / (2 * sin th)) / (th * th) * (th * th * (aw * ak + -1 * wk))).
    { intros. unfold Rsqr. field. split; lra. }
    destruct k as [|[|k]]; cbn; apply G.
  - intros h hh. specialize (K h hh). apply Rabs_def2 in K. unfold div_fct.
    destruct (HU (t + h)) as (b & ph & Hb & Hph & EU & X). pose proof (turns_quo T (C (t + h)) b ph HT X) as Q. unfold phi in *. rewrite (quo_cc _ _ b ph Hb Q), acos_cos in * by lra.
    rewrite (quo_vee _ _ b ph Q), cmp_scale, EU. change (mkV3 (ph * vx b) (ph * vy b) (ph * vz b)) with (vscale ph b). rewrite cmp_scale. field. lra.
Qed.
End Curve.

Lemma turns_unique u u' T C : orientation T -> turns u T C -> turns u' T C -> dotp u u < PI * PI -> u' = u.
Proof.
  intros HT (a & th & Ha & Hth & EU & X) (b & ph & Hb & Hph & EU' & X') L. pose proof PI_RGT_0.
  pose proof (turns_quo T C a th HT X) as Q. pose proof (turns_quo T C b ph HT X') as Q'.
  assert (E : ph = th) by (rewrite <- (acos_cos ph Hph), <- (acos_cos th Hth), <- (quo_cc T C a th Ha Q), <- (quo_cc T C b ph Hb Q'); reflexivity). subst ph.
  assert (TP : th < PI).
  { rewrite EU in L. unfold dotp in *. cbn in L. replace (_ + _ + _) with (th * th * (vx a * vx a + vy a * vy a + vz a * vz a)) in L by ring. rewrite Ha in L. nra. }
  destruct (Req_dec th 0) as [->|N]; [rewrite EU, EU'; apply v3_eq; cbn; ring|].
  assert (S : 0 < sin th) by (apply sin_gt_0; lra). pose proof (quo_vee T C a th Q) as V. rewrite (quo_vee T C b th Q') in V. unfold vscale in V. injection V as V1 V2 V3.
  rewrite EU, EU'. apply v3_eq; cbn; f_equal; eapply Rmult_eq_reg_l; try eassumption; lra.
Qed.

Lemma position_rot X b : p_rot (framePosition X b) = mmul (p_rot X) (p_rot (b_pos b)).
Proof. reflexivity. Qed.
Lemma position_oriented X b : oriented X b (p_rot (framePosition X b)).
Proof. intros x. rewrite position_rot, !onAxes_tmul, tmul_mmul. reflexivity. Qed.
Lemma orientation_trans B : orientation B -> orientation (mtrans B).
Proof.
  destruct B as [[a b c] [d e f] [g h i]]. intros H. apply orient_of in H. unfold mtrans. cbn. apply of_orient. destruct H. constructor; lra.
Qed.
Lemma mtrans_mtrans B : mtrans (mtrans B) = B.
Proof. destruct B as [[] [] []]. reflexivity. Qed.
Lemma position_orientation X b : orientation (p_rot X) -> orientation (p_rot (b_pos b)) -> orientation (p_rot (framePosition X b)).
Proof. intros HX HB. rewrite position_rot, <- (mtrans_mtrans (p_rot (b_pos b))). apply orientation_mmul; [exact HX|apply orientation_trans; exact HB]. Qed.
Lemma oriented_eq X b E : oriented X b E -> E = p_rot (framePosition X b).
Proof. intros H. apply onAxes_inj. intros x. rewrite H. symmetry. apply position_oriented. Qed.

Lemma error_zero rv T C : isRotationVelocity rv -> orientation T -> orientation C -> rotationError rv T C = mkV3 0 0 0 <-> C = T.
Proof.
  intros H HT HC. pose proof (error_turns rv T C H HT HC) as E. split.
  - intros Z. rewrite Z in E. apply (turns_zero T C HT E).
  - intros ->. apply (turns_same _ T HT E).
Qed.

(* ---- the calls ---- *)
Section Calls.
Variables (rv : m3 -> v3) (X : ptr).
Lemma of_value ops : forall s g last,
  o_ori s = match g with inl T => T | inr b => p_rot (framePosition X b) end ->
  o_value s = match last with None => None | Some (g, b) => Some (rotationError rv (match g with inl T => T | inr b => p_rot (framePosition X b) end) (p_rot (framePosition X b))) end ->
  o_value (ofrun rv X s ops) = match compared (o_body s) g last ops with None => None
    | Some (g, b) => Some (rotationError rv (match g with inl T => T | inr b => p_rot (framePosition X b) end) (p_rot (framePosition X b))) end.
Proof.
  induction ops as [|o ops IH]; intros s g last HG HV; [exact HV|].
  change (ofrun rv X s (o :: ops)) with (ofrun rv X (ofstep rv X s o) ops). destruct o as [|E|b]; cbn [compared ofstep].
  - rewrite (IH _ (inr (o_body s)) last); [reflexivity|reflexivity|exact HV].
  - rewrite (IH _ (inl E) last); [reflexivity|reflexivity|exact HV].
  - rewrite (IH _ g (Some (g, b))); [reflexivity|exact HG|]. cbn [o_value]. rewrite HG. reflexivity.
Qed.
Definition goodOp (o : ofop) : Prop := match o with OReset => True | OSet E => orientation E | OUpdate b => orientation (p_rot (b_pos b)) end.
Definition goodGoal (g : m3 + body) : Prop := match g with inl T => orientation T | inr b => orientation (p_rot (b_pos b)) end.
Lemma compared_good ops : Forall goodOp ops -> forall cur g last, orientation (p_rot (b_pos cur)) -> goodGoal g ->
  match last with None => True | Some (g, b) => goodGoal g /\ orientation (p_rot (b_pos b)) end ->
  match compared cur g last ops with None => True | Some (g, b) => goodGoal g /\ orientation (p_rot (b_pos b)) end.
Proof.
  induction 1 as [|o ops HO _ IH]; intros cur g last HC HG HL; [exact HL|]. destruct o; cbn in *; apply IH; auto.
Qed.
Hypothesis HR : isRotationVelocity rv.
Hypothesis HX : orientation (p_rot X).
Lemma of_history b ops : orientation (p_rot (b_pos b)) -> Forall goodOp ops ->
  match compared b (inr b) None ops with
  | None => o_value (ofrun rv X (newOf X b) ops) = None
  | Some (g, b') => exists T C v, goalIs X g T /\ oriented X b' C /\ o_value (ofrun rv X (newOf X b) ops) = Some v /\ turns v T C
  end.
Proof.
  intros HB HO. pose proof (of_value ops (newOf X b) (inr b) None eq_refl eq_refl) as V. pose proof (compared_good ops HO b (inr b) None HB HB I) as G.
  cbn [o_body newOf] in V. destruct (compared b (inr b) None ops) as [[g b']|]; [|exact V]. destruct G as [G1 G2].
  exists (match g with inl T => T | inr b => p_rot (framePosition X b) end), (p_rot (framePosition X b')). eexists. split; [destruct g as [E|c]; [reflexivity|apply position_oriented]|].
  split; [apply position_oriented|]. split; [exact V|]. apply error_turns; [exact HR| |apply position_orientation; assumption].
  destruct g as [E|c]; [exact G1|apply position_orientation; assumption].
Qed.
End Calls.

(* ---- motions ---- *)
Section Motion.
Variables (rv : m3 -> v3) (X : ptr) (T : m3) (b : R -> body) (t : R) (w v : v3).
Hypothesis HR : isRotationVelocity rv.
Hypothesis HX : orientation (p_rot X).
Hypothesis HT : orientation T.
Hypothesis HB : forall s, orientation (p_rot (b_pos (b s))).
Hypothesis HM : moving (fun t => b_pos (b t)) t w v.
Let value s := rotationError rv T (p_rot (framePosition X (b s))).
Lemma axes_derive y : derives (fun s => tmul (p_rot (framePosition X (b s))) y) t (crossp w (tmul (p_rot (framePosition X (b t))) y)).
Proof.
  pose proof (fixed_frame b t w v X HM) as M. pose proof (moving_origin _ _ _ _ M) as (O1 & O2 & O3). destruct (M y) as (A1 & A2 & A3). clear M.
  set (F := fun s => framePosition X (b s)) in *. change (framePosition X (b t)) with (F t) in *.
  pose proof (derivable_pt_lim_minus _ _ _ _ _ A1 O1) as D1. pose proof (derivable_pt_lim_minus _ _ _ _ _ A2 O2) as D2. pose proof (derivable_pt_lim_minus _ _ _ _ _ A3 O3) as D3.
  cbn [rigid vx vy vz] in *. rewrite place_tmul in D1, D2, D3. cbn [vplus vx vy vz] in *.
  unfold crossp. split; [|split]; cbn [vx vy vz].
  - eapply lim_local with (d := 1); [lra| |match type of D1 with derivable_pt_lim _ _ ?x => match goal with |- derivable_pt_lim _ _ ?y => replace y with x by ring end end; exact D1]. intros h _. unfold minus_fct. rewrite place_tmul. unfold F. cbn [vplus vx vy vz]. ring.
  - eapply lim_local with (d := 1); [lra| |match type of D2 with derivable_pt_lim _ _ ?x => match goal with |- derivable_pt_lim _ _ ?y => replace y with x by ring end end; exact D2]. intros h _. unfold minus_fct. rewrite place_tmul. unfold F. cbn [vplus vx vy vz]. ring.
  - eapply lim_local with (d := 1); [lra| |match type of D3 with derivable_pt_lim _ _ ?x => match goal with |- derivable_pt_lim _ _ ?y => replace y with x by ring end end; exact D3]. intros h _. unfold minus_fct. rewrite place_tmul. unfold F. cbn [vplus vx vy vz]. ring.
Qed.
Lemma value_turns s : turns (value s) T (p_rot (framePosition X (b s))).
Proof. apply error_turns; [exact HR|exact HT|apply position_orientation; auto]. Qed.
Lemma at_target : value t = mkV3 0 0 0 -> derives value t w.
Proof.
  intros Z. destruct (value_turns t) as (a & th & Ha & Hth & EU & Q). 
  assert (Z0 : th = 0).
  { rewrite Z in EU. injection EU as E1 E2 E3. assert (H0 : th * dotp a a = 0); [|rewrite Ha in H0; lra]. unfold dotp. replace (th * _) with (th * vx a * vx a + th * vy a * vy a + th * vz a * vz a) by ring. rewrite <- E1, <- E2, <- E3. ring. }
  apply (rate_zero T HT (fun s => p_rot (framePosition X (b s))) value value_turns t w axes_derive a th Ha Hth EU (turns_quo _ _ _ _ HT Q) Z0).
Qed.
Lemma off_target : value t <> mkV3 0 0 0 -> dotp (value t) (value t) < PI * PI -> derives value t (rate (value t) w).
Proof.
  intros N L. destruct (value_turns t) as (a & th & Ha & Hth & EU & Q). pose proof PI_RGT_0.
  apply (rate_between T HT (fun s => p_rot (framePosition X (b s))) value value_turns t w axes_derive a th Ha Hth EU (turns_quo _ _ _ _ HT Q)). split.
  - destruct (Req_dec th 0) as [->|N0]; [|lra]. exfalso. apply N. rewrite EU. apply v3_eq; cbn; ring.
  - rewrite EU in L. unfold dotp in *. cbn in L. replace (_ + _ + _) with (th * th * (vx a * vx a + vy a * vy a + vz a * vz a)) in L by ring. rewrite Ha in L. nra.
Qed.
Lemma rate_w u : rate u w = w <-> crossp u w = mkV3 0 0 0.
Proof.
  unfold rate. set (k := (1 - _ / _) / _). clearbody k. set (x := crossp u w). split.
  - intros E. assert (D : dotp x (vplus (vplus w (vscale (- (1/2)) x)) (vscale k (crossp u x))) = dotp x w) by (rewrite E; reflexivity).
    replace (dotp x (vplus (vplus w (vscale (- (1/2)) x)) (vscale k (crossp u x)))) with (dotp x w - 1/2 * dotp x x) in D by (unfold dotp, vplus, vscale, crossp; cbn; field).
    assert (Z : dotp x x = 0) by lra. unfold dotp in Z. apply v3_eq; cbn [vx vy vz]; nra.
  - intros ->. unfold vplus, vscale, crossp. apply v3_eq; cbn; ring.
Qed.
Lemma derivative_iff : dotp (value t) (value t) < PI * PI -> derives value t w <-> crossp (value t) w = mkV3 0 0 0.
Proof.
  intros L. assert (DEC : value t = mkV3 0 0 0 \/ value t <> mkV3 0 0 0).
  { destruct (value t) as [x y z]. destruct (Req_dec x 0) as [->|N]; [|right; intros E; injection E; intros; contradiction].
    destruct (Req_dec y 0) as [->|N]; [|right; intros E; injection E; intros; contradiction]. destruct (Req_dec z 0) as [->|N]; [left; reflexivity|right; intros E; injection E; intros; contradiction]. }
  destruct DEC as [Z|N].
  - split; [intros _; rewrite Z; unfold crossp; apply v3_eq; cbn; ring|intros _; apply at_target; exact Z].
  - pose proof (off_target N L) as D. rewrite <- rate_w. split.
    + intros D'. apply (derives_unique _ _ _ _ D D').
    + intros E. rewrite <- E. exact D.
Qed.
End Motion.
Lemma jacobian_w n q X b w v : weighted n q (b_jac b) = (w, v) -> fst (weighted n q (fun j => (ofJacobian X b j, mkV3 0 0 0))) = w.
Proof.
  intros H. change w with (fst (w, v)). rewrite <- H. clear H. unfold ofJacobian, frameJacobian. cbn [fst]. induction n as [|n IH]; [reflexivity|]. cbn [weighted fst]. rewrite IH. reflexivity.
Qed.
