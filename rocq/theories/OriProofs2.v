Require Import Reals List Lra Lia Psatz Ratan.
Require Import Verif.ConeModel Verif.ConeProofs Verif.DfModel Verif.CtcModel Verif.CtcSpec Verif.CtcProofs Verif.FrModel Verif.FrSpec Verif.FrProofs Verif.OriModel Verif.OriSpec Verif.OriProofs.
Import ListNotations.
Local Open Scope R_scope.

Lemma mapply_cross T x y : orientation T -> mapply T (crossp x y) = crossp (mapply T x) (mapply T y).
Proof.
  destruct T as [[a b c] [d e f] [g h i]]. intros H. apply orient_of in H. destruct H. destruct x as [x1 x2 x3], y as [y1 y2 y3].
  unfold mapply, crossp, dot3. cbn. apply v3_eq; cbn.
  - replace (a * (x2*y3 - x3*y2) + b * (x3*y1 - x1*y3) + c * (x1*y2 - x2*y1)) with ((e*i - f*h) * (x2*y3 - x3*y2) + (f*g - d*i) * (x3*y1 - x1*y3) + (d*h - e*g) * (x1*y2 - x2*y1)) by (rewrite <- fa, <- fb, <- fc; reflexivity). ring.
  - replace (d * (x2*y3 - x3*y2) + e * (x3*y1 - x1*y3) + f * (x1*y2 - x2*y1)) with ((h*c - i*b) * (x2*y3 - x3*y2) + (i*a - g*c) * (x3*y1 - x1*y3) + (g*b - h*a) * (x1*y2 - x2*y1)) by (rewrite <- fd, <- fe, <- ff; reflexivity). ring.
  - replace (g * (x2*y3 - x3*y2) + h * (x3*y1 - x1*y3) + i * (x1*y2 - x2*y1)) with ((b*f - c*e) * (x2*y3 - x3*y2) + (c*d - a*f) * (x3*y1 - x1*y3) + (a*e - b*d) * (x1*y2 - x2*y1)) by (rewrite <- fg, <- fh, <- fi; reflexivity). ring.
Qed.
Lemma tmul_cross T x y : orientation T -> tmul T (crossp x y) = crossp (tmul T x) (tmul T y).
Proof.
  intros H. pose proof (orth_t T (proj1 H)) as O. pose proof (mapply_cross T (tmul T x) (tmul T y) H) as E.
  rewrite (proj2 (O x)), (proj2 (O y)) in E. rewrite <- E. apply O.
Qed.
Lemma mapply_dot T x y : orientation T -> dotp (mapply T x) (mapply T y) = dotp x y.
Proof.
  destruct T as [[a b c] [d e f] [g h i]]. intros H. apply orient_of in H. destruct H. destruct x as [x1 x2 x3], y as [y1 y2 y3].
  unfold mapply, dotp, dot3. cbn.
  replace (_ + _ + _) with (x1*y1*(a*a+d*d+g*g) + x2*y2*(b*b+e*e+h*h) + x3*y3*(c*c+f*f+i*i) + (x1*y2+x2*y1)*(a*b+d*e+g*h) + (x1*y3+x3*y1)*(a*c+d*f+g*i) + (x2*y3+x3*y2)*(b*c+e*f+h*i)) by ring.
  rewrite c00, c11, c22, c01, c02, c12. ring.
Qed.
Lemma tmul_dot T x y : orientation T -> dotp (tmul T x) (tmul T y) = dotp x y.
Proof. intros H. pose proof (orth_t T (proj1 H)) as O. rewrite <- (mapply_dot T (tmul T x) (tmul T y) H), (proj2 (O x)), (proj2 (O y)). reflexivity. Qed.
Lemma tmul_scale M k x : tmul M (vscale k x) = vscale k (tmul M x).
Proof. unfold tmul, vscale, vplus. apply v3_eq; cbn; ring. Qed.
Lemma turn_alt a th x : turn a th x = vplus (vplus (vscale (cos th) x) (vscale (sin th) (crossp a x))) (vscale ((1 - cos th) * dotp a x) a).
Proof. reflexivity. Qed.
Lemma tmul_turn T a th x : orientation T -> tmul T (turn a th x) = turn (tmul T a) th (tmul T x).
Proof. intros H. rewrite !turn_alt, !tmul_plus, !tmul_scale, (tmul_cross T a x H), (tmul_dot T a x H). reflexivity. Qed.

Lemma orientation_mmul A B : orientation A -> orientation B -> orientation (mmul A (mtrans B)).
Proof.
  intros [OA DA] HB. destruct HB as [OB DB]. split; [apply orth_mmul; [exact OA|apply orth_trans; exact OB]|].
  unfold mmul. cbn [row0 row1 row2]. rewrite !tmul_trans, DA. apply mapply_cross. split; assumption.
Qed.
Lemma error_turns rv T C : isRotationVelocity rv -> orientation T -> orientation C -> turns (rotationError rv T C) T C.
Proof.
  intros H HT HC. destruct (H _ (orientation_mmul C T HC HT)) as (a & th & U & TH & EU & X). unfold rotationError.
  exists (tmul T a), th. split; [rewrite (tmul_dot T a a HT); exact U|]. split; [exact TH|]. split.
  - rewrite EU. change (mkV3 (th * vx a) (th * vy a) (th * vz a)) with (vscale th a). apply tmul_scale.
  - intros x. specialize (X x). rewrite onAxes_world, !onAxes_tmul, tmul_mmul, tmul_trans in *. apply (f_equal (tmul T)) in X.
    rewrite (proj1 (orth_t T (proj1 HT) _)), (tmul_turn T a th x HT) in X. exact X.
Qed.

(* ---- the angle and the axis in the coefficients ---- *)
Definition ex := mkV3 1 0 0.
Definition ey := mkV3 0 1 0.
Definition ez := mkV3 0 0 1.
Definition quo (T C : m3) (y : v3) : v3 := tmul C (mapply T y).
Definition cc (T C : m3) : R := (vx (quo T C ex) + vy (quo T C ey) + vz (quo T C ez) - 1) / 2.
Definition vee (T C : m3) : v3 := mkV3 ((vz (quo T C ey) - vy (quo T C ez)) / 2) ((vx (quo T C ez) - vz (quo T C ex)) / 2) ((vy (quo T C ex) - vx (quo T C ey)) / 2).
Lemma turns_quo T C a th : orientation T -> (forall x, onAxes C x = turn a th (onAxes T x)) -> forall y, quo T C y = turn a th y.
Proof. intros H X y. unfold quo. rewrite <- onAxes_tmul, X, onAxes_tmul, (proj1 (orth_t T (proj1 H) y)). reflexivity. Qed.
Lemma quo_cc T C a th : dotp a a = 1 -> (forall y, quo T C y = turn a th y) -> cc T C = cos th.
Proof. intros U X. unfold cc. rewrite !X. unfold turn, ex, ey, ez. cbn. unfold dotp in U. cbn in U. unfold dotp. cbn.
  replace (_ - 1) with (3 * cos th + (1 - cos th) * (vx a * vx a + vy a * vy a + vz a * vz a) - 1) by ring. rewrite U. field. Qed.
Lemma quo_vee T C a th : (forall y, quo T C y = turn a th y) -> vee T C = vscale (sin th) a.
Proof. intros X. unfold vee. rewrite !X. unfold turn, ex, ey, ez, crossp, dotp, vscale. cbn. apply v3_eq; cbn; field. Qed.

Lemma turns_zero T C : orientation T -> turns (mkV3 0 0 0) T C -> C = T.
Proof.
  intros H (a & th & U & TH & EU & X). injection EU as E1 E2 E3.
  assert (Z : th = 0).
  { assert (th * dotp a a = 0); [|rewrite U in H0; lra]. unfold dotp. replace (th * _) with (th * vx a * vx a + th * vy a * vy a + th * vz a * vz a) by ring. rewrite <- E1, <- E2, <- E3. ring. }
  apply onAxes_inj. intros x. rewrite X, Z. unfold turn. rewrite cos_0, sin_0. apply v3_eq; cbn; ring.
Qed.
Lemma cos1 th : 0 <= th <= PI -> cos th = 1 -> th = 0.
Proof. intros H C. rewrite <- (acos_cos th H), C. apply acos_1. Qed.
Lemma turns_same u T : orientation T -> turns u T T -> u = mkV3 0 0 0.
Proof.
  intros H (a & th & U & TH & EU & X). pose proof (turns_quo T T a th H X) as Q. pose proof (quo_cc T T a th U Q) as C.
  assert (I : forall y, quo T T y = y) by (intros y; apply (orth_t T (proj1 H) y)).
  unfold cc in C. rewrite !I in C. cbn in C. rewrite (cos1 th TH) in EU by lra. rewrite EU. apply v3_eq; cbn; ring.
Qed.
(* less than half a turn: the vector is determined *)
Lemma turns_length u T C : turns u T C -> 0 <= dotp u u <= PI * PI.
Proof. intros (a & th & U & TH & EU & _). rewrite EU. unfold dotp in *. cbn. replace (_ + _ + _) with (th * th * (vx a * vx a + vy a * vy a + vz a * vz a)) by ring. rewrite U. nra. Qed.

(* ---- derivatives ---- *)
Lemma lim_local f g x l d : 0 < d -> (forall h, Rabs h < d -> f (x + h) = g (x + h)) -> derivable_pt_lim f x l -> derivable_pt_lim g x l.
Proof.
  intros Hd E D eps He. destruct (D eps He) as [dl K]. assert (P : 0 < Rmin d dl) by (apply Rmin_pos; [exact Hd|apply cond_pos]).
  exists (mkposreal _ P). intros h h0 hd. cbn in hd. assert (E0 : f x = g x) by (rewrite <- (Rplus_0_r x); apply E; rewrite Rabs_R0; exact Hd).
  rewrite <- E, <- E0; [apply K; [exact h0|]|].
  - eapply Rlt_le_trans; [exact hd|apply Rmin_r].
  - eapply Rlt_le_trans; [exact hd|apply Rmin_l].
Qed.
Lemma lim_near f x l : derivable_pt_lim f x l -> forall eps, 0 < eps -> exists d, 0 < d /\ forall h, Rabs h < d -> Rabs (f (x + h) - f x) < eps.
Proof.
  intros D eps He. assert (C : continuity_pt f x) by (apply derivable_continuous_pt; exists l; exact D).
  destruct (C eps He) as (d & Hd & K). exists d. split; [exact Hd|]. intros h hh. destruct (Req_dec h 0) as [->|N].
  - rewrite Rplus_0_r, Rminus_diag_eq, Rabs_R0 by reflexivity. exact He.
  - apply K. split; [|unfold dist; cbn; unfold R_dist; replace (x + h - x) with h by ring; exact hh]. split; [exact I|]. lra.
Qed.
Lemma lim_acos f x l : derivable_pt_lim f x l -> -1 < f x < 1 -> derivable_pt_lim (fun s => acos (f s)) x (- l / sin (acos (f x))).
Proof.
  intros D B. assert (A : derivable_pt_lim acos (f x) (-1 / sqrt (1 - (f x)²))).
  { rewrite <- (derive_pt_acos (f x) B). unfold derive_pt. apply (proj2_sig (derivable_pt_acos (f x) B)). }
  pose proof (derivable_pt_lim_comp f acos x l _ D A) as K. unfold comp in K. rewrite sin_acos by lra.
  replace (- l / sqrt (1 - (f x)²)) with (-1 / sqrt (1 - (f x)²) * l) by (unfold Rdiv; ring). exact K.
Qed.
Lemma acos_range x : -1 <= x <= 1 -> 0 <= acos x <= PI.
Proof. intros _. apply acos_bound. Qed.
Lemma sinx_x th : 0 <= th <= PI / 2 -> th * cos th <= sin th.
Proof.
  intros H. pose proof PI_RGT_0. destruct (Req_dec th 0) as [->|N]; [rewrite sin_0; lra|].
  set (F := fun x => sin x - x * cos x).
  assert (D : forall x, derivable_pt_lim F x (x * sin x)).
  { intros x. unfold F. replace (x * sin x) with (cos x - (1 * cos x + x * - sin x)) by ring.
    apply (derivable_pt_lim_minus sin (fun x => x * cos x)); [apply derivable_pt_lim_sin|]. apply (derivable_pt_lim_mult (fun x => x) cos); [apply derivable_pt_lim_id|apply derivable_pt_lim_cos]. }
  destruct (MVT_cor2 F (fun x => x * sin x) 0 th ltac:(lra) (fun x _ => D x)) as (c & E & B). unfold F in E. rewrite sin_0 in E.
  assert (0 <= sin c) by (apply sin_ge_0; lra). assert (0 <= c * sin c * (th - 0)) by (apply Rmult_le_pos; [apply Rmult_le_pos; lra|lra]). lra.
Qed.
