(* Form of the generators; they are on the cone, and their combinations in it. *)
Require Import Reals List Lra Lia.
Require Import Verif.ConeModel Verif.ConeSpec.
Import ListNotations.
Local Open Scope R_scope.

Definition cross (a b : v3) : v3 := mkV3 (vy a * vz b - vz a * vy b) (vz a * vx b - vx a * vz b) (vx a * vy b - vy a * vx b).
Lemma v3_eq a b : vx a = vx b -> vy a = vy b -> vz a = vz b -> a = b.
Proof. destruct a, b; cbn. intros -> -> ->. reflexivity. Qed.
Ltac v3ring := apply v3_eq; cbn; ring.

Lemma rodrigues th u v : mapply (angleAxis th u) v = vplus (vplus (vscale (cos th) v) (vscale (sin th) (cross u v))) (vscale ((1 - cos th) * along u v) u).
Proof. apply v3_eq; unfold along; cbn; unfold dot3; cbn; ring. Qed.

Lemma norm1 a : norm3 a = 1 -> along a a = 1.
Proof.
  unfold norm3, along. intros H. rewrite <- (sqrt_sqrt (vx a * vx a + vy a * vy a + vz a * vz a)); [rewrite H; lra|].
  pose proof (Rle_0_sqr (vx a)). pose proof (Rle_0_sqr (vy a)). pose proof (Rle_0_sqr (vz a)). unfold Rsqr in *. lra.
Qed.
Lemma norm3_sq a : norm3 a * norm3 a = along a a.
Proof.
  unfold norm3, along. apply sqrt_sqrt.
  pose proof (Rle_0_sqr (vx a)). pose proof (Rle_0_sqr (vy a)). pose proof (Rle_0_sqr (vz a)). unfold Rsqr in *. lra.
Qed.
Lemma norm3_pos a : 0 <= norm3 a.
Proof. apply sqrt_pos. Qed.

Lemma norm_scale k a : norm3 (vscale k a) = Rabs k * norm3 a.
Proof.
  unfold norm3. cbn [vx vy vz vscale].
  assert (E : k * vx a * (k * vx a) + k * vy a * (k * vy a) + k * vz a * (k * vz a) = Rsqr k * (vx a * vx a + vy a * vy a + vz a * vz a)) by (unfold Rsqr; ring).
  rewrite E, sqrt_mult_alt by apply Rle_0_sqr. rewrite sqrt_Rsqr_abs. reflexivity.
Qed.

(* the tangential direction of the generators *)
Definition dirW (E : m3) (d : R) : v3 := vscale d (cross (row0 E) (row2 E)).
Definition uvec (E : m3) (d th : R) : v3 := vplus (vscale (cos th) (dirW E d)) (vscale (sin th) (row0 E)).
Definition gvec (E : m3) (mu d th : R) : v3 := vplus (vscale (cos (atan mu)) (row2 E)) (vscale (sin (atan mu)) (uvec E d th)).

Lemma along_sym a b : along a b = along b a.
Proof. unfold along. ring. Qed.
Lemma along_plus a b c : along a (vplus b c) = along a b + along a c.
Proof. unfold along. cbn. ring. Qed.
Lemma along_scale a k b : along a (vscale k b) = k * along a b.
Proof. unfold along. cbn. ring. Qed.
Lemma cross_plus a b c : cross a (vplus b c) = vplus (cross a b) (cross a c).
Proof. v3ring. Qed.
Lemma cross_scale a k b : cross a (vscale k b) = vscale k (cross a b).
Proof. v3ring. Qed.
Lemma cross_self a : cross a a = mkV3 0 0 0.
Proof. v3ring. Qed.
Lemma along_cross a b : along b (cross a b) = 0.
Proof. unfold along. cbn. ring. Qed.
Lemma along_cross2 a b : along a (cross a b) = 0.
Proof. unfold along. cbn. ring. Qed.
Lemma cross_cross n t : cross n (cross t n) = vplus (vscale (along n n) t) (vscale (- along n t) n).
Proof. apply v3_eq; unfold along; cbn; ring. Qed.
Lemma along_cross_sq a b : along (cross a b) (cross a b) = along a a * along b b - along a b * along a b.
Proof. unfold along. cbn. ring. Qed.

Section Frame.
Variables (E : m3) (d : R).
Hypothesis HE : framed E.
Hypothesis Hd : d = 1 \/ d = - 1.
Let nn : along (row2 E) (row2 E) = 1.
Proof. apply norm1, HE. Qed.
Let tt : along (row0 E) (row0 E) = 1.
Proof. apply norm1, HE. Qed.
Let tn : along (row0 E) (row2 E) = 0.
Proof. apply HE. Qed.
Let nt : along (row2 E) (row0 E) = 0.
Proof. rewrite along_sym. exact tn. Qed.
Lemma d2 : d * d = 1.
Proof. destruct Hd as [-> | ->]; ring. Qed.

Lemma gen_form mu th : mapply (angleAxis (d * th) (row2 E)) (mapply (angleAxis (atan mu) (vscale d (row0 E))) (row2 E)) = gvec E mu d th.
Proof.
  rewrite (rodrigues (atan mu)). rewrite (along_sym (vscale d (row0 E))), along_scale, nt, !Rmult_0_r.
  set (g := vplus _ _). rewrite rodrigues.
  assert (G : along (row2 E) g = cos (atan mu)).
  { unfold g. rewrite !along_plus, !along_scale, nn, nt, along_cross. ring. }
  rewrite G. unfold g. rewrite !cross_plus, !cross_scale, cross_self.
  assert (X : cross (row2 E) (cross (vscale d (row0 E)) (row2 E)) = vscale d (row0 E)).
  { rewrite cross_cross, nn, along_scale, nt. v3ring. }
  rewrite X. unfold gvec, uvec, dirW.
  assert (C : cos (d * th) = cos th). { destruct Hd as [-> | ->]; [f_equal; ring|replace (-1 * th) with (- th) by ring; apply cos_neg]. }
  assert (S : sin (d * th) = d * sin th). { destruct Hd as [-> | ->]; [rewrite !Rmult_1_l; reflexivity|replace (-1 * th) with (- th) by ring; rewrite sin_neg; ring]. }
  rewrite C, S. pose proof d2 as D2. apply v3_eq; cbn; [set (z := vx (row0 E))|set (z := vy (row0 E))|set (z := vz (row0 E))];
    match goal with |- ?l = ?r => replace l with (r + sin th * sin (atan mu) * z * (d * d - 1)) by (unfold z; ring) end; rewrite D2; ring.
Qed.

Lemma uvec_perp th : along (row2 E) (uvec E d th) = 0.
Proof. unfold uvec, dirW. rewrite along_plus, !along_scale, along_cross, nt. ring. Qed.
Lemma uvec_unit th : along (uvec E d th) (uvec E d th) = 1.
Proof.
  unfold uvec, dirW. set (W := cross (row0 E) (row2 E)).
  assert (WW : along W W = 1) by (unfold W; rewrite along_cross_sq, tt, nn, tn; ring).
  assert (WT : along W (row0 E) = 0) by (unfold W; rewrite along_sym; apply along_cross2).
  pose proof (sin2_cos2 th) as S. unfold Rsqr in S. pose proof d2 as D2.
  replace (along _ _) with (cos th * cos th * (d * d) * along W W + 2 * cos th * sin th * d * along W (row0 E) + sin th * sin th * along (row0 E) (row0 E)) by (unfold along; cbn [vx vy vz vplus vscale]; ring).
  rewrite D2, WW, WT, tt. lra.
Qed.

Lemma gvec_along mu th : along (row2 E) (gvec E mu d th) = cos (atan mu).
Proof. unfold gvec. rewrite along_plus, !along_scale, uvec_perp, nn. ring. Qed.
Lemma gvec_tangential mu th : tangential (row2 E) (gvec E mu d th) = vscale (sin (atan mu)) (uvec E d th).
Proof. unfold tangential. rewrite gvec_along. unfold gvec. v3ring. Qed.
Lemma norm_scale_u k th : norm3 (vscale k (uvec E d th)) = Rabs k.
Proof.
  rewrite norm_scale. pose proof (uvec_unit th) as U. unfold along in U. unfold norm3. rewrite U, sqrt_1. ring.
Qed.
Lemma cos_atan_pos mu : 0 < cos (atan mu).
Proof. pose proof (atan_bound mu). apply cos_gt_0; lra. Qed.
Lemma sin_atan_eq mu : sin (atan mu) = mu * cos (atan mu).
Proof. pose proof (tan_atan mu) as T. unfold tan in T. pose proof (cos_atan_pos mu). rewrite <- T at 2. field. lra. Qed.

Lemma gvec_on mu th : 0 <= along (row2 E) (gvec E mu d th) /\ norm3 (tangential (row2 E) (gvec E mu d th)) = Rabs mu * along (row2 E) (gvec E mu d th).
Proof.
  rewrite gvec_tangential, gvec_along, norm_scale_u. pose proof (cos_atan_pos mu). split; [lra|].
  rewrite sin_atan_eq, Rabs_mult, (Rabs_pos_eq (cos _)); lra.
Qed.
Lemma gvec_unit mu th : norm3 (gvec E mu d th) = 1.
Proof.
  enough (along (gvec E mu d th) (gvec E mu d th) = 1) as H. { unfold norm3. unfold along in H. rewrite H. apply sqrt_1. }
  unfold gvec. pose proof (uvec_unit th) as UU. pose proof (uvec_perp th) as UP. set (U := uvec E d th) in *.
  pose proof (sin2_cos2 (atan mu)) as S. unfold Rsqr in S.
  replace (along _ _) with (cos (atan mu) * cos (atan mu) * along (row2 E) (row2 E) + 2 * cos (atan mu) * sin (atan mu) * along (row2 E) U + sin (atan mu) * sin (atan mu) * along U U) by (unfold along; cbn [vx vy vz vplus vscale]; ring).
  rewrite nn, UU, UP. lra.
Qed.
End Frame.

(* ---- the cone is closed under non-negative combinations ---- *)
Lemma cauchy a b : along a b <= norm3 a * norm3 b.
Proof.
  pose proof (norm3_pos a). pose proof (norm3_pos b). pose proof (along_cross_sq a b) as L.
  assert (P : 0 <= along (cross a b) (cross a b)). { rewrite <- norm3_sq. apply Rmult_le_pos; apply norm3_pos. }
  rewrite <- (norm3_sq a), <- (norm3_sq b) in L.
  assert (0 <= norm3 a * norm3 b) by (apply Rmult_le_pos; auto).
  destruct (Rle_dec (along a b) 0); [lra|]. apply Rsqr_incr_0_var; [unfold Rsqr; nra|auto].
Qed.
Lemma triangle a b : norm3 (vplus a b) <= norm3 a + norm3 b.
Proof.
  apply Rsqr_incr_0_var; [|pose proof (norm3_pos a); pose proof (norm3_pos b); lra]. unfold Rsqr.
  rewrite norm3_sq, along_plus, !(along_sym (vplus _ _)), !along_plus. pose proof (cauchy a b). pose proof (norm3_sq a). pose proof (norm3_sq b). rewrite (along_sym b a). nra.
Qed.
Lemma cone_zero n mu : in_cone n mu (mkV3 0 0 0).
Proof. unfold in_cone, tangential, along, norm3. cbn. rewrite !Rmult_0_r, !Rplus_0_r, !Rmult_0_l, !Rminus_0_r, !Rmult_0_r, !Rplus_0_r, sqrt_0. lra. Qed.
Lemma cone_plus n mu a b : in_cone n mu a -> in_cone n mu b -> in_cone n mu (vplus a b).
Proof.
  unfold in_cone. intros A B. replace (tangential n (vplus a b)) with (vplus (tangential n a) (tangential n b)) by (unfold tangential, along; v3ring).
  rewrite along_plus. pose proof (triangle (tangential n a) (tangential n b)). lra.
Qed.
Lemma cone_scale n mu k a : 0 <= k -> in_cone n mu a -> in_cone n mu (vscale k a).
Proof.
  unfold in_cone. intros K A. replace (tangential n (vscale k a)) with (vscale k (tangential n a)) by (unfold tangential, along; v3ring).
  rewrite along_scale, norm_scale, (Rabs_pos_eq k K). pose proof (Rmult_le_compat_l k _ _ K A). lra.
Qed.
Lemma combine3_cons l ls g gs : combine3 (l :: ls) (g :: gs) = vplus (vscale l g) (combine3 ls gs).
Proof. reflexivity. Qed.
Lemma cone_combine n mu ls gs : Forall (fun l => 0 <= l) ls -> Forall (in_cone n mu) gs -> in_cone n mu (combine3 ls gs).
Proof.
  intros L G. revert gs G. induction L as [|l ls L0 L IH]; intros gs G; [apply cone_zero|]. destruct G as [|g gs G0 G]; [apply cone_zero|].
  rewrite combine3_cons. apply cone_plus; [apply cone_scale; auto|apply IH; auto].
Qed.

(* ---- the generators ---- *)
Lemma cone_list E n mu d : framed E -> d = 1 \/ d = - 1 ->
  frictionCone E n mu d = map (fun i => gvec E mu d (2 * PI / INR n * INR i)) (seq 0 n).
Proof.
  intros HE Hd. unfold frictionCone. apply map_ext. intros i. rewrite <- (gen_form E d HE Hd).
  replace (d * (PI * 2 / INR n) * INR i) with (d * (2 * PI / INR n * INR i)) by (unfold Rdiv; ring). reflexivity.
Qed.
Lemma generators E n mu d : framed E -> d = 1 \/ d = - 1 ->
  length (frictionCone E n mu d) = n /\ forall g, In g (frictionCone E n mu d) -> norm3 g = 1 /\ on_cone (row2 E) (Rabs mu) g.
Proof.
  intros HE Hd. split; [unfold frictionCone; rewrite map_length; apply seq_length|].
  rewrite cone_list by auto. intros g Hg. apply in_map_iff in Hg. destruct Hg as (i & <- & _). split; [apply gvec_unit; auto|apply gvec_on; auto].
Qed.
Lemma combinations E n mu d ls : framed E -> d = 1 \/ d = - 1 -> Forall (fun l => 0 <= l) ls -> in_cone (row2 E) (Rabs mu) (combine3 ls (frictionCone E n mu d)).
Proof.
  intros HE Hd L. apply cone_combine; [exact L|]. apply Forall_forall. intros g Hg. destruct (generators E n mu d HE Hd) as (_ & G). destruct (G g Hg) as (_ & _ & Q). unfold in_cone. rewrite Q. lra.
Qed.
Lemma opposite E n mu : frictionCone (mscale (-1) E) n mu (-1) = map vopp (frictionCone E n mu 1).
Proof.
  unfold frictionCone. rewrite map_map. apply map_ext. intros i. cbn [row0 row2 mscale]. rewrite !rodrigues.
  replace (-1 * (PI * 2 / INR n) * INR i) with (- (1 * (PI * 2 / INR n) * INR i)) by (unfold Rdiv; ring). rewrite cos_neg, sin_neg. unfold along. v3ring.
Qed.
Lemma mirror E n mu : framed E -> frictionCone E n mu (-1) = map (fun i => gvec E mu (-1) (2 * PI / INR n * INR i)) (seq 0 n).
Proof. intros HE. apply cone_list; auto. Qed.
