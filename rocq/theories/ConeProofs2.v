(* The cone spanned by the generators contains the friction cone of coefficient mu cos(pi/n). *)
Require Import Reals List Lra Lia Arith Nsatz.
Require Import Verif.ConeModel Verif.ConeSpec Verif.ConeProofs.
Import ListNotations.
Local Open Scope R_scope.

Fixpoint rsum (n : nat) (h : nat -> R) : R := match n with O => 0 | S n => rsum n h + h n end.
Lemma rsum_ext n h h' : (forall i, (i < n)%nat -> h i = h' i) -> rsum n h = rsum n h'.
Proof. induction n as [|n IH]; intros H; cbn; [reflexivity|]. rewrite (H n) by lia. rewrite IH; [reflexivity|]. intros i Hi. apply H. lia. Qed.
Lemma rsum_plus n h h' : rsum n (fun i => h i + h' i) = rsum n h + rsum n h'.
Proof. induction n as [|n IH]; cbn; [ring|]. rewrite IH. ring. Qed.
Lemma rsum_scale n k h : rsum n (fun i => k * h i) = k * rsum n h.
Proof. induction n as [|n IH]; cbn; [ring|]. rewrite IH. ring. Qed.
Lemma rsum_const n k : rsum n (fun _ => k) = INR n * k.
Proof. induction n as [|n IH]; [cbn; ring|]. cbn [rsum]. rewrite IH, S_INR. ring. Qed.
Lemma rsum_one n k a h : (k < n)%nat -> rsum n (fun i => (if Nat.eqb i k then a else 0) * h i) = a * h k.
Proof.
  induction n as [|n IH]; intros H; [lia|]. cbn. destruct (Nat.eqb_spec n k) as [->|Hn].
  - replace (rsum k _) with 0; [ring|]. symmetry. transitivity (rsum k (fun _ => 0)); [|rewrite rsum_const; ring].
    apply rsum_ext. intros i Hi. destruct (Nat.eqb_spec i k); [lia|ring].
  - rewrite IH by lia. ring.
Qed.

Lemma rsum_cos n th : 2 * sin (th / 2) * rsum n (fun i => cos (th * INR i)) = sin (th * INR n - th / 2) + sin (th / 2).
Proof.
  induction n as [|n IH]; [cbn; replace (th * 0 - th / 2) with (- (th / 2)) by field; rewrite sin_neg; ring|].
  cbn [rsum]. rewrite Rmult_plus_distr_l, IH, S_INR. replace (th * (INR n + 1) - th / 2) with (th * INR n + th / 2) by field.
  rewrite sin_plus, sin_minus. ring.
Qed.
Lemma rsum_sin n th : 2 * sin (th / 2) * rsum n (fun i => sin (th * INR i)) = cos (th / 2) - cos (th * INR n - th / 2).
Proof.
  induction n as [|n IH]; [cbn; replace (th * 0 - th / 2) with (- (th / 2)) by field; rewrite cos_neg; ring|].
  cbn [rsum]. rewrite Rmult_plus_distr_l, IH, S_INR. replace (th * (INR n + 1) - th / 2) with (th * INR n + th / 2) by field.
  rewrite cos_plus, cos_minus. ring.
Qed.

(* ---- polar coordinates ---- *)
Lemma polar a b : exists r th, 0 <= r /\ 0 <= th < 2 * PI /\ a = r * cos th /\ b = r * sin th /\ r * r = a * a + b * b.
Proof.
  pose proof PI_RGT_0 as HP. set (r := sqrt (a * a + b * b)).
  assert (N : 0 <= a * a + b * b). { pose proof (Rle_0_sqr a). pose proof (Rle_0_sqr b). unfold Rsqr in *. lra. }
  assert (Hr : 0 <= r) by apply sqrt_pos. assert (Hr2 : r * r = a * a + b * b) by (apply sqrt_sqrt; exact N).
  destruct (Req_dec r 0) as [Z|Z].
  - exists 0, 0. rewrite Z in Hr2. assert (a = 0) by nra. assert (b = 0) by nra. subst a b. repeat split; try lra.
  - assert (Hp : 0 < r) by lra.
    assert (Ha : -1 <= a / r <= 1).
    { split; [apply (Rmult_le_reg_r r); [lra|]; unfold Rdiv; rewrite Rmult_assoc, Rinv_l by lra; nra|].
      apply (Rmult_le_reg_r r); [lra|]. unfold Rdiv. rewrite Rmult_assoc, Rinv_l by lra. nra. }
    pose proof (acos_bound (a / r)) as B. pose proof (cos_acos (a / r) Ha) as C. pose proof (sin_acos (a / r) Ha) as Sn.
    assert (Sq : 1 - Rsqr (a / r) = Rsqr (b / r)).
    { unfold Rsqr. apply (Rmult_eq_reg_r (r * r)); [|nra]. unfold Rdiv. replace ((1 - a * / r * (a * / r)) * (r * r)) with (r * r - a * a * (/ r * r) * (/ r * r)) by ring. rewrite Rinv_l by lra.
      replace (b * / r * (b * / r) * (r * r)) with (b * b * (/ r * r) * (/ r * r)) by ring. rewrite Rinv_l by lra. lra. }
    rewrite Sq, sqrt_Rsqr_abs in Sn.
    destruct (Rle_dec 0 b) as [Hb|Hb].
    + exists r, (acos (a / r)). split; [lra|]. split; [lra|]. rewrite C, Sn. rewrite Rabs_pos_eq. 2:{ apply Rmult_le_pos; [lra|]. left. apply Rinv_0_lt_compat. lra. }
      split; [field; lra|]. split; [field; lra|]. exact Hr2.
    + assert (0 < acos (a / r)).
      { destruct (proj1 B) as [G|G]; [exact G|]. rewrite <- G, sin_0 in Sn. symmetry in Sn. exfalso.
        destruct (Req_dec (b / r) 0) as [Z0|Z0]; [|apply Rabs_no_R0 in Z0; contradiction].
        assert (b = 0) by (replace b with (b / r * r) by (field; lra); rewrite Z0; ring). lra. }
      exists r, (2 * PI - acos (a / r)). split; [lra|]. split; [lra|].
      replace (2 * PI - acos (a / r)) with (- acos (a / r) + 2 * INR 1 * PI) by (cbn; ring). rewrite cos_period, sin_period, cos_neg, sin_neg, C, Sn.
      rewrite Rabs_left. 2:{ apply Ropp_lt_cancel. rewrite Ropp_0. replace (- (b / r)) with ((- b) / r) by (field; lra). apply Rdiv_lt_0_compat; lra. }
      split; [field; lra|]. split; [field; lra|]. exact Hr2.
Qed.
Lemma sector n dl th : 0 <= th < dl * INR n -> exists k, (k < n)%nat /\ dl * INR k <= th < dl * INR (S k).
Proof.
  induction n as [|n IH]; intros H; [cbn in H; lra|]. destruct (Rlt_dec th (dl * INR n)) as [L|L].
  - destruct IH as (k & Hk & R); [lra|]. exists k. split; [lia|exact R].
  - exists n. split; [lia|]. lra.
Qed.

(* ---- combinations ---- *)
Lemma combine3_app l l' g g' : length l = length g -> combine3 (l ++ l') (g ++ g') = vplus (combine3 l g) (combine3 l' g').
Proof.
  revert g. induction l as [|a l IH]; intros [|b g] H; try discriminate; [cbn [app combine3]; destruct (combine3 l' g'); v3ring|].
  cbn [app]. rewrite !combine3_cons, IH by (cbn in H; lia). v3ring.
Qed.
Lemma combine3_map lam g n : combine3 (map lam (seq 0 n)) (map g (seq 0 n)) = mkV3 (rsum n (fun i => lam i * vx (g i))) (rsum n (fun i => lam i * vy (g i))) (rsum n (fun i => lam i * vz (g i))).
Proof.
  induction n as [|n IH]; [reflexivity|]. rewrite seq_S, !map_app, combine3_app by (rewrite !map_length; reflexivity). rewrite IH. apply v3_eq; cbn; ring.
Qed.
Lemma combine_gvec E mu d lam ang n : combine3 (map lam (seq 0 n)) (map (fun i => gvec E mu d (ang i)) (seq 0 n)) =
  vplus (vscale (cos (atan mu) * rsum n lam) (row2 E)) (vplus (vscale (sin (atan mu) * rsum n (fun i => lam i * cos (ang i))) (dirW E d)) (vscale (sin (atan mu) * rsum n (fun i => lam i * sin (ang i))) (row0 E))).
Proof.
  rewrite combine3_map. apply v3_eq; cbn -[dirW]; (induction n as [|n IH]; cbn -[dirW]; [ring|]; rewrite IH; ring).
Qed.

(* an orthonormal basis *)
Lemma basis E d f : framed E -> d = 1 \/ d = -1 ->
  f = vplus (vscale (along (row2 E) f) (row2 E)) (vplus (vscale (along (dirW E d) f) (dirW E d)) (vscale (along (row0 E) f) (row0 E))).
Proof.
  intros (T & N & O) Hd. apply norm1 in T. apply norm1 in N. assert (D2 : d * d = 1) by (destruct Hd as [-> | ->]; ring).
  assert (W : forall v, vscale (along (dirW E d) v) (dirW E d) = vscale (along (cross (row0 E) (row2 E)) v) (cross (row0 E) (row2 E))).
  { intros v. unfold dirW. set (w := cross _ _). rewrite (along_sym (vscale d w)), along_scale, (along_sym v). apply v3_eq; cbn [vx vy vz vscale];
      match goal with |- d * ?a * (d * ?b) = _ => replace (d * a * (d * b)) with ((d * d) * (a * b)) by ring end; rewrite D2; ring. }
  rewrite W. clear W D2 Hd. destruct (row0 E) as [a b c], (row2 E) as [p q r], f as [x y z]. unfold along in *. cbn in *.
  apply v3_eq; cbn; clear E d; nsatz.
Qed.
Lemma basis_norm E d f : framed E -> d = 1 \/ d = -1 ->
  norm3 (tangential (row2 E) f) * norm3 (tangential (row2 E) f) = along (dirW E d) f * along (dirW E d) f + along (row0 E) f * along (row0 E) f.
Proof.
  intros HE Hd. rewrite norm3_sq. pose proof (basis E d f HE Hd) as B. destruct HE as (T & N & O). apply norm1 in N.
  assert (E1 : along f f = along (row2 E) f * along (row2 E) f + (along (dirW E d) f * along (dirW E d) f + along (row0 E) f * along (row0 E) f)).
  { rewrite B at 2. rewrite !along_plus, !along_scale, !(along_sym f). ring. }
  replace (along (tangential (row2 E) f) (tangential (row2 E) f)) with (along f f - 2 * along (row2 E) f * along (row2 E) f + along (row2 E) f * along (row2 E) f * along (row2 E) (row2 E)) by (unfold tangential, along; cbn; ring).
  rewrite N, E1. ring.
Qed.

Lemma inner E n mu d f : framed E -> d = 1 \/ d = - 1 -> (3 <= n)%nat -> 0 < mu -> in_cone (row2 E) (mu * cos (PI / INR n)) f ->
  exists ls, length ls = n /\ Forall (fun l => 0 <= l) ls /\ combine3 ls (frictionCone E n mu d) = f.
Proof.
  intros HE Hd Hn Hmu Hf. pose proof PI_RGT_0 as HP.
  assert (HN : 3 <= INR n). { apply (le_INR 3) in Hn. cbn in Hn. lra. }
  set (dl := 2 * PI / INR n). assert (Hdn : dl * INR n = 2 * PI) by (unfold dl; field; lra).
  assert (Hd2 : dl / 2 = PI / INR n) by (unfold dl; field; lra).
  assert (Hdl : 0 < dl < PI).
  { split; [unfold dl; apply Rdiv_lt_0_compat; lra|]. apply (Rmult_lt_reg_r (INR n)); [lra|]. rewrite Hdn. nra. }
  assert (Hs : 0 < sin dl) by (apply sin_gt_0; lra). assert (Hs2 : 0 < sin (dl / 2)) by (apply sin_gt_0; lra).
  assert (Hc2 : 0 < cos (dl / 2)) by (apply cos_gt_0; lra).
  pose proof (cos_atan_pos mu) as Hc. pose proof (sin_atan_eq mu) as Hsa. set (c := cos (atan mu)) in *. set (s := sin (atan mu)) in *.
  assert (Hsp : 0 < s) by (rewrite Hsa; apply Rmult_lt_0_compat; lra).
  (* the sums over the generators vanish *)
  assert (Sc : rsum n (fun i => cos (dl * INR i)) = 0).
  { pose proof (rsum_cos n dl) as Q. rewrite Hdn in Q. replace (2 * PI - dl / 2) with (- (dl / 2) + 2 * INR 1 * PI) in Q by (cbn; ring). rewrite sin_period, sin_neg in Q.
    apply (Rmult_eq_reg_l (2 * sin (dl / 2))); [lra|lra]. }
  assert (Ss : rsum n (fun i => sin (dl * INR i)) = 0).
  { pose proof (rsum_sin n dl) as Q. rewrite Hdn in Q. replace (2 * PI - dl / 2) with (- (dl / 2) + 2 * INR 1 * PI) in Q by (cbn; ring). rewrite cos_period, cos_neg in Q.
    apply (Rmult_eq_reg_l (2 * sin (dl / 2))); [lra|lra]. }
  set (fn := along (row2 E) f) in *.
  destruct (polar (along (dirW E d) f) (along (row0 E) f)) as (r & th & Hr & Hth & Ha & Hb & Hr2).
  assert (Hrn : r = norm3 (tangential (row2 E) f)).
  { apply Rsqr_inj; [exact Hr|apply norm3_pos|]. unfold Rsqr. rewrite (basis_norm E d f HE Hd). exact Hr2. }
  unfold in_cone in Hf. fold fn in Hf. rewrite <- Hrn, <- Hd2 in Hf.
  destruct (sector n dl th) as (k & Hk & Hk1 & Hk2); [rewrite Hdn; lra|].
  set (A := dl * INR k) in *. set (B := dl * INR (S k)) in *.
  assert (HBA : B - A = dl) by (unfold A, B; rewrite S_INR; ring).
  set (k' := if Nat.eqb (S k) n then O else S k).
  assert (Hk' : (k' < n)%nat) by (unfold k'; destruct (Nat.eqb_spec (S k) n); lia).
  assert (Kc : cos (dl * INR k') = cos B /\ sin (dl * INR k') = sin B).
  { unfold k'. destruct (Nat.eqb_spec (S k) n) as [En|_]; [|auto]. unfold B. rewrite En, Hdn. cbn [INR]. rewrite Rmult_0_r, cos_2PI, sin_2PI, cos_0, sin_0. auto. }
  destruct Kc as [Kc Ks].
  set (al := r / s * (sin (B - th) / sin dl)). set (be := r / s * (sin (th - A) / sin dl)).
  assert (Hrs : 0 <= r / s) by (apply Rmult_le_pos; [exact Hr|]; left; apply Rinv_0_lt_compat; exact Hsp).
  assert (Hal : 0 <= al).
  { apply Rmult_le_pos; [exact Hrs|]. apply Rmult_le_pos; [|left; apply Rinv_0_lt_compat; exact Hs]. apply sin_ge_0; lra. }
  assert (Hbe : 0 <= be).
  { apply Rmult_le_pos; [exact Hrs|]. apply Rmult_le_pos; [|left; apply Rinv_0_lt_compat; exact Hs]. apply sin_ge_0; lra. }
  assert (Hsum : c * (al + be) <= fn).
  { assert (X : al + be = r / s * (cos (th - (A + B) / 2) / cos (dl / 2))).
    { unfold al, be. rewrite <- Rmult_plus_distr_l. f_equal. unfold Rdiv at 1 2. rewrite <- Rmult_plus_distr_r.
      replace (sin (B - th) + sin (th - A)) with (2 * sin (dl / 2) * cos (th - (A + B) / 2)).
      2:{ replace (B - th) with (dl / 2 - (th - (A + B) / 2)) by lra. replace (th - A) with (dl / 2 + (th - (A + B) / 2)) by lra. rewrite sin_plus, sin_minus. ring. }
      replace (sin dl) with (2 * sin (dl / 2) * cos (dl / 2)). 2:{ rewrite <- sin_2a. f_equal. field. }
      field. split; lra. }
    rewrite X. pose proof (COS_bound (th - (A + B) / 2)) as [_ C1].
    assert (Y : r <= mu * cos (dl / 2) * fn) by exact Hf. rewrite Hsa.
    replace (c * (r / (mu * c) * (cos (th - (A + B) / 2) / cos (dl / 2)))) with (r * cos (th - (A + B) / 2) / (mu * cos (dl / 2))) by (field; repeat split; lra).
    apply (Rmult_le_reg_r (mu * cos (dl / 2))); [nra|]. unfold Rdiv. rewrite Rmult_assoc, Rinv_l by nra. nra. }
  set (ka := (fn / c - (al + be)) / INR n).
  assert (Hka : 0 <= ka).
  { apply Rmult_le_pos; [|left; apply Rinv_0_lt_compat; lra]. apply (Rmult_le_reg_l c); [exact Hc|]. replace (c * (fn / c - (al + be))) with (fn - c * (al + be)) by (field; lra). lra. }
  set (lam := fun i => ((if Nat.eqb i k then al else 0) + (if Nat.eqb i k' then be else 0)) + ka).
  exists (map lam (seq 0 n)). split; [rewrite map_length; apply seq_length|]. split.
  { apply Forall_forall. intros x Hx. apply in_map_iff in Hx. destruct Hx as (i & <- & _). unfold lam. destruct (Nat.eqb i k), (Nat.eqb i k'); lra. }
  rewrite cone_list by auto. fold dl. rewrite combine_gvec. fold c s.
  assert (G : forall h, rsum n (fun i => lam i * h i) = al * h k + be * h k' + ka * rsum n h).
  { intros h. transitivity (rsum n (fun i => ((if Nat.eqb i k then al else 0) * h i + (if Nat.eqb i k' then be else 0) * h i) + ka * h i)); [apply rsum_ext; intros; unfold lam; ring|].
    rewrite !rsum_plus, rsum_one, rsum_one, rsum_scale by auto. reflexivity. }
  rewrite (G (fun i => cos (dl * INR i))), (G (fun i => sin (dl * INR i))), Sc, Ss, Kc, Ks.
  assert (G1 : rsum n lam = fn / c).
  { rewrite (rsum_ext n lam (fun i => lam i * 1)) by (intros; ring). rewrite (G (fun _ => 1)), rsum_const. unfold ka. field. lra. }
  rewrite G1. fold A.
  assert (C1 : s * (al * cos A + be * cos B + ka * 0) = along (dirW E d) f).
  { rewrite Ha. unfold al, be. replace (sin dl) with (sin (B - A)) by (rewrite HBA; reflexivity). rewrite !sin_minus.
    assert (sin B * cos A - cos B * sin A <> 0) by (rewrite <- sin_minus, HBA; lra). field. split; lra. }
  assert (C2 : s * (al * sin A + be * sin B + ka * 0) = along (row0 E) f).
  { rewrite Hb. unfold al, be. replace (sin dl) with (sin (B - A)) by (rewrite HBA; reflexivity). rewrite !sin_minus.
    assert (sin B * cos A - cos B * sin A <> 0) by (rewrite <- sin_minus, HBA; lra). field. split; lra. }
  rewrite C1, C2. replace (c * (fn / c)) with fn by (field; lra). symmetry. apply basis; auto.
Qed.

(* ---- two generators are not enough ---- *)
Lemma two_flat E mu d ls : framed E -> d = 1 \/ d = -1 -> along (row0 E) (combine3 ls (frictionCone E 2 mu d)) = 0.
Proof.
  intros HE Hd. rewrite cone_list by auto.
  assert (Z : forall g, In g (map (fun i => gvec E mu d (2 * PI / INR 2 * INR i)) (seq 0 2)) -> along (row0 E) g = 0).
  { destruct HE as (T & N & O). assert (X : forall th, sin th = 0 -> along (row0 E) (gvec E mu d th) = 0).
    { intros th Hs. unfold gvec, uvec, dirW. rewrite Hs. repeat rewrite ?along_plus, ?along_scale. rewrite O, along_cross2. ring. }
    intros g [<-|[<-|[]]]; apply X; cbn [INR]; [rewrite Rmult_0_r; apply sin_0|]. replace (2 * PI / (1 + 1) * 1) with PI by field. apply sin_PI. }
  revert Z. generalize (map (fun i => gvec E mu d (2 * PI / INR 2 * INR i)) (seq 0 2)). clear. intros gs. revert ls.
  induction gs as [|g gs IH]; intros [|l ls] Z; try (unfold along; cbn; ring). rewrite combine3_cons, along_plus, along_scale, (Z g) by (left; reflexivity).
  rewrite IH; [ring|]. intros h Hh. apply Z. right. exact Hh.
Qed.
Lemma two_refuted E mu d k : framed E -> d = 1 \/ d = -1 -> 0 < k -> exists f, in_cone (row2 E) k f /\ forall ls, combine3 ls (frictionCone E 2 mu d) <> f.
Proof.
  intros HE Hd Hk. exists (vplus (row2 E) (vscale k (row0 E))). split.
  - destruct HE as (T & N & O). apply norm1 in N. unfold in_cone. rewrite along_plus, along_scale, N, (along_sym (row2 E)), O, Rmult_0_r, Rplus_0_r, Rmult_1_r.
    replace (tangential (row2 E) (vplus (row2 E) (vscale k (row0 E)))) with (vscale k (row0 E)).
    + rewrite norm_scale, T, Rabs_pos_eq; lra.
    + unfold tangential. rewrite along_plus, along_scale, N, (along_sym (row2 E)), O. apply v3_eq; cbn; ring.
  - intros ls H. pose proof (two_flat E mu d ls HE Hd) as Z. rewrite H, along_plus, along_scale in Z. destruct HE as (T & N & O). rewrite O in Z. apply norm1 in T. rewrite T in Z. lra.
Qed.
