Require Import Reals List Bool Arith Lia Lra.
Require Import Verif.Base Verif.ConeModel Verif.ConeProofs Verif.DfModel Verif.FrModel Verif.FrSpec Verif.FrProofs Verif.PlModel Verif.PlSpec.
Import ListNotations.
Local Open Scope R_scope.

Lemma scalar_dot a b : scalar a b = dot3 a b.
Proof. reflexivity. Qed.
(* ---- the plane ---- *)
Lemma plane_run ops : forall s, let r := plrun s ops in
  l_n r = last_normal (l_n s) ops /\ l_off r = last_offset (l_off s) ops /\ l_pt r = last_point (l_pt s) ops /\
  (l_nd r, l_sp r) = last_velocity (l_nd s, l_sp s) ops /\ (l_ndd r, l_acc r) = last_acceleration (l_ndd s, l_acc s) ops.
Proof. induction ops as [|o ops IH]; intros s; [cbn; auto|]. cbv zeta. change (plrun s (o :: ops)) with (plrun (plstep s o) ops). destruct o; exact (IH _). Qed.

(* ---- the planes of the function ---- *)
Lemma planes_run ops : forall s, i_planes (fold_left cistep ops s) = added (i_planes s) ops.
Proof. induction ops as [|o ops IH]; intros s; [reflexivity|]. cbn [fold_left]. rewrite IH. destruct o as [k| |w P m]; try reflexivity. destruct w; reflexivity. Qed.
Lemma size_run ops : i_size (cirun ops) = length (added [] ops).
Proof.
  unfold cirun. change (@nil nat) with (i_planes newCic). rewrite <- planes_run.
  assert (G : forall ops s, i_size s = length (i_planes s) -> i_size (fold_left cistep ops s) = length (i_planes (fold_left cistep ops s))).
  { clear. induction ops as [|o ops IH]; intros s H; [exact H|]. cbn [fold_left]. apply IH. destruct o as [k| |w P m]; try reflexivity. destruct w; exact H. }
  apply G. reflexivity.
Qed.
Definition rowValue (L : plane) (m : mass) : R := dot3 (m_com m) (l_n L) + l_off L.
Definition rowVelocity (L : plane) (m : mass) : R := dot3 (l_n L) (vminus (m_vel m) (l_sp L)) + dot3 (l_nd L) (vminus (m_com m) (l_pt L)).
Definition rowNacc (L : plane) (m : mass) : R := dot3 (l_n L) (vminus (m_nacc m) (l_acc L)) + 2 * dot3 (l_nd L) (vminus (m_vel m) (l_sp L)) + dot3 (l_ndd L) (vminus (m_com m) (l_pt L)).
Lemma after_update ops P m : let s := cirun (ops ++ [IUpdate WNormalAcceleration P m]) in
  i_value s = Some (map (fun k => rowValue (P k) m) (added [] ops)) /\ i_vel s = Some (map (fun k => rowVelocity (P k) m) (added [] ops)) /\
  i_jac s = Some (map (fun k j => dot3 (l_n (P k)) (m_jac m j)) (added [] ops)) /\ i_nacc s = Some (map (fun k => rowNacc (P k) m) (added [] ops)).
Proof.
  cbv zeta. unfold cirun. rewrite fold_left_app. cbn [fold_left]. change (@nil nat) with (i_planes newCic). rewrite <- planes_run. set (s := fold_left cistep ops newCic). clearbody s. cbn. auto.
Qed.
Lemma after_partial ops w P m : let s := cirun (ops ++ [IUpdate w P m]) in let t := cirun (ops ++ [IUpdate WNormalAcceleration P m]) in
  i_value s = i_value t /\ (w <> WValue -> i_jac s = i_jac t) /\ (w = WVelocity \/ w = WNormalAcceleration -> i_vel s = i_vel t).
Proof.
  cbv zeta. unfold cirun. rewrite !fold_left_app. cbn [fold_left]. set (s := fold_left cistep ops newCic). clearbody s.
  destruct w; cbn; repeat split; auto; intros H; try congruence; destruct H; discriminate.
Qed.

(* ---- derivatives ---- *)
Lemma d_ext f g t l : (forall s, f s = g s) -> derivable_pt_lim f t l -> derivable_pt_lim g t l.
Proof. intros H D eps He. destruct (D eps He) as [dl K]. exists dl. intros h h0 hd. rewrite <- !H. apply K; assumption. Qed.
Lemma d_mult f g t a b : derivable_pt_lim f t a -> derivable_pt_lim g t b -> derivable_pt_lim (fun s => f s * g s) t (a * g t + f t * b).
Proof. intros A B. exact (derivable_pt_lim_mult f g t a b A B). Qed.
Lemma d_plus f g t a b : derivable_pt_lim f t a -> derivable_pt_lim g t b -> derivable_pt_lim (fun s => f s + g s) t (a + b).
Proof. intros A B. exact (derivable_pt_lim_plus f g t a b A B). Qed.
Lemma d_minus f g t a b : derivable_pt_lim f t a -> derivable_pt_lim g t b -> derivable_pt_lim (fun s => f s - g s) t (a - b).
Proof. intros A B. exact (derivable_pt_lim_minus f g t a b A B). Qed.
Lemma d_scalar f g t a b : derives f t a -> derives g t b -> derivable_pt_lim (fun s => scalar (f s) (g s)) t (scalar a (g t) + scalar (f t) b).
Proof.
  intros (A1 & A2 & A3) (B1 & B2 & B3). unfold scalar.
  replace (vx a * vx (g t) + vy a * vy (g t) + vz a * vz (g t) + (vx (f t) * vx b + vy (f t) * vy b + vz (f t) * vz b))
    with ((vx a * vx (g t) + vx (f t) * vx b) + (vy a * vy (g t) + vy (f t) * vy b) + (vz a * vz (g t) + vz (f t) * vz b)) by ring.
  apply (d_plus (fun s => vx (f s) * vx (g s) + vy (f s) * vy (g s)) (fun s => vz (f s) * vz (g s))); [|apply (d_mult (fun s => vz (f s)) (fun s => vz (g s))); assumption].
  apply (d_plus (fun s => vx (f s) * vx (g s)) (fun s => vy (f s) * vy (g s))); [apply (d_mult (fun s => vx (f s)) (fun s => vx (g s)))|apply (d_mult (fun s => vy (f s)) (fun s => vy (g s)))]; assumption.
Qed.
Lemma d_sub f g t a b : derives f t a -> derives g t b -> derives (fun s => vminus (f s) (g s)) t (vminus a b).
Proof.
  intros (A1 & A2 & A3) (B1 & B2 & B3). unfold derives, vminus. cbn. split; [|split].
  - apply (d_ext (fun s => vx (f s) - vx (g s))); [reflexivity|]. exact (d_minus _ _ _ _ _ A1 B1).
  - apply (d_ext (fun s => vy (f s) - vy (g s))); [reflexivity|]. exact (d_minus _ _ _ _ _ A2 B2).
  - apply (d_ext (fun s => vz (f s) - vz (g s))); [reflexivity|]. exact (d_minus _ _ _ _ _ A3 B3).
Qed.
Lemma value_gap L n p n' p' n'' p'' t m : describes L n p n' p' n'' p'' t -> rowValue L m = scalar (n t) (vminus (m_com m) (p t)).
Proof. intros (E1 & E2 & E3 & _). unfold rowValue. rewrite E1, E3. unfold scalar, dot3, vminus, vplus, vopp. cbn. ring. Qed.
Lemma velocity_gap L n p n' p' n'' p'' t m : describes L n p n' p' n'' p'' t -> rowVelocity L m = scalar (n t) (vminus (m_vel m) (p' t)) + scalar (n' t) (vminus (m_com m) (p t)).
Proof. intros (E1 & E2 & E3 & E4 & E5 & _). unfold rowVelocity. rewrite E1, E2, E4, E5. reflexivity. Qed.
(* the velocity is the derivative of the value *)
Lemma velocity_ok (L : R -> plane) (m : R -> mass) n p n' p' n'' p'' t : (forall s, describes (L s) n p n' p' (n'' s) (p'' s) s) -> derives (fun s => m_com (m s)) t (m_vel (m t)) ->
  derivable_pt_lim (fun s => rowValue (L s) (m s)) t (rowVelocity (L t) (m t)).
Proof.
  intros D C. apply (d_ext (fun s => scalar (n s) (vminus (m_com (m s)) (p s)))); [intros s; symmetry; eapply value_gap; apply D|].
  rewrite (velocity_gap _ _ _ _ _ _ _ _ _ (D t)). destruct (D t) as (_ & _ & _ & _ & _ & _ & _ & Dn & Dp & _).
  pose proof (d_scalar n (fun s => vminus (m_com (m s)) (p s)) t _ _ (Dn t) (d_sub _ _ _ _ _ C (Dp t))) as K. rewrite Rplus_comm in K. exact K.
Qed.
(* the normal acceleration plus J q'' is the derivative of the velocity *)
Lemma acceleration_ok (L : R -> plane) (m : R -> mass) n p n' p' n'' p'' t k q : (forall s, describes (L s) n p n' p' (n'' s) (p'' s) s) ->
  derives (fun s => m_com (m s)) t (m_vel (m t)) -> derives (fun s => m_vel (m s)) t (vplus (weigh k q (m_jac (m t))) (m_nacc (m t))) ->
  derivable_pt_lim (fun s => rowVelocity (L s) (m s)) t (sumR k (fun j => dot3 (l_n (L t)) (m_jac (m t) j) * q j) + rowNacc (L t) (m t)).
Proof.
  intros D C V. apply (d_ext (fun s => scalar (n s) (vminus (m_vel (m s)) (p' s)) + scalar (n' s) (vminus (m_com (m s)) (p s)))); [intros s; symmetry; eapply velocity_gap; apply D|].
  destruct (D t) as (E1 & E2 & E3 & E4 & E5 & E6 & E7 & Dn & Dp & Dn' & Dp').
  assert (J : sumR k (fun j => dot3 (l_n (L t)) (m_jac (m t) j) * q j) = scalar (n t) (weigh k q (m_jac (m t)))).
  { rewrite E1. clear. induction k as [|k IH]; [unfold scalar; cbn; ring|]. cbn [sumR weigh]. rewrite IH. unfold scalar, dot3. cbn. ring. }
  rewrite J. unfold rowNacc. rewrite E1, E2, E4, E5, E6, E7.
  pose proof (d_plus _ _ _ _ _ (d_scalar n _ t _ _ (Dn t) (d_sub _ _ _ _ _ V Dp')) (d_scalar n' _ t _ _ Dn' (d_sub _ _ _ _ _ C (Dp t)))) as K. cbv beta in K.
  match type of K with derivable_pt_lim _ _ ?a => match goal with |- derivable_pt_lim _ _ ?b => assert (E : b = a) end end.
  { unfold scalar, dot3, vminus, vplus, vopp. cbn. ring. }
  rewrite E. exact K.
Qed.

(* ---- the distance ---- *)
Lemma cauchy a b : scalar a b * scalar a b <= scalar a a * scalar b b.
Proof.
  unfold scalar. destruct a as [a1 a2 a3], b as [b1 b2 b3]. cbn.
  assert (E : (a1 * a1 + a2 * a2 + a3 * a3) * (b1 * b1 + b2 * b2 + b3 * b3) - (a1 * b1 + a2 * b2 + a3 * b3) * (a1 * b1 + a2 * b2 + a3 * b3) =
              (a1 * b2 - a2 * b1) * (a1 * b2 - a2 * b1) + (a1 * b3 - a3 * b1) * (a1 * b3 - a3 * b1) + (a2 * b3 - a3 * b2) * (a2 * b3 - a3 * b2)) by ring.
  assert (Q : forall x, 0 <= x * x) by (intros x; exact (Rle_0_sqr x)).
  pose proof (Q (a1 * b2 - a2 * b1)). pose proof (Q (a1 * b3 - a3 * b1)). pose proof (Q (a2 * b3 - a3 * b2)). lra.
Qed.
Lemma distance_ok L m : scalar (l_n L) (l_n L) = 1 ->
  (forall x, scalar (l_n L) x + l_off L = 0 -> Rabs (rowValue L m) <= distance (m_com m) x) /\
  exists x, scalar (l_n L) x + l_off L = 0 /\ distance (m_com m) x = Rabs (rowValue L m).
Proof.
  intros U. split.
  - intros x Hx. set (d := vminus (m_com m) x). assert (V : rowValue L m = scalar (l_n L) d).
    { unfold rowValue, d. unfold scalar in Hx |- *. unfold dot3, vminus, vplus, vopp. cbn. lra. }
    rewrite V. assert (S : distance (m_com m) x = sqrt (scalar d d)) by (unfold distance, d, scalar, vminus, vplus, vopp; cbn; f_equal; ring). rewrite S.
    rewrite <- sqrt_Rsqr_abs. apply sqrt_le_1_alt. unfold Rsqr. pose proof (cauchy (l_n L) d) as C. rewrite U in C. lra.
  - set (v := rowValue L m). exists (mkV3 (vx (m_com m) - v * vx (l_n L)) (vy (m_com m) - v * vy (l_n L)) (vz (m_com m) - v * vz (l_n L))). split.
    + assert (E : scalar (l_n L) (mkV3 (vx (m_com m) - v * vx (l_n L)) (vy (m_com m) - v * vy (l_n L)) (vz (m_com m) - v * vz (l_n L))) + l_off L = v - v * scalar (l_n L) (l_n L)).
      { unfold v, rowValue, scalar, dot3. cbn. ring. } rewrite E, U. ring.
    + unfold distance. cbn. rewrite <- sqrt_Rsqr_abs. f_equal. unfold Rsqr. transitivity (v * v * scalar (l_n L) (l_n L)); [unfold scalar; ring|rewrite U; ring].
Qed.

(* ---- CoMFunction ---- *)
Lemma com_value_run m ops : o_value (corun m ops) = com_value (m_com m) (m_com m) None ops.
Proof.
  assert (G : forall ops s, o_value (fold_left costep ops s) = com_value (m_com (o_mass s)) (o_target s) (o_value s) ops).
  { clear. induction ops as [|o ops IH]; intros s; [reflexivity|]. cbn [fold_left]. rewrite IH. destruct o; reflexivity. }
  unfold corun. rewrite G. reflexivity.
Qed.
Definition isVel (o : coop) : bool := match o with CVelocity => true | _ => false end.
Definition isJac (o : coop) : bool := match o with CJacobian => true | _ => false end.
Definition isNacc (o : coop) : bool := match o with CNormalAcceleration => true | _ => false end.
Lemma com_vel_run m ops : o_vel (corun m ops) = option_map m_vel (at_last isVel m None ops) /\ o_nacc (corun m ops) = option_map m_nacc (at_last isNacc m None ops).
Proof.
  assert (G : forall ops s x y, o_vel s = option_map m_vel x -> o_nacc s = option_map m_nacc y ->
     o_vel (fold_left costep ops s) = option_map m_vel (at_last isVel (o_mass s) x ops) /\ o_nacc (fold_left costep ops s) = option_map m_nacc (at_last isNacc (o_mass s) y ops)).
  { clear. induction ops as [|o ops IH]; intros s x y Hx Hy; [split; assumption|]. cbn [fold_left].
    destruct o; cbn [at_last isVel isNacc]; match goal with |- context [fold_left costep ops ?s'] => let s1 := eval cbn in s' in change s' with s1 end;
      match goal with |- context [fold_left costep ops ?s'] => eapply (IH s'); auto end. }
  apply (G ops (newCof m) None None); reflexivity.
Qed.
Lemma com_jac_run m ops : ~ In CJDot ops -> o_jac (corun m ops) = option_map m_jac (at_last isJac m None ops).
Proof.
  assert (G : forall ops s x, ~ In CJDot ops -> o_jac s = option_map m_jac x -> o_jac (fold_left costep ops s) = option_map m_jac (at_last isJac (o_mass s) x ops)).
  { clear. induction ops as [|o ops IH]; intros s x N Hx; [assumption|]. cbn [fold_left].
    assert (N' : ~ In CJDot ops) by (intros H; apply N; right; exact H).
    destruct o; cbn [at_last isJac]; try (match goal with |- context [fold_left costep ops ?s'] => let s1 := eval cbn in s' in change s' with s1 end; match goal with |- context [fold_left costep ops ?s'] => apply (IH s'); auto end). exfalso. apply N. left. reflexivity. }
  intros N. apply (G ops (newCof m) None); [exact N|reflexivity].
Qed.
Lemma com_jdot m ops : o_jdot (corun m ops) = None /\ o_jac (corun m (ops ++ [CJDot])) = Some (m_jdot (o_mass (corun m ops))).
Proof.
  split; [|unfold corun; rewrite fold_left_app; reflexivity].
  assert (G : forall ops s, o_jdot s = None -> o_jdot (fold_left costep ops s) = None).
  { clear. induction ops as [|o ops IH]; intros s H; [exact H|]. cbn [fold_left]. apply IH. destruct o; exact H. }
  apply G. reflexivity.
Qed.

(* ---- the outputs along a motion ---- *)
Lemma rows_nth {A B} (f : A -> B) l i k : nth_error l i = Some k -> nth_error (map f l) i = Some (f k).
Proof. intros H. rewrite nth_error_map, H. reflexivity. Qed.
Section Motion.
Variable ops : R -> list ciop.
Variable ks : list nat.
Hypothesis same : forall s, added [] (ops s) = ks.
Variables (P : R -> nat -> plane) (m : R -> mass).
Notation at_ s := (cirun (ops s ++ [IUpdate WNormalAcceleration (P s) (m s)])).
Lemma motion_velocity i k n p n' p' n'' p'' t : nth_error ks i = Some k -> (forall s, describes (P s k) n p n' p' (n'' s) (p'' s) s) -> derives (fun s => m_com (m s)) t (m_vel (m t)) ->
  exists value velocity, (forall s, exists l, i_value (at_ s) = Some l /\ nth_error l i = Some (value s)) /\
    (exists l, i_vel (at_ t) = Some l /\ nth_error l i = Some velocity) /\ derivable_pt_lim value t velocity.
Proof.
  intros Hi D C. exists (fun s => rowValue (P s k) (m s)), (rowVelocity (P t k) (m t)). split; [|split].
  - intros s. destruct (after_update (ops s) (P s) (m s)) as (A & _). eexists. split; [exact A|]. rewrite same. apply (rows_nth (fun k => rowValue (P s k) (m s)) _ _ _ Hi).
  - destruct (after_update (ops t) (P t) (m t)) as (_ & A & _). eexists. split; [exact A|]. rewrite same. apply (rows_nth (fun k => rowVelocity (P t k) (m t)) _ _ _ Hi).
  - eapply (velocity_ok (fun s => P s k)); eauto.
Qed.
Lemma motion_acceleration i k n p n' p' n'' p'' t d q : nth_error ks i = Some k -> (forall s, describes (P s k) n p n' p' (n'' s) (p'' s) s) ->
  derives (fun s => m_com (m s)) t (m_vel (m t)) -> derives (fun s => m_vel (m s)) t (vplus (weigh d q (m_jac (m t))) (m_nacc (m t))) ->
  exists velocity J nacc, (forall s, exists l, i_vel (at_ s) = Some l /\ nth_error l i = Some (velocity s)) /\
    (exists l, i_jac (at_ t) = Some l /\ nth_error l i = Some J) /\ (exists l, i_nacc (at_ t) = Some l /\ nth_error l i = Some nacc) /\
    derivable_pt_lim velocity t (sumR d (fun j => J j * q j) + nacc).
Proof.
  intros Hi D C V. exists (fun s => rowVelocity (P s k) (m s)), (fun j => dot3 (l_n (P t k)) (m_jac (m t) j)), (rowNacc (P t k) (m t)). split; [|split; [|split]].
  - intros s. destruct (after_update (ops s) (P s) (m s)) as (_ & A & _). eexists. split; [exact A|]. rewrite same. apply (rows_nth (fun k => rowVelocity (P s k) (m s)) _ _ _ Hi).
  - destruct (after_update (ops t) (P t) (m t)) as (_ & _ & A & _). eexists. split; [exact A|]. rewrite same. apply (rows_nth (fun k j => dot3 (l_n (P t k)) (m_jac (m t) j)) _ _ _ Hi).
  - destruct (after_update (ops t) (P t) (m t)) as (_ & _ & _ & A). eexists. split; [exact A|]. rewrite same. apply (rows_nth (fun k => rowNacc (P t k) (m t)) _ _ _ Hi).
  - eapply (acceleration_ok (fun s => P s k)); eauto.
Qed.
End Motion.
(* the gradient: along a motion of the joints only, the derivative of the value is J q' *)
Lemma value_distance ops P m i k : nth_error (added [] ops) i = Some k -> scalar (l_n (P k)) (l_n (P k)) = 1 ->
  exists l v, i_value (cirun (ops ++ [IUpdate WValue P m])) = Some l /\ nth_error l i = Some v /\
    (forall x, scalar (l_n (P k)) x + l_off (P k) = 0 -> Rabs v <= distance (m_com m) x) /\
    (exists x, scalar (l_n (P k)) x + l_off (P k) = 0 /\ distance (m_com m) x = Rabs v) /\ v = scalar (l_n (P k)) (m_com m) + l_off (P k).
Proof.
  intros Hi U. destruct (after_update ops P m) as (A & _). destruct (after_partial ops WValue P m) as (B & _).
  exists (map (fun k => rowValue (P k) m) (added [] ops)), (rowValue (P k) m). split; [rewrite B; exact A|]. split; [apply (rows_nth (fun k => rowValue (P k) m) _ _ _ Hi)|].
  destruct (distance_ok (P k) m U) as [C D]. split; [exact C|]. split; [exact D|]. unfold rowValue, scalar, dot3. ring.
Qed.
Lemma static_velocity ops P m i k d q : nth_error (added [] ops) i = Some k -> l_nd (P k) = mkV3 0 0 0 -> l_sp (P k) = mkV3 0 0 0 -> weigh d q (m_jac m) = m_vel m ->
  exists lv lj v J, i_vel (cirun (ops ++ [IUpdate WVelocity P m])) = Some lv /\ i_jac (cirun (ops ++ [IUpdate WVelocity P m])) = Some lj /\
    nth_error lv i = Some v /\ nth_error lj i = Some J /\ sumR d (fun j => J j * q j) = v.
Proof.
  intros Hi Z1 Z2 W. destruct (after_update ops P m) as (_ & A & B & _). destruct (after_partial ops WVelocity P m) as (_ & C & D).
  exists (map (fun k => rowVelocity (P k) m) (added [] ops)), (map (fun k j => dot3 (l_n (P k)) (m_jac m j)) (added [] ops)), (rowVelocity (P k) m), (fun j => dot3 (l_n (P k)) (m_jac m j)).
  split; [rewrite (D (or_introl eq_refl)); exact A|]. split; [rewrite C by discriminate; exact B|]. split; [apply (rows_nth (fun k => rowVelocity (P k) m) _ _ _ Hi)|]. split; [apply (rows_nth (fun k j => dot3 (l_n (P k)) (m_jac m j)) _ _ _ Hi)|].
  unfold rowVelocity. rewrite Z1, Z2, <- W. clear. generalize (l_n (P k)) as n. intros n.
  assert (E : forall d, sumR d (fun j => dot3 n (m_jac m j) * q j) = scalar n (weigh d q (m_jac m))).
  { clear. induction d as [|d IH]; [unfold scalar; cbn; ring|]. cbn [sumR weigh]. rewrite IH. unfold scalar, dot3. cbn. ring. }
  rewrite E. unfold scalar, dot3, vminus, vplus, vopp. cbn. ring.
Qed.

Lemma constructed (n p : v3) (off : R) : let a := newPlaneOff n off in let b := newPlanePt n p in let z := mkV3 0 0 0 in
  (l_n a = n /\ l_off a = off /\ l_pt a = z /\ l_nd a = z /\ l_sp a = z /\ l_ndd a = z /\ l_acc a = z) /\
  (l_n b = n /\ l_off b = - scalar n p /\ l_pt b = p /\ l_nd b = z /\ l_sp b = z /\ l_ndd b = z /\ l_acc b = z).
Proof. repeat match goal with |- _ /\ _ => split | |- let _ := _ in _ => intro end; reflexivity. Qed.
